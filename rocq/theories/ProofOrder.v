(** Entries in another order: proofs. *)
From Coq Require Import List Ascii String NArith ZArith Bool Lia Permutation Sorted.
From Verif Require Import GoStr ModelParser ModelPath ModelResult ModelQuery ModelValidate ModelBuilder SpecText SpecPath SpecTree SpecQuery SpecEdit SpecContent SpecValid SpecHistory SpecOptions SpecRaw SpecTail SpecList SpecLoop SpecQueue SpecOrder
  ProofBase ProofScan ProofTree ProofTree2 ProofTree4 ProofTree5 ProofTree7 ProofEdit ProofEdit2 ProofEdit3 ProofEdit4 ProofEdit5 ProofEdit6 ProofEdit7 ProofEdit8 ProofEdit9 ProofEdit11 ProofEdit12 ProofRaw ProofRaw2 ProofValid2 ProofFrame4 ProofLang2 ProofTail ProofCopy ProofList ProofLoop ProofQueue PropRaw PropTail.
Import ListNotations.
Open Scope nat_scope.
Notation called_cons := ProofEdit2.called_cons.

(** ** Lists *)
Lemma placed_split : forall A (l1 : list A) x y l2, placed (len l1) y (l1 ++ x :: l2) = l1 ++ y :: l2.
Proof.
  intros. unfold placed. rewrite firstn_app, Nat.sub_diag, firstn_all, skipn_app, skipn_all2 by lia. cbn [firstn]. rewrite app_nil_r. f_equal. f_equal. cbn [app].
  replace (S (len l1) - len l1) with 1 by lia. reflexivity.
Qed.
Lemma placed_len : forall A (l : list A) i x, i < len l -> len (placed i x l) = len l.
Proof. intros A l i x H. unfold placed. rewrite app_length. cbn [List.length]. rewrite firstn_length, skipn_length. lia. Qed.
Lemma nth_split' : forall A (l : list A) i d, i < len l -> exists l1 l2, l = l1 ++ nth i l d :: l2 /\ len l1 = i.
Proof. intros A l i d H. destruct (nth_split l d H) as (l1 & l2 & Q & L). eauto. Qed.
Lemma placed_other : forall A (l : list A) i j x d, i < len l -> i <> j -> nth j (placed i x l) d = nth j l d.
Proof.
  intros A l i j x d H N. destruct (nth_split' A l i d H) as (l1 & l2 & Q & L). rewrite Q at 1 2. rewrite <- L at 1. rewrite placed_split. subst i.
  destruct (Nat.lt_ge_cases j (len l1)); [now rewrite !app_nth1 by lia|]. rewrite !app_nth2 by lia. destruct (j - len l1) eqn:K; [lia|reflexivity].
Qed.
Lemma placed_same : forall A (l : list A) i x d, i < len l -> nth i (placed i x l) d = x.
Proof.
  intros A l i x d H. destruct (nth_split' A l i d H) as (l1 & l2 & Q & L). rewrite Q. rewrite <- L, placed_split. now rewrite app_nth2, Nat.sub_diag by lia.
Qed.
Lemma moved_len : forall A (d : A) o l, numbers_below (len l) o -> len (moved d o l) = len l.
Proof.
  intros A d [i j|i] l H; cbn [moved numbers_below] in *.
  - rewrite placed_len; rewrite placed_len; lia.
  - rewrite !app_length. cbn [List.length]. rewrite firstn_length, skipn_length. lia.
Qed.
Lemma all_moved_len : forall A (d : A) ops l, Forall (numbers_below (len l)) ops -> len (all_moved d ops l) = len l.
Proof.
  intros A d. induction ops as [|o ops IH]; intros l H; [reflexivity|]. inversion H; subst. cbn [all_moved fold_left]. change (fold_left _ ops ?x) with (all_moved d ops x).
  rewrite IH; rewrite moved_len; auto.
Qed.
Lemma forall2_placed : forall A B (R : A -> B -> Prop) i x y l l', Forall2 R l l' -> R x y -> Forall2 R (placed i x l) (placed i y l').
Proof.
  intros A B R i x y l l' H X. unfold placed. apply Forall2_app.
  - revert i. induction H; intros [|i]; cbn [firstn]; constructor; auto.
  - constructor; auto. generalize (S i). induction H; intros [|k]; cbn [skipn]; auto.
Qed.
Lemma forall2_nth : forall A B (R : A -> B -> Prop) l l' da db, Forall2 R l l' -> forall i, i < len l -> R (nth i l da) (nth i l' db).
Proof. intros A B R l l' da db H. induction H; intros i L; cbn [List.length] in L; [lia|]. destruct i; auto. cbn [nth]. apply IHForall2. lia. Qed.
Lemma forall2_len : forall A B (R : A -> B -> Prop) l l', Forall2 R l l' -> len l = len l'.
Proof. induction 1; cbn [List.length]; congruence. Qed.

Lemma forall2_firstn : forall A B (R : A -> B -> Prop) i l l', Forall2 R l l' -> Forall2 R (firstn i l) (firstn i l').
Proof. intros A B R i l l' H. revert i. induction H; intros [|i]; cbn [firstn]; constructor; auto. Qed.
Lemma forall2_skipn : forall A B (R : A -> B -> Prop) i l l', Forall2 R l l' -> Forall2 R (skipn i l) (skipn i l').
Proof. intros A B R i l l' H. revert i. induction H; intros [|i]; cbn [skipn]; auto. Qed.
Lemma Forall_firstn' : forall A (P : A -> Prop) i l, Forall P l -> Forall P (firstn i l).
Proof. intros A P i l H. revert i. induction H; intros [|i]; cbn [firstn]; auto. Qed.
Lemma Forall_skipn' : forall A (P : A -> Prop) i l, Forall P l -> Forall P (skipn i l).
Proof. intros A P i l H. revert i. induction H; intros [|i]; cbn [skipn]; auto. Qed.
Lemma list_without : forall A (l1 l2 l : list A) x y, l1 ++ x :: l2 = l ++ [y] -> len l1 < len l -> l1 = firstn (len l1) l /\ l2 = skipn (S (len l1)) l ++ [y].
Proof.
  intros A l1. induction l1 as [|z l1 IH]; intros l2 l x y H L; destruct l as [|w l]; cbn [List.length] in L; try lia; cbn [app] in H; injection H as -> H.
  - split; [reflexivity|]. cbn [List.length skipn]. exact H.
  - destruct (IH _ _ _ _ H ltac:(lia)) as [E1 E2]. split; [cbn [List.length firstn]; now f_equal|exact E2].
Qed.

(** ** Children *)
Lemma nth_called : forall m K i d, i < len (called (selects m) K) -> exists K1 K2, K = K1 ++ nth i (called (selects m) K) d :: K2 /\ len (called (selects m) K1) = i /\ named (selects m) (nth i (called (selects m) K) d) = true.
Proof.
  intros m. induction K as [|x K IH]; intros i d H; [cbn in H; lia|]. rewrite called_cons in *. destruct (named (selects m) x) eqn:N.
  - destruct i as [|i].
    + exists [], K. cbn [nth app]. auto.
    + cbn [List.length] in H. destruct (IH i d) as (K1 & K2 & Q & C & M); [lia|]. exists (x :: K1), K2. cbn [nth app]. rewrite called_cons, N. cbn [List.length]. rewrite <- Q. auto.
  - destruct (IH i d H) as (K1 & K2 & Q & C & M). exists (x :: K1), K2. rewrite called_cons, N. cbn [app]. rewrite <- Q. auto.
Qed.
Lemma called_named : forall m K x, In x (called (selects m) K) -> named (selects m) x = true.
Proof. intros m K x I. unfold called in I. apply filter_In in I. apply I. Qed.
Lemma split_len : forall s q l, split_colon s = Some (q, l) -> len l <= len s.
Proof.
  induction s as [|c s IH]; intros q l H; [discriminate|]. cbn [split_colon] in H. destruct (Ascii.eqb c ":").
  - injection H as _ ->. cbn [List.length]. lia.
  - destruct (split_colon s) as [[q' l']|] eqn:Q; [|discriminate]. injection H as _ ->. specialize (IH _ _ eq_refl). cbn [List.length]. lia.
Qed.
Lemma selects_len : forall m e, selects m e = true -> len m <= len e.
Proof.
  intros m e H. unfold selects in H. apply orb_true_iff in H. destruct H as [H|H]; [apply bytes_eqb_eq in H; subst; lia|].
  destruct (split_colon m); [discriminate|]. destruct (split_colon e) as [[q l]|] eqn:Q; [|discriminate]. apply andb_true_iff in H as [_ H]. apply bytes_eqb_eq in H. subst.
  eapply split_len; eauto.
Qed.
Lemma others_called : forall m K1 x y K2, named (selects m) x = true -> named (selects m) y = true -> others m (K1 ++ x :: K2) = others m (K1 ++ y :: K2).
Proof. intros m K1 x y K2 X Y. now rewrite !others_app, !others_in. Qed.
Lemma same_levels_all : forall K K', Forall2 same K K' -> height K = height K'.
Proof.
  assert (S : forall a b, same a b -> levels a = levels b).
  { induction a as [n at0 self kids IH|t|bb] using node_ind'; intros b H; inversion H as [? ? a1 ? ? k1 P1 K1| |]; subst; try reflexivity. cbn [levels]. f_equal.
    clear -IH K1. induction K1 as [|x y K K' S1 S2 IH1]; [reflexivity|]. inversion IH; subst. cbn [fold_right]. rewrite IH1 by auto. f_equal. auto. }
  induction 1; [reflexivity|]. unfold height in *. cbn [fold_right]. rewrite IHForall2. f_equal. auto.
Qed.
Lemma located_levels : forall s F A nd B, located s F A nd B -> forall b, Forall (fun x => levels x <= b) F -> is_elem nd = true -> len s + height (kids_of nd) <= b.
Proof.
  induction 1 as [n idx F1 nd F2 H1 H2|n idx rest F1 m a kids F2 A nd B H1 H2 H IH]; intros b FB EL; apply Forall_app in FB; destruct FB as [_ FB]; inversion FB as [|? ? L _]; subst.
  - destruct nd as [x y z k| |]; try discriminate. cbn [levels kids_of List.length] in *. unfold height. lia.
  - cbn [levels] in L. destruct b as [|b]; [lia|]. assert (FK : Forall (fun x => levels x <= b) kids).
    { apply Forall_forall. intros x I. pose proof (height_in x kids I). lia. }
    specialize (IH b FK EL). cbn [List.length]. lia.
Qed.

Section Calls.
  Variable E : env.
  Variable fmt_g : f64 -> bytes.
  Hypothesis Hord : forall k l, Permutation l (e_ord E k l).
  Variable p : bytes.
  Hypothesis Hp : prolog p.
  Hypothesis SP : strict_prolog p.
  Notation state := (ProofList.state p).
  Variable s : list tstep.
  Variable m : bytes.
  Hypothesis GT : good_tpath (item s m 0) TheElement.
  Hypothesis XN : Forall xml_name (map fst (item s m 0)).

  Lemma read_raw : forall F A n a K1 x K2 B i, state F -> located s F A (Elem n a false (K1 ++ x :: K2)) B -> readable s F -> len (called (selects m) K1) = i -> i < 1000 ->
    named (selects m) x = true -> exists r K, get E (p ++ forest_text F) (tpath (item s m i) TheElement) = Ok r /\ r_raw r = forest_text K /\ Forall2 same (kids_of x) K.
  Proof.
    intros F A n a K1 x K2 B i (G & T & FT) L RD C LT N. destruct FT as [_ [_ SZ]]. pose proof (item_good s m i _ GT) as GI.
    destruct (get_query_text E Hord p F F _ _ Hp (same_all_refl F) G SZ GI) as [r [R1 R2]]. destruct (number_ok i) as (_ & _ & V). unfold item in *.
    assert (Q : query false [(m, Some (number i))] TheElement (K1 ++ x :: K2) = Element (kids_of x)).
    { cbn [query]. rewrite V, Nnat.Nat2N.id, nth_firstn by lia. rewrite called_app, called_cons, N, nth_error_app2, C, Nat.sub_diag by lia. reflexivity. }
    rewrite (query_prefix _ _ _ _ _ L) in R2; [|discriminate|cbn [kids_of]; rewrite Q; discriminate|eapply readable_small; eauto|intros _; eapply readable_clear; eauto].
    cbn [kids_of] in R2. rewrite Q in R2. cbn [denotes] in R2. destruct R2 as (K & SK & ->). exists (r_element (forest_text K)), K. auto.
  Qed.
  Lemma place_one : forall F A n a K1 e b k K2 B i K, state F -> located s F A (Elem n a false (K1 ++ Elem e b false k :: K2)) B -> len (called (selects m) K1) = i -> selects m e = true ->
    Forall good K -> height K + len (item s m 0) <= 100 -> (N.of_nat (len (forest_text K)) <= 5242880)%N -> (N.of_nat (len (p ++ forest_text F) + len (forest_text K)) <= 10485760)%N ->
    exists F', set_raw E fmt_g (p ++ forest_text F) (tpath (item s m i) TheElement) (forest_text K) = Ok (p ++ forest_text F', None) /\ state F' /\
      located s F' A (Elem n a false (K1 ++ Elem e b false K :: K2)) B /\ top_names F' = top_names F.
  Proof.
    intros F A n a K1 e b k K2 B i K (G & T & FT) L C N GK HK SK SZ. pose proof (state_valid p F SP G T FT) as V.
    assert (LG : legal (SetContent (item s m i) (AsForest K))).
    { split; [now apply item_good|]. split; [unfold item in *; rewrite map_app in *; exact XN|]. split; [split; auto|]. cbn [content_nodes]. unfold item in *. rewrite app_length in *. cbn [List.length] in *. lia. }
    pose proof LG as (GI & _).
    pose proof (item_change m i K1 (Elem e b false k) K2 (with_kids K) (new_kids K) [Elem e b false K] C N eq_refl) as CH. cbn [app] in CH.
    destruct (change_below _ _ _ _ _ _ _ L _ _ [(m, Some (number i))] _ ltac:(discriminate) CH) as (F' & C' & L' & TN). exists F'.
    assert (AP : apply_edit (SetContent (item s m i) (AsForest K)) F = Some F') by (cbn [apply_edit content_nodes]; exact C').
    destruct (apply_good _ _ _ LG G T AP) as [G' T']. pose proof (located_text _ _ _ _ _ L') as TX.
    pose proof (located_app _ _ _ _ _ _ _ L _ _ _ _ (item_located m i K1 (Elem e b false k) K2 C N)) as LA.
    assert (FT' : fits p F').
    { split; [exact (located_has _ _ _ _ _ L' eq_refl)|]. split; [destruct FT as [_ [SH _]]; exact (apply_shallow _ _ _ LG AP SH)|]. rewrite TX. rewrite (located_text _ _ _ _ _ L) in SZ.
      rewrite !app_length, !node_elem, !app_length, !forest_app, !app_length, !forest_cons, !app_length, !node_elem, !app_length in *. lia. }
    split; [|split; [split; auto|split; auto]].
    unfold item in *. rewrite (C52_set_raw E fmt_g p F _ _ _ _ _ _ (forest_text K) Hord Hp G V GI LA); [|now apply forest_fragment|exact SK].
    rewrite TX, node_elem, forest_app, forest_cons, node_elem. rewrite <- !app_assoc. reflexivity.
  Qed.
  (** The content read is one that can be put elsewhere. *)
  Lemma read_list : forall F A n a kids B i d, state F -> located s F A (Elem n a false kids) B -> readable s F -> i < len (called (selects m) kids) -> i < 1000 ->
    let x := nth i (called (selects m) kids) d in
    exists r K, get E (p ++ forest_text F) (tpath (item s m i) TheElement) = Ok r /\ r_raw r = forest_text K /\ Forall2 same (kids_of x) K /\
      Forall good K /\ height K + len (item s m 0) <= 100 /\ len (forest_text K) <= len (forest_text F) /\ len (forest_text K) = len (forest_text (kids_of x)).
  Proof.
    intros F A n a kids B i d ST L RD LI LT x. destruct (nth_called m kids i d LI) as (K1 & K2 & Q & C & N). fold x in Q, N. clearbody x. subst kids. clear LI.
    destruct (read_raw F A n a K1 x K2 B i ST L RD C LT N) as (r & K & G & R & SK). exists r, K. split; auto. split; auto. split; auto.
    destruct ST as (GF & T & FT). pose proof (located_app _ _ _ _ _ _ _ L _ _ _ _ (item_located m i K1 x K2 C N)) as LA. destruct (located_good _ _ _ _ _ LA GF) as [GX EX].
    pose proof (same_length_all _ _ SK) as LK. split; [eapply same_good_all; [exact SK|]; now apply good_kids|]. split.
    - rewrite <- (same_levels_all _ _ SK). destruct FT as [_ [SH _]]. pose proof (located_levels _ _ _ _ _ LA 100 SH EX) as LL. unfold item. rewrite app_length in *. cbn [List.length] in *. lia.
    - split; auto. rewrite <- LK, (located_text _ _ _ _ _ LA), !app_length. destruct x as [e b sf k| |]; try discriminate. cbn [kids_of].
      destruct sf; [inversion GX as [? ? ? ? ? ? HS ?| |]; subst; rewrite (HS eq_refl); cbn; lia|rewrite node_elem, !app_length; lia].
  Qed.
  Lemma place_list : forall F A n a kids B i K d, state F -> located s F A (Elem n a false kids) B -> Forall two_tags (called (selects m) kids) -> i < len (called (selects m) kids) ->
    Forall good K -> height K + len (item s m 0) <= 100 -> (N.of_nat (len (forest_text K)) <= 5242880)%N -> (N.of_nat (len (p ++ forest_text F) + len (forest_text K)) <= 10485760)%N ->
    exists F' kids' y, set_raw E fmt_g (p ++ forest_text F) (tpath (item s m i) TheElement) (forest_text K) = Ok (p ++ forest_text F', None) /\ state F' /\
      located s F' A (Elem n a false kids') B /\ top_names F' = top_names F /\ others m kids' = others m kids /\ called (selects m) kids' = placed i y (called (selects m) kids) /\
      kids_of y = K /\ two_tags y /\ len (forest_text F') + len (forest_text (kids_of (nth i (called (selects m) kids) d))) = len (forest_text F) + len (forest_text K).
  Proof.
    intros F A n a kids B i K d ST L TT LI GK HK SK SZ. destruct (nth_called m kids i d LI) as (K1 & K2 & Q & C & N).
    assert (T1 : two_tags (nth i (called (selects m) kids) d)) by (rewrite Forall_forall in TT; apply TT; now apply nth_In).
    destruct (nth i (called (selects m) kids) d) as [e b sf k| |]; try contradiction. cbn [two_tags] in T1. subst sf kids. cbn [kids_of].
    destruct (place_one F A n a K1 e b k K2 B i K ST L C N GK HK SK SZ) as (F' & S & ST' & L' & TN). exists F', (K1 ++ Elem e b false K :: K2), (Elem e b false K).
    split; [exact S|]. split; [exact ST'|]. split; [exact L'|]. split; [exact TN|]. split; [now apply others_called|]. split.
    - rewrite !called_app, !called_cons. cbn [named]. cbn [named] in N. rewrite N. rewrite <- C. now rewrite placed_split.
    - split; [reflexivity|]. split; [reflexivity|]. rewrite (located_text _ _ _ _ _ L), (located_text _ _ _ _ _ L'), !app_length, !node_elem, !app_length, !forest_app, !app_length, !forest_cons, !app_length, !node_elem, !app_length. lia.
  Qed.
  Lemma forall_placed : forall (P : node -> Prop) i x l, Forall P l -> P x -> Forall P (placed i x l).
  Proof.
    intros P i x l H X. unfold placed. apply Forall_app. split; [|constructor; auto]; apply Forall_forall; intros y I; rewrite Forall_forall in H; apply H.
    - rewrite <- (firstn_skipn i l). apply in_or_app. now left.
    - rewrite <- (firstn_skipn (S i) l). apply in_or_app. now right.
  Qed.
  Lemma holds_same : forall c K x, holds c x -> Forall2 same (kids_of x) K -> forall y, kids_of y = K -> holds c y.
  Proof.
    intros c K x H S y <-. unfold holds in *. eapply same_all_trans; eauto.
  Qed.
  Definition kept (F : list node) (A : bytes) n a kids (B : bytes) (l : list (list node)) : Prop :=
    state F /\ located s F A (Elem n a false kids) B /\ readable s F /\ Forall two_tags (called (selects m) kids) /\ Forall2 holds l (called (selects m) kids).
  Lemma exchange_ok : forall F A n a kids B l i j, kept F A n a kids B l -> i < len l -> j < len l -> len l <= 1000 -> (N.of_nat (len (p ++ forest_text F)) <= 5242880)%N ->
    exists F' kids', exchange E fmt_g s m i j (p ++ forest_text F) = Ok (p ++ forest_text F', None) /\ kept F' A n a kids' B (moved [] (Exchange i j) l) /\
      others m kids' = others m kids /\ len (forest_text F') = len (forest_text F).
  Proof.
    intros F A n a kids B l i j (ST & L & RD & TT & HL) LI LJ LT SZ. pose proof (forall2_len _ _ _ _ _ HL) as LL. set (d := Text []).
    destruct (read_list F A n a kids B i d ST L RD ltac:(lia) ltac:(lia)) as (ri & Ki & Gi & Ri & Si & GKi & Hi & Zi & Wi).
    destruct (read_list F A n a kids B j d ST L RD ltac:(lia) ltac:(lia)) as (rj & Kj & Gj & Rj & Sj & GKj & Hj & Zj & Wj).
    unfold exchange. rewrite Gi. cbn [bind]. rewrite Gj. cbn [bind]. rewrite Ri, Rj.
    assert (PL : forall G, len (p ++ forest_text G) = len p + len (forest_text G)) by (intros; apply app_length). rewrite PL in SZ.
    destruct (place_list F A n a kids B i Kj d ST L TT ltac:(lia) GKj Hj ltac:(lia) ltac:(rewrite PL; lia)) as (F1 & kids1 & y1 & -> & ST1 & L1 & TN1 & O1 & C1 & Y1 & T1 & Z1).
    cbn [bind].
    assert (TT1 : Forall two_tags (called (selects m) kids1)) by (rewrite C1; now apply forall_placed).
    assert (LC1 : len (called (selects m) kids1) = len l) by (rewrite C1, placed_len; lia).
    destruct (place_list F1 A n a kids1 B j Ki d ST1 L1 TT1 ltac:(lia) GKi Hi ltac:(lia)) as (F2 & kids2 & y2 & -> & ST2 & L2 & TN2 & O2 & C2 & Y2 & T2 & Z2).
    { rewrite PL. lia. }
    exists F2, kids2. split; [reflexivity|]. split; [|split; [congruence|]].
    - split; [exact ST2|]. split; [exact L2|]. split; [eapply readable_names; [eapply readable_names; [exact RD|exact TN1]|exact TN2]|]. split; [rewrite C2; now apply forall_placed|].
      rewrite C2, C1. cbn [moved]. apply forall2_placed; [apply forall2_placed; auto|].
      + eapply holds_same; [|exact Sj|exact Y1]. apply (forall2_nth _ _ _ _ _ [] d HL); lia.
      + eapply holds_same; [|exact Si|exact Y2]. apply (forall2_nth _ _ _ _ _ [] d HL); lia.
    - destruct (Nat.eq_dec i j) as [<-|NE].
      + rewrite C1, placed_same, Y1 in Z2 by lia. lia.
      + rewrite C1, placed_other in Z2 by lia. lia.
  Qed.
  Lemma to_end_ok : forall F A n a kids B l i, kept F A n a kids B l -> i < len l -> len l <= 1000 -> (N.of_nat (len (p ++ forest_text F)) <= 5242880)%N ->
    exists F' kids', to_end E fmt_g s m i (p ++ forest_text F) = Ok (p ++ forest_text F', None) /\ kept F' A n a kids' B (moved [] (ToEnd i) l) /\
      others m kids' = others m kids /\ len (forest_text F') <= len (forest_text F).
  Proof.
    intros F A n a kids B l i (ST & L & RD & TT & HL) LI LT SZ. pose proof (forall2_len _ _ _ _ _ HL) as LL. set (d := Text []).
    assert (PL : forall G, len (p ++ forest_text G) = len p + len (forest_text G)) by (intros; apply app_length). rewrite PL in SZ.
    destruct (read_list F A n a kids B i d ST L RD ltac:(lia) ltac:(lia)) as (r & K & G & R & S & GK & H & Z & W).
    unfold to_end. rewrite G. cbn [bind]. rewrite R.
    destruct (nth_called m kids i d ltac:(lia)) as (K1 & K2 & Q & C & N).
    assert (T1 : two_tags (nth i (called (selects m) kids) d)) by (rewrite Forall_forall in TT; apply TT, nth_In; lia).
    remember (nth i (called (selects m) kids) d) as x eqn:QX. destruct x as [e b sf k| |]; try contradiction. cbn [two_tags kids_of] in *. subst sf.
    destruct (up_exists m kids) as (U1 & U2 & U).
    assert (LG : legal (Append s m (AsForest K))).
    { destruct GT as [GS _ GL]. unfold item in *. rewrite map_app in XN. apply Forall_app in XN as [_ XM]. inversion XM; subst. apply Forall_app in GS as [GS GM]. inversion GM as [|? ? GM1 _]; subst.
      split; [apply Forall_app; split; auto; constructor; [|constructor]; split; [apply GM1|exact I]|]. split; [|split; [assumption|split; [split; [assumption|cbn [content_nodes]; lia]|]]].
      - unfold tpath_steps in GL. rewrite flat_map_app, !app_length in *. cbn [flat_map tstep_steps List.length app] in *. lia.
      - cbn [content_nodes]. rewrite app_length in H. cbn [List.length] in H. lia. }
    pose proof (selects_len m e N) as LM. pose proof U as (KE & C2 & _). pose proof (up_called _ _ _ _ U) as UC.
    assert (SA : len (node_text (Elem m [] false K)) <= len (node_text (Elem e b false k))).
    { rewrite !node_elem. unfold start_tag, end_tag. rewrite !app_length. change (attrs_text []) with (@nil ascii). change (len (@nil ascii)) with 0. rewrite W. lia. }
    pose proof (located_text _ _ _ _ _ L) as TX.
    assert (SX : len (node_text (Elem e b false k)) <= len (forest_text F)).
    { rewrite TX, (node_elem n a kids), Q, forest_app, forest_cons, !app_length. lia. }
    assert (LF : len (forest_text F) = len A + len (start_tag n a false) + len (forest_text U1) + len (forest_text U2) + len (end_tag n) + len B).
    { rewrite TX, (node_elem n a kids), KE, forest_app, !app_length. lia. }
    destruct (append_one E fmt_g Hord p Hp SP F s A n a kids B m (AsForest K) U1 U2 ST L LG U) as (F1 & AC & ST1 & L1 & TN1).
    { cbn [content_nodes]. unfold blen. rewrite (node_elem n a), forest_app, forest_cons, !app_length. lia. }
    cbn [call set_content content_nodes] in *. rewrite AC. cbn [bind].
    pose proof (located_text _ _ _ _ _ L1) as TX1.
    assert (CK : called (selects m) (U1 ++ Elem m [] false K :: U2) = called (selects m) kids ++ [Elem m [] false K]).
    { rewrite called_app, called_cons, UC, C2. cbn [named]. now rewrite selects_self. }
    destruct (nth_called m (U1 ++ Elem m [] false K :: U2) i d) as (V1 & V2 & QV & CV & NV); [rewrite CK, app_length; lia|].
    assert (NX : nth i (called (selects m) (U1 ++ Elem m [] false K :: U2)) d = Elem e b false k) by (rewrite CK, app_nth1 by lia; now rewrite <- QX).
    rewrite NX in QV, NV. rewrite QV in L1, TX1, CK. clear NX.
    destruct (delete_one E Hord p Hp SP F1 s A n a V1 _ V2 B m i ST1 L1 CV NV GT) as (F2 & DE & ST2 & L2 & TN2).
    exists F2, (V1 ++ V2). rewrite DE. split; [reflexivity|].
    rewrite called_app, called_cons, NV in CK.
    destruct (list_without _ _ _ _ _ _ CK) as [E1 E2]; [lia|]. rewrite CV in E1, E2. split; [|split].
    - split; [exact ST2|]. split; [exact L2|]. split; [eapply readable_names; [eapply readable_names; [exact RD|exact TN1]|exact TN2]|].
      rewrite called_app, E1, E2. cbn [moved]. split.
      + apply Forall_app. split; [now apply Forall_firstn'|]. apply Forall_app. split; [now apply Forall_skipn'|]. constructor; [reflexivity|constructor].
      + apply Forall2_app; [now apply forall2_firstn|]. apply Forall2_app; [now apply forall2_skipn|]. constructor; [|constructor].
        apply (holds_same _ K (Elem e b false k)); [|exact S|reflexivity]. rewrite QX. apply (forall2_nth _ _ _ _ _ [] d HL); lia.
    - rewrite others_app, <- (others_in m _ V2 NV), <- others_app, <- QV, others_app, others_in, <- others_app, <- KE; [reflexivity|]. apply selects_self.
    - rewrite LF, (located_text _ _ _ _ _ L2), (node_elem n a), forest_app, !app_length.
      assert (ZZ : len (forest_text (V1 ++ Elem e b false k :: V2)) = len (forest_text (U1 ++ Elem m [] false K :: U2))) by now rewrite QV.
      rewrite !forest_app, !forest_cons, !app_length in ZZ. lia.
  Qed.
  Lemma moves_ok : forall ops F A n a kids B l, kept F A n a kids B l -> Forall (numbers_below (len l)) ops -> len l <= 1000 -> (N.of_nat (len (p ++ forest_text F)) <= 5242880)%N ->
    exists F' kids', rearrange E fmt_g s m ops (p ++ forest_text F) = Ok (p ++ forest_text F', None) /\ kept F' A n a kids' B (all_moved [] ops l) /\ others m kids' = others m kids.
  Proof.
    assert (PL : forall G, len (p ++ forest_text G) = len p + len (forest_text G)) by (intros; apply app_length).
    induction ops as [|o ops IH]; intros F A n a kids B l KP W LL SZ; [exists F, kids; auto|]. inversion W as [|? ? W1 W2]; subst. rewrite PL in SZ.
    assert (ONE : exists F1 kids1, match o with Exchange i j => exchange E fmt_g s m i j (p ++ forest_text F) | ToEnd i => to_end E fmt_g s m i (p ++ forest_text F) end = Ok (p ++ forest_text F1, None) /\
      kept F1 A n a kids1 B (moved [] o l) /\ others m kids1 = others m kids /\ len (forest_text F1) <= len (forest_text F)).
    { destruct o as [i j|i]; cbn [numbers_below] in W1.
      - destruct (exchange_ok F A n a kids B l i j KP) as (F1 & kids1 & X & K & O & Z); try rewrite PL; try lia. exists F1, kids1. repeat (split; auto). lia.
      - destruct (to_end_ok F A n a kids B l i KP) as (F1 & kids1 & X & K & O & Z); try rewrite PL; try lia. exists F1, kids1. repeat (split; auto). }
    destruct ONE as (F1 & kids1 & X & K1 & O1 & Z1). cbn [rearrange]. rewrite X. cbn [bind].
    destruct (IH F1 A n a kids1 B (moved [] o l) K1) as (F2 & kids2 & X2 & K2 & O2); try (rewrite moved_len; auto); [rewrite PL; lia|].
    exists F2, kids2. split; [exact X2|]. split; [exact K2|congruence].
  Qed.
  (** Reading below an entry. *)
  Lemma same_sym : forall a b, same a b -> same b a.
  Proof.
    induction a as [n at0 self kids IH|t|bb] using node_ind'; intros b H; inversion H as [? ? a1 ? ? k1 P1 K1| |]; subst; constructor; [now apply Permutation_sym|].
    clear -IH K1. induction K1 as [|x y K K' S1 S2 IH1]; constructor; inversion IH; subst; auto.
  Qed.
  Lemma same_all_sym : forall a b, Forall2 same a b -> Forall2 same b a.
  Proof. induction 1; constructor; auto using same_sym. Qed.
  Lemma kept_read : forall F A n a kids B l i rest fin, kept F A n a kids B l -> i < len l -> i < 1000 -> Forall early s -> match s with (_, Some _) :: _ => False | _ => True end ->
    good_tpath (item s m i ++ rest) fin -> (rest = [] -> forall x, fin <> TheAttribute x) -> inside rest fin (Elem [] [] false (nth i l [])) <> Nothing ->
    exists r, get E (p ++ forest_text F) (tpath (item s m i ++ rest) fin) = Ok r /\ describes r (inside rest fin (Elem [] [] false (nth i l []))).
  Proof.
    intros F A n a kids B l i rest fin (ST & L & RD & TT & HL) LI LT EY SS GP NA NI. set (d := Text []). pose proof (forall2_len _ _ _ _ _ HL) as LL.
    destruct (nth_called m kids i d ltac:(lia)) as (K1 & K2 & Q & C & N). pose proof (forall2_nth _ _ _ _ _ [] d HL i LI) as HO.
    assert (T1 : two_tags (nth i (called (selects m) kids) d)) by (rewrite Forall_forall in TT; apply TT, nth_In; lia).
    destruct (nth i (called (selects m) kids) d) as [e b sf k| |]; try contradiction. cbn [two_tags] in T1. subst sf kids. unfold holds in HO. cbn [kids_of] in HO. set (c := nth i l []) in *.
    destruct ST as (GF & T & FT). pose proof (located_app _ _ _ _ _ _ _ L _ _ _ _ (item_located m i K1 _ K2 C N)) as LA. destruct (located_good _ _ _ _ _ LA GF) as [GX _].
    inversion GX as [? ? ? ? GN GA GS GK| |]; subst.
    assert (GC : Forall good c) by (eapply same_good_all; [apply same_all_sym; exact HO|exact GK]).
    assert (GC' : good (Elem e b false c)) by (constructor; auto; discriminate).
    assert (IK : inside rest fin (Elem e b false c) = inside rest fin (Elem [] [] false c)) by (apply inside_kids; auto).
    destruct FT as [_ [_ SZ]]. destruct (number_ok (len (called (selects m) K1))) as (_ & _ & V).
    destruct (get_leads_same E Hord p (item s m (len (called (selects m) K1))) (forest_text F) (Elem e b false k) (Elem e b false c) rest fin) as (r & R1 & R2); auto.
    - rewrite (located_text _ _ _ _ _ LA). eapply located_leads; eauto.
    - constructor; auto.
    - apply Forall_app. split; auto. constructor; [|constructor]. unfold early. cbn [snd]. rewrite V. lia.
    - now rewrite IK.
    - destruct s as [|[x [y|]] s']; auto. inversion L.
    - rewrite IK in R2. exists r. split; [exact R1|]. apply denotes_describes; auto. rewrite <- IK. now apply inside_good.
  Qed.
  Section Sort.
    Variable less : bytes -> bytes -> bool.
    Variable rest : list tstep.
    Variable fin : final.
    Variable key : list node -> bytes.
    Hypothesis EY : Forall early s.
    Hypothesis SS : match s with (_, Some _) :: _ => False | _ => True end.
    Hypothesis GP : good_tpath (item s m 0 ++ rest) fin.

    Lemma key_read : forall F A n a kids B l i, kept F A n a kids B l -> i < len l -> i < 1000 -> keyed rest fin (nth i l []) (key (nth i l [])) ->
      exists r, get E (p ++ forest_text F) (tpath (item s m i ++ rest) fin) = Ok r /\ r_string r = key (nth i l []).
    Proof.
      intros F A n a kids B l i KP LI LT [NA KY].
      assert (GI : good_tpath (item s m i ++ rest) fin).
      { destruct GP as [GS GF GL]. destruct (number_ok i) as (N1 & N2 & _). unfold item in *. rewrite <- app_assoc in *. cbn [app] in *. apply Forall_app in GS as [G1 G2]. inversion G2 as [|? ? [S1 S2] G3]; subst. cbn [fst] in S1.
        split.
        - apply Forall_app. split; auto. constructor; [|auto]. split; auto. split; auto.
        - clear -GF. assert (NE : s ++ (m, Some (number i)) :: rest <> []) by (intros X; apply app_eq_nil in X as [_ X]; discriminate).
          assert (EI : ends_in_index (s ++ (m, Some (number i)) :: rest) -> ends_in_index (s ++ (m, Some (number 0)) :: rest)).
          { intros (u & w & d & Q). destruct rest as [|x0 r0]; [eexists _, _, _; reflexivity|]. destruct (exists_last (l := x0 :: r0) ltac:(discriminate)) as (r1 & y & Q1).
            rewrite Q1 in *. rewrite (app_comm_cons r1), app_assoc in Q. apply app_inj_tail in Q as [_ ->]. exists (s ++ (m, Some (number 0)) :: r1), w, d. now rewrite <- app_assoc. }
          destruct fin; cbn [good_final] in *; intuition.
        - unfold tpath_steps in *. rewrite flat_map_app, !app_length in *. exact GL. }
      destruct (kept_read F A n a kids B l i rest fin KP LI LT EY SS GI NA) as (r & R1 & R2); [intros X; now rewrite X in KY|]. exists r. split; auto.
      destruct (inside rest fin (Elem [] [] false (nth i l []))) as [|k|v|k|c|c]; try contradiction.
      - destruct R2 as (_ & D & _). eapply decodes_eq; eauto.
      - destruct R2 as [_ D]. congruence.
    Qed.
    (** Insertion from the end of the sorted part, which is given in reverse. *)
    Fixpoint insert_rev (x : list node) (rp : list (list node)) : list (list node) :=
      match rp with
      | [] => [x]
      | y :: rp' => if less (key x) (key y) then y :: insert_rev x rp' else x :: y :: rp'
      end.
    Fixpoint sort_rev (rp l : list (list node)) : list (list node) :=
      match l with
      | [] => rp
      | x :: l' => sort_rev (insert_rev x rp) l'
      end.
    Lemma insert_perm : forall x rp, Permutation (x :: rp) (insert_rev x rp).
    Proof. intros x. induction rp as [|y rp IH]; [auto|]. cbn [insert_rev]. destruct (less (key x) (key y)); auto. rewrite perm_swap. now constructor. Qed.
    Lemma exchange_mid : forall (l1 : list (list node)) x y l2, moved [] (Exchange (len l1) (S (len l1))) (l1 ++ y :: x :: l2) = l1 ++ x :: y :: l2.
    Proof.
      intros. cbn [moved]. rewrite placed_split. rewrite !app_nth2 by lia. replace (S (len l1) - len l1) with 1 by lia. rewrite Nat.sub_diag. cbn [nth].
      pose proof (placed_split _ (l1 ++ [x]) x y l2) as P. rewrite app_length, Nat.add_1_r, <- !app_assoc in P. exact P.
    Qed.
    Lemma sink_ok : forall rp F A n a kids B x l2, kept F A n a kids B (rev rp ++ x :: l2) -> (forall c, In c (rev rp ++ x :: l2) -> keyed rest fin c (key c)) ->
      len (rev rp ++ x :: l2) <= 1000 -> (N.of_nat (len (p ++ forest_text F)) <= 5242880)%N ->
      exists F' kids', sink E fmt_g less s m rest fin (len rp) (p ++ forest_text F) = Ok (p ++ forest_text F', None) /\ kept F' A n a kids' B (rev (insert_rev x rp) ++ l2) /\
        others m kids' = others m kids /\ len (forest_text F') = len (forest_text F).
    Proof.
      induction rp as [|y rp IH]; intros F A n a kids B x l2 KP KY LL SZ; [exists F, kids; auto|].
      cbn [List.length sink]. cbn [rev] in *. rewrite <- app_assoc in *. cbn [app] in *.
      assert (LR : len (rev rp ++ y :: x :: l2) = len rp + S (S (len l2))) by (rewrite app_length, rev_length; reflexivity).
      assert (NX : nth (S (len rp)) (rev rp ++ y :: x :: l2) [] = x) by (rewrite app_nth2; rewrite rev_length; [replace (S (len rp) - len rp) with 1 by lia; reflexivity|lia]).
      assert (NY : nth (len rp) (rev rp ++ y :: x :: l2) [] = y) by (rewrite app_nth2; rewrite rev_length; [rewrite Nat.sub_diag; reflexivity|lia]).
      destruct (key_read F A n a kids B _ (S (len rp)) KP) as (r1 & G1 & R1); [lia|lia|rewrite NX; apply KY, in_or_app; right; right; now left|]. rewrite NX in R1.
      destruct (key_read F A n a kids B _ (len rp) KP) as (r2 & G2 & R2); [lia|lia|rewrite NY; apply KY, in_or_app; right; now left|]. rewrite NY in R2.
      rewrite G1. cbn [bind]. rewrite G2. cbn [bind]. rewrite R1, R2. cbn [insert_rev]. destruct (less (key x) (key y)).
      - destruct (exchange_ok F A n a kids B _ (len rp) (S (len rp)) KP) as (F1 & kids1 & X & K1 & O1 & Z1); try lia. rewrite X. cbn [bind].
        assert (MV : moved [] (Exchange (len rp) (S (len rp))) (rev rp ++ y :: x :: l2) = rev rp ++ x :: y :: l2) by (rewrite <- (rev_length rp); apply exchange_mid).
        rewrite MV in K1. destruct (IH F1 A n a kids1 B x (y :: l2) K1) as (F2 & kids2 & S2 & K2 & O2 & Z2).
        + intros c I. apply KY. rewrite in_app_iff in *. cbn [In] in *. tauto.
        + rewrite app_length, rev_length in *. cbn [List.length] in *. lia.
        + rewrite app_length in *. lia.
        + exists F2, kids2. split; [exact S2|]. split; [cbn [rev]; rewrite <- app_assoc; exact K2|]. split; [congruence|lia].
      - exists F, kids. split; [reflexivity|]. split; [cbn [rev]; rewrite <- !app_assoc; exact KP|auto].
    Qed.
    Lemma sort_from_ok : forall l rp F A n a kids B, kept F A n a kids B (rev rp ++ l) -> (forall c, In c (rev rp ++ l) -> keyed rest fin c (key c)) ->
      len (rev rp ++ l) <= 1000 -> (N.of_nat (len (p ++ forest_text F)) <= 5242880)%N ->
      exists F' kids', sort_from E fmt_g less s m rest fin (len rp) (len l) (p ++ forest_text F) = Ok (p ++ forest_text F', None) /\ kept F' A n a kids' B (rev (sort_rev rp l)) /\
        others m kids' = others m kids /\ len (forest_text F') = len (forest_text F).
    Proof.
      induction l as [|x l IH]; intros rp F A n a kids B KP KY LL SZ; [rewrite app_nil_r in KP; exists F, kids; auto|].
      destruct (sink_ok rp F A n a kids B x l KP KY LL SZ) as (F1 & kids1 & S1 & K1 & O1 & Z1). cbn [List.length sort_from sort_rev]. rewrite S1. cbn [bind].
      pose proof (Permutation_length (insert_perm x rp)) as PL. cbn [List.length] in PL. rewrite PL.
      destruct (IH (insert_rev x rp) F1 A n a kids1 B K1) as (F2 & kids2 & S2 & K2 & O2 & Z2).
      - intros c I. apply KY. rewrite in_app_iff in *. cbn [In]. destruct I as [I|I]; [|tauto]. apply in_rev in I. apply (Permutation_in _ (Permutation_sym (insert_perm x rp))) in I.
        destruct I as [<-|I]; [tauto|]. left. now apply in_rev in I.
      - rewrite app_length, rev_length in *. cbn [List.length] in LL. lia.
      - rewrite app_length in *. lia.
      - exists F2, kids2. split; [exact S2|]. split; [exact K2|]. split; [congruence|lia].
    Qed.
    (** The outcome is a rearrangement, in order, and keeps equals in their order. *)
    Lemma sort_perm : forall l rp, Permutation (rev rp ++ l) (rev (sort_rev rp l)).
    Proof.
      induction l as [|x l IH]; intros rp; cbn [sort_rev]; [now rewrite app_nil_r|]. rewrite <- IH.
      rewrite <- (Permutation_rev rp), <- (Permutation_rev (insert_rev x rp)), <- insert_perm. symmetry. apply Permutation_middle.
    Qed.
    Lemma sort_stable : forall (P : list node -> bool), (forall c c', P c = true -> P c' = true -> less (key c) (key c') = false) ->
      forall l rp, filter P (rev (sort_rev rp l)) = filter P (rev rp ++ l).
    Proof.
      intros P HP. assert (INS : forall x rp, filter P (rev (insert_rev x rp)) = filter P (rev rp ++ [x])).
      { intros x. induction rp as [|y rp IH]; [reflexivity|]. cbn [insert_rev]. destruct (less (key x) (key y)) eqn:Q; [|reflexivity].
        cbn [rev]. rewrite filter_app, IH, <- app_assoc, !filter_app. rewrite <- app_assoc. f_equal. cbn [app filter].
        destruct (P x) eqn:PX, (P y) eqn:PY; try reflexivity. rewrite (HP x y PX PY) in Q. discriminate. }
      induction l as [|x l IH]; intros rp; cbn [sort_rev]; [now rewrite app_nil_r|]. rewrite IH, filter_app, INS, <- filter_app, <- app_assoc. reflexivity.
    Qed.
    Hypothesis LT : forall a b c, less a b = false -> less b c = false -> less a c = false.
    Hypothesis LA : forall a b, less a b = true -> less b a = false.
    (** Reverse of sorted: nothing is less than what follows it. *)
    Lemma insert_sorted : forall x rp, StronglySorted (fun c c' => less (key c) (key c') = false) rp -> StronglySorted (fun c c' => less (key c) (key c') = false) (insert_rev x rp).
    Proof.
      intros x. induction rp as [|y rp IH]; intros H; [repeat constructor|]. inversion H as [|? ? H1 H2]; subst. cbn [insert_rev]. destruct (less (key x) (key y)) eqn:Q.
      - constructor; auto. apply Forall_forall. intros c I. apply (Permutation_in _ (Permutation_sym (insert_perm x rp))) in I. destruct I as [<-|I]; auto. rewrite Forall_forall in H2. auto.
      - constructor; auto. constructor; auto. rewrite Forall_forall in *. intros c I. eapply LT; eauto.
    Qed.
    Lemma sort_sorted : forall l rp, StronglySorted (fun c c' => less (key c) (key c') = false) rp -> StronglySorted (fun c c' => less (key c) (key c') = false) (sort_rev rp l).
    Proof. induction l as [|x l IH]; intros rp H; cbn [sort_rev]; auto. apply IH. now apply insert_sorted. Qed.
    Lemma sorted_rev : forall (R : list node -> list node -> Prop) l, StronglySorted R l -> StronglySorted (fun c c' => R c' c) (rev l).
    Proof.
      intros R. induction l as [|x l IH]; intros H; [constructor|]. inversion H as [|? ? H1 H2]; subst. cbn [rev]. specialize (IH H1).
      assert (A0 : Forall (fun c => R x c) (rev l)) by (apply Forall_forall; intros c I; rewrite Forall_forall in H2; apply H2; now apply in_rev).
      clear -IH A0. revert IH A0. generalize (rev l). intros u IH A0. induction IH as [|y w S IH F]; cbn [app]; [repeat constructor|]. inversion A0; subst. constructor; auto. apply Forall_app. split; auto.
    Qed.
  End Sort.
End Calls.
