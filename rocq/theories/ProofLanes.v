(** Entries that go from one list to another: proofs. *)
From Coq Require Import List Ascii String NArith ZArith Bool Lia Permutation.
From Verif Require Import GoStr ModelParser ModelPath ModelResult ModelQuery ModelValidate ModelBuilder SpecText SpecPath SpecTree SpecQuery SpecEdit SpecContent SpecValid SpecHistory SpecFrame SpecOptions SpecRaw SpecTail SpecList SpecLoop SpecQueue SpecOrder SpecLanes
  ProofBase ProofScan ProofTree ProofTree2 ProofTree4 ProofTree5 ProofTree7 ProofEdit ProofEdit2 ProofEdit3 ProofEdit4 ProofEdit5 ProofEdit6 ProofEdit7 ProofEdit8 ProofEdit9 ProofEdit11 ProofEdit12 ProofFrame4 ProofTail ProofCopy ProofList ProofLoop ProofQueue ProofOrder ProofLaid ProofUndo.
Import ListNotations.
Open Scope nat_scope.
Notation called_cons := ProofEdit2.called_cons.

(** ** Lists *)
Lemma concat_placed : forall A (W : list (list A)) i x, i < len W -> Permutation (nth i W [] ++ List.concat (placed i x W)) (x ++ List.concat W).
Proof.
  intros A W i x H. destruct (nth_split' _ W i [] H) as (W1 & W2 & Q & L). set (y := nth i W []) in *. clearbody y. subst W. rewrite <- L, placed_split, !concat_app. cbn [List.concat].
  rewrite !app_assoc. apply Permutation_app_tail. rewrite <- !app_assoc. rewrite (Permutation_app_comm y). rewrite <- app_assoc. rewrite (Permutation_app_comm x (List.concat W1 ++ y)). rewrite <- app_assoc. apply Permutation_app_head. apply Permutation_app_comm.
Qed.
Lemma without_perm : forall A (l : list A) i d, i < len l -> Permutation (nth i l d :: without i l) l.
Proof.
  intros A l i d H. destruct (nth_split' _ l i d H) as (l1 & l2 & Q & L). set (y := nth i l d) in *. clearbody y. subst l. unfold without. rewrite firstn_app, skipn_app, <- L, firstn_all, Nat.sub_diag, skipn_all2 by lia.
  cbn [firstn]. rewrite app_nil_r. cbn [app]. replace (S (len l1) - len l1) with 1 by lia. cbn [skipn]. apply Permutation_middle.
Qed.
Lemma transferred_len : forall A (d : A) o W, possible o W -> len (transferred d o W) = len W.
Proof. intros A d o W (F & T & _). unfold transferred. rewrite placed_len; rewrite placed_len; auto. Qed.
Lemma transferred_perm : forall A (d : A) o W, possible o W -> Permutation (List.concat (transferred d o W)) (List.concat W).
Proof.
  intros A d o W (F & T & I & _). unfold transferred. set (x := nth (which o) (nth (from o) W []) d). set (W1 := placed (to o) (nth (to o) W [] ++ [x]) W).
  assert (L1 : len W1 = len W) by (apply placed_len; auto). set (xs := nth (from o) W1 []).
  assert (X : which o < len xs /\ nth (which o) xs d = x).
  { unfold xs, W1. destruct (Nat.eq_dec (to o) (from o)) as [Q|Q].
    - rewrite Q, placed_same, app_length by auto. split; [lia|]. rewrite app_nth1 by lia. reflexivity.
    - rewrite placed_other by auto. auto. }
  destruct X as [X1 X2]. pose proof (concat_placed _ W1 (from o) (without (which o) xs) ltac:(lia)) as P1. fold xs in P1.
  pose proof (concat_placed _ W (to o) (nth (to o) W [] ++ [x]) T) as P2. fold W1 in P2.
  pose proof (without_perm _ xs (which o) d X1) as P3. rewrite X2 in P3. rewrite <- app_assoc in P2. apply Permutation_app_inv_l in P2.
  apply (Permutation_app_inv_l (without (which o) xs)). apply (Permutation_cons_inv (a := x)).
  eapply Permutation_trans; [|apply Permutation_sym, Permutation_middle]. eapply Permutation_trans; [apply (Permutation_app_tail _ P3)|].
  eapply Permutation_trans; [exact P1|]. apply Permutation_app_head. exact P2.
Qed.

Lemma drain_lists : forall A (d : A) a b, a <> b -> forall xs W, a < len W -> b < len W -> nth a W [] = xs ->
  let ops := repeat {| from := a; which := 0; to := b |} (len xs) in all_possible d ops W /\ all_transferred d ops W = placed a [] (placed b (nth b W [] ++ xs) W).
Proof.
  intros A d a b NE. induction xs as [|x xs IH]; intros W LA LB Q; cbn [List.length repeat all_possible all_transferred].
  - split; [exact I|]. rewrite app_nil_r. destruct (nth_split' _ W b [] LB) as (W1 & W2 & QW & L1). set (y := nth b W []) in *. assert (PB : placed b y W = W) by (clearbody y; subst W; rewrite <- L1; apply placed_split).
    rewrite PB. destruct (nth_split' _ W a [] LA) as (V1 & V2 & QV & L2). rewrite Q in QV. rewrite QV, <- L2. symmetry. apply placed_split.
  - set (o := {| from := a; which := 0; to := b |}). assert (P : possible o W) by (unfold possible, o; cbn [from to which]; rewrite Q; cbn [List.length]; repeat split; auto; lia).
    assert (T : transferred d o W = placed a xs (placed b (nth b W [] ++ [x]) W)).
    { unfold transferred, o. cbn [from to which]. rewrite Q. cbn [nth]. rewrite (placed_other _ W b a) by lia. rewrite Q. reflexivity. }
    assert (L1 : len (placed b (nth b W [] ++ [x]) W) = len W) by now apply placed_len.
    destruct (IH (transferred d o W)) as [X Y]; [rewrite T, placed_len, L1; [lia|rewrite L1; lia]|rewrite T, placed_len, L1; [lia|rewrite L1; lia]|rewrite T, placed_same; [reflexivity|rewrite L1; lia]|].
    split; [split; [exact P|exact X]|]. refine (eq_trans Y _). rewrite T. rewrite (placed_other _ _ a b) by (rewrite ?L1; lia). rewrite placed_same by lia. rewrite <- app_assoc. cbn [app].
    apply (nth_ext _ _ [] []); [rewrite !placed_len; rewrite ?placed_len; rewrite ?placed_len; auto; lia|].
    intros j LJ. rewrite !placed_len in LJ; rewrite ?placed_len in *; rewrite ?placed_len in *; auto.
    destruct (Nat.eq_dec j a) as [->|NA]; [rewrite !placed_same; rewrite ?placed_len; rewrite ?placed_len; rewrite ?placed_len; auto|].
    rewrite (placed_other _ _ a j), (placed_other _ _ a j) by (rewrite ?placed_len; rewrite ?placed_len; rewrite ?placed_len; auto).
    destruct (Nat.eq_dec j b) as [->|NB]; [rewrite !placed_same; rewrite ?placed_len; rewrite ?placed_len; auto|].
    rewrite !placed_other; rewrite ?placed_len; rewrite ?placed_len; auto.
    all: repeat (rewrite placed_len; auto).
Qed.

(** ** Children *)
Lemma one_called : forall l K x, called (selects l) K = [x] -> exists K1 K2, K = K1 ++ x :: K2 /\ called (selects l) K1 = [] /\ called (selects l) K2 = [] /\ named (selects l) x = true.
Proof.
  intros l K x H. destruct (nth_called l K 0 (Text [])) as (K1 & K2 & Q & C & N); [rewrite H; cbn; lia|]. rewrite H in Q, N. cbn [nth] in Q, N. exists K1, K2. split; [exact Q|].
  assert (C1 : called (selects l) K1 = []) by (destruct (called (selects l) K1); [reflexivity|discriminate C]). split; [exact C1|]. split; [|exact N].
  rewrite Q, called_app, called_cons, N, C1 in H. cbn [app] in H. now injection H.
Qed.
Lemma lane_place : forall m ls K W k, board m ls K W -> k < len ls -> exists K1 e b Kl K2, K = K1 ++ Elem e b false Kl :: K2 /\ called (selects (nth k ls [])) K1 = [] /\
  called (selects (nth k ls [])) K2 = [] /\ selects (nth k ls []) e = true /\ Forall two_tags (called (selects m) Kl) /\ Forall2 holds (nth k W []) (called (selects m) Kl).
Proof.
  intros m ls K W k BD LK. destruct (forall2_nth _ _ _ _ _ [] [] BD k LK) as (e & b & Kl & C & TT & H). destruct (one_called _ _ _ C) as (K1 & K2 & Q & C1 & C2 & N). exists K1, e, b, Kl, K2. auto 10.
Qed.
Lemma forall2_of_nth : forall A B (R : A -> B -> Prop) da db l l', len l = len l' -> (forall i, i < len l -> R (nth i l da) (nth i l' db)) -> Forall2 R l l'.
Proof.
  intros A B R da db. induction l as [|x l IH]; intros [|y l'] L H; cbn [List.length] in *; try discriminate; constructor; [exact (H 0 ltac:(lia))|]. apply IH; [lia|]. intros i LI. exact (H (S i) ltac:(lia)).
Qed.
Lemma board_place : forall m ls K1 e b Kl Kl' K2 W k xs, distinct ls -> board m ls (K1 ++ Elem e b false Kl :: K2) W -> k < len ls -> called (selects (nth k ls [])) K1 = [] ->
  called (selects (nth k ls [])) K2 = [] -> selects (nth k ls []) e = true -> Forall two_tags (called (selects m) Kl') -> Forall2 holds xs (called (selects m) Kl') ->
  board m ls (K1 ++ Elem e b false Kl' :: K2) (placed k xs W).
Proof.
  intros m ls K1 e b Kl Kl' K2 W k xs DI BD LK C1 C2 N TT H. unfold board in *.
  assert (OT : forall j, j < len ls -> j <> k -> forall ys, list_in m (K1 ++ Elem e b false Kl :: K2) (nth j ls []) ys -> list_in m (K1 ++ Elem e b false Kl' :: K2) (nth j ls []) ys).
  { intros j LJ NE ys (e' & b' & K' & C & X). exists e', b', K'. split; [|exact X]. rewrite <- C, !called_app, !called_cons. cbn [named].
    assert (NS : selects (nth j ls []) e = false) by (destruct (selects (nth j ls []) e) eqn:Q; [elim (DI j k LJ LK NE e Q N)|reflexivity]). now rewrite NS. }
  assert (ME : list_in m (K1 ++ Elem e b false Kl' :: K2) (nth k ls []) xs).
  { exists e, b, Kl'. split; [|auto]. rewrite called_app, called_cons, C1. cbn [named]. rewrite N, C2. reflexivity. }
  pose proof (forall2_len _ _ _ _ _ BD) as LW. apply (forall2_of_nth _ _ _ [] []); [rewrite placed_len by (rewrite <- LW; exact LK); exact LW|]. intros j LJ. destruct (Nat.eq_dec j k) as [->|NE].
  - rewrite placed_same by lia. exact ME.
  - rewrite placed_other by lia. apply OT; auto. apply (forall2_nth _ _ _ _ _ [] [] BD j LJ).
Qed.
Lemma outside_place : forall ls K1 e b Kl Kl' K2, outside ls (K1 ++ Elem e b false Kl :: K2) = outside ls (K1 ++ Elem e b false Kl' :: K2) \/ existsb (fun l => selects l e) ls = false.
Proof.
  intros ls K1 e b Kl Kl' K2. destruct (existsb (fun l => selects l e) ls) eqn:Q; [left|now right]. unfold outside. rewrite !filter_app. cbn [filter named]. now rewrite Q.
Qed.

Section Calls.
  Variable E : env.
  Variable fmt_g : f64 -> bytes.
  Hypothesis Hord : forall k l, Permutation l (e_ord E k l).
  Variable p : bytes.
  Hypothesis Hp : prolog p.
  Hypothesis SP : strict_prolog p.
  Notation state := (ProofList.state p).
  Variable s : list tstep.
  Variable m : bytes.
  Variable ls : list bytes.
  Hypothesis GT : forall k, k < len ls -> good_tpath (item (lane s ls k) m 0) TheElement.
  Hypothesis XN : forall k, k < len ls -> Forall xml_name (map fst (item (lane s ls k) m 0)).
  Hypothesis DI : distinct ls.

  Definition shown (F : list node) A n a K B W : Prop := state F /\ located s F A (Elem n a false K) B /\ readable s F /\ board m ls K W.
  Lemma lane_located : forall F A n a K1 e b Kl K2 B k, located s F A (Elem n a false (K1 ++ Elem e b false Kl :: K2)) B -> called (selects (nth k ls [])) K1 = [] -> selects (nth k ls []) e = true ->
    located (lane s ls k) F (A ++ start_tag n a false ++ forest_text K1) (Elem e b false Kl) (forest_text K2 ++ end_tag n ++ B).
  Proof.
    intros F A n a K1 e b Kl K2 B k L C N. unfold lane. eapply located_app; [exact L|]. apply loc_here; [exact N|]. now rewrite C.
  Qed.
  Lemma lane_readable : forall F A nd B k, located s F A nd B -> readable s F -> readable (lane s ls k) F.
  Proof.
    intros F A nd B k L [H1 H2]. unfold lane. split; [apply Forall_app; split; [exact H1|constructor; [exact I|constructor]]|]. destruct s as [|[x [y|]] s']; [inversion L|exact H2|exact I].
  Qed.
  Lemma lane_legal : forall k K, k < len ls -> Forall good K -> height K + len (item (lane s ls k) m 0) <= 100 -> (N.of_nat (len (forest_text K)) <= 5242880)%N -> legal (Append (lane s ls k) m (AsForest K)).
  Proof.
    intros k K LK GK H SK. destruct (GT k LK) as [GS _ GL]. pose proof (XN k LK) as X. unfold item in *. rewrite map_app in X. apply Forall_app in X as [_ XM]. inversion XM; subst. apply Forall_app in GS as [GS GM]. inversion GM as [|? ? GM1 _]; subst.
    split; [apply Forall_app; split; auto; constructor; [|constructor]; split; [apply GM1|exact I]|]. split; [|split; [assumption|split; [split; [assumption|cbn [content_nodes]; lia]|]]].
    - unfold tpath_steps in GL. rewrite flat_map_app, !app_length in *. cbn [flat_map tstep_steps List.length app] in *. lia.
    - cbn [content_nodes]. rewrite app_length in H. cbn [List.length] in H. lia.
  Qed.
  Lemma lane_len : forall k, len (item (lane s ls k) m 0) = len s + 2.
  Proof. intros k. unfold item, lane. rewrite !app_length. cbn [List.length]. lia. Qed.
  (** A new entry of a list. *)
  Lemma lane_add : forall F A n a K B W k c X, shown F A n a K B W -> k < len ls -> Forall good X -> height X + (len s + 2) <= 100 -> (N.of_nat (len (forest_text X)) <= 5242880)%N -> Forall2 same c X ->
    (N.of_nat (len (p ++ forest_text F) + len (node_text (Elem m [] false X))) <= 10485760)%N ->
    exists F' K', set_raw E fmt_g (p ++ forest_text F) (tpath (lane s ls k ++ [(m, None)]) TheElement ++ bs ".-1") (forest_text X) = Ok (p ++ forest_text F', None) /\
      shown F' A n a K' B (placed k (nth k W [] ++ [c]) W) /\ outside ls K' = outside ls K /\ len (forest_text F') = len (forest_text F) + len (node_text (Elem m [] false X)).
  Proof.
    intros F A n a K B W k c X (ST & L & RD & BD) LK GX HX SX SC SZ. destruct (lane_place m ls K W k BD LK) as (K1 & e & b & Kl & K2 & -> & C1 & C2 & N & TT & H).
    pose proof (lane_located F A n a K1 e b Kl K2 B k L C1 N) as LL. assert (LG : legal (Append (lane s ls k) m (AsForest X))) by (apply lane_legal; auto; now rewrite lane_len).
    destruct (up_exists m Kl) as (U1 & U2 & U). pose proof U as (KE & CU & _). pose proof (up_called _ _ _ _ U) as UC.
    set (y := Elem m [] false X) in *. set (Kl' := U1 ++ y :: U2). set (K' := K1 ++ Elem e b false Kl' :: K2).
    assert (CK : called (selects m) Kl' = called (selects m) Kl ++ [y]) by (unfold Kl'; rewrite called_app, called_cons, UC, CU; unfold y; cbn [named]; now rewrite selects_self).
    pose proof (located_text _ _ _ _ _ L) as TX.
    assert (ZL : len (forest_text Kl') = len (forest_text Kl) + len (node_text y)) by (unfold Kl'; rewrite KE, !forest_app, forest_cons, !app_length; lia).
    assert (ZK : forall Kx, len (p ++ (A ++ start_tag n a false ++ forest_text K1) ++ node_text (Elem e b false Kx) ++ forest_text K2 ++ end_tag n ++ B) + len (forest_text Kl) = len (p ++ forest_text F) + len (forest_text Kx)).
    { intros Kx. rewrite TX, (node_elem n a), forest_app, forest_cons, !node_elem, !app_length. lia. }
    destruct (append_one E fmt_g Hord p Hp SP F (lane s ls k) _ e b Kl _ m (AsForest X) U1 U2 ST LL LG U) as (F1 & AC & ST1 & L1 & _).
    { cbn [content_nodes]. fold y Kl'. unfold blen. pose proof (ZK Kl') as Z. rewrite !app_length in *. lia. }
    cbn [call set_content content_nodes] in AC, L1. fold y in L1. fold Kl' in L1.
    assert (CH : change (more_kids m X) nothing [(nth k ls [], None)] (K1 ++ Elem e b false Kl :: K2) = Some K').
    { eapply (swapped_change _ _ (Elem e b false Kl) [Elem e b false Kl']); [apply (sw_here (nth k ls []) None K1 _ [Elem e b false Kl'] K2); [exact N|now rewrite C1]|]. cbn [more_kids]. now rewrite (insert_up m Kl U1 U2 _ U). }
    assert (NB : [(nth k ls [], @None bytes)] <> []) by discriminate. destruct (change_below _ _ _ _ _ _ _ L _ _ _ _ NB CH) as (F' & CF & L' & TN).
    assert (AP : apply_edit (Append (lane s ls k) m (AsForest X)) F = Some F').
    { unfold lane in *. cbn [apply_edit content_nodes]. destruct (s ++ [(nth k ls [], None)]) eqn:Q; [now destruct s|exact CF]. }
    assert (TE : forest_text F' = forest_text F1).
    { rewrite (located_text _ _ _ _ _ L'), (located_text _ _ _ _ _ L1). unfold K'. rewrite (node_elem n a), forest_app, forest_cons, <- !app_assoc. reflexivity. }
    destruct ST as (G & T & FT). destruct (apply_good _ _ _ LG G T AP) as [G' T']. exists F', K'. rewrite TE. split; [exact AC|]. split; [|split].
    - split; [|split; [exact L'|split; [eapply readable_names; eauto|]]].
      + split; [exact G'|]. split; [exact T'|]. split; [exact (located_has _ _ _ _ _ L' eq_refl)|]. split; [destruct FT as [_ [SH _]]; exact (apply_shallow _ _ _ LG AP SH)|].
        rewrite TE. destruct ST1 as (_ & _ & _ & _ & Z1). exact Z1.
      + unfold K'. eapply board_place; eauto; rewrite CK.
        * apply Forall_app. split; [exact TT|]. constructor; [reflexivity|constructor].
        * apply Forall2_app; [exact H|]. constructor; [exact SC|constructor].
    - destruct (outside_place ls K1 e b Kl Kl' K2) as [O|O]; [symmetry; exact O|].
      assert (XX : existsb (fun l => selects l e) ls = true) by (apply existsb_exists; exists (nth k ls []); split; [now apply nth_In|exact N]). congruence.
    - rewrite (located_text _ _ _ _ _ L1). pose proof (ZK Kl') as Z. rewrite (app_length p), (app_length p (forest_text F)) in Z. lia.
  Qed.
  (** An entry less. *)
  Lemma lane_drop : forall F A n a K B W k i, shown F A n a K B W -> k < len ls -> i < len (nth k W []) ->
    exists F' K' x, delete E (p ++ forest_text F) (tpath (item (lane s ls k) m i) TheElement) = Ok (p ++ forest_text F', None) /\
      shown F' A n a K' B (placed k (without i (nth k W [])) W) /\ outside ls K' = outside ls K /\ len (forest_text F') + len (node_text x) = len (forest_text F) /\
      two_tags x /\ selects m (name_of x) = true /\ Forall2 same (nth i (nth k W []) []) (kids_of x).
  Proof.
    intros F A n a K B W k i (ST & L & RD & BD) LK LI. destruct (lane_place m ls K W k BD LK) as (K1 & e & b & Kl & K2 & -> & C1 & C2 & N & TT & H). pose proof (forall2_len _ _ _ _ _ H) as LH.
    pose proof (lane_located F A n a K1 e b Kl K2 B k L C1 N) as LL. set (d := Text []). destruct (nth_called m Kl i d ltac:(lia)) as (V1 & V2 & Q & CV & NV).
    assert (TX1 : two_tags (nth i (called (selects m) Kl) d)) by (rewrite Forall_forall in TT; apply TT, nth_In; lia). pose proof (forall2_nth _ _ _ _ _ [] d H i LI) as HX.
    assert (CE : called (selects m) (V1 ++ V2) = without i (called (selects m) Kl)).
    { set (y := nth i (called (selects m) Kl) d) in *. clearbody y. subst Kl. unfold without. rewrite !called_app, called_cons, NV, firstn_app, skipn_app, <- CV, firstn_all, Nat.sub_diag, skipn_all2 by lia. cbn [firstn]. rewrite app_nil_r. cbn [app].
      replace (S (len (called (selects m) V1)) - len (called (selects m) V1)) with 1 by lia. reflexivity. }
    set (x := nth i (called (selects m) Kl) d) in *. set (K' := K1 ++ Elem e b false (V1 ++ V2) :: K2). clearbody x.
    rewrite Q in LL. destruct (delete_one E Hord p Hp SP F (lane s ls k) _ e b V1 x V2 _ m i ST LL CV NV (GT k LK)) as (F1 & DE & ST1 & L1 & _).
    pose proof (item_change m i V1 x V2 (fun _ => Some []) nothing [] CV NV eq_refl) as IC. cbn [app] in IC.
    assert (NB : [(nth k ls [], None); (m, Some (number i))] <> []) by discriminate.
    assert (CH : change (fun _ => Some []) nothing [(nth k ls [], None); (m, Some (number i))] (K1 ++ Elem e b false Kl :: K2) = Some K').
    { assert (L0 : located [(nth k ls [], None)] (K1 ++ Elem e b false Kl :: K2) (forest_text K1) (Elem e b false Kl) (forest_text K2)) by (apply loc_here; [exact N|now rewrite C1]).
      rewrite Q in L0 |- *. destruct (ProofUndo.below_swapped _ _ _ _ _ _ _ L0 (fun _ => Some []) nothing [(m, Some (number i))] _ ltac:(intros Y; discriminate Y) IC) as (Kx & CX & SX). cbn [app] in CX. refine (eq_trans CX _). f_equal.
      pose proof (sw_here (nth k ls []) None K1 (Elem e b false (V1 ++ x :: V2)) [Elem e b false (V1 ++ V2)] K2 N ltac:(now rewrite C1)) as S0. exact (ProofLaid.swapped_fun _ _ _ _ _ _ SX S0). }
    destruct (change_below _ _ _ _ _ _ _ L _ _ _ _ NB CH) as (F' & CF & L' & TN).
    assert (LG : legal (Remove (item (lane s ls k) m i))) by (apply item_good, GT; exact LK).
    assert (AP : apply_edit (Remove (item (lane s ls k) m i)) F = Some F').
    { cbn [apply_edit]. unfold item, lane. rewrite <- app_assoc. cbn [app]. match goal with |- match ?c with _ => _ end = _ => assert (QC : c = Some F') by exact CF; rewrite QC end. reflexivity. }
    assert (TE : forest_text F' = forest_text F1).
    { rewrite (located_text _ _ _ _ _ L'), (located_text _ _ _ _ _ L1). unfold K'. rewrite (node_elem n a), forest_app, forest_cons, <- !app_assoc. reflexivity. }
    destruct ST as (G & T & FT). destruct (apply_good _ _ _ LG G T AP) as [G' T']. exists F', K', x. rewrite TE. split; [exact DE|]. split; [|split; [|split]].
    - split; [|split; [exact L'|split; [eapply readable_names; eauto|]]].
      + split; [exact G'|]. split; [exact T'|]. split; [exact (located_has _ _ _ _ _ L' eq_refl)|]. split; [destruct FT as [_ [SH _]]; exact (apply_shallow _ _ _ LG AP SH)|].
        rewrite TE. destruct ST1 as (_ & _ & _ & _ & Z1). exact Z1.
      + unfold K'. eapply board_place; eauto; rewrite CE; unfold without.
        * apply Forall_app. split; [now apply Forall_firstn'|now apply Forall_skipn'].
        * apply Forall2_app; [now apply forall2_firstn|now apply forall2_skipn].
    - destruct (outside_place ls K1 e b Kl (V1 ++ V2) K2) as [O|O]; [symmetry; exact O|].
      assert (XX : existsb (fun l => selects l e) ls = true) by (apply existsb_exists; exists (nth k ls []); split; [now apply nth_In|exact N]). congruence.
    - rewrite (located_text _ _ _ _ _ L1), (located_text _ _ _ _ _ LL). rewrite !node_elem, !forest_app, forest_cons, !app_length. lia.
    - split; [exact TX1|]. split; [|exact HX]. destruct x as [? ? ? ?| |]; try contradiction. exact NV.
  Qed.
  Lemma hand_over_ok : forall F A n a K B W o, shown F A n a K B W -> possible o W -> (N.of_nat (len (p ++ forest_text F)) <= 5242880)%N ->
    exists F' K', hand_over E fmt_g s m ls o (p ++ forest_text F) = Ok (p ++ forest_text F', None) /\ shown F' A n a K' B (transferred [] o W) /\ outside ls K' = outside ls K /\
      len (forest_text F') <= len (forest_text F).
  Proof.
    intros F A n a K B W [fr i t] SH (PF & PT & PI & PL) SZ. cbn [from to which] in *. pose proof SH as (ST & L & RD & BD). pose proof (forall2_len _ _ _ _ _ BD) as LW. unfold hand_over. cbn [from to which].
    assert (KF : fr < len ls) by (rewrite LW; exact PF). assert (KT : t < len ls) by (rewrite LW; exact PT). set (d := Text []).
    destruct (lane_place m ls K W fr BD KF) as (K1 & e & b & Kl & K2 & QK & C1 & C2 & N & TT & H). pose proof (forall2_len _ _ _ _ _ H) as LH. rewrite QK in L.
    pose proof (lane_located F A n a K1 e b Kl K2 B fr L C1 N) as LL. pose proof (lane_readable F _ _ _ fr L RD) as RL.
    destruct (read_list E Hord p Hp (lane s ls fr) m (GT fr KF) F _ e b Kl _ i d ST LL RL ltac:(lia) PL) as (r & X & G & R & SX & GX & HX & ZX & WX). rewrite G. cbn [bind]. rewrite R.
    set (x := nth i (called (selects m) Kl) d) in *. pose proof (forall2_nth _ _ _ _ _ [] d H i PI) as HO. fold x in HO.
    assert (SC : Forall2 same (nth i (nth fr W []) []) X) by (eapply same_all_trans; [exact HO|exact SX]).
    rewrite lane_len in HX. assert (PP : forall Y, len (p ++ forest_text Y) = len p + len (forest_text Y)) by (intros; apply app_length). rewrite PP in SZ.
    assert (NX : named (selects m) x = true /\ two_tags x /\ len (node_text x) <= len (forest_text F)).
    { destruct (nth_called m Kl i d ltac:(lia)) as (V1 & V2 & Q & CV & NV). fold x in Q, NV. split; [exact NV|]. split; [rewrite Forall_forall in TT; apply TT, nth_In; lia|].
      rewrite (located_text _ _ _ _ _ LL), (node_elem e b), Q, forest_app, forest_cons, !app_length. lia. }
    destruct NX as (NX & T2 & ZN). destruct x as [ex bx sx kx| |] eqn:QX; try contradiction. cbn [two_tags] in T2. subst sx. cbn [kids_of named] in *. pose proof (selects_len m ex NX) as LM.
    assert (SA : len (node_text (Elem m [] false X)) <= len (node_text (Elem ex bx false kx))).
    { rewrite !node_elem. unfold start_tag, end_tag. rewrite !app_length. change (attrs_text []) with (@nil ascii). change (len (@nil ascii)) with 0. rewrite WX. lia. }
    destruct (lane_add F A n a K B W t (nth i (nth fr W []) []) X SH KT GX HX ltac:(lia) SC ltac:(rewrite PP; lia)) as (F1 & K' & AC & SH1 & O1 & Z1). rewrite AC. cbn [bind].
    set (W1 := placed t (nth t W [] ++ [nth i (nth fr W []) []]) W) in *.
    assert (II : i < len (nth fr W1 []) /\ nth i (nth fr W1 []) [] = nth i (nth fr W []) []).
    { unfold W1. destruct (Nat.eq_dec t fr) as [->|NE]; [rewrite placed_same, app_length, app_nth1 by lia; split; [lia|reflexivity]|rewrite placed_other by lia; auto]. }
    destruct II as [II IE]. destruct (lane_drop F1 A n a K' B W1 fr i SH1 KF II) as (F2 & K3 & y & DE & SH2 & O2 & Z2 & TY & NY & HY). rewrite DE. exists F2, K3. split; [reflexivity|].
    split; [exact SH2|]. split; [congruence|]. rewrite IE in HY. destruct y as [ey by0 sy ky| |]; try contradiction. cbn [two_tags] in TY. subst sy. cbn [kids_of name_of] in *.
    pose proof (selects_len m ey NY) as LY. pose proof (same_length_all _ _ HY) as LK1. pose proof (same_length_all _ _ SC) as LK2.
    assert (SB : len (node_text (Elem m [] false X)) <= len (node_text (Elem ey by0 false ky))).
    { rewrite !node_elem. unfold start_tag, end_tag. rewrite !app_length. change (attrs_text []) with (@nil ascii). change (len (@nil ascii)) with 0. lia. }
    lia.
  Qed.
  Lemma hand_over_all_ok : forall ops F A n a K B W, shown F A n a K B W -> all_possible [] ops W -> (N.of_nat (len (p ++ forest_text F)) <= 5242880)%N ->
    exists F' K', hand_over_all E fmt_g s m ls ops (p ++ forest_text F) = Ok (p ++ forest_text F', None) /\ shown F' A n a K' B (all_transferred [] ops W) /\ outside ls K' = outside ls K.
  Proof.
    assert (PP : forall Y, len (p ++ forest_text Y) = len p + len (forest_text Y)) by (intros; apply app_length).
    induction ops as [|o ops IH]; intros F A n a K B W SH AP SZ; cbn [hand_over_all all_transferred all_possible] in *; [exists F, K; auto|]. destruct AP as [P1 P2].
    destruct (hand_over_ok F A n a K B W o SH P1 SZ) as (F1 & K1 & X & SH1 & O1 & Z1). rewrite X. cbn [bind]. rewrite PP in SZ.
    destruct (IH F1 A n a K1 B _ SH1 P2) as (F2 & K2 & X2 & SH2 & O2); [rewrite PP; lia|]. exists F2, K2. split; [exact X2|]. split; [exact SH2|congruence].
  Qed.
  Lemma lane_kept : forall F A n a K B W k, shown F A n a K B W -> k < len ls -> exists A' e b Kl B', kept p (lane s ls k) m F A' e b Kl B' (nth k W []).
  Proof.
    intros F A n a K B W k (ST & L & RD & BD) LK. destruct (lane_place m ls K W k BD LK) as (K1 & e & b & Kl & K2 & -> & C1 & C2 & N & TT & H).
    eexists _, e, b, Kl, _. split; [exact ST|]. split; [exact (lane_located F A n a K1 e b Kl K2 B k L C1 N)|]. split; [exact (lane_readable F _ _ _ k L RD)|]. auto.
  Qed.
End Calls.
