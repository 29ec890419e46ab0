(** Loops over numbered elements. *)
From Coq Require Import List Ascii String NArith ZArith Bool Lia Permutation.
From Verif Require Import GoStr ModelParser ModelPath ModelResult ModelQuery ModelValidate ModelBuilder SpecText SpecPath SpecTree SpecQuery SpecEdit SpecContent SpecValid SpecHistory SpecList SpecLoop
  ProofBase ProofPath ProofScan ProofTree ProofTree2 ProofTree3 ProofTree4 ProofTree5 ProofTree7 ProofEdit ProofEdit2 ProofEdit3 ProofEdit4 ProofEdit5 ProofEdit6 ProofEdit7 ProofEdit8 ProofEdit9 ProofEdit11 ProofEdit12 ProofRaw ProofRaw2 ProofValid2 ProofFrame4 ProofMod3 ProofList.
Import ListNotations.
Open Scope nat_scope.

(** ** Numbers *)
Lemma number_ok : forall i, number i <> [] /\ Forall digit (number i) /\ decimal_value (number i) = N.of_nat i.
Proof.
  intros i. unfold number, decimal. rewrite (proj2 (Z.ltb_ge (Z.of_nat i) 0)) by lia. cbn [app]. replace (Z.abs_N (Z.of_nat i)) with (N.of_nat i) by lia.
  destruct (digits_ok (N.size_nat (N.of_nat i)) (N.of_nat i) (le_n _)) as (D & V & _ & NE). auto.
Qed.
Lemma item_good : forall s m i fin, good_tpath (item s m 0) fin -> good_tpath (item s m i) fin.
Proof.
  intros s m i fin [GS GF GL]. destruct (number_ok i) as (N1 & N2 & _). unfold item in *. apply Forall_app in GS as [G1 G2]. inversion G2 as [|? ? [S1 S2] _]; subst. cbn [fst] in S1.
  split.
  - apply Forall_app. split; auto. constructor; [|constructor]. split; auto. split; auto.
  - assert (NE : forall d, s ++ [(m, Some d)] <> []) by (intros d H; apply app_eq_nil in H as [_ H]; discriminate).
    destruct fin; cbn [good_final] in *; auto; try (split; [apply GF|apply NE]); exfalso; apply (proj1 GF); exists s, m, (number 0); reflexivity.
  - unfold tpath_steps in *. rewrite flat_map_app, !app_length in *. exact GL.
Qed.
Lemma item_legal : forall s m i c, legal (SetContent (item s m 0) c) -> legal (SetContent (item s m i) c).
Proof.
  intros s m i c (GT & XN & GC & H). split; [now apply (item_good s m i)|]. unfold item in *. rewrite map_app, app_length in *. auto.
Qed.

(** ** Lists of children *)
Lemma says_answer : forall fin nd t, says fin nd t -> final_answer fin nd <> Nothing /\ forall r, describes r (final_answer fin nd) -> r_string r = t.
Proof.
  intros fin nd t H. destruct fin as [|x| | |]; cbn [says final_answer] in *; try contradiction.
  - split; [discriminate|]. intros r (_ & D & _). eapply decodes_eq; eauto.
  - rewrite H. split; [discriminate|]. intros r [_ D]. exact D.
Qed.
(** The first element of the name in an updated list. *)
Lemma updated_app : forall m fin f K1 K1' K2 K2', updated m fin f K1 K1' -> updated m fin f K2 K2' -> updated m fin f (K1 ++ K2) (K1' ++ K2').
Proof. induction 1; intros; [assumption|cbn [app]; constructor; auto|cbn [app]; constructor; auto]. Qed.
Lemma updated_called : forall m fin f K K', updated m fin f K K' -> len (called (selects m) K') = len (called (selects m) K).
Proof.
  induction 1 as [|x K K' N H IH|n a kids t K K' N S H IH]; [reflexivity| |].
  - rewrite !called_cons, N. exact IH.
  - rewrite !called_cons. cbn [named]. rewrite N. cbn [List.length]. now rewrite IH.
Qed.
Lemma updated_none : forall m fin f K K', updated m fin f K K' -> called (selects m) K = [] -> K' = K.
Proof.
  induction 1 as [|x K K' N H IH|n a kids t K K' N S H IH]; intros C; [reflexivity| |]; rewrite called_cons in C.
  - rewrite N in C. now rewrite IH.
  - cbn [named] in C. rewrite N in C. discriminate.
Qed.
Lemma updated_split : forall m fin f K K', updated m fin f K K' -> called (selects m) K <> [] ->
  exists K0 n a kids t K1 K1', K = K0 ++ Elem n a false kids :: K1 /\ K' = K0 ++ Elem n a false [Text (esc (f t))] :: K1' /\
    called (selects m) K0 = [] /\ selects m n = true /\ says fin (Elem n a false kids) t /\ updated m fin f K1 K1'.
Proof.
  induction 1 as [|x K K' N H IH|n a kids t K K' N S H IH]; intros C; [contradiction| |].
  - rewrite called_cons, N in C. destruct (IH C) as (K0 & n & a & kids & t & K1 & K1' & -> & -> & C0 & R). exists (x :: K0), n, a, kids, t, K1, K1'.
    repeat (split; auto); try tauto. rewrite called_cons, N. exact C0.
  - exists [], n, a, kids, t, K, K'. repeat (split; auto).
Qed.
(** The last element of the name. *)
Lemma called_split : forall m k K, len (called (selects m) K) = S k -> exists K1 x K2, K = K1 ++ x :: K2 /\ len (called (selects m) K1) = k /\ named (selects m) x = true /\ called (selects m) K2 = [].
Proof.
  intros m k K. revert k. induction K as [|x K IH] using rev_ind; intros k H; [discriminate|]. rewrite called_app, app_length in H.
  destruct (named (selects m) x) eqn:N.
  - exists K, x, []. assert (Q : called (selects m) [x] = [x]) by (rewrite called_cons, N; reflexivity). rewrite Q in H. cbn [List.length] in H. repeat split; auto. lia.
  - assert (Q : called (selects m) [x] = []) by (rewrite called_cons, N; reflexivity). rewrite Q in H. cbn [List.length] in H. rewrite Nat.add_0_r in H.
    destruct (IH k H) as (K1 & y & K2 & -> & C1 & N1 & C2). exists K1, y, (K2 ++ [x]). rewrite <- app_assoc. cbn [app]. repeat split; auto. rewrite called_app, C2, Q. reflexivity.
Qed.
Lemma swept_none : forall m fin P K K', swept m fin P K K' -> called (selects m) K = [] -> K' = K.
Proof.
  induction 1 as [|x K K' N H IH|x t K K' N S Q H IH|x t K K' N S Q H IH]; intros C; auto; rewrite called_cons, N in C; try discriminate. now rewrite IH.
Qed.
Lemma swept_split : forall m fin P K1 K2 K', swept m fin P (K1 ++ K2) K' -> exists K1' K2', K' = K1' ++ K2' /\ swept m fin P K1 K1' /\ swept m fin P K2 K2'.
Proof.
  intros m fin P. induction K1 as [|x K1 IH]; intros K2 K' H; [exists [], K'; repeat split; auto; constructor|]. cbn [app] in H.
  inversion H as [|? ? K0 N H0|? t ? K0 N S Q H0|? t ? K0 N S Q H0]; subst; destruct (IH _ _ H0) as (K1' & K2' & -> & H1 & H2).
  - exists (x :: K1'), K2'. repeat split; auto. now constructor.
  - exists (x :: K1'), K2'. repeat split; auto. econstructor 3; eauto.
  - exists K1', K2'. repeat split; auto. econstructor 4; eauto.
Qed.

Section Calls.
  Variable E : env.
  Variable fmt_g : f64 -> bytes.
  Hypothesis Hord : forall k l, Permutation l (e_ord E k l).
  Variable p : bytes.
  Hypothesis Hp : prolog p.
  Hypothesis SP : strict_prolog p.
  Notation state := (ProofList.state p).

  Lemma item_change : forall m i K1 x K2 g miss l, len (called (selects m) K1) = i -> named (selects m) x = true -> g x = Some l ->
    change g miss [(m, Some (number i))] (K1 ++ x :: K2) = Some (K1 ++ l ++ K2).
  Proof.
    intros m i K1 x K2 g miss l C N Q. destruct (number_ok i) as (_ & _ & V). eapply swapped_change; [|exact Q].
    apply (sw_here m (Some (number i)) K1 x l K2); auto. cbn [index_of]. rewrite V, Nat2N.id. exact C.
  Qed.
  Lemma item_located : forall m i K1 x K2, len (called (selects m) K1) = i -> named (selects m) x = true ->
    located [(m, Some (number i))] (K1 ++ x :: K2) (forest_text K1) x (forest_text K2).
  Proof. intros m i K1 x K2 C N. destruct (number_ok i) as (_ & _ & V). constructor; auto. cbn [index_of]. now rewrite V, Nat2N.id. Qed.
  Lemma item_read : forall F s A n a K1 x K2 B m i fin t, state F -> located s F A (Elem n a false (K1 ++ x :: K2)) B -> readable s F -> len (called (selects m) K1) = i -> i < 1000 ->
    named (selects m) x = true -> good_tpath (item s m 0) fin -> says fin x t -> exists r, get E (p ++ forest_text F) (tpath (item s m i) fin) = Ok r /\ r_string r = t.
  Proof.
    intros F s A n a K1 x K2 B m i fin t ST L RD C LT N GT SY. destruct (says_answer _ _ _ SY) as [NN DS]. destruct (number_ok i) as (_ & _ & V).
    destruct (list_read E Hord p Hp F s A n a _ B m ST L RD) as [R1 _].
    destruct (R1 i x (number i) fin) as (r & G & D); auto; [|now apply (item_good s m i)|exists r; split; auto].
    rewrite called_app, called_cons, N, nth_error_app2, C, Nat.sub_diag by lia. reflexivity.
  Qed.
  Lemma update_one : forall F s A n a K1 e b kids K2 B m i v, state F -> located s F A (Elem n a false (K1 ++ Elem e b false kids :: K2)) B -> len (called (selects m) K1) = i ->
    selects m e = true -> legal (SetContent (item s m 0) (AsText v)) -> (blen (p ++ A ++ node_text (Elem n a false (K1 ++ Elem e b false [Text (esc v)] :: K2)) ++ B) <= 10485760)%N ->
    exists F', set E fmt_g (p ++ forest_text F) (tpath (item s m i) TheElement) (VStr v) = Ok (p ++ forest_text F', None) /\ state F' /\
      located s F' A (Elem n a false (K1 ++ Elem e b false [Text (esc v)] :: K2)) B /\ top_names F' = top_names F.
  Proof.
    intros F s A n a K1 e b kids K2 B m i v (G & T & FT) L C N LG0 SZ. pose proof (item_legal s m i _ LG0) as LG. pose proof LG as (GT & _ & GC & _). destruct GC as [_ GC]. cbn [content_nodes] in GC. rewrite forest_one in GC. cbn [node_text] in GC.
    pose proof (state_valid p F SP G T FT) as V.
    pose proof (item_change m i K1 (Elem e b false kids) K2 (with_kids [Text (esc v)]) (new_kids [Text (esc v)]) [Elem e b false [Text (esc v)]] C N eq_refl) as CH. cbn [app] in CH.
    destruct (change_below _ _ _ _ _ _ _ L _ _ [(m, Some (number i))] _ ltac:(discriminate) CH) as (F' & C' & L' & TN). exists F'.
    assert (AP : apply_edit (SetContent (item s m i) (AsText v)) F = Some F') by (cbn [apply_edit content_nodes]; exact C').
    destruct (apply_good _ _ _ LG G T AP) as [G' T']. pose proof (located_text _ _ _ _ _ L') as TX.
    pose proof (located_app _ _ _ _ _ _ _ L _ _ _ _ (item_located m i K1 (Elem e b false kids) K2 C N)) as LA.
    assert (FT' : fits p F').
    { split; [eapply located_has; eauto|]. split; [destruct FT as [_ [SH _]]; exact (apply_shallow _ _ _ LG AP SH)|]. now rewrite TX. }
    split; [|split; [split; auto|split; auto]].
    destruct (set_text_ok E fmt_g Hord p F Hp G V _ _ _ _ _ _ v GT LA GC) as [S _]. unfold item in *. rewrite S, TX, node_elem, forest_app, forest_cons, node_elem, forest_one. cbn [node_text]. rewrite <- !app_assoc. reflexivity.
  Qed.
  Lemma delete_one : forall F s A n a K1 x K2 B m i, state F -> located s F A (Elem n a false (K1 ++ x :: K2)) B -> len (called (selects m) K1) = i ->
    named (selects m) x = true -> good_tpath (item s m 0) TheElement ->
    exists F', delete E (p ++ forest_text F) (tpath (item s m i) TheElement) = Ok (p ++ forest_text F', None) /\ state F' /\
      located s F' A (Elem n a false (K1 ++ K2)) B /\ top_names F' = top_names F.
  Proof.
    intros F s A n a K1 x K2 B m i (G & T & FT) L C N GT0. pose proof (item_good s m i _ GT0) as GT. pose proof (state_valid p F SP G T FT) as V.
    pose proof (item_change m i K1 x K2 (fun _ => Some []) nothing [] C N eq_refl) as CH. cbn [app] in CH.
    destruct (change_below _ _ _ _ _ _ _ L _ _ [(m, Some (number i))] _ ltac:(discriminate) CH) as (F' & C' & L' & TN). exists F'.
    assert (AP : apply_edit (Remove (item s m i)) F = Some F') by (cbn [apply_edit]; unfold item; now rewrite C').
    destruct (apply_good (Remove (item s m i)) _ _ GT G T AP) as [G' T']. pose proof (located_text _ _ _ _ _ L') as TX.
    pose proof (located_app _ _ _ _ _ _ _ L _ _ _ _ (item_located m i K1 x K2 C N)) as LA.
    assert (FT' : fits p F').
    { split; [eapply located_has; eauto|]. split; [destruct FT as [_ [SH _]]; exact (apply_shallow (Remove (item s m i)) _ _ GT AP SH)|]. destruct FT as [_ [_ SZ]].
      rewrite (located_text _ _ _ _ _ L) in SZ. rewrite TX. rewrite !app_length, !node_elem, !app_length, !forest_app, !app_length in *. rewrite forest_cons, app_length in SZ. lia. }
    split; [|split; [split; auto|split; auto]].
    assert (TT : p ++ (A ++ start_tag n a false ++ forest_text K1) ++ forest_text K2 ++ end_tag n ++ B = p ++ forest_text F').
    { rewrite TX, node_elem, forest_app, <- !app_assoc. reflexivity. }
    unfold item in *. rewrite (delete_found E Hord p F Hp G (valid_size _ V) V _ _ _ _ GT LA), TT.
    destruct (p ++ forest_text F') eqn:K; [|reflexivity]. exfalso. apply app_eq_nil in K. destruct K as [_ K]. destruct FT' as [HE _]. now apply (forest_nonempty F' HE).
  Qed.
  (** The loops, from any point on. *)
  Lemma update_from : forall s m fin f k F A n a K1 K2 K2' B first, state F -> located s F A (Elem n a false (K1 ++ K2)) B -> readable s F ->
    len (called (selects m) K1) = first -> len (called (selects m) K2) = k -> first + k <= 1000 -> good_tpath (item s m 0) fin ->
    updated m fin f K2 K2' -> (forall x t, In x (called (selects m) K2) -> says fin x t -> legal (SetContent (item s m 0) (AsText (f t)))) ->
    (N.of_nat (len (p ++ forest_text F) + len (forest_text K2')) <= 10485760)%N ->
    exists F', update_loop E fmt_g s m fin f first k (p ++ forest_text F) = Ok (p ++ forest_text F', None) /\ state F' /\
      located s F' A (Elem n a false (K1 ++ K2')) B /\ top_names F' = top_names F.
  Proof.
    intros s m fin f. induction k as [|k IH]; intros F A n a K1 K2 K2' B first ST L RD C1 C2 LE GT U LG SZ.
    - exists F. cbn [update_loop]. apply length_zero_iff_nil in C2. rewrite (updated_none _ _ _ _ _ U C2). auto.
    - destruct (updated_split _ _ _ _ _ U) as (K0 & e & b & kids & t & K3 & K3' & -> & -> & C0 & N & SY & U3); [intros Q; rewrite Q in C2; discriminate|].
      rewrite called_app, C0, called_cons in C2. cbn [named app List.length] in C2. rewrite N in C2. cbn [List.length] in C2. injection C2 as C2.
      rewrite app_assoc in L. assert (C1' : len (called (selects m) (K1 ++ K0)) = first) by (rewrite called_app, C0, app_nil_r; exact C1).
      assert (N' : named (selects m) (Elem e b false kids) = true) by exact N.
      cbn [update_loop]. destruct (item_read F s A n a _ _ _ B m first fin t ST L RD C1' ltac:(lia) N' GT SY) as (r & -> & ->).
      assert (I0 : In (Elem e b false kids) (called (selects m) (K0 ++ Elem e b false kids :: K3))) by (rewrite called_app, called_cons, N'; apply in_or_app; right; now left).
      pose proof (located_text _ _ _ _ _ L) as TX.
      destruct (update_one F s A n a (K1 ++ K0) e b kids K3 B m first (f t) ST L C1' N (LG _ _ I0 SY)) as (F1 & -> & ST1 & L1 & TN1).
      { unfold blen. rewrite TX in SZ. rewrite !app_length, !node_elem, !app_length, !forest_app, !app_length, !forest_cons, !app_length, !node_elem, !app_length in *. rewrite forest_one in *. cbn [node_text] in *. lia. }
      pose proof (located_text _ _ _ _ _ L1) as TX1.
      destruct (IH F1 A n a ((K1 ++ K0) ++ [Elem e b false [Text (esc (f t))]]) K3 K3' B (S first)) as (F2 & C & ST2 & L2 & TN2); auto.
      + now rewrite <- app_assoc.
      + eapply readable_names; eauto.
      + rewrite called_app, app_length, C1', called_cons. cbn [named]. rewrite N. change (called (selects m) []) with (@nil node). cbn [List.length]. lia.
      + lia.
      + intros x u I. apply LG. rewrite called_app, called_cons, N'. apply in_or_app. right. now right.
      + rewrite TX1. rewrite TX in SZ. rewrite !app_length, !node_elem, !app_length, !forest_app, !app_length, !forest_cons, !app_length, !node_elem, !app_length in *. rewrite forest_one in *. cbn [node_text] in *. lia.
      + exists F2. split; [exact C|]. split; auto. split; [|congruence]. rewrite <- !app_assoc in L2. exact L2.
  Qed.
  Lemma sweep_from : forall s m fin P k F A n a K1 K1' K2 B, state F -> located s F A (Elem n a false (K1 ++ K2)) B -> readable s F ->
    len (called (selects m) K1) = k -> k <= 1000 -> good_tpath (item s m 0) fin -> good_tpath (item s m 0) TheElement -> swept m fin P K1 K1' ->
    exists F', sweep_loop E s m fin P k (p ++ forest_text F) = Ok (p ++ forest_text F', None) /\ state F' /\
      located s F' A (Elem n a false (K1' ++ K2)) B /\ top_names F' = top_names F.
  Proof.
    intros s m fin P. induction k as [|k IH]; intros F A n a K1 K1' K2 B ST L RD C1 LE GT GE W.
    - exists F. cbn [sweep_loop]. apply length_zero_iff_nil in C1. rewrite (swept_none _ _ _ _ _ W C1). auto.
    - destruct (called_split _ _ _ C1) as (K0 & x & K3 & -> & C0 & N & C3). destruct (swept_split _ _ _ _ _ _ W) as (K0' & Kx & -> & W0 & Wx).
      rewrite <- app_assoc in L. cbn [app] in L. cbn [sweep_loop].
      inversion Wx as [|? ? Ky N1 H0|? t ? Ky N1 SY Q H0|? t ? Ky N1 SY Q H0]; subst; [congruence| |]; rewrite (swept_none _ _ _ _ _ H0 C3).
      + destruct (item_read F s A n a _ _ _ B m _ fin t ST L RD eq_refl ltac:(lia) N GT SY) as (r & -> & ->). rewrite Q.
        destruct (IH F A n a K0 K0' (x :: K3 ++ K2) B) as (F2 & C & ST2 & L2 & TN2); auto; [lia|]. exists F2. split; auto. split; auto. split; auto. rewrite <- app_assoc. exact L2.
      + destruct (item_read F s A n a _ _ _ B m _ fin t ST L RD eq_refl ltac:(lia) N GT SY) as (r & -> & ->). rewrite Q.
        destruct (delete_one F s A n a K0 x (K3 ++ K2) B m _ ST L eq_refl N GE) as (F1 & -> & ST1 & L1 & TN1).
        destruct (IH F1 A n a K0 K0' (K3 ++ K2) B) as (F2 & C & ST2 & L2 & TN2); auto; [eapply readable_names; eauto|lia|]. exists F2. split; auto. split; auto. split; [|congruence]. rewrite <- app_assoc. exact L2.
  Qed.
  Lemma counted_ok : forall F s A n a kids B m loop, state F -> located s F A (Elem n a false kids) B -> readable s F ->
    called (selects m) kids <> [] -> len (called (selects m) kids) <= 1000 -> good_tpath (s ++ [(m, None)]) TheCount ->
    counted E s m loop (p ++ forest_text F) = loop (len (called (selects m) kids)) (p ++ forest_text F).
  Proof.
    intros F s A n a kids B m loop ST L RD NE LE GT. destruct (list_read E Hord p Hp F s A n a _ B m ST L RD) as [_ R2]. destruct (R2 NE GT) as (r & G & T & NU & _).
    unfold counted. rewrite G. f_equal. rewrite Nat.min_r in NU by lia. replace (r_int r) with (r_int (r_count (len (called (selects m) kids)))); [rewrite (proj1 (count_int _ LE)); apply Nat2Z.id|].
    unfold r_int. rewrite T, NU. reflexivity.
  Qed.
End Calls.
