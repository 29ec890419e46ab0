(** Building and emptying lists. *)
From Coq Require Import List Ascii String NArith ZArith Bool Lia Permutation.
From Verif Require Import GoStr ModelParser ModelPath ModelResult ModelQuery ModelValidate ModelBuilder SpecText SpecPath SpecTree SpecQuery SpecEdit SpecContent SpecValid SpecHistory SpecList
  ProofBase ProofPath ProofScan ProofTree ProofTree2 ProofTree3 ProofTree4 ProofTree5 ProofEdit ProofEdit2 ProofEdit3 ProofEdit4 ProofEdit5 ProofEdit6 ProofEdit7 ProofEdit8 ProofEdit9 ProofEdit11 ProofEdit12 ProofRaw ProofValid2 ProofFrame4.
Import ListNotations.

Lemma up_exists : forall m kids, exists K1 K2, up_to_last m kids K1 K2.
Proof. intros m kids. destruct (insert_split (selects m) kids) as (K1 & K2 & H1 & _ & H3 & H4 & H5). exists K1, K2. split; auto. Qed.
Lemma up_fun : forall m kids K1 K2 L1 L2, up_to_last m kids K1 K2 -> up_to_last m kids L1 L2 -> K1 = L1 /\ K2 = L2.
Proof.
  intros m kids K1 K2 L1 L2 (A1 & A2 & A3 & A4) (B1 & B2 & B3 & B4).
  destruct (called (selects m) kids) as [|z l] eqn:Q.
  - rewrite (A3 eq_refl), (B3 eq_refl), app_nil_r in *. subst. auto.
  - destruct (A4 ltac:(discriminate)) as (K & x & -> & Nx). destruct (B4 ltac:(discriminate)) as (L & y & -> & Ny). rewrite A1, <- !app_assoc in B1.
    cbn [app] in B1. clear - B1 A2 B2 Nx Ny.
    assert (N : forall (M : list node) x R, named (selects m) x = true -> called (selects m) (M ++ x :: R) <> []).
    { intros M x0 R N. rewrite called_app, called_cons, N. destruct (called (selects m) M); discriminate. }
    revert L B1. induction K as [|k K IH]; intros [|l L] H; cbn [app] in H.
    + injection H as -> ->. auto.
    + injection H as -> ->. exfalso. now apply (N L y L2 Ny).
    + injection H as -> H. exfalso. subst L2. now apply (N K x K2 Nx).
    + injection H as -> H. destruct (IH L H) as [E1 E2]. split; auto. cbn [app]. now rewrite E1.
Qed.
Lemma insert_up : forall m kids K1 K2 c, up_to_last m kids K1 K2 -> insert_last (selects m) c kids = K1 ++ c :: K2.
Proof.
  intros m kids K1 K2 c U. destruct (insert_split (selects m) kids) as (L1 & L2 & H1 & H2 & H3 & H4 & H5).
  destruct (up_fun m kids K1 K2 L1 L2 U) as [-> ->]; [split; auto|apply H2].
Qed.
Lemma up_more : forall m kids K1 K2 K, up_to_last m kids K1 K2 -> up_to_last m (K1 ++ Elem m [] false K :: K2) (K1 ++ [Elem m [] false K]) K2.
Proof.
  intros m kids K1 K2 K (A1 & A2 & A3 & A4). split; [now rewrite <- app_assoc|]. split; auto.
  assert (N : named (selects m) (Elem m [] false K) = true) by apply selects_self. split.
  - intros H. exfalso. rewrite called_app, called_cons, N in H. destruct (called (selects m) K1); discriminate.
  - intros _. exists K1, (Elem m [] false K). auto.
Qed.
Lemma up_called : forall m kids K1 K2, up_to_last m kids K1 K2 -> called (selects m) K1 = called (selects m) kids.
Proof. intros m kids K1 K2 (-> & A2 & _). now rewrite called_app, A2, app_nil_r. Qed.
Lemma entries_called : forall m cs, called (selects m) (entries m cs) = entries m cs.
Proof. intros m. induction cs as [|c cs IH]; [reflexivity|]. change (entries m (c :: cs)) with (Elem m [] false (content_nodes c) :: entries m cs). rewrite called_cons. cbn [named]. rewrite selects_self. now rewrite IH. Qed.

Section Calls.
  Variable E : env.
  Variable fmt_g : f64 -> bytes.
  Hypothesis Hord : forall k l, Permutation l (e_ord E k l).
  Variable p : bytes.
  Hypothesis Hp : prolog p.
  Hypothesis SP : strict_prolog p.

  Definition state (F : list node) : Prop := Forall good F /\ Forall top_node F /\ fits p F.
  Lemma located_has : forall s F A nd B, located s F A nd B -> is_elem nd = true -> has_element F.
  Proof.
    intros s F A nd B L EL. inversion L; subst.
    - destruct nd as [n0 a0 s0 k0| |]; try discriminate. exists n0, a0, s0, k0. apply in_or_app. right. now left.
    - eexists _, _, _, _. apply in_or_app. right. left. reflexivity.
  Qed.
  Lemma append_one : forall F s A n a kids B m c K1 K2, state F -> located s F A (Elem n a false kids) B -> legal (Append s m c) -> up_to_last m kids K1 K2 ->
    (blen (p ++ A ++ node_text (Elem n a false (K1 ++ Elem m [] false (content_nodes c) :: K2)) ++ B) <= 10485760)%N ->
    exists F', call E fmt_g (Append s m c) (p ++ forest_text F) = Ok (p ++ forest_text F', None) /\ state F' /\
      located s F' A (Elem n a false (K1 ++ Elem m [] false (content_nodes c) :: K2)) B /\ top_names F' = top_names F.
  Proof.
    intros F s A n a kids B m c K1 K2 (G & T & FT) L LG U SZ. pose proof (state_valid p F SP G T FT) as V. pose proof LG as (GS & LN & XN & GC & HT).
    destruct (content_call E fmt_g c (p ++ forest_text F) (tpath (s ++ [(m, None)]) TheElement ++ bs ".-1") GC) as [v [NV [VX [SV CC]]]].
    pose proof (append_kids_ok E fmt_g Hord p F Hp G V v (content_nodes c) NV VX SV s A n a kids B m GS LN L) as AK. cbv zeta in AK. unfold child_of in AK.
    rewrite (insert_up m kids K1 K2 _ U) in AK. specialize (AK SZ).
    destruct (located_good _ _ _ _ _ L G) as [GE _]. inversion GE as [? ? ? ? GN GA GSf GK| |]; subst.
    set (nd' := Elem n a false (K1 ++ Elem m [] false (content_nodes c) :: K2)) in *.
    assert (GN' : good nd').
    { constructor; auto; [discriminate|]. rewrite <- (insert_up m kids K1 K2 _ U). apply insert_good; auto. apply child_good; auto. now apply content_good. }
    destruct (replace_located s F A _ B nd' L G GN' eq_refl eq_refl) as (F' & SW & TX & GF & L' & TN).
    assert (AP : apply_edit (Append s m c) F = Some F').
    { destruct s as [|s0 s]; [inversion L|]. cbn [apply_edit]. eapply swapped_change; [exact SW|]. cbn [more_kids]. unfold nd'. now rewrite (insert_up m kids K1 K2 _ U). }
    exists F'. split; [|split; [|split; auto]].
    - cbn [call]. rewrite CC, TX. exact AK.
    - destruct (apply_good _ _ _ LG G T AP) as [_ T']. split; auto. split; auto. split; [eapply located_has; eauto|]. split.
      + destruct FT as [_ [SH _]]. eapply apply_shallow; eauto.
      + rewrite TX. exact SZ.
  Qed.
  Lemma longer_kids : forall n a (K1 X Y K2 : list node), len (node_text (Elem n a false (K1 ++ X ++ K2))) <= len (node_text (Elem n a false (K1 ++ X ++ Y ++ K2))).
  Proof. intros. rewrite !node_elem, !forest_app, !app_length. lia. Qed.
  Lemma append_each : forall cs F s A n a kids B m K1 K2, state F -> located s F A (Elem n a false kids) B -> (forall c, In c cs -> legal (Append s m c)) -> up_to_last m kids K1 K2 ->
    (blen (p ++ A ++ node_text (Elem n a false (K1 ++ entries m cs ++ K2)) ++ B) <= 10485760)%N ->
    exists F', calls E fmt_g (map (Append s m) cs) (p ++ forest_text F) = Ok (p ++ forest_text F', None) /\ state F' /\
      located s F' A (Elem n a false (K1 ++ entries m cs ++ K2)) B /\ top_names F' = top_names F.
  Proof.
    induction cs as [|c cs IH]; intros F s A n a kids B m K1 K2 ST L LG U SZ.
    - exists F. cbn [map calls entries app]. destruct U as (U1 & _). rewrite <- U1. auto.
    - change (entries m (c :: cs)) with ([Elem m [] false (content_nodes c)] ++ entries m cs) in *. rewrite <- app_assoc in *.
      destruct (append_one F s A n a kids B m c K1 K2 ST L (LG c (or_introl eq_refl)) U) as (F1 & C1 & ST1 & L1 & TN1).
      { pose proof (longer_kids n a K1 [Elem m [] false (content_nodes c)] (entries m cs) K2) as LE. cbn [app] in LE. cbn [app] in SZ. unfold blen in *. rewrite !app_length in *. lia. }
      pose proof (up_more m kids K1 K2 (content_nodes c) U) as U1.
      destruct (IH F1 s A n a _ B m _ K2 ST1 L1 (fun c' I => LG c' (or_intror I)) U1) as (F2 & C2 & ST2 & L2 & TN2).
      { rewrite <- app_assoc. exact SZ. }
      exists F2. rewrite <- app_assoc in L2. cbn [map calls]. rewrite C1. split; [exact C2|]. split; auto. split; [exact L2|congruence].
  Qed.
  (** What is read below a located element. *)
  Lemma below_read : forall F s A n a kids B, state F -> located s F A (Elem n a false kids) B -> readable s F -> forall t fin x, good_tpath (s ++ t) fin -> t <> [] ->
    query false t fin kids = x -> x <> Nothing -> exists r, get E (p ++ forest_text F) (tpath (s ++ t) fin) = Ok r /\ describes r x.
  Proof.
    intros F s A n a kids B (G & T & FT) L RD t fin x GQ NT Q NN. destruct FT as [_ [_ SZ]].
    destruct (get_query_text E Hord p F F (s ++ t) fin Hp (same_all_refl F) G SZ GQ) as [r [R1 R2]]. exists r. split; auto.
    assert (Q' : query true (s ++ t) fin F = x).
    { rewrite (query_prefix _ _ _ _ _ L t fin true NT); [exact Q|cbn [kids_of]; now rewrite Q|eapply readable_small; eauto|intros _; eapply readable_clear; eauto]. }
    rewrite <- Q'. apply denotes_describes; auto. now apply query_good.
  Qed.
  Lemma list_read : forall F s A n a kids B m, state F -> located s F A (Elem n a false kids) B -> readable s F ->
    (forall i nd ds fin, nth_error (called (selects m) kids) i = Some nd -> i < 1000 -> decimal_value ds = N.of_nat i -> good_tpath (s ++ [(m, Some ds)]) fin ->
      final_answer fin nd <> Nothing -> exists r, get E (p ++ forest_text F) (tpath (s ++ [(m, Some ds)]) fin) = Ok r /\ describes r (final_answer fin nd)) /\
    (called (selects m) kids <> [] -> good_tpath (s ++ [(m, None)]) TheCount ->
      exists r, get E (p ++ forest_text F) (tpath (s ++ [(m, None)]) TheCount) = Ok r /\ describes r (Count (Nat.min 1000 (len (called (selects m) kids))))).
  Proof.
    intros F s A n a kids B m ST L RD. split.
    - intros i nd ds fin NE LT DV GT NN. eapply below_read; eauto; [discriminate|].
      assert (NC : fin <> TheChildren /\ fin <> TheCount) by (split; intros ->; now apply NN).
      cbn [query]. rewrite DV, Nnat.Nat2N.id, nth_firstn by lia. rewrite NE. destruct fin; try reflexivity; destruct NC; contradiction.
    - intros NE GT. eapply below_read; eauto; [discriminate| |discriminate]. cbn [query]. rewrite firstn_length. unfold count_answer.
      destruct (called (selects m) kids) as [|x l]; [contradiction|]. cbn [List.length]. replace (Nat.min 1000 (S (len l))) with (S (Nat.min 999 (len l))) by lia. reflexivity.
  Qed.

  (** ** Removing one after the other *)
  Lemma without_none : forall m j kids, called (selects m) kids = [] -> without_first m j kids = kids.
  Proof.
    intros m j. induction kids as [|x kids IH]; intros H; [reflexivity|]. rewrite called_cons in H. cbn [without_first]. destruct (named (selects m) x); [discriminate|]. now rewrite IH.
  Qed.
  Lemma without_zero : forall m kids, without_first m 0 kids = kids.
  Proof. intros m. induction kids as [|x kids IH]; [reflexivity|]. cbn [without_first]. destruct (named (selects m) x); [reflexivity|]. now rewrite IH. Qed.
  Lemma without_split : forall m j K1 x K2, called (selects m) K1 = [] -> named (selects m) x = true -> without_first m (S j) (K1 ++ x :: K2) = without_first m j (K1 ++ K2).
  Proof.
    intros m j. induction K1 as [|k K1 IH]; intros x K2 H N; cbn [app without_first]; [now rewrite N|]. rewrite called_cons in H. destruct (named (selects m) k); [discriminate|]. now rewrite IH.
  Qed.
  Lemma first_split : forall m kids, called (selects m) kids <> [] -> exists K1 x K2, kids = K1 ++ x :: K2 /\ called (selects m) K1 = [] /\ named (selects m) x = true.
  Proof.
    intros m. induction kids as [|x kids IH]; intros H; [contradiction|]. rewrite called_cons in H. destruct (named (selects m) x) eqn:N.
    - exists [], x, kids. auto.
    - destruct (IH H) as (K1 & y & K2 & -> & H1 & H2). exists (x :: K1), y, K2. split; auto. split; auto. rewrite called_cons, N. exact H1.
  Qed.
  Lemma remove_one : forall F s A n a kids B m, state F -> located s F A (Elem n a false kids) B -> good_tpath (s ++ [(m, None)]) TheElement ->
    exists F', call E fmt_g (Remove (s ++ [(m, None)])) (p ++ forest_text F) = Ok (p ++ forest_text F', None) /\ state F' /\
      located s F' A (Elem n a false (without_first m 1 kids)) B /\ top_names F' = top_names F.
  Proof.
    intros F s A n a kids B m (G & T & FT) L GT. pose proof (state_valid p F SP G T FT) as V. cbn [call].
    destruct (called (selects m) kids) as [|z l] eqn:Q.
    - exists F. rewrite (without_none m 1 kids Q). split; [|split; [split; auto|split; auto]]. apply (delete_missing E Hord p F Hp G (valid_size _ V) V _ TheElement GT); auto.
      intros A' nd' B' L'. eapply absent_below; eauto.
    - destruct (first_split m kids) as (K1 & x & K2 & E1 & E2 & E3); [now rewrite Q|]. subst kids.
      assert (LH : located [(m, None)] (K1 ++ x :: K2) (forest_text K1) x (forest_text K2)).
      { constructor; auto. now rewrite E2. }
      pose proof (located_app _ _ _ _ _ _ _ L _ _ _ _ LH) as LA.
      destruct (located_good _ _ _ _ _ L G) as [GE _]. inversion GE as [? ? ? ? GN GA GSf GK| |]; subst.
      assert (W : without_first m 1 (K1 ++ x :: K2) = K1 ++ K2) by (rewrite without_split, without_zero; auto). rewrite W.
      assert (GN' : good (Elem n a false (K1 ++ K2))).
      { constructor; auto; [discriminate|]. apply Forall_app in GK. destruct GK as [GK1 GK2]. inversion GK2; subst. apply Forall_app. auto. }
      assert (C : change (fun _ => Some []) nothing [(m, None)] (K1 ++ x :: K2) = Some (K1 ++ K2)).
      { cbn [change index_of]. rewrite Q. cbn [nth_error]. apply edit_nth_split. exists K1, x, K2, []. repeat split; auto. now rewrite E2. }
      destruct (change_below _ _ _ _ _ _ _ L (fun _ => Some []) nothing [(m, None)] _ ltac:(discriminate) C) as (F' & C' & L' & TN). exists F'.
      assert (AP : apply_edit (Remove (s ++ [(m, None)])) F = Some F') by (cbn [apply_edit]; now rewrite C').
      destruct (apply_good (Remove (s ++ [(m, None)])) _ _ GT G T AP) as [G' T']. pose proof (located_text _ _ _ _ _ L') as TX.
      assert (TT : p ++ (A ++ start_tag n a false ++ forest_text K1) ++ forest_text K2 ++ end_tag n ++ B = p ++ forest_text F').
      { rewrite TX, node_elem, forest_app, <- !app_assoc. reflexivity. }
      assert (FT' : fits p F').
      { split; [eapply located_has; eauto|]. split; [destruct FT as [_ [SH _]]; exact (apply_shallow (Remove (s ++ [(m, None)])) _ _ GT AP SH)|]. destruct FT as [_ [_ SZ]].
        rewrite (located_text _ _ _ _ _ L) in SZ. rewrite TX. rewrite !app_length, !node_elem, !app_length, !forest_app, !app_length in *. rewrite forest_cons, app_length in SZ. lia. }
      split; [|split; [split; auto|split; auto]].
      rewrite (delete_found E Hord p F Hp G (valid_size _ V) V _ _ _ _ GT LA), TT.
      destruct (p ++ forest_text F') eqn:K; [|reflexivity]. exfalso. apply app_eq_nil in K. destruct K as [_ K]. destruct FT' as [HE _]. now apply (forest_nonempty F' HE).
  Qed.
  Lemma remove_each : forall j F s A n a kids B m, state F -> located s F A (Elem n a false kids) B -> good_tpath (s ++ [(m, None)]) TheElement ->
    exists F', calls E fmt_g (repeat (Remove (s ++ [(m, None)])) j) (p ++ forest_text F) = Ok (p ++ forest_text F', None) /\ state F' /\
      located s F' A (Elem n a false (without_first m j kids)) B /\ top_names F' = top_names F.
  Proof.
    induction j as [|j IH]; intros F s A n a kids B m ST L GT.
    - exists F. rewrite without_zero. auto.
    - destruct (remove_one F s A n a kids B m ST L GT) as (F1 & C1 & ST1 & L1 & TN1). destruct (IH F1 s A n a _ B m ST1 L1 GT) as (F2 & C2 & ST2 & L2 & TN2).
      exists F2. cbn [repeat calls]. rewrite C1. split; auto. split; auto. split; [|congruence].
      replace (without_first m (S j) kids) with (without_first m j (without_first m 1 kids)); auto.
      destruct (called (selects m) kids) as [|z l] eqn:Q; [now rewrite !(without_none m _ kids Q)|].
      destruct (first_split m kids) as (K1 & x & K2 & -> & E2 & E3); [now rewrite Q|]. now rewrite !without_split, without_zero.
  Qed.
End Calls.
