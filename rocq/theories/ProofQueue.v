(** Documents used as queues: proofs. *)
From Coq Require Import List Ascii String NArith ZArith Bool Lia Permutation.
From Verif Require Import GoStr ModelParser ModelPath ModelResult ModelQuery ModelValidate ModelBuilder SpecText SpecPath SpecTree SpecQuery SpecEdit SpecContent SpecValid SpecFilter SpecLang SpecHistory SpecTable SpecList SpecLoop SpecQueue
  ProofBase ProofEscape ProofScan ProofTree ProofTree2 ProofTree4 ProofTree5 ProofTree7 ProofEdit ProofEdit2 ProofEdit3 ProofEdit4 ProofEdit5 ProofEdit6 ProofEdit7 ProofEdit8 ProofEdit9 ProofEdit11 ProofEdit12 ProofRaw ProofValid2 ProofFrame4 ProofMod3 ProofList ProofLoop ProofTable ProofTable2.
Import ListNotations.
Open Scope nat_scope.
Notation called_cons := ProofEdit2.called_cons.

Lemma query_sole : forall names F nd, sole names F nd -> forall t fin top, t <> [] -> query top (by_name names ++ t) fin F = query false t fin (kids_of nd).
Proof.
  induction 1 as [n0 F nd C|n0 rest F m0 a0 kids0 nd C SO IH]; intros t fin top NT.
  - change (by_name [n0] ++ t) with ((n0, None : option bytes) :: t). destruct t as [|x t]; [contradiction|]. cbn [query]. rewrite C. cbn [first_answer].
    match goal with |- match ?q with Nothing => _ | _ => _ end = _ => now destruct q end.
  - change (by_name (n0 :: rest) ++ t) with ((n0, None : option bytes) :: (by_name rest ++ t)). rewrite <- (IH t fin false NT).
    assert (NR : by_name rest ++ t <> []) by (intros X; apply app_eq_nil in X; tauto). destruct (by_name rest ++ t) as [|x u]; [contradiction|].
    change (query top ((n0, None) :: x :: u) fin F) with (first_answer (fun nd => query false (x :: u) fin (kids_of nd)) (called (selects n0) F)).
    rewrite C. cbn [first_answer kids_of]. now destruct (query false (x :: u) fin kids0).
Qed.
Lemma names_readable : forall names F, readable (by_name names) F.
Proof. intros names F. split; [|destruct names; exact I]. unfold by_name. rewrite Forall_map. apply Forall_forall. intros; exact I. Qed.

Lemma others_app : forall m K1 K2, others m (K1 ++ K2) = others m K1 ++ others m K2.
Proof. intros. apply filter_app. Qed.
Lemma others_in : forall m x K, named (selects m) x = true -> others m (x :: K) = others m K.
Proof. intros m x K N. unfold others. cbn [filter]. now rewrite N. Qed.
Lemma entry_says : forall m v, says TheElement (Elem m [] false [Text (esc v)]) (trim_space v).
Proof.
  intros m v. cbn [says kids_of]. unfold all_text. cbn [flat_map node_chars]. rewrite app_nil_r, trim_esc. apply esc_decodes.
Qed.

Section Calls.
  Variable E : env.
  Variable fmt_g : f64 -> bytes.
  Hypothesis Hord : forall k l, Permutation l (e_ord E k l).
  Variable p : bytes.
  Hypothesis Hp : prolog p.
  Hypothesis SP : strict_prolog p.
  Notation state := (ProofList.state p).

  Lemma push_one : forall F names A n a kids B m v K1 K2, state F -> located (by_name names) F A (Elem n a false kids) B -> sole names F (Elem n a false kids) ->
    legal (Append (by_name names) m (AsText v)) -> up_to_last m kids K1 K2 ->
    let nd' := Elem n a false (K1 ++ Elem m [] false [Text (esc v)] :: K2) in
    (blen (p ++ A ++ node_text nd' ++ B) <= 10485760)%N ->
    exists F', set E fmt_g (p ++ forest_text F) (tpath (by_name names ++ [(m, None)]) TheElement ++ bs ".-1") (VStr v) = Ok (p ++ forest_text F', None) /\ state F' /\
      located (by_name names) F' A nd' B /\ sole names F' nd'.
  Proof.
    intros F names A n a kids B m v K1 K2 (G & T & FT) L SO LG U nd' SZ. pose proof (state_valid p F SP G T FT) as V. pose proof LG as (GS & LN & XN & GC & HT).
    destruct (content_call E fmt_g (AsText v) (p ++ forest_text F) (tpath (by_name names ++ [(m, None)]) TheElement ++ bs ".-1") GC) as [w [NV [VX [SV CC]]]].
    pose proof (append_kids_ok E fmt_g Hord p F Hp G V w (content_nodes (AsText v)) NV VX SV (by_name names) A n a kids B m GS LN L) as AK. cbv zeta in AK. unfold child_of in AK.
    rewrite (insert_up m kids K1 K2 _ U) in AK. specialize (AK SZ).
    destruct (located_good _ _ _ _ _ L G) as [GE _]. inversion GE as [? ? ? ? GN GA GSf GK| |]; subst.
    assert (GN' : good nd').
    { apply good_elem; auto; [discriminate|]. rewrite <- (insert_up m kids K1 K2 _ U). apply insert_good; auto. apply child_good; auto. now apply (content_good (AsText v)). }
    destruct (replace_located (by_name names) F A _ B nd' L G GN' eq_refl eq_refl) as (F' & SW & TX & GF & L' & TN).
    assert (CH : change (more_kids m (content_nodes (AsText v))) nothing (by_name names) F = Some F').
    { eapply swapped_change; [exact SW|]. cbn [more_kids]. unfold nd'. now rewrite (insert_up m kids K1 K2 _ U). }
    assert (AP : apply_edit (Append (by_name names) m (AsText v)) F = Some F').
    { cbn [apply_edit]. destruct (by_name names); [inversion L|exact CH]. }
    exists F'. split; [|split; [|split; auto]].
    - change (set E fmt_g (p ++ forest_text F) (tpath (by_name names ++ [(m, None)]) TheElement ++ bs ".-1") (VStr v)) with (set_content E fmt_g (p ++ forest_text F) (tpath (by_name names ++ [(m, None)]) TheElement ++ bs ".-1") (AsText v)).
      rewrite CC, TX. exact AK.
    - destruct (apply_good _ _ _ LG G T AP) as [_ T']. split; auto. split; auto. split; [eapply located_has; eauto|]. split.
      + destruct FT as [_ [SH _]]. eapply apply_shallow; eauto.
      + rewrite TX. exact SZ.
    - destruct (sole_at _ _ _ SO _ _ _ CH) as (l & GX & K). cbn [more_kids] in GX. injection GX as <-. apply K; try reflexivity. unfold nd'. now rewrite (insert_up m kids K1 K2 _ U).
  Qed.

  Lemma take_one : forall F names A n a K1 x K2 B m i t, state F -> located (by_name names) F A (Elem n a false (K1 ++ x :: K2)) B -> sole names F (Elem n a false (K1 ++ x :: K2)) ->
    len (called (selects m) K1) = i -> i < 1000 -> named (selects m) x = true -> says TheElement x t -> good_tpath (item (by_name names) m 0) TheElement ->
    exists F', take_at E (by_name names) m i (p ++ forest_text F) = Ok (Some (p ++ forest_text F', Some t)) /\ state F' /\
      located (by_name names) F' A (Elem n a false (K1 ++ K2)) B /\ sole names F' (Elem n a false (K1 ++ K2)).
  Proof.
    intros F names A n a K1 x K2 B m i t ST L SO C LT N SY GT. pose proof (names_readable names F) as RD.
    destruct (number_ok i) as (_ & _ & VN). pose proof (item_good _ m i _ GT) as GI. destruct (says_answer _ _ _ SY) as [NN DS].
    destruct (list_read E Hord p Hp F _ A n a _ B m ST L RD) as [R1 _]. destruct (R1 i x (number i) TheElement) as (r & GR & D); auto.
    { rewrite called_app, nth_error_app2, C, Nat.sub_diag by lia. now rewrite called_cons, N. }
    assert (EX : r_exists r = true) by (cbn [final_answer describes is_element] in D; destruct D as [TY _]; unfold r_exists; now rewrite TY).
    destruct (delete_one E Hord p Hp SP F _ A n a K1 x K2 B m i ST L C N GT) as (F1 & DE & ST1 & L1 & _).
    pose proof (item_change m i K1 x K2 (fun _ => Some []) nothing [] C N eq_refl) as CH. cbn [app] in CH.
    destruct (change_below _ _ _ _ _ _ _ L _ _ [(m, Some (number i))] _ ltac:(discriminate) CH) as (F' & C' & L' & TN).
    destruct (sole_change _ _ _ SO n a _ eq_refl _ _ [(m, Some (number i))] F' ltac:(discriminate) C') as (k' & CK & SO'). rewrite CH in CK. injection CK as <-.
    destruct ST as (G & T & FT).
    assert (AP : apply_edit (Remove (item (by_name names) m i)) F = Some F') by (cbn [apply_edit]; unfold item; now rewrite C').
    destruct (apply_good (Remove (item (by_name names) m i)) _ _ GI G T AP) as [G' T'].
    assert (TT : forest_text F1 = forest_text F') by now rewrite (located_text _ _ _ _ _ L1), (located_text _ _ _ _ _ L').
    exists F'. unfold take_at. unfold item in *. rewrite GR, EX, DE, TT, (DS r D). split; [reflexivity|]. split; [|auto]. split; auto. split; auto.
    split; [exact (located_has _ _ _ _ _ L' eq_refl)|]. destruct FT as [_ [SH _]]. split; [exact (apply_shallow (Remove (item (by_name names) m i)) _ _ GI AP SH)|].
    destruct ST1 as (_ & _ & _ & _ & SZ1). now rewrite <- TT.
  Qed.
  Lemma take_none : forall F names nd m, state F -> sole names F nd -> called (selects m) (kids_of nd) = [] ->
    (good_tpath (item (by_name names) m 0) TheElement -> take_at E (by_name names) m 0 (p ++ forest_text F) = Ok (Some (p ++ forest_text F, None))) /\
    (good_tpath (by_name names ++ [(m, None)]) TheCount -> take_end E (by_name names) m (p ++ forest_text F) = Ok (Some (p ++ forest_text F, None))).
  Proof.
    intros F names nd m (G & T & FT) SO C. destruct FT as [_ [_ SZ]]. split; intros GT.
    - destruct (get_query_text E Hord p F F _ _ Hp (same_all_refl F) G SZ GT) as [r [R1 R2]]. unfold take_at. rewrite R1. unfold item in R2.
      rewrite (query_sole _ _ _ SO) in R2 by discriminate. cbn [query] in R2. rewrite C, firstn_nil in R2. replace (nth_error (@nil node) (N.to_nat (decimal_value (number 0)))) with (@None node) in R2 by now destruct (N.to_nat _).
      cbn [denotes] in R2. now subst.
    - destruct (get_query_text E Hord p F F _ _ Hp (same_all_refl F) G SZ GT) as [r [R1 R2]]. unfold take_end. rewrite R1.
      rewrite (query_sole _ _ _ SO) in R2 by discriminate. cbn [query] in R2. rewrite C, firstn_nil in R2. cbn [count_answer List.length denotes] in R2. now subst.
  Qed.
  Lemma take_last : forall F names A n a K1 x K2 B m t, state F -> located (by_name names) F A (Elem n a false (K1 ++ x :: K2)) B -> sole names F (Elem n a false (K1 ++ x :: K2)) ->
    called (selects m) K2 = [] -> len (called (selects m) K1) < 1000 -> named (selects m) x = true -> says TheElement x t ->
    good_tpath (item (by_name names) m 0) TheElement -> good_tpath (by_name names ++ [(m, None)]) TheCount ->
    exists F', take_end E (by_name names) m (p ++ forest_text F) = Ok (Some (p ++ forest_text F', Some t)) /\ state F' /\
      located (by_name names) F' A (Elem n a false (K1 ++ K2)) B /\ sole names F' (Elem n a false (K1 ++ K2)).
  Proof.
    intros F names A n a K1 x K2 B m t ST L SO C2 LT N SY GT GC.
    destruct (take_one F names A n a K1 x K2 B m _ t ST L SO eq_refl LT N SY GT) as (F' & TK & R). exists F'. split; [|exact R].
    assert (CK : called (selects m) (K1 ++ x :: K2) = called (selects m) K1 ++ [x]) by now rewrite called_app, called_cons, N, C2.
    assert (LC : len (called (selects m) (K1 ++ x :: K2)) = S (len (called (selects m) K1))) by (rewrite CK, app_length; cbn [List.length]; lia).
    destruct (list_read E Hord p Hp F _ A n a _ B m ST L (names_readable names F)) as [_ R2]. destruct (R2 ltac:(intros Q; rewrite Q in LC; discriminate) GC) as (r & G & TY & NU & _).
    unfold take_end. rewrite G. rewrite Nat.min_r, LC in NU by lia.
    assert (RI : r_int r = Z.of_nat (S (len (called (selects m) K1)))).
    { replace (r_int r) with (r_int (r_count (S (len (called (selects m) K1))))); [apply (proj1 (count_int (S (len (called (selects m) K1))) ltac:(lia)))|]. unfold r_int. rewrite TY, NU. reflexivity. }
    rewrite RI, Nat2Z.id. exact TK.
  Qed.

  Lemma rev_last : forall (q : list bytes) x r, rev q = x :: r -> q = rev r ++ [x].
  Proof. intros q x r H. rewrite <- (rev_involutive q), H. reflexivity. Qed.
  Lemma pushed_cons : forall m o ops, pushed m (o :: ops) = pushed m [o] ++ pushed m ops.
  Proof. intros. unfold pushed. cbn [flat_map]. now rewrite app_nil_r. Qed.

  Lemma queue_runs : forall names m ops F A n a kids B q, state F -> located (by_name names) F A (Elem n a false kids) B -> sole names F (Elem n a false kids) ->
    Forall2 (says TheElement) (called (selects m) kids) q ->
    good_tpath (item (by_name names) m 0) TheElement -> good_tpath (by_name names ++ [(m, None)]) TheCount ->
    (forall v, In (Push v) ops -> legal (Append (by_name names) m (AsText v))) ->
    len q + len (pushed m ops) <= 1000 -> (N.of_nat (len (p ++ forest_text F) + len (forest_text (pushed m ops))) <= 10485760)%N ->
    exists F' kids', on_document E fmt_g (by_name names) m ops (p ++ forest_text F) = Ok (Some (p ++ forest_text F', snd (on_list ops q))) /\ state F' /\
      located (by_name names) F' A (Elem n a false kids') B /\ others m kids' = others m kids /\ Forall2 (says TheElement) (called (selects m) kids') (fst (on_list ops q)).
  Proof.
    intros names m. induction ops as [|o ops IH]; intros F A n a kids B q ST L SO SY GT GC LG LN SZ.
    - exists F, kids. cbn [on_document on_list fst snd]. auto.
    - rewrite pushed_cons in LN, SZ. rewrite forest_app in SZ. rewrite app_length in LN.
      assert (LG' : forall v, In (Push v) ops -> legal (Append (by_name names) m (AsText v))) by (intros v I; apply LG; now right).
      destruct o as [v| |].
      + cbn [on_document on_list]. destruct (up_exists m kids) as (K1 & K2 & U). pose proof U as (KE & C2 & _). pose proof (up_called _ _ _ _ U) as UC.
        destruct (push_one F names A n a kids B m v K1 K2 ST L SO (LG v (or_introl eq_refl)) U) as (F1 & -> & ST1 & L1 & SO1).
        { unfold blen. pose proof (located_text _ _ _ _ _ L) as TX. rewrite TX in SZ. unfold pushed in SZ. cbn [flat_map app] in SZ. rewrite forest_one in SZ.
          rewrite KE in SZ. rewrite !app_length, !node_elem, !app_length, !forest_app, !app_length, ?forest_cons, ?app_length, ?node_elem, ?app_length, ?forest_cons, ?app_length in *. lia. }
        destruct (IH F1 A n a (K1 ++ Elem m [] false [Text (esc v)] :: K2) B (q ++ [trim_space v])) as (F' & kids' & OD & ST' & L' & OT & SY'); auto.
        * rewrite called_app, called_cons. cbn [named]. rewrite selects_self, C2, UC. apply Forall2_app; auto. constructor; [apply entry_says|constructor].
        * rewrite app_length. cbn [List.length]. unfold pushed in LN at 1. cbn [flat_map app List.length] in LN. lia.
        * pose proof (located_text _ _ _ _ _ L) as TX. pose proof (located_text _ _ _ _ _ L1) as TX1. rewrite TX1. rewrite TX in SZ. unfold pushed in SZ at 1. cbn [flat_map app] in SZ. rewrite forest_one in SZ.
          rewrite KE in SZ. rewrite !app_length, !node_elem, !app_length, !forest_app, !app_length, ?forest_cons, ?app_length, ?node_elem, ?app_length, ?forest_cons, ?app_length in *. lia.
        * exists F', kids'. split; [exact OD|]. split; auto. split; auto. split; auto. rewrite OT, others_app, KE, others_app. f_equal. apply others_in. apply selects_self.
      + cbn [on_document on_list]. inversion SY as [Q1 Q2|x t xs ts S1 S2 Q1 Q2].
        * subst q. destruct (take_none F names _ m ST SO (eq_sym Q1)) as [TN _]. rewrite (TN GT).
          destruct (IH F A n a kids B []) as (F' & kids' & OD & R); auto.
          rewrite OD. exists F', kids'. destruct (on_list ops []) as [q' out]. cbn [fst snd] in *. split; [reflexivity|exact R].
        * subst q. destruct (first_split m kids) as (K1 & y & K2 & -> & C1 & N); [congruence|]. rewrite called_app, C1, called_cons, N in Q1. cbn [app] in Q1. injection Q1 as -> ->.
          destruct (take_one F names A n a K1 y K2 B m 0 t ST L SO ltac:(now rewrite C1) ltac:(lia) N S1 GT) as (F1 & -> & ST1 & L1 & SO1).
          destruct (IH F1 A n a (K1 ++ K2) B ts) as (F' & kids' & OD & ST' & L' & OT & SY'); auto.
          -- rewrite called_app, C1. exact S2.
          -- cbn [List.length] in LN. lia.
          -- rewrite (located_text _ _ _ _ _ L1). rewrite (located_text _ _ _ _ _ L) in SZ. rewrite !app_length, !node_elem, !app_length, !forest_app, !app_length, ?forest_cons, ?app_length in *. lia.
          -- rewrite OD. exists F', kids'. destruct (on_list ops ts) as [q' out]. cbn [fst snd] in *. split; [reflexivity|]. split; auto. split; auto. split; auto.
             rewrite OT, !others_app. f_equal. symmetry. now apply others_in.
      + cbn [on_document on_list]. destruct (rev q) as [|t r] eqn:RQ.
        * assert (q = []) by (rewrite <- (rev_involutive q), RQ; reflexivity). subst q. inversion SY as [Q1|]. destruct (take_none F names _ m ST SO (eq_sym Q1)) as [_ TN]. rewrite (TN GC).
          destruct (IH F A n a kids B []) as (F' & kids' & OD & R); auto.
          rewrite OD. exists F', kids'. destruct (on_list ops []) as [q' out]. cbn [fst snd] in *. split; [reflexivity|exact R].
        * apply rev_last in RQ. subst q. assert (LQ : len (called (selects m) kids) = S (len (rev r))).
          { clear - SY. remember (rev r ++ [t]) as q. assert (X : len q = S (len (rev r))) by (subst q; rewrite app_length; cbn [List.length]; lia). rewrite <- X. clear - SY. induction SY; cbn [List.length]; auto. }
          destruct (called_split m _ kids LQ) as (K1 & y & K2 & -> & C1 & N & C2). rewrite called_app, called_cons, N, C2 in SY.
          apply Forall2_app_inv_l in SY. destruct SY as (q1 & q2 & S1 & S2 & QE). inversion S2 as [|? t' ? z S3 S4]; subst. inversion S4; subst. apply app_inj_tail in QE. destruct QE as [QE ->]. subst q1.
          rewrite app_length in LN. cbn [List.length] in LN.
          destruct (take_last F names A n a K1 y K2 B m t' ST L SO C2 ltac:(lia) N S3 GT GC) as (F1 & -> & ST1 & L1 & SO1).
          destruct (IH F1 A n a (K1 ++ K2) B (rev r)) as (F' & kids' & OD & ST' & L' & OT & SY'); auto.
          -- rewrite called_app, C2, app_nil_r. exact S1.
          -- lia.
          -- rewrite (located_text _ _ _ _ _ L1). rewrite (located_text _ _ _ _ _ L) in SZ. rewrite !app_length, !node_elem, !app_length, !forest_app, !app_length, ?forest_cons, ?app_length in *. lia.
          -- rewrite OD. exists F', kids'. destruct (on_list ops (rev r)) as [q' out]. cbn [fst snd] in *. split; [reflexivity|]. split; auto. split; auto. split; auto.
             rewrite OT, !others_app. f_equal. symmetry. now apply others_in.
  Qed.
End Calls.
