(** Independence of edits and queries, for the calls. *)
From Coq Require Import List Ascii String NArith ZArith Bool Lia Permutation.
From Verif Require Import GoStr ModelParser ModelPath ModelResult ModelQuery ModelValidate ModelBuilder SpecText SpecPath SpecTree SpecQuery SpecEdit SpecContent SpecValid SpecFilter SpecLang SpecHistory SpecFrame
  ProofBase ProofPath ProofScan ProofTree ProofTree2 ProofTree3 ProofTree4 ProofTree5 ProofEdit ProofEdit2 ProofEdit3 ProofEdit4 ProofEdit5 ProofEdit6 ProofEdit7 ProofEdit8 ProofEdit9 ProofEdit11 ProofEdit12 ProofRaw ProofLang4 ProofLang5 ProofFrame ProofFrame2 ProofFrame3 ProofLang3 PropLang.
Import ListNotations.

(** ** Below a located element *)
Lemma change_below : forall s F A n a kids B, located s F A (Elem n a false kids) B -> forall g miss t kids', t <> [] -> change g miss t kids = Some kids' ->
  exists F', change g miss (s ++ t) F = Some F' /\ located s F' A (Elem n a false kids') B /\ top_names F' = top_names F.
Proof.
  intros s F A n a kids B L. remember (Elem n a false kids) as nd eqn:Q. revert n a kids Q.
  induction L as [m idx F1 nd F2 H1 H2|m idx rest F1 m' a' kids0 F2 A nd B H1 H2 L IH]; intros n a kids Q g miss t kids' NT C.
  - subst nd. destruct t as [|s t]; [easy|]. exists (F1 ++ Elem n a false kids' :: F2). change ([(m, idx)] ++ s :: t) with ((m, idx) :: s :: t). split.
    + rewrite change_step, <- H2, nth_at, edit_nth_at by auto. cbn [down]. exact (f_equal (fun w => option_map (fun l => F1 ++ l ++ F2) (option_map (fun k => [Elem n a false k]) w)) C).
    + split; [apply loc_here; auto|]. unfold top_names, elems. rewrite !filter_app, !map_app. reflexivity.
  - destruct (IH _ _ _ Q g miss t kids' NT C) as (K & C' & L' & _). destruct rest as [|s rest]; [inversion L|]. exists (F1 ++ Elem m' a' false K :: F2).
    change (((m, idx) :: s :: rest) ++ t) with ((m, idx) :: s :: (rest ++ t)). split.
    + rewrite change_step, <- H2, nth_at, edit_nth_at by auto. cbn [down]. exact (f_equal (fun w => option_map (fun l => F1 ++ l ++ F2) (option_map (fun k => [Elem m' a' false k]) w)) C').
    + split; [apply loc_down; auto|]. unfold top_names, elems. rewrite !filter_app, !map_app. reflexivity.
Qed.
Lemma change_at : forall s F A nd B, located s F A nd B -> forall g miss nd', g nd = Some [nd'] -> name_of nd' = name_of nd /\ is_elem nd' = true ->
  exists F', change g miss s F = Some F' /\ located s F' A nd' B.
Proof.
  induction 1 as [m idx F1 nd F2 H1 H2|m idx rest F1 m' a' kids0 F2 A nd B H1 H2 L IH]; intros g miss nd' G [NM EL].
  - exists (F1 ++ nd' :: F2). split.
    + cbn [change]. rewrite <- H2, nth_at, edit_nth_at by auto. now rewrite G.
    + apply loc_here; auto. destruct nd as [? ? ? ?| |]; try discriminate. destruct nd' as [? ? ? ?| |]; try discriminate. cbn in *. now subst.
  - destruct (IH g miss nd' G (conj NM EL)) as (K & C' & L'). destruct rest as [|s rest]; [inversion L|]. exists (F1 ++ Elem m' a' false K :: F2). split; [|now apply loc_down].
    rewrite change_step, <- H2, nth_at, edit_nth_at by auto. cbn [down]. exact (f_equal (fun w => option_map (fun l => F1 ++ l ++ F2) (option_map (fun k => [Elem m' a' false k]) w)) C').
Qed.
(** ** Numbers after a removal *)
Lemma edit_remove : forall f F i, i < len (called f F) -> exists F', edit_nth f i (fun _ => Some []) F = Some F' /\
  (forall j, nth_error (called f F') j = nth_error (called f F) (renumbered i j)) /\ len (called f F) = S (len (called f F')).
Proof.
  intros f. induction F as [|x F IH]; intros i H; [cbn in H; lia|]. cbn [edit_nth]. destruct (named f x) eqn:N.
  - assert (CX : forall G, called f (x :: G) = x :: called f G) by (intros G; unfold called; cbn [filter]; unfold named in N; destruct x; try discriminate; now rewrite N).
    rewrite CX in *. cbn [List.length] in H. destruct i as [|i].
    + exists F. split; [reflexivity|]. split; [|reflexivity]. intros j. unfold renumbered. cbn [Nat.ltb Nat.leb nth_error]. reflexivity.
    + destruct (IH i ltac:(lia)) as (F' & E1 & E2 & E3). exists (x :: F'). rewrite E1. split; [reflexivity|]. rewrite CX. split; [|cbn [List.length]; lia].
      intros [|j]; [reflexivity|]. cbn [nth_error]. rewrite E2. unfold renumbered. change (S j <? S i) with (j <? i). now destruct (j <? i).
  - assert (CX : forall G, called f (x :: G) = called f G) by (intros G; unfold called; cbn [filter]; unfold named in N; destruct x; auto; now rewrite N).
    rewrite CX in *. destruct (IH i H) as (F' & E1 & E2 & E3). exists (x :: F'). rewrite E1. split; [reflexivity|]. rewrite CX. auto.
Qed.

Section Calls.
  Variable E : env.
  Variable fmt_g : f64 -> bytes.
  Hypothesis Hord : forall k l, Permutation l (e_ord E k l).
  Variable p : bytes.
  Hypothesis Hp : prolog p.
  Hypothesis SP : strict_prolog p.

  Lemma texts_alike : forall F G1 G2, Forall good F -> shallow F -> (elements F < 9999)%N -> Forall2 same F G1 -> Forall2 same F G2 -> fits p G1 -> fits p G2 ->
    same_answers E (p ++ forest_text G1) (p ++ forest_text G2).
  Proof.
    intros F G1 G2 HG HS HE S1 S2 [_ [_ F1]] [_ [_ F2]] steps e HQ.
    destruct (get_ask E Hord (decide_sat E)) with (q := e) (s := p ++ forest_text G1) (F := F) (steps := steps) as [r1 [A1 A2]]; auto.
    { intros c nd _. apply decide_sat_ok. } { intros f ->. apply (gq_end _ _ HQ). } { split; [|split; auto]. apply reads_text; auto using skippable_prolog. }
    destruct (get_ask E Hord (decide_sat E)) with (q := e) (s := p ++ forest_text G2) (F := F) (steps := steps) as [r2 [B1 B2]]; auto.
    { intros c nd _. apply decide_sat_ok. } { intros f ->. apply (gq_end _ _ HQ). } { split; [|split; auto]. apply reads_text; auto using skippable_prolog. }
    exists r1, r2. split; auto. split; auto. eapply says_alike; eauto.
  Qed.
  Lemma history_frame : forall ops F F' q e sat, history p ops F F' -> spares_all ops F q e -> ask sat e true q F' = ask sat e true q F.
  Proof.
    intros ops F F' q e sat H. induction H as [F|o ops F F1 F2 LG AP RM H IH]; intros S; [reflexivity|]. cbn [spares_all] in S. destruct S as [S1 S2].
    rewrite (IH (S2 _ AP)). eapply apply_frame; eauto.
  Qed.
  Section Doc.
  Variable F : list node.
  Hypothesis HG : Forall good F.
  Hypothesis HT : Forall top_node F.
  Hypothesis HS : shallow F.
  Hypothesis HR : room p F.
  Lemma fits_start : fits p F.
  Proof. destruct HR as [A B]. split; auto. Qed.
  Lemma frame_calls : forall ops F' q e, (elements F < 9999)%N -> (elements F' < 9999)%N -> history p ops F F' -> good_query q e -> spares_all ops F q e ->
    exists d' r r', calls E fmt_g ops (p ++ forest_text F) = Ok (d', None) /\ get E (p ++ forest_text F) (query_text q e) = Ok r /\ get E d' (query_text q e) = Ok r' /\ same_reading r r'.
  Proof.
    intros ops F' q e E1 E2 H GQ SA. destruct (history_ok E fmt_g Hord p ops F F' Hp SP H F HG HT fits_start (same_all_refl F)) as [G [C [S [G' [T' FT]]]]].
    destruct (get_ask E Hord (decide_sat E)) with (q := e) (s := p ++ forest_text F) (F := F) (steps := q) as [r1 [A1 A2]]; auto.
    { intros c nd _. apply decide_sat_ok. } { intros f ->. apply (gq_end _ _ GQ). } { split; [|split; auto]. apply reads_text; auto using skippable_prolog, same_all_refl. } { now destruct HR. }
    destruct (get_ask E Hord (decide_sat E)) with (q := e) (s := p ++ forest_text G) (F := F') (steps := q) as [r2 [B1 B2]]; auto.
    { intros c nd _. apply decide_sat_ok. } { intros f ->. apply (gq_end _ _ GQ). } { split; [|split; auto]. apply reads_text; auto using skippable_prolog. now destruct FT as [_ [K _]]. } { apply (same_fits p F' G S FT). }
    exists (p ++ forest_text G), r1, r2. repeat (split; [assumption|]). rewrite (history_frame _ _ _ _ _ _ H SA) in B2. eapply says_alike; eauto.
  Qed.
  Lemma equal_calls : forall ops1 ops2 F', history p ops1 F F' -> history p ops2 F F' ->
    exists G1 G2, calls E fmt_g ops1 (p ++ forest_text F) = Ok (p ++ forest_text G1, None) /\ calls E fmt_g ops2 (p ++ forest_text F) = Ok (p ++ forest_text G2, None) /\
      Forall2 same F' G1 /\ Forall2 same F' G2 /\ ((elements F' < 9999)%N -> same_answers E (p ++ forest_text G1) (p ++ forest_text G2)).
  Proof.
    intros ops1 ops2 F' H1 H2.
    destruct (history_ok E fmt_g Hord p ops1 F F' Hp SP H1 F HG HT fits_start (same_all_refl F)) as [G1 [C1 [S1 [G' [T' FT]]]]].
    destruct (history_ok E fmt_g Hord p ops2 F F' Hp SP H2 F HG HT fits_start (same_all_refl F)) as [G2 [C2 [S2 _]]].
    exists G1, G2. repeat (split; [assumption|]). intros EL. apply (texts_alike F' G1 G2); auto; [now destruct FT as [_ [K _]]| |]; eapply same_fits; eauto.
  Qed.
  (** Content written over a located element, to the byte. *)
  Lemma content_exact : forall s A n a kids B c, located s F A (Elem n a false kids) B -> good_tpath s TheElement -> good_content c ->
    set_content E fmt_g (p ++ forest_text F) (tpath s TheElement) c = Ok (p ++ A ++ node_text (Elem n a false (content_nodes c)) ++ B, None).
  Proof.
    intros s A n a kids B c L GT GC. destruct (content_call E fmt_g c (p ++ forest_text F) (tpath s TheElement) GC) as [v [NV [VX [SZ CC]]]]. rewrite CC.
    apply (set_kids_ok E fmt_g Hord p F Hp HG (state_valid p F SP HG HT fits_start) v (content_nodes c) NV VX SZ s A n a kids B GT L).
  Qed.
  (** Numbers after a removal. *)
  Lemma remove_calls : forall s A n a kids B m ds, located s F A (Elem n a false kids) B -> readable s F -> good_tpath (s ++ [(m, Some ds)]) TheElement ->
    N.to_nat (decimal_value ds) < len (called (selects m) kids) ->
    exists d', delete E (p ++ forest_text F) (tpath (s ++ [(m, Some ds)]) TheElement) = Ok (d', None) /\
      (forall js fin nd, good_tpath (s ++ [(m, Some js)]) fin -> (decimal_value js < 1000)%N ->
        nth_error (called (selects m) kids) (renumbered (N.to_nat (decimal_value ds)) (N.to_nat (decimal_value js))) = Some nd -> final_answer fin nd <> Nothing ->
        exists r, get E d' (tpath (s ++ [(m, Some js)]) fin) = Ok r /\ describes r (final_answer fin nd)) /\
      (1 < len (called (selects m) kids) -> exists r, get E d' (tpath (s ++ [(m, None)]) TheCount) = Ok r /\ describes r (Count (Nat.min 1000 (pred (len (called (selects m) kids)))))).
  Proof.
    intros s A n a kids B m ds L RD GT LT. destruct (edit_remove (selects m) kids _ LT) as (kids' & E1 & E2 & E3).
    assert (C : change (fun _ => Some []) nothing [(m, Some ds)] kids = Some kids').
    { rewrite change_nth. exact E1. }
    destruct (change_below _ _ _ _ _ _ _ L (fun _ => Some []) nothing [(m, Some ds)] kids' ltac:(discriminate) C) as (F' & C' & L' & TN).
    assert (AP : apply_edit (Remove (s ++ [(m, Some ds)])) F = Some F') by (cbn [apply_edit]; now rewrite C').
    assert (LG : legal (Remove (s ++ [(m, Some ds)]))) by exact GT.
    destruct (apply_good _ _ _ LG HG HT AP) as [G' T'].
    assert (HE : has_element F').
    { inversion L' as [n0 i0 X1 nd X2 N1 N2|n0 i0 r0 X1 m0 a0 k0 X2 A0 nd0 B0 N1 N2 N3]; subst; [exists n, a, false, kids'|exists m0, a0, false, k0]; apply in_or_app; right; now left. }
    assert (LE : len (forest_text kids') <= len (forest_text kids)).
    { clear - E1. revert kids' E1. generalize (N.to_nat (decimal_value ds)). induction kids as [|x kids IH]; intros i kids' H; [discriminate|]. cbn [edit_nth] in H.
      change (forest_text (x :: kids)) with (node_text x ++ forest_text kids). rewrite app_length.
      assert (R : forall i, option_map (cons x) (edit_nth (selects m) i (fun _ => Some []) kids) = Some kids' -> len (forest_text kids') <= len (node_text x) + len (forest_text kids)).
      { intros k Q. destruct (edit_nth (selects m) k (fun _ => Some []) kids) as [K|] eqn:Z; [|discriminate]. injection Q as <-. change (forest_text (x :: K)) with (node_text x ++ forest_text K). rewrite app_length. pose proof (IH _ _ Z). lia. }
      destruct (named (selects m) x); [destruct i as [|i]|]; eauto. injection H as <-. cbn [app]. lia. }
    assert (FT : fits p F').
    { split; [exact HE|]. split; [eapply apply_shallow; eauto|]. destruct HR as [_ SZ].
      rewrite (located_text _ _ _ _ _ L'), !app_length, node_elem, !app_length. rewrite (located_text _ _ _ _ _ L), !app_length, node_elem, !app_length in SZ. lia. }
    pose proof (state_valid p F SP HG HT fits_start) as V.
    destruct (call_ok E fmt_g Hord p F Hp HG V (Remove (s ++ [(m, Some ds)])) F' LG AP FT) as [G [CA SG]]. cbn [call] in CA.
    exists (p ++ forest_text G). split; [exact CA|].
    pose proof (readable_names _ _ F' RD TN) as RD'. pose proof (same_fits p F' G SG FT) as [_ [_ SZ]].
    assert (GQ : forall t fin a0, good_tpath (s ++ t) fin -> t <> [] -> query false t fin kids' = a0 -> a0 <> Nothing -> exists r, get E (p ++ forest_text G) (tpath (s ++ t) fin) = Ok r /\ describes r a0).
    { intros t fin a0 GQ NT Q NN. destruct (get_query_text E Hord p F' G (s ++ t) fin Hp SG G' SZ GQ) as [r [R1 R2]]. exists r. split; auto.
      assert (Q' : query true (s ++ t) fin F' = a0).
      { rewrite (query_prefix _ _ _ _ _ L' t fin true NT); [exact Q|cbn [kids_of]; now rewrite Q|eapply readable_small; eauto|intros _; eapply readable_clear; eauto]. }
      rewrite <- Q'. apply denotes_describes; auto. now apply query_good. }
    split.
    - intros js fin nd GJ SJ NE NN. apply GQ; auto; [discriminate|].
      assert (NC : fin <> TheChildren /\ fin <> TheCount) by (split; intros ->; now apply NN).
      cbn [query]. rewrite nth_firstn by lia. rewrite E2, NE. destruct fin; try reflexivity; destruct NC; contradiction.
    - intros GT1. 
      assert (GC : good_tpath (s ++ [(m, None)]) TheCount).
      { destruct GT as [Q2 Q3 Q4]. apply Forall_app in Q2. destruct Q2 as [Q2 Q5]. inversion Q5 as [|? ? [Q6 _] _]; subst. constructor.
        - apply Forall_app. split; auto. constructor; [split; [exact Q6|exact I]|constructor].
        - split; [|intros Z; destruct s; discriminate]. intros (a0 & n0 & ds0 & Z). apply app_inj_tail in Z. destruct Z as [_ Z]. discriminate.
        - unfold tpath_steps in *. rewrite flat_map_app, !app_length in *. cbn [flat_map tstep_steps app List.length final_steps] in *. lia. }
      apply GQ; auto; [discriminate| |discriminate]. cbn [query]. rewrite firstn_length. rewrite E3. cbn [pred].
      destruct (len (called (selects m) kids')) as [|k] eqn:LK; [lia|]. unfold count_answer. replace (Nat.min 1000 (S k)) with (S (Nat.min 999 k)) by lia. reflexivity.
  Qed.
  End Doc.
End Calls.
