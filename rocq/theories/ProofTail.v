(** Queries on texts that begin like a canonical document. *)
From Coq Require Import List Ascii String NArith ZArith Bool Lia Permutation.
From Verif Require Import GoStr ModelParser ModelPath ModelResult ModelQuery SpecText SpecPath SpecTree SpecQuery SpecEdit SpecHistory SpecOptions SpecTail
  ProofBase ProofPath ProofScan ProofSyntax ProofTree ProofTree2 ProofTree3 ProofTree4 ProofTree5 ProofTree7 ProofMono ProofFuel ProofEdit ProofEdit2.
Import ListNotations.

(** ** Texts that lead to an element *)
Inductive leads : list tstep -> bytes -> node -> Prop :=
| ld_here : forall n idx F1 nd tail, Forall good F1 -> good nd -> named (selects n) nd = true -> len (called (selects n) F1) = index_of idx ->
    leads [(n, idx)] (forest_text F1 ++ node_text nd ++ tail) nd
| ld_down : forall n idx rest F1 m a s nd, Forall good F1 -> xml_name m -> good_attrs a -> selects n m = true -> len (called (selects n) F1) = index_of idx ->
    leads rest s nd -> leads ((n, idx) :: rest) (forest_text F1 ++ start_tag m a false ++ s) nd.
Lemma designated_leads : forall steps F A nd B tail, designated true steps F A nd B -> Forall good F -> leads steps (A ++ node_text nd ++ tail) nd.
Proof.
  intros steps F A nd B tail H. induction H as [n idx F1 nd F2 H1 H2|n idx rest F1 m a kids F2 A nd B H1 H2 H IH]; intros G; apply Forall_app in G; destruct G as [G1 G2]; inversion G2 as [|? ? G3 G4]; subst.
  - constructor; auto.
  - inversion G3; subst. rewrite <- !app_assoc. constructor; auto.
Qed.
Lemma leads_good : forall steps s nd, leads steps s nd -> good nd.
Proof. induction 1; auto. Qed.
Lemma called_same : forall f F F', Forall2 same F F' -> len (called f F) = len (called f F').
Proof.
  intros f F F' H. induction H as [|nd nd' F F' S1 S2 IH]; [reflexivity|]. rewrite !called_cons.
  replace (named f nd') with (named f nd) by (inversion S1; reflexivity). destruct (named f nd); cbn [List.length]; auto.
Qed.
Section Tail.
  Variable E : env.
  Hypothesis Hord : forall k l, Permutation l (e_ord E k l).

  Lemma leads_contents : forall steps s nd, leads steps s nd -> forall key ename d, exists t r nd', contents (e_ord E) key ename (S d) s t r /\ leads steps t nd' /\ same nd nd'.
  Proof.
    induction 1 as [n idx F1 nd tail G1 G2 N L|n idx rest F1 m a s nd G1 G2 G3 N L H IH]; intros key ename d.
    - destruct (content_loop_total (e_ord E) key (S (len tail)) ename (S d) tail) as [t0 [r [C0 _]]]; [lia|].
      destruct (contents_node (e_ord E) Hord key ename nd G2 d tail t0 r (ex_intro _ _ C0)) as [nd' [S1 C1]].
      destruct (contents_forest (e_ord E) Hord key ename F1 G1 _ _ _ _ C1) as [F1' [S2 C2]].
      exists (forest_text F1' ++ node_text nd' ++ t0), r, nd'. split; [exact C2|]. split; [|exact S1].
      constructor; [eapply same_good_all; eauto|eapply same_good; eauto| |rewrite <- L; symmetry; now apply called_same].
      inversion S1; subst; auto.
    - assert (X : exists d', (if negb false && bytes_eqb m ename then S (S d) else S d) = S d') by (destruct (negb false && bytes_eqb m ename); eauto). destruct X as [d' X].
      destruct (IH key ename d') as [t [r [nd' [C0 [H' S1]]]]]. rewrite <- X in C0.
      destruct (contents_start (e_ord E) Hord key ename m a false d s t r G2 G3 C0) as [a' [P C1]].
      destruct (contents_forest (e_ord E) Hord key ename F1 G1 _ _ _ _ C1) as [F1' [S2 C2]].
      exists (forest_text F1' ++ start_tag m a' false ++ t), r, nd'. split; [exact C2|]. split; [|exact S1].
      constructor; auto; [eapply same_good_all; eauto|eapply good_attrs_perm; eauto|rewrite <- L; symmetry; now apply called_same].
  Qed.

  (** ** The elements of such a text *)
  Lemma scan_start : forall key n a s t r, xml_name n -> good_attrs a -> contents (e_ord E) key n 1 s t r -> exists e es, scan (e_ord E) key (start_tag n a false ++ s) = Some (e :: es) /\
    e_name e = n /\ e_attrs e = a /\ e_content e = t.
  Proof.
    intros key n a s t r N A C.
    assert (SK : skip_to_next (start_tag n a false ++ s) = Some (Some (start_tag n a false ++ s))).
    { apply (skip_any 1). rewrite start_tag_split. destruct (name_first n N) as [c [r0 [-> Hc]]]. cbn [app skip_next_loop].
      change (Ascii.eqb "<" "<") with true. cbn iota. rewrite (name_eqb c "!" Hc), (name_eqb c "?" Hc), (name_eqb c "/" Hc) by inlist. reflexivity. }
    assert (PE : parse_element_name (next (start_tag n a false ++ s)) = (n, a, false, s)).
    { rewrite start_tag_split. cbn [next app]. rewrite <- !app_assoc. apply (parse_element_name_text n a false s); auto. }
    destruct (scan_total (e_ord E) key r) as [es HE]. unfold scan in HE.
    eexists. exists es. split.
    - apply (scan_any _ _ (S (S (len r)))). remember (S (len r)) as f. cbn [scan_loop]. rewrite SK, PE. rewrite (contents_eq _ _ _ _ _ _ C), HE. reflexivity.
    - auto.
  Qed.
  Lemma scan_node : forall key nd s, good nd -> is_elem nd = true -> exists e es, scan (e_ord E) key (node_text nd ++ s) = Some (e :: es) /\ scan (e_ord E) key s = Some es /\ shows nd e.
  Proof.
    intros key nd s G EL. destruct nd as [n a self kids| |]; try discriminate. inversion G as [? ? ? ? N A S K| |]; subst.
    destruct (scan_total (e_ord E) key s) as [es HE]. pose proof HE as HE'. unfold scan in HE.
    set (b := (if self then [] else forest_text kids ++ end_tag n) ++ s).
    replace (node_text (Elem n a self kids) ++ s) with (start_tag n a self ++ b) by (cbn [node_text]; now rewrite <- app_assoc).
    assert (SK : skip_to_next (start_tag n a self ++ b) = Some (Some (start_tag n a self ++ b))).
    { apply (skip_any 1). rewrite start_tag_split. destruct (name_first n N) as [c [r0 [-> Hc]]]. cbn [app skip_next_loop].
      change (Ascii.eqb "<" "<") with true. cbn iota. rewrite (name_eqb c "!" Hc), (name_eqb c "?" Hc), (name_eqb c "/" Hc) by inlist. reflexivity. }
    assert (PE : parse_element_name (next (start_tag n a self ++ b)) = (n, a, self, b)).
    { rewrite start_tag_split. cbn [next app]. rewrite <- !app_assoc. apply parse_element_name_text; auto. }
    destruct self.
    - eexists. exists es. split; [|split; [exact HE'|]].
      + apply (scan_any _ _ (Datatypes.S (Datatypes.S (len s)))). remember (Datatypes.S (len s)) as f. cbn [scan_loop]. rewrite SK, PE. unfold b. cbn [app]. rewrite HE. reflexivity.
      + constructor; auto. exists []. cbn [kids_of e_content]. rewrite (S eq_refl). split; [constructor|reflexivity].
    - destruct (parse_content_text (e_ord E) Hord key n kids s N K) as [kids' [P1 P2]].
      eexists. exists es. split; [|split; [exact HE'|]].
      + apply (scan_any _ _ (Datatypes.S (Datatypes.S (len s)))). remember (Datatypes.S (len s)) as f. cbn [scan_loop]. rewrite SK, PE. unfold b. rewrite <- app_assoc, P2, HE. reflexivity.
      + constructor; auto. exists kids'. auto.
  Qed.
  Lemma scan_before : forall key F s, Forall good F -> forall es', scan (e_ord E) key s = Some es' -> exists es, scan (e_ord E) key (forest_text F ++ s) = Some (es ++ es') /\ Forall2 shows (elems F) es.
  Proof.
    intros key F s G es' HE. induction G as [|nd F G1 G2 IH]; [exists []; split; [exact HE|constructor]|].
    destruct IH as [es [H1 H2]]. change (forest_text (nd :: F)) with (node_text nd ++ forest_text F). rewrite <- app_assoc.
    destruct nd as [n a self kids|t|b].
    - destruct (scan_node key (Elem n a self kids) (forest_text F ++ s) G1 eq_refl) as [e [es2 [Q1 [Q2 Q3]]]]. exists (e :: es). rewrite Q1. split; [|now constructor].
      rewrite H1 in Q2. now injection Q2 as <-.
    - exists es. split; [|exact H2]. cbn [node_text]. inversion G1 as [|? T|]; subst. rewrite scan_skip; auto. apply skippable_text. apply T.
    - exists es. split; [|exact H2]. cbn [node_text]. inversion G1 as [| |? M]; subst. rewrite scan_skip; auto. now apply skippable_misc.
  Qed.

  (** ** One step *)
  Lemma pick : forall n idx es1 e es2, len (matching (elem_seg n) es1) = index_of idx -> seg_matches (elem_seg n) (e_name e) = true -> early (n, idx) ->
    match idx with
    | None => exists l, matching (elem_seg n) (es1 ++ e :: es2) = e :: l
    | Some ds => nth_elem (firstn 1000 (matching (elem_seg n) (es1 ++ e :: es2))) (Z.min (Z.of_N (decimal_value ds)) int64_max) = Some e
    end.
  Proof.
    intros n idx es1 e es2 L M EY. assert (Q : matching (elem_seg n) (es1 ++ e :: es2) = matching (elem_seg n) es1 ++ e :: matching (elem_seg n) es2).
    { unfold matching. rewrite filter_app. cbn [filter]. now rewrite M. }
    rewrite Q. destruct idx as [ds|]; cbn [index_of] in L.
    - unfold early in EY. cbn [snd] in EY. rewrite Z.min_l by (assert (1000 < int64_max)%Z by reflexivity; lia). rewrite nth_elem_spec.
      rewrite nth_error_firstn. destruct (Nat.ltb_spec (N.to_nat (decimal_value ds)) 1000); [|lia]. rewrite nth_error_app2 by lia. rewrite L, Nat.sub_diag. reflexivity.
    - destruct (matching (elem_seg n) es1); [eexists; reflexivity|discriminate].
  Qed.
  (** The path goes on below the element found. *)
  Lemma pick_more : forall fuel key top s n idx es1 e es2 segs (P : result -> Prop),
    scan (e_ord E) key s = Some (es1 ++ e :: es2) -> len (matching (elem_seg n) es1) = index_of idx -> seg_matches (elem_seg n) (e_name e) = true -> early (n, idx) ->
    (top = true -> idx = None) -> (exists nx more, segs = nx :: more /\ (s_type nx = SElem \/ s_type nx = SWild)) ->
    (forall k, exists r, exec E fuel k false (e_content e) segs = Ok r /\ is_null r = false /\ P r) ->
    exists r, exec E (S fuel) key top s (map (fun st => step_seg (st, [])) (tstep_steps (n, idx)) ++ segs) = Ok r /\ P r.
  Proof.
    intros fuel key top s n idx es1 e es2 segs P SC L M EY TP [nx [more [-> TY]]] REC. pose proof (pick n idx es1 e es2 L M EY) as PK.
    destruct (REC (child_key site_query e key)) as [r [R1 [R2 R3]]]. exists r. split; [|exact R3].
    destruct idx as [ds|].
    - destruct top; [specialize (TP eq_refl); discriminate|]. cbn [tstep_steps map app]. change (step_seg (Name n, [])) with (elem_seg n). cbn [exec]. unfold exec_body, scan_res. rewrite SC. cbn [bind].
      change (s_type (elem_seg n)) with SElem. cbn iota. unfold exec_element. cbn [step_seg s_type]. rewrite wild_max. unfold array_op.
      destruct (firstn 1000 (matching (elem_seg n) (es1 ++ e :: es2))) as [|e0 l0] eqn:Q; [unfold nth_elem in PK; cbn [List.length] in PK; destruct (_ && _) in PK; [destruct (Z.to_nat _) in PK|]; discriminate|].
      cbn [step_seg s_type s_index]. rewrite PK. destruct TY as [-> | ->]; exact R1.
    - destruct PK as [l PK]. cbn [tstep_steps map app]. change (step_seg (Name n, [])) with (elem_seg n). cbn [exec]. unfold exec_body, scan_res. rewrite SC. cbn [bind].
      change (s_type (elem_seg n)) with SElem. cbn iota.
      assert (GO : exec_element E (exec E fuel) key (es1 ++ e :: es2) (elem_seg n) (nx :: more) = Ok r).
      { unfold exec_element. rewrite PK. destruct TY as [T|T]; rewrite T; cbn [first_loop]; rewrite T, R1; cbn [bind]; now rewrite R2. }
      destruct top; [|exact GO]. destruct TY as [T|T]; rewrite T; exact GO.
  Qed.
  (** The path ends at the element found. *)
  Lemma pick_last : forall fuel key top s n idx es1 e es2 fin nd,
    scan (e_ord E) key s = Some (es1 ++ e :: es2) -> len (matching (elem_seg n) es1) = index_of idx -> seg_matches (elem_seg n) (e_name e) = true -> early (n, idx) ->
    (top = true -> idx = None) -> good_final [(n, idx)] fin -> shows nd e -> final_answer fin nd <> Nothing ->
    exists r, exec E (S fuel) key top s (map (fun st => step_seg (st, [])) (tstep_steps (n, idx)) ++ segs_of [] fin) = Ok r /\ denotes (final_answer fin nd) r.
  Proof.
    intros fuel key top s n idx es1 e es2 fin nd SC L M EY TP GF SH NN. pose proof (pick n idx es1 e es2 L M EY) as PK.
    destruct idx as [ds|].
    - destruct top; [specialize (TP eq_refl); discriminate|]. cbn [tstep_steps map app]. change (step_seg (Name n, [])) with (elem_seg n). cbn [exec]. unfold exec_body, scan_res. rewrite SC. cbn [bind].
      change (s_type (elem_seg n)) with SElem. cbn iota. unfold exec_element. cbn [step_seg s_type]. rewrite wild_max. unfold array_op.
      destruct (firstn 1000 (matching (elem_seg n) (es1 ++ e :: es2))) as [|e0 l0] eqn:Q; [unfold nth_elem in PK; cbn [List.length] in PK; destruct (_ && _) in PK; [destruct (Z.to_nat _) in PK|]; discriminate|].
      cbn [step_seg s_type s_index]. rewrite PK. destruct fin; cbn [final_answer] in *; try congruence.
      + eexists. split; [reflexivity|]. now apply shows_element.
      + cbn [segs_of tpath_steps flat_map final_steps app map step_seg s_type s_value s_mods]. rewrite (shows_attr _ _ a SH). destruct (attr_value a (attrs_of nd)); [|congruence]. eexists. split; reflexivity.
      + exfalso. apply (proj1 GF). exists [], n, ds. reflexivity.
    - destruct PK as [l PK]. cbn [tstep_steps map app]. change (step_seg (Name n, [])) with (elem_seg n). cbn [exec]. unfold exec_body, scan_res. rewrite SC. cbn [bind].
      change (s_type (elem_seg n)) with SElem. cbn iota. destruct fin; cbn [final_answer] in *; try congruence; cbn [segs_of tpath_steps flat_map final_steps app map].
      + exists (r_element (e_content e)). split; [|now apply shows_element]. destruct top; unfold exec_element; rewrite PK; reflexivity.
      + assert (AT := shows_attr _ _ a SH). destruct (attr_value a (attrs_of nd)) as [v|]; [|congruence]. exists (r_attribute v). split; [|reflexivity].
        destruct top; unfold exec_element; rewrite PK; cbn [step_seg s_type first_loop s_value s_mods]; now rewrite AT.
      + exists (r_text (e_content e)). split; [destruct top; unfold exec_element; rewrite PK; reflexivity|]. cbn [denotes].
        destruct SH as [_ _ _ _ [kids' [K1 K2]]]. exists kids'. now rewrite K2.
  Qed.
  Lemma shows_matching : forall n F es, step_name n -> Forall2 shows (elems F) es -> len (matching (elem_seg n) es) = len (called (selects n) F).
  Proof.
    intros n F es SN H. symmetry. rewrite called_elems. unfold matching. eapply f2_length. apply shows_filter; [exact H|]. intros m Hm. symmetry. now apply selects_match.
  Qed.
  Lemma inside_eq : forall rest fin nd, inside rest fin nd = if is_last rest fin then final_answer fin nd else query false rest fin (kids_of nd).
  Proof. intros [|s rest] fin nd; destruct fin; reflexivity. Qed.
  Lemma exec_leads : forall steps s nd, leads steps s nd -> forall rest fin nd0, Forall good_tstep (steps ++ rest) -> good_final (steps ++ rest) fin -> Forall early steps ->
    same nd0 nd -> good nd0 -> inside rest fin nd0 <> Nothing ->
    forall top fuel key x, skippable x -> (top = true -> match steps with (_, Some _) :: _ => False | _ => True end) -> len (segs_of (steps ++ rest) fin) < fuel ->
    exists r, exec E fuel key top (x ++ s) (segs_of (steps ++ rest) fin) = Ok r /\ denotes (inside rest fin nd0) r.
  Proof.
    assert (SG : forall st rest fin, segs_of (st :: rest) fin = map (fun st => step_seg (st, [])) (tstep_steps st) ++ segs_of rest fin).
    { intros st rest fin. unfold segs_of, tpath_steps. cbn [flat_map]. rewrite <- app_assoc, map_app. reflexivity. }
    assert (SL : forall st rest fin, len (segs_of rest fin) < len (segs_of (st :: rest) fin)).
    { intros [n [ds|]] rest fin; rewrite SG; cbn [tstep_steps map app List.length]; lia. }
    induction steps as [|st0 steps0 IH]; intros s0 nd H0; [inversion H0|]. inversion H0 as [n idx F1 nd' tail G1 G2 N L|n idx rest0 F1 m a s nd' G1 G2 G3 N L H]; subst; intros rest fin nd0 GS GF EY SM GD NN top fuel key x SK TP FU; clear H0.
    - cbn [app] in *. inversion GS as [|? ? [SN SI] GS2]; subst. inversion EY as [|? ? EY1 _]; subst. destruct fuel as [|fuel]; [lia|].
      destruct (scan_node key nd tail G2) as [e [es [Q1 [Q2 Q3]]]]; [destruct nd; auto; discriminate|].
      destruct (scan_before key F1 (node_text nd ++ tail) G1 _ Q1) as [es1 [Q4 Q5]].
      assert (M : seg_matches (elem_seg n) (e_name e) = true).
      { destruct nd as [m a self kids| |]; try discriminate. cbn [named] in N. rewrite (sh_name _ _ Q3). cbn [name_of]. inversion G2; subst. now rewrite selects_match. }
      assert (LM : len (matching (elem_seg n) es1) = index_of idx) by (rewrite <- L; now apply shows_matching).
      assert (SH : shows nd0 e) by (eapply shows_same; eauto).
      assert (TP' : top = true -> idx = None) by (intros T; specialize (TP T); destruct idx; [destruct TP|reflexivity]).
      assert (SC : scan (e_ord E) key (x ++ forest_text F1 ++ node_text nd ++ tail) = Some (es1 ++ e :: es)) by (rewrite scan_skip; auto).
      rewrite SG, inside_eq in *. destruct (is_last rest fin) eqn:IL.
      + destruct rest as [|? ?]; [|discriminate]. eapply pick_last; eauto.
      + apply is_last_more in IL. destruct (more_segs rest fin IL) as [nx [more [ES TY]]].
        eapply pick_more; eauto. intros k.
        assert (GF2 : good_final rest fin).
        { destruct fin; cbn [good_final] in *; auto; destruct IL as [M0|M0]; try discriminate; auto; (split; [|tauto || auto]); try tauto.
          - intros [a0 [n0 [ds0 Ea]]]. apply (proj1 GF). exists ((n, idx) :: a0), n0, ds0. now rewrite Ea.
          - intros [a0 [n0 [ds0 Ea]]]. apply (proj1 GF). exists ((n, idx) :: a0), n0, ds0. now rewrite Ea. }
        destruct (exec_query E Hord rest fin GS2 GF2 fuel false k (e_content e) (kids_of nd0) (shows_reads E Hord nd0 e SH)) as [r [R1 R2]].
        { specialize (SL (n, idx) rest fin). rewrite SG in SL. lia. }
        exists r. split; [exact R1|]. split; [|exact R2]. rewrite (denotes_null _ _ R2). destruct (query false rest fin (kids_of nd0)); congruence.
    - cbn [app] in *. inversion GS as [|? ? [SN SI] GS2]; subst. inversion EY as [|? ? EY1 EY2]; subst. destruct fuel as [|fuel]; [lia|].
      destruct (leads_contents steps0 s nd H key m 0) as [t [r0 [nd2 [C0 [H' S1]]]]].
      destruct (scan_start key m a s t r0 G2 G3 C0) as [e [es [Q1 [E1 [E2 E3]]]]].
      destruct (scan_before key F1 (start_tag m a false ++ s) G1 _ Q1) as [es1 [Q4 Q5]].
      assert (M : seg_matches (elem_seg n) (e_name e) = true) by (rewrite E1; now rewrite selects_match).
      assert (LM : len (matching (elem_seg n) es1) = index_of idx) by (rewrite <- L; now apply shows_matching).
      assert (TP' : top = true -> idx = None) by (intros T; specialize (TP T); destruct idx; [destruct TP|reflexivity]).
      assert (SC : scan (e_ord E) key (x ++ forest_text F1 ++ start_tag m a false ++ s) = Some (es1 ++ e :: es)) by (rewrite scan_skip; auto).
      assert (NE : steps0 <> []) by (intros ->; inversion H).
      assert (FU2 : len (segs_of (steps0 ++ rest) fin) < fuel) by (specialize (SL (n, idx) (steps0 ++ rest) fin); lia).
      rewrite SG. destruct (more_segs (steps0 ++ rest) fin) as [nx [more [ES TY]]]; [left; destruct steps0; [congruence|discriminate]|].
      eapply pick_more; eauto. intros k. rewrite E3.
      assert (GF2 : good_final (steps0 ++ rest) fin).
      { assert (NE2 : steps0 ++ rest <> []) by (destruct steps0; [congruence|discriminate]). destruct fin; cbn [good_final] in *; auto; (split; [|tauto || auto]); try tauto.
        - intros [a0 [n0 [ds0 Ea]]]. apply (proj1 GF). exists ((n, idx) :: a0), n0, ds0. now rewrite Ea.
        - intros [a0 [n0 [ds0 Ea]]]. apply (proj1 GF). exists ((n, idx) :: a0), n0, ds0. now rewrite Ea. }
      destruct (IH t nd2 H' rest fin nd0 GS2 GF2 EY2 (same_trans _ _ _ SM S1) GD NN false fuel k [] skippable_nil) as [r [R1 R2]]; [discriminate|exact FU2|].
      exists r. split; [exact R1|]. split; [|exact R2]. rewrite (denotes_null _ _ R2). destruct (inside rest fin nd0); congruence.
  Qed.
  Lemma get_leads : forall p steps s nd rest fin, leads steps s nd -> prolog p -> good_tpath (steps ++ rest) fin -> Forall early steps -> inside rest fin nd <> Nothing ->
    match steps with (_, Some _) :: _ => False | _ => True end -> (blen (p ++ s) <= 10485760)%N ->
    exists r, get E (p ++ s) (tpath (steps ++ rest) fin) = Ok r /\ denotes (inside rest fin nd) r.
  Proof.
    intros p steps s nd rest fin H Hp HP EY NN ST HS. pose proof (segs_parse _ _ HP) as P.
    assert (NE : segs_of (steps ++ rest) fin <> []).
    { intros K. unfold segs_of in K. apply map_eq_nil in K. destruct HP as [_ Hf _]. unfold tpath_steps in K.
      apply app_eq_nil in K. destruct K as [K1 K2]. destruct (steps ++ rest) as [|[n [ds|]] l]; try discriminate.
      destruct fin; cbn [good_final] in Hf; try discriminate; tauto. }
    rewrite (get_exec E (p ++ s) _ _ (S (Nat.max (cost (segs_of (steps ++ rest) fin)) (len (segs_of (steps ++ rest) fin)))) HS P NE) by lia.
    destruct HP as [H1 H2 _]. eapply exec_leads; eauto using same_refl, leads_good, skippable_prolog. lia.
  Qed.
End Tail.
