(** Edits under options: creation of missing elements and appending. *)
From Coq Require Import List Ascii String NArith ZArith Bool Lia Permutation.
From Verif Require Import GoStr ModelParser ModelPath ModelResult ModelQuery ModelValidate ModelBuilder SpecText SpecPath SpecTree SpecQuery SpecEdit SpecContent SpecFilter SpecLang SpecCase SpecOptions
  ProofBase ProofEscape ProofPath ProofScan ProofSyntax ProofTree ProofTree2 ProofTree3 ProofTree4 ProofTree5 ProofApi2 ProofTree7 ProofEdit ProofEdit2 ProofEdit3 ProofEdit4 ProofEdit5 ProofMod3 ProofCase ProofOpt ProofOpt2.
Import ListNotations.

Lemma designated_app : forall x s1 F A n a kids B, designated x s1 F A (Elem n a false kids) B -> forall s2 A2 nd B2, designated x s2 kids A2 nd B2 ->
  designated x (s1 ++ s2) F (A ++ start_tag n a false ++ A2) nd (B2 ++ end_tag n ++ B).
Proof.
  intros x s1 F A n a kids B L. remember (Elem n a false kids) as y eqn:Ex. revert n a kids Ex.
  induction L as [m idx F1 nd0 F2 H1 H2|m idx rest F1 m0 a0 kids0 F2 A nd0 B H1 H2 H3 IH]; intros n a kids -> s2 A2 nd B2 L2.
  - cbn [app]. constructor; auto.
  - specialize (IH _ _ _ eq_refl s2 A2 nd B2 L2). cbn [app]. rewrite <- !app_assoc.
    replace (B2 ++ end_tag n ++ B ++ end_tag m0 ++ forest_text F2) with ((B2 ++ end_tag n ++ B) ++ end_tag m0 ++ forest_text F2) by now rewrite <- !app_assoc.
    constructor; auto.
Qed.
Lemma designated_app_inv : forall x s1 s2 F A nd B, s1 <> [] -> s2 <> [] -> designated x (s1 ++ s2) F A nd B ->
  exists A1 n a kids B1 A2 B2, designated x s1 F A1 (Elem n a false kids) B1 /\ designated x s2 kids A2 nd B2.
Proof.
  intros x. induction s1 as [|[m idx] s1 IH]; intros s2 F A nd B N1 N2 L; [contradiction|]. cbn [app] in L.
  inversion L as [n0 idx0 G1 nd0 G2 K1 K2 Q1 Q2|n0 idx0 r0 G1 m0 a0 k0 G2 A0 nd0 B0 K1 K2 K3 Q1 Q2]; subst.
  - match goal with Q : [] = _ ++ _ |- _ => symmetry in Q; apply app_eq_nil in Q; tauto end.
  - destruct s1 as [|s s1].
    + exists (forest_text G1), m0, a0, k0, (forest_text G2), A0, B0. split; [now constructor|exact K3].
    + destruct (IH s2 k0 A0 nd B0 ltac:(discriminate) N2 K3) as [A1 [n [a [kids [B1 [A2 [B2 [L1 L2]]]]]]]].
      exists (forest_text G1 ++ start_tag m0 a0 false ++ A1), n, a, kids, (B1 ++ end_tag m0 ++ forest_text G2), A2, B2. split; [now constructor|exact L2].
Qed.
Lemma absent_here_opt : forall x m F, called (finds x m) F = [] -> forall rest A nd B, ~ designated x ((m, None) :: rest) F A nd B.
Proof.
  intros x m F H rest A nd B L. inversion L as [n0 idx0 G1 nd0 G2 K1 K2 Q1 Q2|n0 idx0 r0 G1 m0 a0 k0 G2 A0 nd0 B0 K1 K2 K3 Q1 Q2]; subst;
    unfold called in H; rewrite filter_app in H; apply app_eq_nil in H; destruct H as [_ H]; cbn [filter] in H.
  - fold (named (finds x m) nd) in H. rewrite K1 in H. discriminate.
  - rewrite K1 in H. discriminate.
Qed.
Lemma absent_below_opt : forall x pre m F A n a self kids B, designated x pre F A (Elem n a self kids) B -> called (finds x m) kids = [] ->
  forall rest A' nd' B', ~ designated x (pre ++ (m, None) :: rest) F A' nd' B'.
Proof.
  intros x pre m F A n a self kids B L C rest A' nd' B' L'. destruct (designated_app_inv x pre ((m, None) :: rest) F A' nd' B' (designated_nonempty _ _ _ _ _ _ L) ltac:(discriminate) L')
    as [A1 [n1 [a1 [kids1 [B1 [A2 [B2 [L1 L2]]]]]]]].
  destruct (designated_unique _ _ _ _ _ _ L _ _ _ L1) as [_ [Q _]]. injection Q as -> -> <- ->. exact (absent_here_opt x m kids C _ _ _ _ L2).
Qed.
Lemma csteps_names : forall o names, csteps o (by_name names) = by_name (map (spelled (o_case o)) names).
Proof. intros. unfold csteps, by_name. rewrite !map_map. reflexivity. Qed.
Lemma firstn_by_name : forall j names, firstn j (by_name names) = by_name (firstn j names).
Proof. intros. unfold by_name. apply firstn_map. Qed.

(** ** New elements *)
Lemma times_repeat : forall n s, times n s = repeat_bytes n s.
Proof. induction n as [|n IH]; intros s; [reflexivity|]. cbn [times repeat_bytes]. now rewrite IH. Qed.
Lemma new_line_text : forall indent i, forest_text (new_line indent i) = match indent with [] => [] | _ :: _ => lf :: repeat_bytes i indent end.
Proof. intros [|c s] i; [reflexivity|]. cbn [new_line]. rewrite forest_cons. cbn [node_text forest_text flat_map]. now rewrite app_nil_r, times_repeat. Qed.
Lemma build_lines : forall indent names xv i, names <> [] -> build_path indent i (map elem_seg names) xv = forest_text (nest_lines indent i names [] [Text xv]).
Proof.
  intros indent. induction names as [|n names IH]; intros xv i H; [contradiction|].
  cbn [map build_path elem_seg s_type s_value nest_lines]. rewrite forest_app, new_line_text, forest_cons, node_elem. cbn [forest_text flat_map]. rewrite app_nil_r, open_start, close_end.
  f_equal. destruct names as [|m names].
  - cbn [map build_path nest_lines]. fold (forest_text [Text xv]). rewrite forest_cons. cbn [node_text forest_text flat_map app]. now rewrite app_nil_r.
  - rewrite <- IH by discriminate. reflexivity.
Qed.

Section Create.
  Variable E : env.
  Variable fmt_g : f64 -> bytes.
  Hypothesis Hord : forall k l, Permutation l (e_ord E k l).
  Variable o : options.
  Let x := o_case o.
  Section Doc.
  Variable p : bytes.
  Variable F : list node.
  Hypothesis Hp : prolog p.
  Hypothesis Hg : Forall good F.
  Let d := p ++ forest_text F.
  Hypothesis Hd : (blen d <= 10485760)%N.

  Let nm (names : list bytes) := map (spelled x) names.
  Lemma firstn_names_opt : forall pre names j, j <= len names ->
    firstn (len (segs_of (csteps o pre) TheElement) + j) (segs_of (csteps o (pre ++ by_name names)) TheElement) = segs_of (csteps o (pre ++ by_name (firstn j names))) TheElement.
  Proof. intros pre names j H. rewrite !csteps_app, !csteps_names, firstn_names by now rewrite map_length. now rewrite firstn_map. Qed.
  Lemma find_parent_found_opt : forall pre m ms key A n a self kids B, Forall good_tstep (pre ++ by_name (m :: ms)) -> designated x pre F A (Elem n a self kids) B ->
    called (finds x m) kids = [] -> forall j, j <= len (m :: ms) -> exists l,
    find_parent E o key d (segs_of (csteps o (pre ++ by_name (m :: ms))) TheElement) (len (segs_of (csteps o pre) TheElement) + j) = Ok (Some (l, len (segs_of (csteps o pre) TheElement))) /\
    at_loc (Z.of_nat (len p)) A (Elem n a self kids) l.
  Proof.
    intros pre m ms key A n a self kids B GS L C. pose proof (designated_nonempty _ _ _ _ _ _ L) as NE. pose proof (csteps_nonempty o _ NE) as NC. apply Forall_app in GS. destruct GS as [GP GN].
    assert (Q : exists k, len (segs_of (csteps o pre) TheElement) = S k) by (destruct (segs_nonempty _ NC) as [sg [r ->]]; cbn [List.length]; eauto).
    destruct Q as [k Q]. induction j as [|j IH]; intros Hj.
    - destruct (find_some_opt E Hord o p F Hp Hg Hd pre (S k :: key) A _ B GP L) as [l [R AT]]. fold d in R. exists l. split; auto.
      assert (FN : firstn (S k) (segs_of (csteps o (pre ++ by_name (m :: ms))) TheElement) = segs_of (csteps o pre) TheElement).
      { rewrite csteps_app, segs_app, <- Q. rewrite firstn_app, Nat.sub_diag, firstn_all. apply app_nil_r. }
      rewrite Nat.add_0_r, Q. cbn [find_parent]. rewrite FN, R. reflexivity.
    - destruct (IH ltac:(lia)) as [l [R AT]]. exists l. split; auto. rewrite Nat.add_succ_r. cbn [find_parent]. rewrite <- Nat.add_succ_r at 2. rewrite firstn_names_opt by auto.
      rewrite (find_none_opt E Hord o p F Hp Hg Hd); [exact R| | |].
      + apply Forall_app. split; auto. apply good_by_name. apply good_by_name in GN. now apply Forall_firstn.
      + destruct pre; [contradiction|discriminate].
      + cbn [firstn by_name map]. eapply absent_below_opt; eauto.
  Qed.
  Lemma find_parent_none_opt : forall m ms key, Forall good_tstep (by_name (m :: ms)) -> called (finds x m) F = [] -> forall j, j <= len (m :: ms) ->
    find_parent E o key d (segs_of (csteps o (by_name (m :: ms))) TheElement) j = Ok None.
  Proof.
    intros m ms key GS C. induction j as [|j IH]; intros Hj; [reflexivity|]. cbn [find_parent].
    assert (Q : firstn (S j) (segs_of (csteps o (by_name (m :: ms))) TheElement) = segs_of (csteps o (by_name (firstn (S j) (m :: ms)))) TheElement)
      by (rewrite !csteps_names, !segs_names, firstn_map; now rewrite firstn_map).
    rewrite Q. pose proof (find_none_opt E Hord o p F Hp Hg Hd (by_name (firstn (S j) (m :: ms))) (S j :: key)) as R. fold d in R. rewrite R.
    - apply IH. lia.
    - apply good_by_name. apply good_by_name in GS. now apply Forall_firstn.
    - discriminate.
    - cbn [firstn by_name map]. now apply absent_here_opt.
  Qed.

  Hypothesis Hv : valid d = true.
  Lemma set_missing_start_opt : forall steps v xv, good_tpath steps TheElement -> (forall A nd B, ~ designated x steps F A nd B) ->
    v <> VNil -> value_to_xml fmt_g v = inr xv -> (blen xv <= 5242880)%N ->
    set_opts E fmt_g o d (tpath steps TheElement) v =
    edit_of d (let* r := create_element E o [4] d (segs_of (csteps o steps) TheElement) xv in
               match r with inl e => Ok (inl e) | inr r => Ok (inr (get_result d r)) end).
  Proof.
    intros steps v xv GT NL NV XV SZ. pose proof (parse_opts_path o _ _ GT) as P. cbn [cfinal] in P. destruct GT as [GS NE _]. cbn [good_final] in NE. pose proof (csteps_nonempty o _ NE) as NC.
    destruct (segs_nonempty _ NC) as [sg [r Q]]. unfold d. rewrite (set_start_opt E fmt_g o p F Hd Hv _ v _ NV P) by (rewrite Q; discriminate). fold d.
    unfold set_element. rewrite Q. cbn iota. rewrite XV. rewrite (proj2 (N.ltb_ge MaxValueSize (blen xv)) SZ), (size_ok _ Hd).
    rewrite <- Q. rewrite <- (app_nil_r (segs_of (csteps o steps) TheElement)), intents_steps, app_nil_r by (intros ? []).
    rewrite (type_attr_false _ (last_steps _ _ NC)). pose proof (find_none_opt E Hord o p F Hp Hg Hd steps [3] GS NE NL) as R. fold d in R. rewrite R. reflexivity.
  Qed.
  Definition chain (names : list bytes) (xv : bytes) : bytes := forest_text (new_chain (o_case o) (o_indent o) names [] [Text xv]).
  Lemma create_below_opt : forall pre m ms key xv A n a self kids B, Forall good_tstep (pre ++ by_name (m :: ms)) -> designated x pre F A (Elem n a self kids) B ->
    called (finds x m) kids = [] -> exists a', Permutation a a' /\ (self = false -> a' = a) /\
    create_element E o key d (segs_of (csteps o (pre ++ by_name (m :: ms))) TheElement) xv =
      Ok (inr ((p ++ A) ++ start_tag n a' false ++ forest_text kids ++ chain (m :: ms) xv ++ end_tag n ++ B)).
  Proof.
    intros pre m ms key xv A n a self kids B GS L C. unfold create_element. destruct (doc_nonempty p F Hd Hv) as [c [r Dn]]. fold d in Dn. rewrite Dn. rewrite <- Dn.
    assert (LN : len (segs_of (csteps o (pre ++ by_name (m :: ms))) TheElement) - 1 = len (segs_of (csteps o pre) TheElement) + len ms).
    { rewrite csteps_app, csteps_names, segs_app, app_length, segs_names, !map_length. cbn [List.length]. lia. }
    rewrite LN. destruct (find_parent_found_opt pre m ms (0 :: key) A n a self kids B GS L C (len ms) ltac:(cbn; lia)) as [l [R AT]]. rewrite R. cbn [bind].
    assert (SK : skipn (len (segs_of (csteps o pre) TheElement)) (segs_of (csteps o (pre ++ by_name (m :: ms))) TheElement) = map elem_seg (map (spelled (o_case o)) (m :: ms))).
    { rewrite csteps_app, csteps_names, segs_app, skipn_app, skipn_all, Nat.sub_diag. cbn [skipn app]. apply segs_names. }
    rewrite SK. destruct (slices_opt o p F Hd _ _ _ _ _ _ _ l L AT) as [S1 [_ [_ [S4 [S5 _]]]]]. fold d in S1, S4, S5.
    inversion AT as [n1 a1 self1 kids1 l1 B1 B2 B3 B4 B5 B6 B7]; subst n1 a1 self1 kids1 l1.
    unfold create_in_parent. rewrite build_lines by discriminate. fold (chain (m :: ms) xv). rewrite B7. destruct self.
    - destruct (designated_good _ _ _ _ _ _ L Hg) as [GE _]. inversion GE as [? ? ? ? GN GA GSf GK| |]; subst n0 a0 self kids0.
      exists (e_ord E (2 :: key) (l_attrs l)). split; [etransitivity; [exact B6|apply Hord]|]. split; [discriminate|].
      rewrite S1. cbn [bind]. rewrite S4. cbn [bind app].
      do 2 f_equal. rewrite (GSf eq_refl). unfold reopen_tag. rewrite write_attrs_text, B5, close_end. unfold start_tag. cbn [forest_text flat_map app]. now rewrite <- !app_assoc.
    - exists a. split; [reflexivity|]. split; [reflexivity|]. rewrite S5. cbn [bind]. rewrite S4. cbn [bind].
      do 2 f_equal. now rewrite <- !app_assoc.
  Qed.
  Lemma finds_spelled : forall e m, finds e m (spelled e m) = true.
  Proof. intros [] m; unfold finds, spelled; [apply selects_self|]. unfold alike. rewrite folded_idem. apply selects_self. Qed.
  Lemma create_root_opt : forall m ms key xv, Forall good_tstep (by_name (m :: ms)) -> called (finds x m) F = [] ->
    create_element E o key d (segs_of (csteps o (by_name (m :: ms))) TheElement) xv = Ok (inr (d ++ chain (m :: ms) xv)).
  Proof.
    intros m ms key xv GS C. unfold create_element. destruct (doc_nonempty p F Hd Hv) as [c [r Dn]]. fold d in Dn. rewrite Dn. rewrite <- Dn.
    rewrite (find_parent_none_opt m ms _ GS C) by (rewrite csteps_names, segs_names, !map_length; cbn [List.length]; lia). cbn [bind].
    unfold create_in_root. destruct (scan_forest (e_ord E) (0 :: 1 :: key) F Hord Hg) as [es [SC SD]].
    assert (SR : scan_res E (0 :: 1 :: key) d = Ok es) by (unfold scan_res, d; rewrite scan_skip by (now apply skippable_prolog); now rewrite SC).
    rewrite SR. cbn [bind]. rewrite csteps_names, segs_names. cbn [map]. fold x. change (s_type (elem_seg (spelled x m))) with SElem. change (s_value (elem_seg (spelled x m))) with (spelled x m). cbn [segtype_eqb andb].
    assert (SB : should_create_sibling es (spelled x m) = true).
    { unfold should_create_sibling. apply negb_true_iff. destruct (existsb _ es) eqn:Q; auto. apply existsb_exists in Q. destruct Q as [e [I Q]].
      apply bytes_eqb_eq in Q. pose proof (scanned_count (finds x m) F es SD) as K. rewrite C in K. cbn [List.length] in K.
      assert (I2 : In e (filter (fun e0 => finds x m (e_name e0)) es)) by (apply filter_In; split; auto; rewrite Q; apply finds_spelled).
      destruct (filter (fun e0 => finds x m (e_name e0)) es); [destruct I2|discriminate]. }
    rewrite SB. change (elem_seg (spelled x m) :: map elem_seg (map (spelled x) ms)) with (map elem_seg (map (spelled x) (m :: ms))). now rewrite build_lines by discriminate.
  Qed.
  End Doc.
  Lemma create_empty_opt : forall m ms key xv, create_element E o key [] (segs_of (csteps o (by_name (m :: ms))) TheElement) xv = Ok (inr (chain (m :: ms) xv)).
  Proof. intros. unfold create_element. rewrite csteps_names, segs_names, build_lines by discriminate. reflexivity. Qed.
End Create.

(** ** Appending *)
Lemma last_none_opt : forall o n d F es, scanned F es -> Forall good F -> step_name n -> called (finds (o_case o) n) F = [] ->
  forall dflt, last_match_pos o (elem_seg (spelled (o_case o) n)) d es dflt = dflt.
Proof.
  intros o n d F es H G S C. pose proof (filter_finds o n F es H G S) as FS. pose proof (scanned_count (finds (o_case o) n) F es H) as K. rewrite C in K. rewrite <- FS in K. clear FS C H G.
  induction es as [|e es IH]; intros dflt; [reflexivity|]. cbn [last_match_pos]. cbn [filter] in K. destruct (seg_matches_opts (o_case o) (elem_seg (spelled (o_case o) n)) (e_name e)); [discriminate|]. auto.
Qed.
Lemma last_some_opt : forall o n d F1 m a self kids F2 es, scanned (F1 ++ Elem m a self kids :: F2) es -> Forall good (F1 ++ Elem m a self kids :: F2) -> step_name n ->
  finds (o_case o) n m = true -> called (finds (o_case o) n) F2 = [] -> forall dflt, last_match_pos o (elem_seg (spelled (o_case o) n)) d es dflt = pos_of d (forest_text F2).
Proof.
  intros o n d. induction F1 as [|x F1 IH]; intros m a self kids F2 es H G S M C dflt; cbn [app] in *; inversion G as [|? ? G1 G2]; subst.
  - inversion H as [| | |m' a' s' k' k2 F' es' P SC]; subst. cbn [last_match_pos e_name e_after].
    pose proof (filter_finds o n _ _ H ltac:(constructor; auto) S) as FS. cbn [filter e_name] in FS. rewrite M in FS.
    destruct (seg_matches_opts (o_case o) (elem_seg (spelled (o_case o) n)) m).
    + eapply last_none_opt; eauto.
    + exfalso. pose proof (scanned_count (finds (o_case o) n) F2 _ ltac:(eassumption)) as K. rewrite C in K. pose proof (filter_finds o n _ _ ltac:(eassumption) G2 S) as FS2. rewrite FS2 in FS.
      destruct (filter (fun e => finds (o_case o) n (e_name e)) _); [discriminate FS|discriminate K].
  - inversion H; subst; eauto. cbn [last_match_pos]. eapply IH; eauto.
Qed.
Lemma last_parted : forall o n d F es dflt F1 F2, scanned F es -> Forall good F -> step_name n -> parted (finds (o_case o) n) F F1 F2 ->
  dflt = pos_of d [] -> last_match_pos o (elem_seg (spelled (o_case o) n)) d es dflt = pos_of d (forest_text F2).
Proof.
  intros o n d F es dflt F1 F2 H G S P ->. inversion P as [F0 C|G1 nd G2 N C]; subst.
  - eapply last_none_opt; eauto.
  - destruct nd as [m a self kids| |]; try discriminate. eapply last_some_opt; eauto.
Qed.
Lemma parted_app : forall f F F1 F2, parted f F F1 F2 -> F = F1 ++ F2.
Proof. intros f F F1 F2 []; [now rewrite app_nil_r|now rewrite <- app_assoc]. Qed.
Lemma sorted_attrs_ordered : forall a m, NoDup (map fst a) -> Permutation a m -> exists a', Permutation a' a /\ sorted_by_name a' /\ sorted_attrs m = attrs_text a'.
Proof.
  intros a m H P. exists (by_names a (sort_strings (map fst m))). split; [|split].
  - apply by_names_perm; auto. rewrite <- sort_perm. symmetry. now apply Permutation_map.
  - apply by_names_sorted, sort_ordered.
  - unfold sorted_attrs, attrs_text, by_names. rewrite flat_map_concat_map, (flat_map_concat_map attr_text), map_map. f_equal. apply map_ext. intros n.
    unfold attr_text. cbn [fst snd]. rewrite value_text, (value_perm m a n H P), <- esc_escape. reflexivity.
Qed.
Lemma parse_opts_append : forall o steps, steps <> [] -> Forall good_tstep steps -> len (flat_map tstep_steps steps) < 100 ->
  parse_path_opts o (tpath steps TheElement ++ bs ".-1") = Ok (segs_of (csteps o steps) TheElement ++ [append_seg]).
Proof.
  intros o steps NE GS LN. unfold parse_path_opts. rewrite (append_parse _ NE GS LN). cbn [bind]. f_equal. destruct (o_case o) eqn:C.
  - now rewrite csteps_exact.
  - rewrite map_app, (lower_segs o _ _ C). reflexivity.
Qed.

Section Append.
  Variable E : env.
  Variable fmt_g : f64 -> bytes.
  Hypothesis Hord : forall k l, Permutation l (e_ord E k l).
  Variable o : options.
  Let x := o_case o.
  Section Doc.
  Variable p : bytes.
  Variable F : list node.
  Hypothesis Hp : prolog p.
  Hypothesis Hg : Forall good F.
  Let d := p ++ forest_text F.
  Hypothesis Hv : valid d = true.
  Let Hd : (blen d <= 10485760)%N := valid_size d Hv.

  Lemma append_start_opt : forall steps n v xv, Forall good_tstep (steps ++ [(n, None)]) -> len (flat_map tstep_steps (steps ++ [(n, None)])) < 100 ->
    v <> VNil -> value_to_xml fmt_g v = inr xv -> (blen xv <= 5242880)%N ->
    set_opts E fmt_g o d (tpath (steps ++ [(n, None)]) TheElement ++ bs ".-1") v =
    edit_of d (let* r := append_element E o [0] d (segs_of (csteps o steps) TheElement ++ [elem_seg (spelled x n); append_seg]) xv in
               match r with inl e => Ok (inl e) | inr r => Ok (inr (get_result d r)) end).
  Proof.
    intros steps n v xv GS LN NV XV SZ. assert (NE : steps ++ [(n, None)] <> []) by (intros K; now destruct steps).
    pose proof (parse_opts_append o _ NE GS LN) as P. unfold d. pose proof (csteps_nonempty o _ NE) as NC.
    rewrite (set_start_opt E fmt_g o p F Hd Hv _ v _ NV P) by (intros K; now destruct (segs_of (csteps o (steps ++ [(n, None)])) TheElement)). fold d.
    unfold set_element. destruct (segs_nonempty _ NC) as [sg [r Q]]. rewrite Q. cbn [app]. rewrite XV. rewrite (proj2 (N.ltb_ge MaxValueSize (blen xv)) SZ), (size_ok _ Hd).
    change (sg :: r ++ [append_seg]) with ((sg :: r) ++ [append_seg]). rewrite <- Q, intents_append. rewrite csteps_app, segs_app.
    replace (segs_of (csteps o [(n, None)]) TheElement) with [elem_seg (spelled x n)] by reflexivity. rewrite <- app_assoc. reflexivity.
  Qed.
  Lemma append_parts_opt : forall steps n xv key, append_element E o key d (segs_of steps TheElement ++ [elem_seg n; append_seg]) xv =
    match segs_of steps TheElement with
    | [] => append_root E o (0 :: key) d (elem_seg n) xv
    | parent =>
        let* l := find_loc E o (1 :: key) d parent 0 in
        match l with
        | None => create_element E o (2 :: key) d (parent ++ [elem_seg n]) xv
        | Some l =>
            if l_self l then
              let* a := slice_to d (l_start l) in
              let* b := slice_from d (l_content_end l) in
              Ok (inr (a ++ bs "<" ++ l_name l ++ sorted_attrs (l_attrs l) ++ bs ">" ++ new_elem n xv ++ close_tag (l_name l) ++ b))
            else
              let* q := find_last_match E o (3 :: key) d l (elem_seg n) in
              let* a := slice_to d q in
              let ind := match o_indent o with [] => [] | _ :: _ => if (l_content_start l <? q)%Z then lf :: repeat_bytes (len parent) (o_indent o) else [] end in
              let* b := slice_from d q in
              let r := a ++ ind ++ new_elem n xv ++ b in
              if (MaxDocumentSize <? blen r)%N then Ok (inl ErrInvalidValue) else Ok (inr r)
        end
    end.
  Proof.
    intros steps n xv key. unfold append_element.
    assert (RV : rev (segs_of steps TheElement ++ [elem_seg n; append_seg]) = append_seg :: elem_seg n :: rev (segs_of steps TheElement))
      by (rewrite rev_app_distr; reflexivity).
    rewrite RV. cbn [append_seg s_type s_index segtype_eqb negb orb elem_seg s_value]. rewrite Z.eqb_refl. cbn [negb]. rewrite rev_involutive.
    destruct (segs_of steps TheElement) as [|y l]; reflexivity.
  Qed.
  (** A non-self-closing parent. *)
  Lemma append_found_opt : forall steps A n a kids B m v xv K1 K2, Forall good_tstep (steps ++ [(m, None)]) -> len (flat_map tstep_steps (steps ++ [(m, None)])) < 100 ->
    designated x steps F A (Elem n a false kids) B -> parted (finds x m) kids K1 K2 -> v <> VNil -> value_to_xml fmt_g v = inr xv -> (blen xv <= 5242880)%N ->
    let m' := spelled x m in
    let new := p ++ A ++ start_tag n a false ++ forest_text K1 ++ forest_text (line_after K1 (o_indent o) (len (flat_map tstep_steps steps))) ++ (start_tag m' [] false ++ xv ++ end_tag m') ++ forest_text K2 ++ end_tag n ++ B in
    set_opts E fmt_g o d (tpath (steps ++ [(m, None)]) TheElement ++ bs ".-1") v =
      Ok (if (10485760 <? blen new)%N then (d, Some ErrInvalidValue) else (new, None)).
  Proof.
    intros steps A n a kids B m v xv K1 K2 GS LN L PT NV XV SZ. pose proof (parted_app _ _ _ _ PT) as EK.
    rewrite append_start_opt with (xv := xv) by auto. rewrite append_parts_opt. pose proof (designated_nonempty _ _ _ _ _ _ L) as NE. pose proof (csteps_nonempty o _ NE) as NC.
    apply Forall_app in GS. destruct GS as [GP GM]. inversion GM as [|? ? [SM _] _]; subst. cbn [fst] in SM.
    destruct (segs_nonempty _ NC) as [sg [r Q]]. rewrite Q. cbn iota. cbv zeta. rewrite <- Q. destruct (find_some_opt E Hord o p F Hp Hg Hd steps [1; 0] A _ B GP L) as [l [R AT]]. fold d in R. rewrite R. cbn [bind].
    destruct (designated_good _ _ _ _ _ _ L Hg) as [GE _]. inversion GE as [? ? ? ? GN GA GSf GK| |]; subst n0 a0 self kids.
    destruct (slices_opt o p F Hd _ _ _ _ _ _ _ l L AT) as [_ [_ [S3 [S4 [S5 _]]]]]. fold d in S3, S4, S5.
    inversion AT as [n1 a1 self1 kids1 l1 B1 B2 B3 B4 B5 B6 B7]; subst n1 a1 self1 kids1 l1. rewrite B7.
    unfold find_last_match, sliced. rewrite (proj2 (Z.leb_le _ _)) by (rewrite B3; lia). rewrite S5. cbn [bind].
    assert (SF : slice_from (p ++ A ++ start_tag n a false ++ forest_text (K1 ++ K2)) (l_content_start l) = Ok (forest_text (K1 ++ K2))).
    { replace (p ++ A ++ start_tag n a false ++ forest_text (K1 ++ K2)) with ((p ++ A ++ start_tag n a false) ++ forest_text (K1 ++ K2)) by now rewrite <- !app_assoc.
      apply slice_from_app. rewrite B2, !app_length. lia. }
    rewrite SF. cbn [bind].
    destruct (scan_forest (e_ord E) [3; 0] (K1 ++ K2) Hord GK) as [es [SC SD]].
    assert (SR : scan_res E [3; 0] (forest_text (K1 ++ K2)) = Ok es) by (unfold scan_res; now rewrite SC). rewrite SR. cbn [bind]. unfold x.
    rewrite (last_parted o m (forest_text (K1 ++ K2)) (K1 ++ K2) es _ K1 K2 SD GK SM PT).
    2:{ rewrite B3. unfold pos_of. cbn [List.length]. lia. }
    set (q := (pos_of (forest_text (K1 ++ K2)) (forest_text K2) + l_content_start l)%Z).
    assert (DQ : d = (p ++ A ++ start_tag n a false ++ forest_text K1) ++ forest_text K2 ++ end_tag n ++ B).
    { unfold d. rewrite (designated_text _ _ _ _ _ _ L), node_elem, forest_app, <- !app_assoc. reflexivity. }
    assert (QL : q = Z.of_nat (len (p ++ A ++ start_tag n a false ++ forest_text K1))).
    { unfold q, pos_of. rewrite B2, forest_app, !app_length. lia. }
    assert (LL : len (segs_of (csteps o steps) TheElement) = len (flat_map tstep_steps steps)).
    { unfold segs_of, tpath_steps, csteps. cbn [final_steps]. rewrite app_nil_r, map_length. clear. induction steps as [|[s i] l IH]; [reflexivity|]. cbn [map flat_map fst snd]. rewrite !app_length, IH. now destruct i. }
    assert (LI : match o_indent o with [] => [] | _ :: _ => if (l_content_start l <? q)%Z then lf :: repeat_bytes (len (segs_of (csteps o steps) TheElement)) (o_indent o) else [] end
      = forest_text (line_after K1 (o_indent o) (len (flat_map tstep_steps steps)))).
    { rewrite LL. unfold line_after. destruct (forest_text K1) as [|k1 kr] eqn:KE.
      - rewrite (proj2 (Z.ltb_ge _ _)) by (rewrite QL, B2, !app_length; cbn [List.length]; lia). now destruct (o_indent o).
      - rewrite (proj2 (Z.ltb_lt _ _)) by (rewrite QL, B2, !app_length; cbn [List.length]; lia). symmetry. apply new_line_text. }
    rewrite LI.
    assert (S6 : slice_to d q = Ok (p ++ A ++ start_tag n a false ++ forest_text K1)) by (rewrite DQ; now apply slice_to_app).
    assert (S7 : slice_from d q = Ok (forest_text K2 ++ end_tag n ++ B)) by (rewrite DQ; now apply slice_from_app).
    rewrite S6. cbn [bind]. rewrite S7. cbn [bind].
    rewrite new_elem_text. rewrite <- !app_assoc. change MaxDocumentSize with 10485760%N.
    match goal with |- context [(10485760 <? blen ?y)%N] => set (w := y) end. destruct (N.ltb_spec 10485760 (blen w)) as [X|X]; cbn [bind edit_of]; [reflexivity|].
    rewrite get_result_some; [reflexivity|]. unfold w. rewrite app_assoc. apply start_tag_nonempty.
  Qed.
  (** A self-closing parent is expanded. *)
  Lemma append_self_opt : forall steps A n a kids B m v xv, Forall good_tstep (steps ++ [(m, None)]) -> len (flat_map tstep_steps (steps ++ [(m, None)])) < 100 ->
    designated x steps F A (Elem n a true kids) B -> v <> VNil -> value_to_xml fmt_g v = inr xv -> (blen xv <= 5242880)%N ->
    exists a', Permutation a' a /\ sorted_by_name a' /\ set_opts E fmt_g o d (tpath (steps ++ [(m, None)]) TheElement ++ bs ".-1") v =
      Ok (p ++ A ++ start_tag n a' false ++ (start_tag (spelled x m) [] false ++ xv ++ end_tag (spelled x m)) ++ end_tag n ++ B, None).
  Proof.
    intros steps A n a kids B m v xv GS LN L NV XV SZ. pose proof (designated_nonempty _ _ _ _ _ _ L) as NE. pose proof (csteps_nonempty o _ NE) as NC.
    destruct (segs_nonempty _ NC) as [sg [r Q]]. apply Forall_app in GS as GS2. destruct GS2 as [GP _].
    destruct (find_some_opt E Hord o p F Hp Hg Hd steps [1; 0] A _ B GP L) as [l [R AT]]. fold d in R.
    destruct (designated_good _ _ _ _ _ _ L Hg) as [GE _]. inversion GE as [? ? ? ? GN GA GSf GK| |]; subst n0 a0 self kids0.
    destruct (slices_opt o p F Hd _ _ _ _ _ _ _ l L AT) as [S1 [_ [S3 [S4 [S5 _]]]]]. fold d in S1, S3, S4, S5.
    inversion AT as [n1 a1 self1 kids1 l1 B1 B2 B3 B4 B5 B6 B7]; subst n1 a1 self1 kids1 l1.
    destruct (sorted_attrs_ordered a (l_attrs l) (ga_distinct _ GA) B6) as [a' [PA [OA TA]]]. exists a'. split; auto. split; auto.
    rewrite append_start_opt with (xv := xv) by auto. rewrite append_parts_opt, Q. cbn iota. cbv zeta. rewrite <- Q, R. cbn [bind]. rewrite B7, S1. cbn [bind]. rewrite S4. cbn [bind edit_of].
    rewrite TA, B5, new_elem_text. change (close_tag n) with (end_tag n). cbn [app]. set (m' := spelled x m).
    replace ((p ++ A) ++ bs "<" ++ n ++ attrs_text a' ++ bs ">" ++ (start_tag m' [] false ++ xv ++ end_tag m') ++ end_tag n ++ B)
      with ((p ++ A) ++ start_tag n a' false ++ (start_tag m' [] false ++ xv ++ end_tag m') ++ end_tag n ++ B) by (unfold start_tag; now rewrite <- !app_assoc).
    rewrite get_result_some by apply start_tag_nonempty. now rewrite <- !app_assoc.
  Qed.
  (** At the top level. *)
  Lemma append_top_opt : forall m v xv F1 F2, step_name m -> parted (finds x m) F F1 F2 -> v <> VNil -> value_to_xml fmt_g v = inr xv -> (blen xv <= 5242880)%N ->
    let m' := spelled x m in
    let new := p ++ forest_text F1 ++ (start_tag m' [] false ++ xv ++ end_tag m') ++ forest_text F2 in
    set_opts E fmt_g o d (tpath [(m, None)] TheElement ++ bs ".-1") v =
      Ok (if (10485760 <? blen new)%N then (d, Some ErrInvalidValue) else (new, None)).
  Proof.
    intros m v xv F1 F2 SM PT NV XV SZ. pose proof (parted_app _ _ _ _ PT) as EF.
    assert (GM : Forall good_tstep ([] ++ [(m, None)])) by (constructor; [split; [exact SM|exact I]|constructor]).
    pose proof (append_start_opt [] m v xv GM) as AS. cbn [app] in AS. rewrite AS by (auto; cbn; lia). pose proof (append_parts_opt [] (spelled x m) xv [0]) as AP. cbn [app] in AP.
    cbn [csteps segs_of tpath_steps flat_map final_steps app map] in *. rewrite AP. clear AP AS. unfold append_root.
    destruct d as [|c0 r0] eqn:Dn; [discriminate Hv|]. rewrite <- Dn in *.
    destruct (scan_forest (e_ord E) [0; 0] F Hord Hg) as [es [SC SD]].
    assert (SR : scan_res E [0; 0] d = Ok es) by (rewrite Dn, <- Dn; unfold scan_res, d; rewrite scan_skip by (now apply skippable_prolog); now rewrite SC).
    rewrite SR. cbn [bind]. unfold x.
    rewrite (last_parted o m d F es _ F1 F2 SD Hg SM PT).
    2:{ unfold pos_of. cbn [List.length]. lia. }
    assert (DQ : d = (p ++ forest_text F1) ++ forest_text F2) by (unfold d; rewrite EF, forest_app, <- app_assoc; reflexivity).
    assert (QL : pos_of d (forest_text F2) = Z.of_nat (len (p ++ forest_text F1))) by (unfold pos_of; rewrite DQ at 1; rewrite !app_length; lia).
    set (q := pos_of d (forest_text F2)) in *. clearbody q.
    assert (S1 : slice_to d q = Ok (p ++ forest_text F1)) by (rewrite DQ; now apply slice_to_app).
    assert (S2 : slice_from d q = Ok (forest_text F2)) by (rewrite DQ; now apply slice_from_app).
    rewrite S1. cbn [bind]. rewrite S2. cbn [bind]. cbn [elem_seg s_value]. rewrite new_elem_text. rewrite <- !app_assoc. change MaxDocumentSize with 10485760%N.
    match goal with |- context [(10485760 <? blen ?y)%N] => set (w := y) end. destruct (N.ltb_spec 10485760 (blen w)) as [X|X]; cbn [bind edit_of]; [reflexivity|].
    rewrite get_result_some; [reflexivity|]. unfold w. rewrite app_assoc. apply start_tag_nonempty.
  Qed.
  End Doc.
End Append.
