(** Creation of missing elements. *)
From Coq Require Import List Ascii String NArith ZArith Bool Lia Permutation.
From Verif Require Import GoStr ModelParser ModelPath ModelResult ModelQuery ModelValidate ModelBuilder SpecText SpecPath SpecTree SpecQuery SpecEdit
  ProofBase ProofEscape ProofPath ProofScan ProofSyntax ProofApi2 ProofTree ProofTree2 ProofTree3 ProofTree4 ProofTree5 ProofTree7 ProofEdit ProofEdit2 ProofEdit3.
Import ListNotations.

(** ** Paths *)
Lemma located_app : forall s1 F A n a kids B, located s1 F A (Elem n a false kids) B -> forall s2 A2 nd B2, located s2 kids A2 nd B2 ->
  located (s1 ++ s2) F (A ++ start_tag n a false ++ A2) nd (B2 ++ end_tag n ++ B).
Proof.
  intros s1 F A n a kids B L. remember (Elem n a false kids) as x eqn:Ex. revert n a kids Ex.
  induction L as [m idx F1 nd0 F2 H1 H2|m idx rest F1 m0 a0 kids0 F2 A nd0 B H1 H2 H3 IH]; intros n a kids -> s2 A2 nd B2 L2.
  - cbn [app]. constructor; auto.
  - specialize (IH _ _ _ eq_refl s2 A2 nd B2 L2). cbn [app]. rewrite <- !app_assoc.
    replace (B2 ++ end_tag n ++ B ++ end_tag m0 ++ forest_text F2) with ((B2 ++ end_tag n ++ B) ++ end_tag m0 ++ forest_text F2) by now rewrite <- !app_assoc.
    constructor; auto.
Qed.
Lemma located_app_inv : forall s1 s2 F A nd B, s1 <> [] -> s2 <> [] -> located (s1 ++ s2) F A nd B ->
  exists A1 n a kids B1 A2 B2, located s1 F A1 (Elem n a false kids) B1 /\ located s2 kids A2 nd B2.
Proof.
  induction s1 as [|[m idx] s1 IH]; intros s2 F A nd B N1 N2 L; [contradiction|]. cbn [app] in L.
  inversion L as [n0 idx0 G1 nd0 G2 K1 K2 Q1 Q2|n0 idx0 r0 G1 m0 a0 k0 G2 A0 nd0 B0 K1 K2 K3 Q1 Q2]; subst.
  - match goal with Q : [] = _ ++ _ |- _ => symmetry in Q; apply app_eq_nil in Q; tauto end.
  - destruct s1 as [|s s1].
    + exists (forest_text G1), m0, a0, k0, (forest_text G2), A0, B0. split; [now constructor|exact K3].
    + destruct (IH s2 k0 A0 nd B0 ltac:(discriminate) N2 K3) as [A1 [n [a [kids [B1 [A2 [B2 [L1 L2]]]]]]]].
      exists (forest_text G1 ++ start_tag m0 a0 false ++ A1), n, a, kids, (B1 ++ end_tag m0 ++ forest_text G2), A2, B2. split; [now constructor|exact L2].
Qed.
Lemma called_split : forall f F, called f F <> [] -> exists F1 nd F2, F = F1 ++ nd :: F2 /\ named f nd = true /\ called f F1 = [].
Proof.
  intros f. induction F as [|x F IH]; intros H; [contradiction|]. rewrite called_cons in H. destruct (named f x) eqn:N.
  - exists [], x, F. auto.
  - destruct (IH H) as [F1 [nd [F2 [-> [H1 H2]]]]]. exists (x :: F1), nd, F2. rewrite called_cons, N. auto.
Qed.
Lemma absent_here : forall m F, called (selects m) F = [] -> forall rest A nd B, ~ located ((m, None) :: rest) F A nd B.
Proof.
  intros m F H rest A nd B L. inversion L as [n0 idx0 G1 nd0 G2 K1 K2 Q1 Q2|n0 idx0 r0 G1 m0 a0 k0 G2 A0 nd0 B0 K1 K2 K3 Q1 Q2]; subst;
    unfold called in H; rewrite filter_app in H; apply app_eq_nil in H; destruct H as [_ H]; cbn [filter] in H.
  - fold (named (selects m) nd) in H. rewrite K1 in H. discriminate.
  - rewrite K1 in H. discriminate.
Qed.
Lemma absent_called : forall m F, (forall A nd B, ~ located [(m, None)] F A nd B) -> called (selects m) F = [].
Proof.
  intros m F H. destruct (called (selects m) F) as [|x l] eqn:Q; auto. destruct (called_split (selects m) F) as [F1 [nd [F2 [-> [H1 H2]]]]]; [now rewrite Q|].
  destruct (H (forest_text F1) nd (forest_text F2)). constructor; auto. now rewrite H2.
Qed.
Lemma absent_below : forall pre m F A n a self kids B, located pre F A (Elem n a self kids) B -> called (selects m) kids = [] ->
  forall rest A' nd' B', ~ located (pre ++ (m, None) :: rest) F A' nd' B'.
Proof.
  intros pre m F A n a self kids B L C rest A' nd' B' L'. destruct (located_app_inv pre ((m, None) :: rest) F A' nd' B' (located_nonempty _ _ _ _ _ L) ltac:(discriminate) L')
    as [A1 [n1 [a1 [kids1 [B1 [A2 [B2 [L1 L2]]]]]]]].
  destruct (located_unique _ _ _ _ _ L _ _ _ L1) as [_ [Q _]]. injection Q as -> -> <- ->. exact (absent_here m kids C _ _ _ _ L2).
Qed.
Lemma segs_app : forall s1 s2, segs_of (s1 ++ s2) TheElement = segs_of s1 TheElement ++ segs_of s2 TheElement.
Proof. intros. unfold segs_of, tpath_steps. cbn [final_steps]. now rewrite !app_nil_r, flat_map_app, map_app. Qed.
Lemma segs_names : forall names, segs_of (by_name names) TheElement = map elem_seg names.
Proof. induction names as [|n names IH]; [reflexivity|]. cbn [by_name map]. rewrite segs_cons. cbn [app]. now rewrite <- IH. Qed.
Lemma by_name_app : forall a b, by_name (a ++ b) = by_name a ++ by_name b.
Proof. intros. unfold by_name. apply map_app. Qed.
Lemma good_by_name : forall names, Forall good_tstep (by_name names) <-> Forall step_name names.
Proof.
  intros names. unfold by_name. rewrite Forall_map. split; intros H; eapply Forall_impl; try exact H; cbn beta; unfold good_tstep; cbn [fst snd]; intros; tauto.
Qed.

Lemma Forall_firstn : forall A (P : A -> Prop) l n, Forall P l -> Forall P (firstn n l).
Proof. intros A P l n H. revert n. induction H; intros [|n]; cbn [firstn]; constructor; auto. Qed.

(** ** Nested elements *)
Lemma open_start : forall n, open_tag n = start_tag n [] false.
Proof. intros. reflexivity. Qed.
Lemma close_end : forall n, close_tag n = end_tag n.
Proof. intros. reflexivity. Qed.
Lemma build_names : forall names xv i, names <> [] -> build_path [] i (map elem_seg names) xv =
  fold_right (fun n t => start_tag n [] false ++ t ++ end_tag n) xv names.
Proof.
  induction names as [|n names IH]; intros xv i H; [contradiction|]. cbn [map build_path elem_seg s_type s_value fold_right app]. rewrite open_start, close_end.
  destruct names as [|m names].
  - cbn [map build_path app fold_right]. reflexivity.
  - rewrite <- IH with (i := S i) by discriminate. reflexivity.
Qed.
Lemma nest_text : forall names K, forest_text (nest names K) = fold_right (fun n t => start_tag n [] false ++ t ++ end_tag n) (forest_text K) names.
Proof.
  induction names as [|n names IH]; intros K; [reflexivity|]. cbn [nest fold_right]. rewrite <- IH. rewrite forest_cons, node_elem. cbn [forest_text flat_map]. now rewrite app_nil_r.
Qed.
Lemma nest_good : forall names K, Forall xml_name names -> Forall good K -> Forall good (nest names K).
Proof.
  induction names as [|n names IH]; intros K H G; [exact G|]. inversion H; subst. cbn [nest]. constructor; [|constructor]. constructor; auto; [|discriminate].
  constructor; cbn [map List.length]; try constructor. lia.
Qed.
Lemma selects_self : forall m, selects m m = true.
Proof. intros. unfold selects. now rewrite bytes_eqb_refl. Qed.
Lemma located_nest : forall ms m kids K, called (selects m) kids = [] -> exists A B,
  located (by_name (m :: ms)) (kids ++ nest (m :: ms) K) A (Elem (last ms m) [] false K) B.
Proof.
  induction ms as [|m2 ms IH]; intros m kids K C; cbn [nest by_name map].
  - do 2 eexists. cbn [last]. constructor; [apply selects_self|now rewrite C].
  - destruct (IH m2 [] K eq_refl) as [A [B L]]. cbn [app] in L. cbn [by_name map] in L. exists (forest_text kids ++ start_tag m [] false ++ A), (B ++ end_tag m ++ forest_text []).
    replace (last (m2 :: ms) m) with (last ms m2). 2:{ clear. revert m m2. induction ms as [|x ms IH]; intros; [reflexivity|]. cbn [last] in *. rewrite <- (IH m x). destruct ms; auto. }
    constructor; auto; [apply selects_self|now rewrite C].
Qed.

Section Create.
  Variable E : env.
  Variable fmt_g : f64 -> bytes.
  Hypothesis Hord : forall k l, Permutation l (e_ord E k l).
  Section Doc.
  Variable p : bytes.
  Variable F : list node.
  Hypothesis Hp : prolog p.
  Hypothesis Hg : Forall good F.
  Let d := p ++ forest_text F.
  Hypothesis Hd : (blen d <= 10485760)%N.

  Lemma firstn_names : forall pre names j, j <= len names ->
    firstn (len (segs_of pre TheElement) + j) (segs_of (pre ++ by_name names) TheElement) = segs_of (pre ++ by_name (firstn j names)) TheElement.
  Proof. intros pre names j H. rewrite !segs_app, firstn_app_2, !segs_names. f_equal. apply firstn_map. Qed.
  Lemma find_parent_found : forall pre m ms key A n a self kids B, Forall good_tstep (pre ++ by_name (m :: ms)) -> located pre F A (Elem n a self kids) B ->
    called (selects m) kids = [] -> forall j, j <= len (m :: ms) -> exists l,
    find_parent E default_options key d (segs_of (pre ++ by_name (m :: ms)) TheElement) (len (segs_of pre TheElement) + j) = Ok (Some (l, len (segs_of pre TheElement))) /\
    at_loc (Z.of_nat (len p)) A (Elem n a self kids) l.
  Proof.
    intros pre m ms key A n a self kids B GS L C. pose proof (located_nonempty _ _ _ _ _ L) as NE. apply Forall_app in GS. destruct GS as [GP GN].
    assert (Q : exists k, len (segs_of pre TheElement) = S k) by (destruct (segs_nonempty pre NE) as [sg [r ->]]; cbn [List.length]; eauto).
    destruct Q as [k Q]. induction j as [|j IH]; intros Hj.
    - destruct (find_some E Hord p F Hp Hg Hd pre (S k :: key) A _ B GP L) as [l [R AT]]. fold d in R. exists l. split; auto.
      assert (FN : firstn (S k) (segs_of (pre ++ by_name (m :: ms)) TheElement) = segs_of pre TheElement).
      { rewrite segs_app, <- Q. rewrite firstn_app, Nat.sub_diag, firstn_all. apply app_nil_r. }
      rewrite Nat.add_0_r, Q. cbn [find_parent]. rewrite FN, R. reflexivity.
    - destruct (IH ltac:(lia)) as [l [R AT]]. exists l. split; auto. rewrite Nat.add_succ_r. cbn [find_parent]. rewrite <- Nat.add_succ_r at 2. rewrite firstn_names by auto.
      rewrite (find_none E Hord p F Hp Hg Hd); [exact R| | |].
      + apply Forall_app. split; auto. apply good_by_name. apply good_by_name in GN. now apply Forall_firstn.
      + destruct pre; [contradiction|discriminate].
      + cbn [firstn by_name map]. eapply absent_below; eauto.
  Qed.
  Lemma find_parent_none : forall m ms key, Forall good_tstep (by_name (m :: ms)) -> called (selects m) F = [] -> forall j, j <= len (m :: ms) ->
    find_parent E default_options key d (segs_of (by_name (m :: ms)) TheElement) j = Ok None.
  Proof.
    intros m ms key GS C. induction j as [|j IH]; intros Hj; [reflexivity|]. cbn [find_parent].
    assert (Q : firstn (S j) (segs_of (by_name (m :: ms)) TheElement) = segs_of (by_name (firstn (S j) (m :: ms))) TheElement) by (rewrite !segs_names; apply firstn_map).
    rewrite Q. pose proof (find_none E Hord p F Hp Hg Hd (by_name (firstn (S j) (m :: ms))) (S j :: key)) as R. fold d in R. rewrite R.
    - apply IH. lia.
    - apply good_by_name. apply good_by_name in GS. now apply Forall_firstn.
    - discriminate.
    - cbn [firstn by_name map]. now apply absent_here.
  Qed.

  Hypothesis Hv : valid d = true.
  Lemma doc_nonempty : exists c r, d = c :: r.
  Proof. destruct d as [|c r] eqn:Q; eauto. discriminate Hv. Qed.
  Lemma set_missing_start : forall steps v xv, good_tpath steps TheElement -> (forall A nd B, ~ located steps F A nd B) ->
    v <> VNil -> value_to_xml fmt_g v = inr xv -> (blen xv <= 5242880)%N ->
    set E fmt_g d (tpath steps TheElement) v =
    edit_of d (let* r := create_element E default_options [4] d (segs_of steps TheElement) xv in
               match r with inl e => Ok (inl e) | inr r => Ok (inr (get_result d r)) end).
  Proof.
    intros steps v xv GT NL NV XV SZ. pose proof (segs_parse _ _ GT) as P. destruct GT as [GS NE _]. cbn [good_final] in NE.
    destruct (segs_nonempty steps NE) as [sg [r Q]]. unfold d. rewrite (set_start E fmt_g p F Hd Hv _ v _ NV P) by (rewrite Q; discriminate). fold d.
    unfold set_element. rewrite Q. cbn iota. rewrite XV. rewrite (proj2 (N.ltb_ge MaxValueSize (blen xv)) SZ), (size_ok _ Hd).
    rewrite <- Q. rewrite <- (app_nil_r (segs_of steps TheElement)), intents_steps, app_nil_r by (intros ? []).
    rewrite (type_attr_false _ (last_steps steps _ NE)). pose proof (find_none E Hord p F Hp Hg Hd steps [3] GS NE NL) as R. fold d in R. rewrite R. reflexivity.
  Qed.
  Lemma create_below : forall pre m ms key xv A n a self kids B, Forall good_tstep (pre ++ by_name (m :: ms)) -> located pre F A (Elem n a self kids) B ->
    called (selects m) kids = [] -> exists a', Permutation a a' /\ (self = false -> a' = a) /\
    create_element E default_options key d (segs_of (pre ++ by_name (m :: ms)) TheElement) xv =
      Ok (inr ((p ++ A) ++ start_tag n a' false ++ forest_text kids ++ fold_right (fun n t => start_tag n [] false ++ t ++ end_tag n) xv (m :: ms) ++ end_tag n ++ B)).
  Proof.
    intros pre m ms key xv A n a self kids B GS L C. unfold create_element. destruct doc_nonempty as [c [r Dn]]. rewrite Dn. rewrite <- Dn.
    assert (LN : len (segs_of (pre ++ by_name (m :: ms)) TheElement) - 1 = len (segs_of pre TheElement) + len ms).
    { rewrite segs_app, app_length, segs_names, map_length. cbn [List.length]. lia. }
    rewrite LN. destruct (find_parent_found pre m ms (0 :: key) A n a self kids B GS L C (len ms) ltac:(cbn; lia)) as [l [R AT]]. rewrite R. cbn [bind].
    assert (SK : skipn (len (segs_of pre TheElement)) (segs_of (pre ++ by_name (m :: ms)) TheElement) = map elem_seg (m :: ms)).
    { rewrite segs_app, skipn_app, skipn_all, Nat.sub_diag. cbn [skipn app]. apply segs_names. }
    rewrite SK. destruct (slices p F Hd _ _ _ _ _ _ _ l L AT) as [S1 [_ [_ [S4 [S5 _]]]]]. fold d in S1, S4, S5.
    inversion AT as [n1 a1 self1 kids1 l1 B1 B2 B3 B4 B5 B6 B7]; subst n1 a1 self1 kids1 l1.
    unfold create_in_parent. rewrite B7. destruct self.
    - destruct (located_good _ _ _ _ _ L Hg) as [GE _]. inversion GE as [? ? ? ? GN GA GSf GK| |]; subst n0 a0 self kids0.
      exists (e_ord E (2 :: key) (l_attrs l)). split; [etransitivity; [exact B6|apply Hord]|]. split; [discriminate|].
      rewrite S1. cbn [bind]. rewrite S4. cbn [bind app]. cbn [o_indent default_options]. rewrite (build_names (m :: ms) xv 0) by discriminate.
      do 2 f_equal. rewrite (GSf eq_refl). unfold reopen_tag. rewrite write_attrs_text, B5, close_end. unfold start_tag at 2. cbn [forest_text flat_map app]. now rewrite <- !app_assoc.
    - exists a. split; [reflexivity|]. split; [reflexivity|]. rewrite S5. cbn [bind]. rewrite S4. cbn [bind]. cbn [o_indent default_options].
      rewrite (build_names (m :: ms) xv 0) by discriminate. do 2 f_equal. now rewrite <- !app_assoc.
  Qed.
  Lemma create_root : forall m ms key xv, Forall good_tstep (by_name (m :: ms)) -> called (selects m) F = [] ->
    create_element E default_options key d (segs_of (by_name (m :: ms)) TheElement) xv =
      Ok (inr (d ++ fold_right (fun n t => start_tag n [] false ++ t ++ end_tag n) xv (m :: ms))).
  Proof.
    intros m ms key xv GS C. unfold create_element. destruct doc_nonempty as [c [r Dn]]. rewrite Dn. rewrite <- Dn.
    rewrite (find_parent_none m ms _ GS C) by (rewrite segs_names, map_length; cbn [List.length]; lia). cbn [bind].
    unfold create_in_root. destruct (scan_forest (e_ord E) (0 :: 1 :: key) F Hord Hg) as [es [SC SD]].
    assert (SR : scan_res E (0 :: 1 :: key) d = Ok es) by (unfold scan_res, d; rewrite scan_skip by (now apply skippable_prolog); now rewrite SC).
    rewrite SR. cbn [bind]. rewrite segs_names. cbn [map]. change (s_type (elem_seg m)) with SElem. change (s_value (elem_seg m)) with m. cbn [segtype_eqb andb].
    assert (SB : should_create_sibling es m = true).
    { unfold should_create_sibling. apply negb_true_iff. destruct (existsb _ es) eqn:Q; auto. apply existsb_exists in Q. destruct Q as [e [I Q]].
      apply bytes_eqb_eq in Q. pose proof (scanned_count (selects m) F es SD) as K. rewrite C in K. cbn [List.length] in K.
      assert (I2 : In e (filter (fun e0 => selects m (e_name e0)) es)) by (apply filter_In; split; auto; rewrite Q; apply selects_self).
      destruct (filter (fun e0 => selects m (e_name e0)) es); [destruct I2|discriminate]. }
    rewrite SB. cbn [o_indent default_options]. change (elem_seg m :: map elem_seg ms) with (map elem_seg (m :: ms)). now rewrite (build_names (m :: ms) xv 0) by discriminate.
  Qed.
  End Doc.
End Create.
