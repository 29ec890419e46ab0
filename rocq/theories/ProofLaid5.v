(** Creation, appending and attributes of missing elements in such texts. *)
From Coq Require Import List Ascii String NArith ZArith Bool Lia Permutation.
From Verif Require Import GoStr ModelParser ModelPath ModelResult ModelQuery ModelValidate ModelBuilder SpecText SpecPath SpecTree SpecQuery SpecEdit SpecContent SpecValid SpecNotation SpecLaid
  ProofBase ProofEscape ProofPath ProofScan ProofSyntax ProofApi2 ProofTree ProofTree2 ProofTree3 ProofTree4 ProofTree5 ProofTree7 ProofEdit ProofEdit2 ProofEdit3 ProofEdit4 ProofEdit5 ProofEdit6 ProofEdit7
  ProofNotation ProofLaid ProofLaid2 ProofLaid3 ProofLaid4.
Import ListNotations.

(** ** Trees *)
Lemma swapped_below : forall pre F n a0 self0 kids0 a K F2, swapped pre F (Elem n a0 self0 kids0) [Elem n a false K] F2 ->
  forall post c l K', swapped post K c l K' -> exists F3, swapped (pre ++ post) F2 c l F3 /\ swapped pre F (Elem n a0 self0 kids0) [Elem n a false K'] F3.
Proof.
  intros pre F n a0 self0 kids0 a K F2 H. remember (Elem n a0 self0 kids0) as nd eqn:Q1. remember [Elem n a false K] as l0 eqn:Q2.
  induction H as [m idx F1 nd l F2 H1 H2|m idx rest F1 m' a' kids kids' F2 nd l H1 H2 H3 IH]; intros post c l' K' S; subst.
  - exists (F1 ++ Elem n a false K' :: F2). split; [cbn [app]; now constructor|]. change (Elem n a false K' :: F2) with ([Elem n a false K'] ++ F2). now constructor.
  - destruct (IH eq_refl eq_refl _ _ _ _ S) as [F3 [S1 S2]]. exists (F1 ++ Elem m' a' false F3 :: F2). split; [cbn [app]|]; now constructor.
Qed.
Lemma swapped_nest : forall ms m kids X, called (selects m) kids = [] ->
  swapped (by_name (m :: ms)) (kids ++ nest (m :: ms) []) (Elem (last ms m) [] false []) [X] (kids ++ nest (removelast (m :: ms)) [X]).
Proof.
  induction ms as [|m2 ms IH]; intros m kids X C.
  - cbn [nest by_name map removelast last]. apply (sw_here m None kids (Elem m [] false []) [X] []); [apply selects_self|now rewrite C].
  - specialize (IH m2 [] X eq_refl). cbn [app] in IH.
    assert (LM : last (m2 :: ms) m = last ms m2).
    { clear. revert m m2. induction ms as [|x ms IH]; intros; [reflexivity|]. change (last (m2 :: x :: ms) m) with (last (x :: ms) m). now rewrite (IH m x), (IH m2 x). }
    rewrite LM. change (removelast (m :: m2 :: ms)) with (m :: removelast (m2 :: ms)).
    change (by_name (m :: m2 :: ms)) with ((m, None) :: by_name (m2 :: ms)). change (nest (m :: m2 :: ms) []) with [Elem m [] false (nest (m2 :: ms) [])].
    cbn [nest]. apply (sw_down m None (by_name (m2 :: ms)) kids m [] (nest (m2 :: ms) []) _ [] _ _); [apply selects_self|now rewrite C|exact IH].
Qed.

Section Edits.
  Variable E : env.
  Variable fmt_g : f64 -> bytes.
  Hypothesis Hord : forall k l, Permutation l (e_ord E k l).
  Section Doc.
  Variable p x : bytes.
  Variable F : list node.
  Variable S0 : nat.
  Hypothesis Hp : prolog p.
  Hypothesis Hg : Forall good F.
  Hypothesis Hx : laid_all true S0 F x.
  Let d := p ++ x.
  Hypothesis Hd : (blen d <= 10485760)%N.
  Hypothesis Hv : valid d = true.

  Lemma delete_attr_found' : forall s steps A n a self kids lv e t y B k, good_tpath steps (TheAttribute k) ->
    stands s steps F A n a self kids lv e t y B -> x = A ++ (opening n t self ++ closing n self y) ++ B ->
    match attr_value k a with
    | None => delete E d (tpath steps (TheAttribute k)) = Ok (d, None)
    | Some _ => exists a', Permutation a' (drop_attr k a) /\
        delete E d (tpath steps (TheAttribute k)) = Ok (p ++ A ++ (opening n (attrs_text a') self ++ closing n self y) ++ B, None)
    end.
  Proof.
    intros s steps A n a self kids lv e t y B k GT ST EX. pose proof (stands_nonempty F _ _ _ _ _ _ _ _ _ _ _ _ ST) as NE. pose proof (segs_parse _ _ GT) as P.
    pose proof (stands_good _ _ _ _ _ _ _ _ _ _ _ _ _ ST Hg) as GE. inversion GE as [? ? ? ? GN GA GSf GK| |]; subst n0 a0 self0 kids0.
    destruct GT as [GS _ _]. destruct (find_at E Hord p x F Hp Hg Hd _ _ _ _ _ _ _ _ _ _ _ _ [5] ST EX GS) as [l [R AT]]. fold d in R.
    destruct (cut p A n a self t y B l AT) as [S1 [S2 _]]; [intros K; now apply (sd_self _ _ _ _ _ _ _ _ _ _ _ _ _ ST)|]. rewrite <- EX in S1, S2. fold d in S1, S2.
    destruct AT as [B1 B2 B3 B4 B5 B6 B7].
    rewrite (delete_start' E d Hd Hv _ _ P (segs_attr_nonempty _ _)). unfold delete_element. rewrite segs_attr. destruct (segs_nonempty steps NE) as [sg [r Q]]. rewrite Q. cbn [app]. change (sg :: r ++ [step_seg (Attr k, [])]) with ((sg :: r) ++ [step_seg (Attr k, [])]).
    rewrite (size_ok _ Hd). rewrite last_last, removelast_last. cbn [step_seg s_type segtype_eqb s_value]. rewrite <- Q. rewrite R. cbn [bind].
    unfold lift, delete_attribute. cbn [o_case default_options]. rewrite <- attr_map, (attr_perm a _ k (ga_distinct _ GA) B6). cbn [step_seg s_value].
    destruct (attr_value k a) as [w|]; cbn [negb].
    - destruct (dropped_attrs a (l_attrs l) k (ga_distinct _ GA) B6) as [a' [PA TA]]. exists a'. split; auto. rewrite S1. cbn [bind]. rewrite S2. cbn [bind edit_of].
      rewrite TA, B5, B7.
      replace ((p ++ A) ++ bs "<" ++ n ++ attrs_text a' ++ (if self then bs "/>" else bs ">") ++ closing n self y ++ B)
        with ((p ++ A) ++ opening n (attrs_text a') self ++ closing n self y ++ B) by (unfold opening; now rewrite <- !app_assoc).
      rewrite get_result_some by apply opening_nonempty. now rewrite <- !app_assoc.
    - cbn [bind edit_of]. unfold get_result. now destruct d.
  Qed.

  (** ** Creation *)
  Lemma find_parent_found' : forall s pre m ms key A n a self kids lv e t y B, Forall good_tstep (pre ++ by_name (m :: ms)) ->
    stands s pre F A n a self kids lv e t y B -> x = A ++ (opening n t self ++ closing n self y) ++ B ->
    called (selects m) kids = [] -> forall j, j <= len (m :: ms) -> exists l,
    find_parent E default_options key d (segs_of (pre ++ by_name (m :: ms)) TheElement) (len (segs_of pre TheElement) + j) = Ok (Some (l, len (segs_of pre TheElement))) /\
    placed (Z.of_nat (len p)) A n a self t y l.
  Proof.
    intros s pre m ms key A n a self kids lv e t y B GS ST EX C. pose proof (stands_nonempty F _ _ _ _ _ _ _ _ _ _ _ _ ST) as NE. apply Forall_app in GS. destruct GS as [GP GN].
    destruct (stands_located _ _ _ _ _ _ _ _ _ _ _ _ _ ST) as [A0 [B0 L]].
    assert (Q : exists k, len (segs_of pre TheElement) = S k) by (destruct (segs_nonempty pre NE) as [sg [r ->]]; cbn [List.length]; eauto).
    destruct Q as [k Q]. induction j as [|j IH]; intros Hj.
    - destruct (find_at E Hord p x F Hp Hg Hd _ _ _ _ _ _ _ _ _ _ _ _ (S k :: key) ST EX GP) as [l [R AT]]. fold d in R. exists l. split; auto.
      assert (FN : firstn (S k) (segs_of (pre ++ by_name (m :: ms)) TheElement) = segs_of pre TheElement).
      { rewrite segs_app, <- Q. rewrite firstn_app, Nat.sub_diag, firstn_all. apply app_nil_r. }
      rewrite Nat.add_0_r, Q. cbn [find_parent]. rewrite FN, R. reflexivity.
    - destruct (IH ltac:(lia)) as [l [R AT]]. exists l. split; auto. rewrite Nat.add_succ_r. cbn [find_parent]. rewrite <- Nat.add_succ_r at 2. rewrite firstn_names by auto.
      pose proof (find_no E Hord p x F S0 Hp Hg Hx Hd) as FN. fold d in FN. rewrite FN; [exact R| | |].
      + apply Forall_app. split; auto. apply good_by_name. apply good_by_name in GN. now apply Forall_firstn.
      + destruct pre; [contradiction|discriminate].
      + cbn [firstn by_name map]. eapply absent_below; eauto.
  Qed.
  Lemma find_parent_none' : forall m ms key, Forall good_tstep (by_name (m :: ms)) -> called (selects m) F = [] -> forall j, j <= len (m :: ms) ->
    find_parent E default_options key d (segs_of (by_name (m :: ms)) TheElement) j = Ok None.
  Proof.
    intros m ms key GS C. induction j as [|j IH]; intros Hj; [reflexivity|]. cbn [find_parent].
    assert (Q : firstn (S j) (segs_of (by_name (m :: ms)) TheElement) = segs_of (by_name (firstn (S j) (m :: ms))) TheElement) by (rewrite !segs_names; apply firstn_map).
    rewrite Q. pose proof (find_no E Hord p x F S0 Hp Hg Hx Hd (by_name (firstn (S j) (m :: ms))) (S j :: key)) as R. fold d in R. rewrite R.
    - apply IH. lia.
    - apply good_by_name. apply good_by_name in GS. now apply Forall_firstn.
    - discriminate.
    - cbn [firstn by_name map]. now apply absent_here.
  Qed.
  Lemma set_missing_start' : forall steps v xv, good_tpath steps TheElement -> (forall A nd B, ~ located steps F A nd B) ->
    v <> VNil -> value_to_xml fmt_g v = inr xv -> (blen xv <= 5242880)%N ->
    set E fmt_g d (tpath steps TheElement) v =
    edit_of d (let* r := create_element E default_options [4] d (segs_of steps TheElement) xv in
               match r with inl e => Ok (inl e) | inr r => Ok (inr (get_result d r)) end).
  Proof.
    intros steps v xv GT NL NV XV SZ. pose proof (segs_parse _ _ GT) as P. destruct GT as [GS NE _]. cbn [good_final] in NE.
    destruct (segs_nonempty steps NE) as [sg [r Q]]. rewrite (set_start' E fmt_g d Hd Hv _ v _ NV P) by (rewrite Q; discriminate).
    unfold set_element. rewrite Q. cbn iota. rewrite XV. rewrite (proj2 (N.ltb_ge MaxValueSize (blen xv)) SZ), (size_ok _ Hd).
    rewrite <- Q. rewrite <- (app_nil_r (segs_of steps TheElement)), intents_steps, app_nil_r by (intros ? []).
    rewrite (type_attr_false _ (last_steps steps _ NE)). pose proof (find_no E Hord p x F S0 Hp Hg Hx Hd steps [3] GS NE NL) as R. fold d in R. rewrite R. reflexivity.
  Qed.
  Lemma create_below' : forall s pre m ms key xv A n a self kids lv e t y B, Forall good_tstep (pre ++ by_name (m :: ms)) ->
    stands s pre F A n a self kids lv e t y B -> x = A ++ (opening n t self ++ closing n self y) ++ B ->
    called (selects m) kids = [] -> exists a' t', Permutation a a' /\ tagged lv e a' t' /\ (self = false -> t' = t) /\
    create_element E default_options key d (segs_of (pre ++ by_name (m :: ms)) TheElement) xv =
      Ok (inr (p ++ A ++ (opening n t' false ++ closing n false (y ++ fold_right (fun n t => start_tag n [] false ++ t ++ end_tag n) xv (m :: ms))) ++ B)).
  Proof.
    intros s pre m ms key xv A n a self kids lv e t y B GS ST EX C. unfold create_element. destruct (d_nonempty p x Hd Hv) as [c [r Dn]]. fold d in Dn. rewrite Dn. rewrite <- Dn.
    assert (LN : len (segs_of (pre ++ by_name (m :: ms)) TheElement) - 1 = len (segs_of pre TheElement) + len ms).
    { rewrite segs_app, app_length, segs_names, map_length. cbn [List.length]. lia. }
    rewrite LN. destruct (find_parent_found' s pre m ms (0 :: key) A n a self kids lv e t y B GS ST EX C (len ms) ltac:(cbn; lia)) as [l [R AT]]. rewrite R. cbn [bind].
    assert (SK : skipn (len (segs_of pre TheElement)) (segs_of (pre ++ by_name (m :: ms)) TheElement) = map elem_seg (m :: ms)).
    { rewrite segs_app, skipn_app, skipn_all, Nat.sub_diag. cbn [skipn app]. apply segs_names. }
    rewrite SK. destruct (cut p A n a self t y B l AT) as [S1 [_ [_ [S4 [S5 _]]]]]; [intros K; now apply (sd_self _ _ _ _ _ _ _ _ _ _ _ _ _ ST)|]. rewrite <- EX in S1, S4, S5. fold d in S1, S4, S5.
    destruct AT as [B1 B2 B3 B4 B5 B6 B7].
    unfold create_in_parent. rewrite B7. destruct self.
    - pose proof (stands_good _ _ _ _ _ _ _ _ _ _ _ _ _ ST Hg) as GE. inversion GE as [? ? ? ? GN GA GSf GK| |]; subst n0 a0 self kids0.
      assert (PA : Permutation a (e_ord E (2 :: key) (l_attrs l))) by (etransitivity; [exact B6|apply Hord]).
      exists (e_ord E (2 :: key) (l_attrs l)), (attrs_text (e_ord E (2 :: key) (l_attrs l))). split; auto. split; [apply tagged_canon; eapply good_attrs_perm; eauto|]. split; [discriminate|].
      rewrite S1. cbn [bind]. rewrite S4. cbn [bind app]. cbn [o_indent default_options]. rewrite (build_names (m :: ms) xv 0) by discriminate.
      destruct (sd_self _ _ _ _ _ _ _ _ _ _ _ _ _ ST eq_refl) as [_ ->].
      do 2 f_equal. unfold reopen_tag. rewrite write_attrs_text, B5, close_end. unfold opening. cbn [app closing]. now rewrite <- !app_assoc.
    - exists a, t. split; [reflexivity|]. split; [exact (sd_tag _ _ _ _ _ _ _ _ _ _ _ _ _ ST)|]. split; [reflexivity|]. rewrite S5. cbn [bind]. rewrite S4. cbn [bind]. cbn [o_indent default_options].
      rewrite (build_names (m :: ms) xv 0) by discriminate. do 2 f_equal. cbn [closing]. now rewrite <- !app_assoc.
  Qed.
  Lemma create_root' : forall m ms key xv, Forall good_tstep (by_name (m :: ms)) -> called (selects m) F = [] ->
    create_element E default_options key d (segs_of (by_name (m :: ms)) TheElement) xv =
      Ok (inr (p ++ x ++ fold_right (fun n t => start_tag n [] false ++ t ++ end_tag n) xv (m :: ms))).
  Proof.
    intros m ms key xv GS C. unfold create_element. destruct (d_nonempty p x Hd Hv) as [c [r Dn]]. fold d in Dn. rewrite Dn. rewrite <- Dn.
    rewrite (find_parent_none' m ms _ GS C) by (rewrite segs_names, map_length; cbn [List.length]; lia). cbn [bind].
    unfold create_in_root. destruct (scan_laid E Hord (0 :: 1 :: key) true S0 F x Hx Hg) as [es [SC SD]].
    assert (SR : scan_res E (0 :: 1 :: key) d = Ok es) by (unfold scan_res, d; rewrite scan_skip by (now apply skippable_prolog); now rewrite SC).
    rewrite SR. cbn [bind]. rewrite segs_names. cbn [map]. change (s_type (elem_seg m)) with SElem. change (s_value (elem_seg m)) with m. cbn [segtype_eqb andb].
    assert (SB : should_create_sibling es m = true).
    { unfold should_create_sibling. apply negb_true_iff. destruct (existsb _ es) eqn:Q; auto. apply existsb_exists in Q. destruct Q as [e [I Q]].
      apply bytes_eqb_eq in Q. pose proof (seen_count (selects m) _ _ _ _ _ SD) as K. rewrite C in K. cbn [List.length] in K.
      assert (I2 : In e (filter (fun e0 => selects m (e_name e0)) es)) by (apply filter_In; split; auto; rewrite Q; apply selects_self).
      destruct (filter (fun e0 => selects m (e_name e0)) es); [destruct I2|discriminate]. }
    rewrite SB. cbn [o_indent default_options]. change (elem_seg m :: map elem_seg ms) with (map elem_seg (m :: ms)). rewrite (build_names (m :: ms) xv 0) by discriminate.
    unfold d. now rewrite <- app_assoc.
  Qed.
  Lemma create_kids' : forall s pre m ms A n a self kids lv e t y B v xv, good_tpath (pre ++ by_name (m :: ms)) TheElement ->
    stands s pre F A n a self kids lv e t y B -> x = A ++ (opening n t self ++ closing n self y) ++ B -> called (selects m) kids = [] ->
    v <> VNil -> value_to_xml fmt_g v = inr xv -> (blen xv <= 5242880)%N ->
    exists a' t', Permutation a a' /\ tagged lv e a' t' /\ (self = false -> t' = t) /\
    set E fmt_g d (tpath (pre ++ by_name (m :: ms)) TheElement) v =
      Ok (p ++ A ++ (opening n t' false ++ closing n false (y ++ fold_right (fun n t => start_tag n [] false ++ t ++ end_tag n) xv (m :: ms))) ++ B, None).
  Proof.
    intros s pre m ms A n a self kids lv e t y B v xv GT ST EX C NV XV SZ. pose proof GT as [GS _ _].
    destruct (create_below' s pre m ms [4] xv A n a self kids lv e t y B GS ST EX C) as [a' [t' [H1 [H2 [H3 H4]]]]]. exists a', t'. split; auto. split; auto. split; auto.
    destruct (stands_located _ _ _ _ _ _ _ _ _ _ _ _ _ ST) as [A0 [B0 L]].
    rewrite (set_missing_start' _ v xv GT) by (auto; intros; cbn [by_name map]; eapply absent_below; eauto). rewrite H4. cbn [bind edit_of].
    rewrite get_result_some; auto. rewrite <- !app_assoc, app_assoc. apply opening_nonempty.
  Qed.
  Lemma create_top' : forall m ms v xv, good_tpath (by_name (m :: ms)) TheElement -> called (selects m) F = [] ->
    v <> VNil -> value_to_xml fmt_g v = inr xv -> (blen xv <= 5242880)%N ->
    set E fmt_g d (tpath (by_name (m :: ms)) TheElement) v =
      Ok (p ++ x ++ fold_right (fun n t => start_tag n [] false ++ t ++ end_tag n) xv (m :: ms), None).
  Proof.
    intros m ms v xv GT C NV XV SZ. pose proof GT as [GS _ _].
    rewrite (set_missing_start' _ v xv GT) by (auto; intros; cbn [by_name map]; now apply absent_here). rewrite (create_root' m ms [4] xv GS C). cbn [bind edit_of].
    rewrite get_result_some; auto. destruct (d_nonempty p x Hd Hv) as [c [r Dn]]. rewrite app_assoc, Dn. discriminate.
  Qed.

  (** ** Appending *)
  Lemma append_found' : forall s steps A n a kids lv e t y B m v xv, Forall good_tstep (steps ++ [(m, None)]) -> len (flat_map tstep_steps (steps ++ [(m, None)])) < 100 ->
    stands s steps F A n a false kids lv e t y B -> x = A ++ (opening n t false ++ closing n false y) ++ B -> v <> VNil -> value_to_xml fmt_g v = inr xv -> (blen xv <= 5242880)%N ->
    exists K1 K2 y1 y2, kids = K1 ++ K2 /\ (forall c, insert_last (selects m) c kids = K1 ++ c :: K2) /\ y = y1 ++ y2 /\ laid_all false 0 K1 y1 /\ laid_all false 0 K2 y2 /\
    let new := p ++ A ++ (opening n t false ++ closing n false (y1 ++ (start_tag m [] false ++ xv ++ end_tag m) ++ y2)) ++ B in
    set E fmt_g d (tpath (steps ++ [(m, None)]) TheElement ++ bs ".-1") v =
      Ok (if (10485760 <? blen new)%N then (d, Some ErrInvalidValue) else (new, None)).
  Proof.
    intros s steps A n a kids lv e t y B m v xv GS LN ST EX NV XV SZ. destruct (insert_split (selects m) kids) as [K1 [K2 [EK [IL [C2 [C3 C4]]]]]].
    pose proof (stands_nonempty F _ _ _ _ _ _ _ _ _ _ _ _ ST) as NE.
    apply Forall_app in GS as GS2. destruct GS2 as [GP GM]. assert (SM : step_name m) by (now inversion GM as [|? ? [SM _] _]; subst).
    pose proof (stands_good _ _ _ _ _ _ _ _ _ _ _ _ _ ST Hg) as GE. inversion GE as [? ? ? ? GN GA GSf GK| |]; subst n0 a0 self kids.
    destruct ST as [ST0 HT HK HS].
    destruct (scan_laid E Hord [3; 0] false 0 _ y HK GK) as [es [SC SD]].
    destruct (last' m y (K1 ++ K2) es (Z.of_nat (len y)) K1 K2 false 0 y SD GK SM eq_refl C2 C3 C4) as [s1 [s2 [y1 [y2 [Q1 [EY [LY1 [LY2 LP]]]]]]]].
    { unfold pos_of. cbn [List.length]. lia. }
    exists K1, K2, y1, y2. split; auto. split; auto. split; auto. split; [eapply all_zero; eauto|]. split; [eapply all_zero; eauto|]. cbv zeta.
    rewrite (append_start' E fmt_g d Hd Hv) with (xv := xv) by auto. rewrite append_parts'.
    destruct (segs_nonempty steps NE) as [sg [r Q]]. rewrite Q. cbn iota. cbv zeta. rewrite <- Q.
    assert (ST : stands s steps F A n a false (K1 ++ K2) lv e t y B) by (now constructor).
    destruct (find_at E Hord p x F Hp Hg Hd _ _ _ _ _ _ _ _ _ _ _ _ [1; 0] ST EX GP) as [l [R AT]]. fold d in R. rewrite R. cbn [bind].
    destruct (cut p A n a false t y B l AT ltac:(discriminate)) as [_ [_ [S3 [S4 [S5 _]]]]]. rewrite <- EX in S3, S4, S5. fold d in S3, S4, S5.
    destruct AT as [B1 B2 B3 B4 B5 B6 B7]. rewrite B7.
    unfold find_last_match, sliced. rewrite (proj2 (Z.leb_le _ _)) by (rewrite B3; lia). rewrite S5. cbn [bind].
    assert (S6 : slice_from (p ++ A ++ opening n t false ++ y) (l_content_start l) = Ok y).
    { rewrite !app_assoc. apply slice_from_app. rewrite B2, !app_length. lia. }
    rewrite S6. cbn [bind].
    assert (SR : scan_res E [3; 0] y = Ok es) by (unfold scan_res; now rewrite SC). rewrite SR. cbn [bind].
    replace (l_content_end l - l_content_start l)%Z with (Z.of_nat (len y)) by (rewrite B3; lia). rewrite LP.
    set (q := (pos_of y y2 + l_content_start l)%Z).
    assert (DQ : d = (p ++ A ++ opening n t false ++ y1) ++ y2 ++ end_tag n ++ B).
    { unfold d. rewrite EX, EY. cbn [closing]. now rewrite <- !app_assoc. }
    assert (QL : q = Z.of_nat (len (p ++ A ++ opening n t false ++ y1))).
    { unfold q, pos_of. rewrite B2, EY, !app_length. lia. }
    assert (T1 : slice_to d q = Ok (p ++ A ++ opening n t false ++ y1)) by (rewrite DQ; now apply slice_to_app).
    assert (T2 : slice_from d q = Ok (y2 ++ end_tag n ++ B)) by (rewrite DQ; now apply slice_from_app).
    rewrite T1. cbn [bind]. rewrite T2. cbn [bind].
    rewrite new_elem_text. cbn [closing]. rewrite <- !app_assoc. change MaxDocumentSize with 10485760%N.
    match goal with |- context [(10485760 <? blen ?x)%N] => set (w := x) end. destruct (N.ltb_spec 10485760 (blen w)) as [X|X]; cbn [bind edit_of]; [reflexivity|].
    rewrite get_result_some; [reflexivity|]. unfold w. rewrite app_assoc. apply opening_nonempty.
  Qed.
  Lemma append_self' : forall s steps A n a kids lv e t y B m v xv, Forall good_tstep (steps ++ [(m, None)]) -> len (flat_map tstep_steps (steps ++ [(m, None)])) < 100 ->
    stands s steps F A n a true kids lv e t y B -> x = A ++ (opening n t true ++ closing n true y) ++ B -> v <> VNil -> value_to_xml fmt_g v = inr xv -> (blen xv <= 5242880)%N ->
    exists a', Permutation a' a /\ set E fmt_g d (tpath (steps ++ [(m, None)]) TheElement ++ bs ".-1") v =
      Ok (p ++ A ++ (opening n (attrs_text a') false ++ closing n false (start_tag m [] false ++ xv ++ end_tag m)) ++ B, None).
  Proof.
    intros s steps A n a kids lv e t y B m v xv GS LN ST EX NV XV SZ. pose proof (stands_nonempty F _ _ _ _ _ _ _ _ _ _ _ _ ST) as NE.
    destruct (segs_nonempty steps NE) as [sg [r Q]]. apply Forall_app in GS as GS2. destruct GS2 as [GP _].
    destruct (find_at E Hord p x F Hp Hg Hd _ _ _ _ _ _ _ _ _ _ _ _ [1; 0] ST EX GP) as [l [R AT]]. fold d in R.
    pose proof (stands_good _ _ _ _ _ _ _ _ _ _ _ _ _ ST Hg) as GE. inversion GE as [? ? ? ? GN GA GSf GK| |]; subst n0 a0 self kids0.
    destruct (cut p A n a true t y B l AT) as [S1 [_ [S3 [S4 [S5 _]]]]]; [intros K; now apply (sd_self _ _ _ _ _ _ _ _ _ _ _ _ _ ST)|]. rewrite <- EX in S1, S3, S4, S5. fold d in S1, S3, S4, S5.
    destruct AT as [B1 B2 B3 B4 B5 B6 B7].
    destruct (sorted_attrs_text a (l_attrs l) (ga_distinct _ GA) B6) as [a' [PA TA]]. exists a'. split; auto.
    rewrite (append_start' E fmt_g d Hd Hv) with (xv := xv) by auto. rewrite append_parts', Q. cbn iota. cbv zeta. rewrite <- Q, R. cbn [bind]. rewrite B7, S1. cbn [bind]. rewrite S4. cbn [bind edit_of].
    rewrite TA, B5, new_elem_text. change (close_tag n) with (end_tag n). cbn [app].
    replace ((p ++ A) ++ bs "<" ++ n ++ attrs_text a' ++ bs ">" ++ (start_tag m [] false ++ xv ++ end_tag m) ++ end_tag n ++ B)
      with ((p ++ A) ++ opening n (attrs_text a') false ++ (start_tag m [] false ++ xv ++ end_tag m) ++ end_tag n ++ B) by (unfold opening; now rewrite <- !app_assoc).
    rewrite get_result_some by apply opening_nonempty. cbn [closing]. now rewrite <- !app_assoc.
  Qed.
  Lemma append_top' : forall m v xv, step_name m -> v <> VNil -> value_to_xml fmt_g v = inr xv -> (blen xv <= 5242880)%N ->
    exists F1 F2 s1 s2 x1 x2, F = F1 ++ F2 /\ (forall c, insert_last (selects m) c F = F1 ++ c :: F2) /\ x = x1 ++ x2 /\ laid_all true s1 F1 x1 /\ laid_all true s2 F2 x2 /\ s1 + s2 <= S0 /\
    let new := p ++ x1 ++ (start_tag m [] false ++ xv ++ end_tag m) ++ x2 in
    set E fmt_g d (tpath [(m, None)] TheElement ++ bs ".-1") v =
      Ok (if (10485760 <? blen new)%N then (d, Some ErrInvalidValue) else (new, None)).
  Proof.
    intros m v xv SM NV XV SZ. destruct (insert_split (selects m) F) as [F1 [F2 [EF [IL [C2 [C3 C4]]]]]].
    destruct (scan_laid E Hord [0; 0] true S0 F x Hx Hg) as [es [SC SD]].
    destruct (last' m d F es (Z.of_nat (len d)) F1 F2 true S0 x SD Hg SM EF C2 C3 C4) as [s1 [s2 [x1 [x2 [Q1 [EX [L1 [L2 LP]]]]]]]].
    { unfold pos_of. cbn [List.length]. lia. }
    exists F1, F2, s1, s2, x1, x2. split; auto. split; auto. split; auto. split; auto. split; auto. split; auto. cbv zeta.
    assert (GM : Forall good_tstep ([] ++ [(m, None)])) by (constructor; [split; [exact SM|exact I]|constructor]).
    pose proof (append_start' E fmt_g d Hd Hv [] m v xv GM) as AS. cbn [app] in AS. rewrite AS by (auto; cbn; lia). pose proof (append_parts' E d [] m xv [0]) as AP. cbn [app] in AP.
    cbn [segs_of tpath_steps flat_map final_steps app map] in *. rewrite AP. clear AP AS. unfold append_root.
    destruct (d_nonempty p x Hd Hv) as [c0 [r0 Dn]]. fold d in Dn.
    match goal with |- context [match d with [] => ?a | _ :: _ => ?b end] => replace (match d with [] => a | _ :: _ => b end) with b by (rewrite Dn; reflexivity) end.
    assert (SR : scan_res E [0; 0] d = Ok es) by (unfold scan_res, d; rewrite scan_skip by (now apply skippable_prolog); now rewrite SC).
    rewrite SR. cbn [bind]. rewrite LP.
    assert (DQ : d = (p ++ x1) ++ x2) by (unfold d; rewrite EX, <- app_assoc; reflexivity).
    assert (QL : pos_of d x2 = Z.of_nat (len (p ++ x1))) by (unfold pos_of; rewrite DQ at 1; rewrite !app_length; lia).
    set (q := pos_of d x2) in *. clearbody q.
    assert (S1 : slice_to d q = Ok (p ++ x1)) by (rewrite DQ; now apply slice_to_app).
    assert (S2 : slice_from d q = Ok x2) by (rewrite DQ; now apply slice_from_app).
    rewrite S1. cbn [bind]. rewrite S2. cbn [bind]. cbn [elem_seg s_value]. rewrite new_elem_text. rewrite <- !app_assoc. change MaxDocumentSize with 10485760%N.
    match goal with |- context [(10485760 <? blen ?x)%N] => set (w := x) end. destruct (N.ltb_spec 10485760 (blen w)) as [X|X]; cbn [bind edit_of]; [reflexivity|].
    rewrite get_result_some; [reflexivity|]. unfold w. rewrite app_assoc. apply start_tag_nonempty.
  Qed.

  (** ** An attribute of a missing element *)
  Lemma set_attr_created : forall steps k v key F2 S2 x2 last0 F3, good_tpath steps (TheAttribute k) -> (blen (esc v) <= 5242880)%N ->
    (forall A nd B, ~ located steps F A nd B) -> key = [0; 2] ->
    create_element E default_options key d (segs_of steps TheElement) [] = Ok (inr (p ++ x2)) -> p ++ x2 <> [] ->
    laid_all true S2 F2 x2 -> Forall good F2 -> (blen (p ++ x2) <= 10485760)%N ->
    swapped steps F2 (Elem last0 [] false []) [Elem last0 [(k, v)] false []] F3 -> good_attrs [(k, v)] ->
    exists x3, set E fmt_g d (tpath steps (TheAttribute k)) (VStr v) = Ok (p ++ x3, None) /\ laid_all true S2 F3 x3.
  Proof.
    intros steps k v key F2 S2 x2 last0 F3 GT SZ NL -> CE NN L2 G2 SN SW GK. pose proof (segs_parse _ _ GT) as P. pose proof GT as [GS GF _].
    assert (NE : steps <> []) by (cbn [good_final] in GF; tauto).
    assert (LC : exists A B, located steps F2 A (Elem last0 [] false []) B).
    { clear - SW. remember (Elem last0 [] false []) as nd. induction SW as [m idx F1 nd l F2 H1 H2|m idx rest F1 m' a' kids kids' F2 nd l H1 H2 H3 IH].
      - do 2 eexists. constructor; eauto.
      - destruct (IH Heqnd) as [A [B IH']]. do 2 eexists. constructor; eauto. }
    destruct LC as [A0 [B0 LC]]. destruct (located_stands _ _ _ _ _ _ _ _ _ _ LC G2 L2) as [s' [A [lv [e [t [y [B [ST [EX SS]]]]]]]]].
    destruct (segs_nonempty _ NE) as [sg [rr Q]].
    pose proof (find_no E Hord p x F S0 Hp Hg Hx Hd steps [1] GS NE NL) as FN. fold d in FN.
    destruct (find_at E Hord p x2 F2 Hp G2 SN _ _ _ _ _ _ _ _ _ _ _ _ [1; 2] ST EX GS) as [l [R AT]].
    destruct (cut p A _ _ false t y B l AT ltac:(discriminate)) as [S1 [S2' _]]. rewrite <- EX in S1, S2'. destruct AT as [B1 B2 B3 B4 B5 B6 B7].
    destruct (replaced_attrs [] (l_attrs l) k v (NoDup_nil _) B6) as [a2 [PA2 TA]]. cbn [put_attr] in PA2. apply Permutation_sym, Permutation_length_1_inv in PA2. subst a2.
    exists (A ++ (opening last0 (attrs_text [(k, v)]) false ++ closing last0 false y) ++ B). split.
    - rewrite (set_start' E fmt_g d Hd Hv _ (VStr v) _ ltac:(discriminate) P (segs_attr_nonempty _ _)).
      unfold set_element. rewrite segs_attr. rewrite Q. cbn [app]. cbn [value_to_xml]. rewrite <- esc_escape.
      rewrite (proj2 (N.ltb_ge MaxValueSize (blen (esc v))) SZ), (size_ok _ Hd).
      change (sg :: rr ++ [step_seg (Attr k, [])]) with ((sg :: rr) ++ [step_seg (Attr k, [])]). rewrite <- Q.
      rewrite intents_steps by (intros ? [<-|[]]; discriminate). rewrite last_last, removelast_last. cbn [step_seg s_type segtype_eqb s_value].
      rewrite FN. cbn [bind]. unfold create_element_for_attr. rewrite CE. cbn [bind].
      rewrite (get_result_some d _ NN). rewrite (size_ok _ SN). rewrite R. cbn [bind].
      unfold replace_attribute. rewrite S1. cbn [bind]. rewrite S2'. cbn [bind edit_of]. rewrite TA, B5, B7.
      replace ((p ++ A) ++ bs "<" ++ last0 ++ attrs_text [(k, v)] ++ bs ">" ++ closing last0 false y ++ B)
        with ((p ++ A) ++ opening last0 (attrs_text [(k, v)]) false ++ closing last0 false y ++ B) by (unfold opening; now rewrite <- !app_assoc).
      rewrite get_result_some by apply opening_nonempty. now rewrite <- !app_assoc.
    - apply all_more with (s := s' + e); auto. eapply stands_swapped; eauto. apply all_one. apply form_laid; [now apply tagged_canon|apply (sd_kids _ _ _ _ _ _ _ _ _ _ _ _ _ ST)|discriminate].
  Qed.
  End Doc.
End Edits.
