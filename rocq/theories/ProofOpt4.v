(** Edits under options: attributes of missing elements, and what is read afterwards. *)
From Coq Require Import List Ascii String NArith ZArith Bool Lia Permutation.
From Verif Require Import GoStr ModelParser ModelPath ModelResult ModelQuery ModelValidate ModelBuilder SpecText SpecPath SpecTree SpecQuery SpecEdit SpecContent SpecFilter SpecLang SpecCase SpecOptions
  ProofBase ProofEscape ProofPath ProofScan ProofSyntax ProofTree ProofTree2 ProofTree3 ProofTree4 ProofTree5 ProofApi2 ProofTree7 ProofEdit ProofEdit2 ProofEdit3 ProofEdit4 ProofEdit5 ProofEdit6 ProofMod3 ProofCase ProofOpt ProofOpt2 ProofOpt3.
Import ListNotations.

(** A designated element replaced by one of the same name. *)
Lemma designated_replaced : forall x steps F A nd B, designated x steps F A nd B -> forall nd', name_of nd' = name_of nd -> is_elem nd' = true -> good nd' -> Forall good F ->
  exists F', forest_text F' = A ++ node_text nd' ++ B /\ Forall good F' /\ designated x steps F' A nd' B.
Proof.
  induction 1 as [n idx F1 nd F2 H1 H2|n idx rest F1 m a kids F2 A nd B H1 H2 H3 IH]; intros nd' NM EL GN GF.
  - exists (F1 ++ nd' :: F2). apply Forall_app in GF. destruct GF as [G1 G2]. inversion G2; subst. split; [now rewrite forest_app, forest_cons|]. split; [apply Forall_app; auto|].
    constructor; auto. destruct nd; try discriminate. destruct nd'; try discriminate. cbn [name_of] in NM. cbn [named] in *. now rewrite NM.
  - apply Forall_app in GF. destruct GF as [G1 G2]. inversion G2 as [|? ? G3 G4]; subst. inversion G3 as [? ? ? ? X1 X2 X3 X4| |]; subst.
    destruct (IH nd' NM EL GN X4) as [K' [T [GK D]]]. exists (F1 ++ Elem m a false K' :: F2). split; [|split].
    + rewrite forest_app, forest_cons, node_elem, T, <- !app_assoc. reflexivity.
    + apply Forall_app. split; auto. constructor; auto. constructor; auto. discriminate.
    + constructor; auto.
Qed.
Lemma called_texts : forall f indent i, called f (new_line indent i) = [].
Proof. intros f [|c s] i; reflexivity. Qed.
(** The last element of a new chain. *)
Lemma chain_designated : forall x indent ms m kids i, called (finds x m) kids = [] -> exists P Q, forall a K,
  designated x (by_name (m :: ms)) (kids ++ nest_lines indent i (map (spelled x) (m :: ms)) a K) (forest_text kids ++ P) (Elem (spelled x (last ms m)) a false K) Q.
Proof.
  intros x indent. induction ms as [|m2 ms IH]; intros m kids i C.
  - exists (forest_text (new_line indent i)), []. intros a K. cbn [map nest_lines by_name last]. rewrite <- forest_app, app_assoc.
    change (@nil ascii) with (forest_text []). constructor; [apply finds_spelled|]. unfold called. rewrite filter_app. fold (called (finds x m) kids). fold (called (finds x m) (new_line indent i)). now rewrite C, called_texts.
  - destruct (IH m2 [] (S i) eq_refl) as [P [Q H]]. exists (forest_text (new_line indent i) ++ start_tag (spelled x m) [] false ++ P), (Q ++ end_tag (spelled x m) ++ forest_text []).
    intros a K. specialize (H a K). cbn [app forest_text flat_map] in H. cbn [map nest_lines by_name] in *.
    replace (last (m2 :: ms) m) with (last ms m2) by (clear; revert m m2; induction ms as [|y ms IH]; intros; [reflexivity|]; cbn [last] in *; rewrite <- (IH m y); destruct ms; auto).
    rewrite app_assoc. rewrite (app_assoc (forest_text kids)). rewrite <- (forest_app kids (new_line indent i)). constructor; [apply finds_spelled| |exact H].
    unfold called. rewrite filter_app. fold (called (finds x m) kids). fold (called (finds x m) (new_line indent i)). now rewrite C, called_texts.
Qed.
Lemma times_angle : forall n s, no_angle s -> no_angle (times n s).
Proof.
  induction n as [|n IH]; intros s H; [split; intros []|]. destruct (IH s H) as [H1 H2]. destruct H as [H3 H4]. cbn [times]. split; intros I; apply in_app_iff in I; tauto.
Qed.
Lemma line_good : forall indent i, no_angle indent -> Forall good (new_line indent i).
Proof.
  intros [|c s] i H; cbn [new_line]; constructor; [|constructor]. constructor. destruct (times_angle i _ H). split; intros [K|K]; try discriminate; auto.
Qed.
Lemma lines_good : forall indent names i a K, no_angle indent -> Forall xml_name names -> good_attrs a -> Forall good K -> Forall good (nest_lines indent i names a K).
Proof.
  intros indent. induction names as [|n names IH]; intros i a K HI HN HA HK; [exact HK|]. inversion HN; subst. cbn [nest_lines]. apply Forall_app. split; [now apply line_good|].
  constructor; [|constructor]. constructor; auto; [|discriminate]. destruct names; auto. constructor; cbn [map List.length]; try constructor. lia.
Qed.
Lemma spelled_xml_name : forall x n, xml_name n -> xml_name (spelled x n).
Proof. intros [] n H; [exact H|]. now apply folded_xml_name. Qed.
Lemma spelled_xml_names : forall x names, Forall xml_name names -> Forall xml_name (map (spelled x) names).
Proof. intros x names H. apply Forall_map. eapply Forall_impl; [|exact H]. intros. now apply spelled_xml_name. Qed.
Lemma put_empty : forall x y v, put_attrs x y v [] = [(spelled x y, v)].
Proof. reflexivity. Qed.

Section Attr.
  Variable E : env.
  Variable fmt_g : f64 -> bytes.
  Hypothesis Hord : forall k l, Permutation l (e_ord E k l).
  Variable o : options.
  Let x := o_case o.

  (** After the creation of the element, the attribute is added to it. *)
  Lemma attr_added : forall d p F2 steps y v A n B key, prolog p -> Forall good F2 -> (blen (p ++ forest_text F2) <= 10485760)%N -> Forall good_tstep steps ->
    create_element E o (0 :: key) d (segs_of (csteps o steps) TheElement) [] = Ok (inr (p ++ forest_text F2)) ->
    (exists nd, nd = Elem n [] false [Text []] /\ designated x steps F2 A nd B) ->
    create_element_for_attr E o key d (segs_of (csteps o steps) TheElement) (spelled x y) (esc v) =
      Ok (inr (p ++ A ++ node_text (Elem n [(spelled x y, v)] false [Text []]) ++ B)).
  Proof.
    intros d p F2 steps y v A n B key Hp G2 SN GS CE [nd [-> L]]. unfold create_element_for_attr. rewrite CE. cbn [bind].
    assert (NB : forall X n a self Y, get_result X (p ++ Y ++ node_text (Elem n a false self) ++ B) = p ++ Y ++ node_text (Elem n a false self) ++ B).
    { intros. apply get_result_some. rewrite node_elem, <- !app_assoc. rewrite app_assoc. apply start_tag_nonempty. }
    assert (D2 : get_result d (p ++ forest_text F2) = p ++ forest_text F2) by (rewrite (designated_text _ _ _ _ _ _ L); apply NB).
    rewrite D2, (size_ok _ SN). destruct (find_some_opt E Hord o p F2 Hp G2 SN _ (1 :: key) _ _ _ GS L) as [l [R AT]]. rewrite R. cbn [bind].
    destruct (slices_opt o p F2 SN _ _ _ _ _ _ _ l L AT) as [S1 [S2 _]].
    inversion AT as [n1 a1 self1 kids1 l1 B1 B2 B3 B4 B5 B6 B7]; subst n1 a1 self1 kids1 l1.
    destruct (replaced_opt o [] (l_attrs l) y v (NoDup_nil _) B6) as [a2 [PA2 [_ TA]]]. rewrite put_empty in PA2. apply Permutation_sym, Permutation_length_1_inv in PA2. subst a2.
    unfold replace_attribute. rewrite S1. cbn [bind]. rewrite S2. cbn [bind]. unfold x in *. rewrite TA, B5, B7.
    replace ((p ++ A) ++ bs "<" ++ n ++ attrs_text [(spelled (o_case o) y, v)] ++ bs ">" ++ (forest_text [Text []] ++ end_tag n) ++ B)
      with (p ++ A ++ node_text (Elem n [(spelled (o_case o) y, v)] false [Text []]) ++ B) by (rewrite node_elem; unfold start_tag; now rewrite <- !app_assoc).
    now rewrite NB.
  Qed.
  Section Doc.
  Variable p : bytes.
  Variable F : list node.
  Hypothesis Hp : prolog p.
  Hypothesis Hg : Forall good F.
  Let d := p ++ forest_text F.
  Hypothesis Hv : valid d = true.
  Let Hd : (blen d <= 10485760)%N := valid_size d Hv.

  Lemma attr_missing_start : forall steps y v, good_tpath steps (TheAttribute y) -> (forall A nd B, ~ designated x steps F A nd B) -> (blen (esc v) <= 5242880)%N ->
    set_opts E fmt_g o d (tpath steps (TheAttribute y)) (VStr v) = edit_of d (create_element_for_attr E o [2] d (segs_of (csteps o steps) TheElement) (spelled x y) (esc v)).
  Proof.
    intros steps y v GT NL SZ. pose proof (parse_opts_path o _ _ GT) as P. cbn [cfinal] in P. destruct GT as [GS [_ NE] _]. pose proof (csteps_nonempty o _ NE) as NC.
    destruct (segs_nonempty _ NC) as [sg [r Q]]. unfold d. rewrite (set_start_opt E fmt_g o p F Hd Hv _ (VStr v) _ ltac:(discriminate) P (segs_attr_nonempty _ _)). fold d.
    unfold set_element. rewrite segs_attr. rewrite Q. cbn [app]. cbn [value_to_xml]. rewrite <- esc_escape.
    rewrite (proj2 (N.ltb_ge MaxValueSize (blen (esc v))) SZ), (size_ok _ Hd).
    change (sg :: r ++ ?z) with ((sg :: r) ++ z). rewrite <- Q.
    rewrite intents_steps by (intros ? [<-|[]]; discriminate). rewrite last_last, removelast_last. cbn [step_seg s_type segtype_eqb s_value].
    pose proof (find_none_opt E Hord o p F Hp Hg Hd steps [1] GS NE NL) as FN. fold d in FN. rewrite FN. reflexivity.
  Qed.
  Lemma attr_missing_below : forall pre m ms A n a self kids B y v, good_tpath (pre ++ by_name (m :: ms)) (TheAttribute y) -> designated x pre F A (Elem n a self kids) B ->
    called (finds x m) kids = [] -> (blen (esc v) <= 5242880)%N -> Forall xml_name (m :: ms) -> no_angle (o_indent o) -> exists a', Permutation a a' /\ (self = false -> a' = a) /\
    ((blen (p ++ A ++ node_text (Elem n a' false (kids ++ new_chain x (o_indent o) (m :: ms) [] [])) ++ B) <= 10485760)%N ->
    set_opts E fmt_g o d (tpath (pre ++ by_name (m :: ms)) (TheAttribute y)) (VStr v) =
      Ok (p ++ A ++ node_text (Elem n a' false (kids ++ new_chain x (o_indent o) (m :: ms) [(spelled x y, v)] [])) ++ B, None)).
  Proof.
    intros pre m ms A n a self kids B y v GT L C SZ XN IN. pose proof GT as [GS _ _].
    destruct (create_below_opt E Hord o p F Hp Hg Hd Hv pre m ms [0; 2] [] A n a self kids B GS L C) as [a' [PA [SA CE]]]. exists a'. split; auto. split; auto. fold d in CE. intros SN.
    destruct (designated_good _ _ _ _ _ _ L Hg) as [GE _]. inversion GE as [? ? ? ? GN GA GSf GK| |]; subst n0 a0 self0 kids0.
    rewrite attr_missing_start; auto. 2:{ intros; cbn [by_name map]; eapply absent_below_opt; eauto. }
    set (nd2 := Elem n a' false (kids ++ new_chain x (o_indent o) (m :: ms) [] [Text []])) in *.
    assert (GN2 : good nd2).
    { constructor; auto; [eapply good_attrs_perm; eauto|discriminate|]. apply Forall_app. split; auto. apply lines_good; auto; [now apply spelled_xml_names|constructor; cbn [map List.length]; try constructor; lia|].
      constructor; [|constructor]. constructor. split; intros []. }
    destruct (designated_replaced _ _ _ _ _ _ L nd2 eq_refl eq_refl GN2 Hg) as [F2 [TF [GF2 L2]]].
    destruct (chain_designated x (o_indent o) ms m kids 0 C) as [P [Q H]]. pose proof (designated_app _ _ _ _ _ _ _ _ L2 _ _ _ _ (H [] [Text []])) as L3.
    assert (TX : forall a, forest_text (new_chain x (o_indent o) (m :: ms) a []) = P ++ node_text (Elem (spelled x (last ms m)) a false []) ++ Q).
    { intros a0. pose proof (designated_text _ _ _ _ _ _ (H a0 [])) as T. rewrite forest_app, <- !app_assoc in T. now apply app_inv_head in T. }
    assert (TY : forall a, forest_text (new_chain x (o_indent o) (m :: ms) a [Text []]) = P ++ node_text (Elem (spelled x (last ms m)) a false [Text []]) ++ Q).
    { intros a0. pose proof (designated_text _ _ _ _ _ _ (H a0 [Text []])) as T. rewrite forest_app, <- !app_assoc in T. now apply app_inv_head in T. }
    assert (NT : forall b a, node_text (Elem b a false [Text []]) = node_text (Elem b a false [])) by reflexivity.
    assert (T2 : p ++ A ++ node_text nd2 ++ B = p ++ A ++ node_text (Elem n a' false (kids ++ new_chain x (o_indent o) (m :: ms) [] [])) ++ B).
    { unfold nd2. rewrite !node_elem, !forest_app, TX, TY, NT. reflexivity. }
    rewrite <- T2, <- TF in SN.
    rewrite (attr_added d p F2 (pre ++ by_name (m :: ms)) y v (A ++ start_tag n a' false ++ forest_text kids ++ P) (spelled x (last ms m)) (Q ++ end_tag n ++ B) [2] Hp GF2 SN GS); [| |eexists; split; [reflexivity|exact L3]].
    - cbn [edit_of]. do 3 f_equal. rewrite NT, (node_elem n), forest_app, TX, <- !app_assoc. reflexivity.
    - rewrite CE, TF. do 2 f_equal. unfold nd2. rewrite node_elem, forest_app. unfold chain. fold x. rewrite <- !app_assoc. reflexivity.
  Qed.
  Lemma attr_missing_root : forall m ms y v, good_tpath (by_name (m :: ms)) (TheAttribute y) -> called (finds x m) F = [] ->
    (blen (esc v) <= 5242880)%N -> Forall xml_name (m :: ms) -> no_angle (o_indent o) ->
    (blen (p ++ forest_text (F ++ new_chain x (o_indent o) (m :: ms) [] [])) <= 10485760)%N ->
    set_opts E fmt_g o d (tpath (by_name (m :: ms)) (TheAttribute y)) (VStr v) =
      Ok (p ++ forest_text (F ++ new_chain x (o_indent o) (m :: ms) [(spelled x y, v)] []), None).
  Proof.
    intros m ms y v GT C SZ XN IN SN. pose proof GT as [GS _ _].
    pose proof (create_root_opt E Hord o p F Hp Hg Hd Hv m ms [0; 2] [] GS C) as CE. fold d in CE.
    rewrite attr_missing_start; auto. 2:{ intros; cbn [by_name map]; now apply absent_here_opt. }
    set (F2 := F ++ new_chain x (o_indent o) (m :: ms) [] [Text []]).
    assert (GF2 : Forall good F2).
    { apply Forall_app. split; auto. apply lines_good; auto; [now apply spelled_xml_names|constructor; cbn [map List.length]; try constructor; lia|].
      constructor; [|constructor]. constructor. split; intros []. }
    destruct (chain_designated x (o_indent o) ms m F 0 C) as [P [Q H]].
    assert (NT : forall b a, node_text (Elem b a false [Text []]) = node_text (Elem b a false [])) by reflexivity.
    assert (TX : forall a, forest_text (F ++ new_chain x (o_indent o) (m :: ms) a []) = (forest_text F ++ P) ++ node_text (Elem (spelled x (last ms m)) a false []) ++ Q)
      by (intros a0; apply (designated_text _ _ _ _ _ _ (H a0 []))).
    assert (TY : forest_text F2 = forest_text (F ++ new_chain x (o_indent o) (m :: ms) [] [])).
    { rewrite TX, <- NT. apply (designated_text _ _ _ _ _ _ (H [] [Text []])). }
    rewrite <- TY in SN.
    rewrite (attr_added d p F2 (by_name (m :: ms)) y v (forest_text F ++ P) (spelled x (last ms m)) Q [2] Hp GF2 SN GS); [| |eexists; split; [reflexivity|exact (H [] [Text []])]].
    - cbn [edit_of]. do 3 f_equal. rewrite TX, NT, <- !app_assoc. reflexivity.
    - rewrite CE. do 2 f_equal. unfold d, F2. rewrite forest_app, <- app_assoc. reflexivity.
  Qed.
  End Doc.
End Attr.

(** ** Results as trees *)
Lemma nest_nonempty : forall indent i n names a K, forest_text (nest_lines indent i (n :: names) a K) <> [].
Proof.
  intros indent i n names a K H. cbn [nest_lines] in H. rewrite forest_app, forest_cons, node_elem in H. apply app_eq_nil in H. destruct H as [_ H].
  rewrite <- !app_assoc in H. now apply (start_tag_nonempty [] n (match names with [] => a | _ :: _ => [] end) false) in H.
Qed.
Section Trees.
  Variable E : env.
  Variable fmt_g : f64 -> bytes.
  Hypothesis Hord : forall k l, Permutation l (e_ord E k l).
  Variable o : options.
  Let x := o_case o.
  Section Doc.
  Variable p : bytes.
  Variable F : list node.
  Hypothesis Hp : prolog p.
  Hypothesis Hg : Forall good F.
  Let d := p ++ forest_text F.
  Hypothesis Hv : valid d = true.
  Let Hd : (blen d <= 10485760)%N := valid_size d Hv.
  Lemma set_below_opt : forall pre m ms A n a self kids B v, good_tpath (pre ++ by_name (m :: ms)) TheElement -> designated x pre F A (Elem n a self kids) B ->
    called (finds x m) kids = [] -> (blen (esc v) <= 5242880)%N -> exists a', Permutation a a' /\ (self = false -> a' = a) /\
    set_opts E fmt_g o d (tpath (pre ++ by_name (m :: ms)) TheElement) (VStr v) =
      Ok (p ++ A ++ node_text (Elem n a' false (kids ++ new_chain x (o_indent o) (m :: ms) [] [Text (esc v)])) ++ B, None).
  Proof.
    intros pre m ms A n a self kids B v GT L C SZ. pose proof GT as [GS _ _].
    destruct (create_below_opt E Hord o p F Hp Hg Hd Hv pre m ms [4] (esc v) A n a self kids B GS L C) as [a' [PA [SA CE]]]. exists a'. split; auto. split; auto.
    pose proof (set_missing_start_opt E fmt_g Hord o p F Hp Hg Hd Hv (pre ++ by_name (m :: ms)) (VStr v) (esc v) GT) as S. fold d in S, CE. rewrite S; auto; try discriminate.
    - rewrite CE. cbn [bind edit_of]. rewrite get_result_some by apply start_tag_nonempty. do 2 f_equal. rewrite node_elem, forest_app. unfold chain. fold x. now rewrite <- !app_assoc.
    - intros. cbn [by_name map]. eapply absent_below_opt; eauto.
    - cbn [value_to_xml]. now rewrite esc_escape.
  Qed.
  Lemma set_root_opt : forall m ms v, good_tpath (by_name (m :: ms)) TheElement -> called (finds x m) F = [] -> (blen (esc v) <= 5242880)%N ->
    set_opts E fmt_g o d (tpath (by_name (m :: ms)) TheElement) (VStr v) = Ok (p ++ forest_text (F ++ new_chain x (o_indent o) (m :: ms) [] [Text (esc v)]), None).
  Proof.
    intros m ms v GT C SZ. pose proof GT as [GS _ _]. pose proof (create_root_opt E Hord o p F Hp Hg Hd Hv m ms [4] (esc v) GS C) as CE.
    pose proof (set_missing_start_opt E fmt_g Hord o p F Hp Hg Hd Hv (by_name (m :: ms)) (VStr v) (esc v) GT) as S. fold d in S, CE. rewrite S; auto; try discriminate.
    - rewrite CE. cbn [bind edit_of]. rewrite get_result_some.
      + unfold d, chain. fold x. now rewrite forest_app, <- app_assoc.
      + intros K. apply app_eq_nil in K. destruct K as [_ K]. revert K. apply nest_nonempty.
    - intros. cbn [by_name map]. now apply absent_here_opt.
    - cbn [value_to_xml]. now rewrite esc_escape.
  Qed.
  Lemma append_found_tree : forall steps A n a kids B m v K1 K2, Forall good_tstep (steps ++ [(m, None)]) -> len (flat_map tstep_steps (steps ++ [(m, None)])) < 100 ->
    designated x steps F A (Elem n a false kids) B -> parted (finds x m) kids K1 K2 -> (blen (esc v) <= 5242880)%N ->
    let new := p ++ A ++ node_text (Elem n a false (K1 ++ line_after K1 (o_indent o) (len (flat_map tstep_steps steps)) ++ [Elem (spelled x m) [] false [Text (esc v)]] ++ K2)) ++ B in
    set_opts E fmt_g o d (tpath (steps ++ [(m, None)]) TheElement ++ bs ".-1") (VStr v) =
      Ok (if (10485760 <? blen new)%N then (d, Some ErrInvalidValue) else (new, None)).
  Proof.
    intros steps A n a kids B m v K1 K2 GS LN L PT SZ new. pose proof (append_found_opt E fmt_g Hord o p F Hp Hg Hv steps A n a kids B m (VStr v) (esc v) K1 K2 GS LN L PT) as S.
    fold d in S. cbv zeta in S. rewrite S; [|discriminate|cbn [value_to_xml]; now rewrite esc_escape|auto].
    assert (T : p ++ A ++ start_tag n a false ++ forest_text K1 ++ forest_text (line_after K1 (o_indent o) (len (flat_map tstep_steps steps))) ++
      (start_tag (spelled (o_case o) m) [] false ++ esc v ++ end_tag (spelled (o_case o) m)) ++ forest_text K2 ++ end_tag n ++ B = new).
    { unfold new. rewrite node_elem, !forest_app, forest_one, node_elem, forest_one. cbn [node_text]. fold x. now rewrite <- !app_assoc. }
    now rewrite T.
  Qed.
  Lemma append_self_tree : forall steps A n a kids B m v, Forall good_tstep (steps ++ [(m, None)]) -> len (flat_map tstep_steps (steps ++ [(m, None)])) < 100 ->
    designated x steps F A (Elem n a true kids) B -> (blen (esc v) <= 5242880)%N ->
    exists a', Permutation a' a /\ sorted_by_name a' /\ set_opts E fmt_g o d (tpath (steps ++ [(m, None)]) TheElement ++ bs ".-1") (VStr v) =
      Ok (p ++ A ++ node_text (Elem n a' false [Elem (spelled x m) [] false [Text (esc v)]]) ++ B, None).
  Proof.
    intros steps A n a kids B m v GS LN L SZ.
    destruct (append_self_opt E fmt_g Hord o p F Hp Hg Hv steps A n a kids B m (VStr v) (esc v) GS LN L) as [a' [PA [OA S]]]; [discriminate|cbn [value_to_xml]; now rewrite esc_escape|auto|].
    exists a'. split; auto. split; auto. fold d in S. rewrite S. do 2 f_equal. rewrite node_elem, forest_one, node_elem, forest_one. cbn [node_text]. fold x. now rewrite <- !app_assoc.
  Qed.
  Lemma append_top_tree : forall m v F1 F2, step_name m -> parted (finds x m) F F1 F2 -> (blen (esc v) <= 5242880)%N ->
    let new := p ++ forest_text (F1 ++ [Elem (spelled x m) [] false [Text (esc v)]] ++ F2) in
    set_opts E fmt_g o d (tpath [(m, None)] TheElement ++ bs ".-1") (VStr v) =
      Ok (if (10485760 <? blen new)%N then (d, Some ErrInvalidValue) else (new, None)).
  Proof.
    intros m v F1 F2 SM PT SZ new. pose proof (append_top_opt E fmt_g Hord o p F Hp Hg Hv m (VStr v) (esc v) F1 F2 SM PT) as S. fold d in S. cbv zeta in S.
    rewrite S; [|discriminate|cbn [value_to_xml]; now rewrite esc_escape|auto].
    assert (T : p ++ forest_text F1 ++ (start_tag (spelled (o_case o) m) [] false ++ esc v ++ end_tag (spelled (o_case o) m)) ++ forest_text F2 = new).
    { unfold new. rewrite !forest_app, forest_one, node_elem, forest_one. cbn [node_text]. fold x. now rewrite <- !app_assoc. }
    now rewrite T.
  Qed.
  End Doc.
  Let Z0 : (blen ([] ++ forest_text []) <= 10485760)%N. Proof. vm_compute. discriminate. Qed.
  Lemma nothing_in_empty : forall steps A nd B, ~ designated x steps [] A nd B.
  Proof. intros steps A nd B L. inversion L; match goal with Q : _ ++ _ :: _ = [] |- _ => symmetry in Q; now apply app_cons_not_nil in Q end. Qed.
  Lemma set_empty_opt : forall m ms v, good_tpath (by_name (m :: ms)) TheElement -> (blen (esc v) <= 5242880)%N ->
    set_opts E fmt_g o [] (tpath (by_name (m :: ms)) TheElement) (VStr v) = Ok (forest_text (new_chain x (o_indent o) (m :: ms) [] [Text (esc v)]), None).
  Proof.
    intros m ms v GT SZ. pose proof GT as [GS _ _]. pose proof (parse_opts_path o _ _ GT) as P. cbn [cfinal] in P.
    assert (NC : csteps o (by_name (m :: ms)) <> []) by discriminate. destruct (segs_nonempty _ NC) as [sg [r Q]].
    unfold set_opts. change (MaxDocumentSize <? blen [])%N with false. cbn iota. rewrite P. cbn [bind]. rewrite Q. cbn iota. unfold set_element.
    cbn [value_to_xml]. rewrite <- esc_escape. rewrite (proj2 (N.ltb_ge MaxValueSize (blen (esc v))) SZ). change (MaxDocumentSize <? blen [])%N with false. cbn iota.
    rewrite <- Q. rewrite <- (app_nil_r (segs_of (csteps o _) TheElement)), intents_steps, app_nil_r by (intros ? []).
    rewrite (type_attr_false _ (last_steps _ _ NC)).
    pose proof (find_none_opt E Hord o [] [] pro_nil (Forall_nil _) Z0 (by_name (m :: ms)) [3] GS ltac:(discriminate)) as R. cbn [app forest_text flat_map] in R. rewrite R by apply nothing_in_empty.
    cbn [bind]. rewrite create_empty_opt. cbn [bind edit_of]. rewrite get_result_some; [reflexivity|]. apply nest_nonempty.
  Qed.
  Lemma attr_empty_opt : forall m ms y v, good_tpath (by_name (m :: ms)) (TheAttribute y) -> (blen (esc v) <= 5242880)%N -> Forall xml_name (m :: ms) -> no_angle (o_indent o) ->
    (blen (forest_text (new_chain x (o_indent o) (m :: ms) [] [])) <= 10485760)%N ->
    set_opts E fmt_g o [] (tpath (by_name (m :: ms)) (TheAttribute y)) (VStr v) = Ok (forest_text (new_chain x (o_indent o) (m :: ms) [(spelled x y, v)] []), None).
  Proof.
    intros m ms y v GT SZ XN IN SN. pose proof GT as [GS _ _]. pose proof (parse_opts_path o _ _ GT) as P. cbn [cfinal] in P.
    assert (NC : csteps o (by_name (m :: ms)) <> []) by discriminate. destruct (segs_nonempty _ NC) as [sg [r Q]].
    unfold set_opts. change (MaxDocumentSize <? blen [])%N with false. cbn iota. rewrite P. cbn [bind].
    destruct (segs_of (csteps o (by_name (m :: ms))) (TheAttribute (spelled (o_case o) y))) as [|sg0 r0] eqn:Q0; [now apply segs_attr_nonempty in Q0|]. rewrite <- Q0.
    unfold set_element. rewrite segs_attr. rewrite Q. cbn [app]. cbn [value_to_xml]. rewrite <- esc_escape.
    rewrite (proj2 (N.ltb_ge MaxValueSize (blen (esc v))) SZ). change (MaxDocumentSize <? blen [])%N with false. cbn iota.
    change (sg :: r ++ ?z) with ((sg :: r) ++ z). rewrite <- Q.
    rewrite intents_steps by (intros ? [<-|[]]; discriminate). rewrite last_last, removelast_last. cbn [step_seg s_type segtype_eqb s_value].
    pose proof (find_none_opt E Hord o [] [] pro_nil (Forall_nil _) Z0 (by_name (m :: ms)) [1] GS ltac:(discriminate)) as R. cbn [app forest_text flat_map] in R. rewrite R by apply nothing_in_empty.
    cbn [bind]. set (F2 := new_chain x (o_indent o) (m :: ms) [] [Text []]).
    assert (GF2 : Forall good F2).
    { apply lines_good; auto; [now apply spelled_xml_names|constructor; cbn [map List.length]; try constructor; lia|]. constructor; [|constructor]. constructor. split; intros []. }
    destruct (chain_designated x (o_indent o) ms m [] 0 eq_refl) as [PP [QQ H]]. cbn [app forest_text flat_map] in H.
    assert (NT : forall b a, node_text (Elem b a false [Text []]) = node_text (Elem b a false [])) by reflexivity.
    assert (TX : forall a, forest_text (new_chain x (o_indent o) (m :: ms) a []) = PP ++ node_text (Elem (spelled x (last ms m)) a false []) ++ QQ)
      by (intros a0; apply (designated_text _ _ _ _ _ _ (H a0 []))).
    assert (TY : forest_text F2 = forest_text (new_chain x (o_indent o) (m :: ms) [] [])).
    { rewrite TX, <- NT. apply (designated_text _ _ _ _ _ _ (H [] [Text []])). }
    rewrite <- TY in SN.
    rewrite (attr_added E Hord o [] [] F2 (by_name (m :: ms)) y v PP (spelled x (last ms m)) QQ [2] pro_nil GF2 SN GS); [| |eexists; split; [reflexivity|exact (H [] [Text []])]].
    - cbn [edit_of app]. fold x. now rewrite TX, NT.
    - apply create_empty_opt.
  Qed.
End Trees.
