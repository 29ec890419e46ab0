(** What is read after an edit. *)
From Coq Require Import List Ascii String NArith ZArith Bool Lia Permutation.
From Verif Require Import GoStr ModelParser ModelPath ModelResult ModelQuery ModelValidate ModelBuilder SpecText SpecPath SpecTree SpecQuery SpecEdit
  ProofBase ProofEscape ProofPath ProofScan ProofSyntax ProofApi2 ProofTree ProofTree2 ProofTree3 ProofTree4 ProofTree5 ProofTree7 ProofEdit ProofEdit2 ProofEdit3 ProofEdit4 ProofEdit5.
Import ListNotations.

Lemma text_good : forall v, good (Text (esc v)).
Proof. intros v. constructor. apply esc_no_angle. Qed.
Lemma forest_one : forall nd, forest_text [nd] = node_text nd.
Proof. intros. unfold forest_text. cbn [flat_map]. apply app_nil_r. Qed.
(** A located element replaced by one of the same name. *)
Lemma replace_located : forall steps F A nd B nd', located steps F A nd B -> Forall good F -> good nd' -> is_elem nd' = true -> name_of nd' = name_of nd ->
  exists F', swapped steps F nd [nd'] F' /\ forest_text F' = A ++ node_text nd' ++ B /\ Forall good F' /\ located steps F' A nd' B /\ top_names F' = top_names F.
Proof.
  intros steps F A nd B nd' L G G' E N. destruct (located_swapped _ _ _ _ _ [nd'] L) as [F' [S T]]. exists F'. split; auto.
  split; [now rewrite forest_one in T|]. split; [eapply swapped_good; eauto|]. split; [eapply swapped_located; eauto|].
  eapply swapped_names; eauto. left. destruct (located_good _ _ _ _ _ L G) as [_ EN]. split; auto. unfold top_names, elems. cbn [filter]. rewrite E. cbn [map]. now rewrite N.
Qed.
Lemma query_prefix : forall steps F A nd B, located steps F A nd B -> forall q fin top, q <> [] -> query false q fin (kids_of nd) <> Nothing -> Forall index_small steps ->
  (top = true -> clear_start steps F) -> query top (steps ++ q) fin F = query false q fin (kids_of nd).
Proof.
  induction 1 as [n idx F1 nd F2 H1 H2|n idx rest F1 m a kids F2 A nd B H1 H2 H3 IH]; intros q fin top NQ NN SM CS;
    inversion SM as [|? ? SM1 SM2]; subst; unfold index_small in SM1; cbn [snd] in SM1; cbn [app]; rewrite query_cons; cbv zeta.
  - assert (LA : is_last q fin = false) by (destruct q; [contradiction|reflexivity]). rewrite LA. pose proof (called_nth (selects n) F1 nd F2 H1) as CN. rewrite H2 in CN.
    destruct idx as [ds|]; cbn [index_of] in CN.
    + assert (EX : called (if top then bytes_eqb n else selects n) (F1 ++ nd :: F2) = called (selects n) (F1 ++ nd :: F2)).
      { destruct top; auto. symmetry. apply called_ext. exact (CS eq_refl). }
      rewrite EX, nth_firstn, CN; [reflexivity|lia].
    + erewrite (first_hit _ _ nd); [reflexivity|exact CN|exact NN].
  - assert (LA : is_last (rest ++ q) fin = false) by (destruct rest; [inversion H3|reflexivity]). rewrite LA. pose proof (called_nth (selects n) F1 (Elem m a false kids) F2 H1) as CN. rewrite H2 in CN.
    specialize (IH q fin false NQ NN SM2 ltac:(discriminate)). destruct idx as [ds|]; cbn [index_of] in CN.
    + assert (EX : called (if top then bytes_eqb n else selects n) (F1 ++ Elem m a false kids :: F2) = called (selects n) (F1 ++ Elem m a false kids :: F2)).
      { destruct top; auto. symmetry. apply called_ext. exact (CS eq_refl). }
      rewrite EX, nth_firstn, CN; [exact IH|lia].
    + erewrite (first_hit _ _ (Elem m a false kids)); [exact IH|exact CN|]. cbn [kids_of]. rewrite IH. exact NN.
Qed.
Lemma element_string : forall v r, describes r (Element [Text (esc v)]) -> r_type r = RElement /\ r_string r = trim_space v.
Proof.
  intros v r [H1 [H2 _]]. split; auto. unfold all_text in H2. cbn [flat_map node_chars] in H2. rewrite app_nil_r, trim_esc in H2.
  eapply decodes_eq; eauto. apply esc_decodes.
Qed.

Section After.
  Variable E : env.
  Variable fmt_g : f64 -> bytes.
  Hypothesis Hord : forall k l, Permutation l (e_ord E k l).
  Section Doc.
  Variable p : bytes.
  Variable F : list node.
  Hypothesis Hp : prolog p.
  Hypothesis Hg : Forall good F.
  Let d := p ++ forest_text F.
  Hypothesis Hv : valid d = true.
  Let Hd : (blen d <= 10485760)%N := valid_size d Hv.

  (** The answer at the same path after the replacement. *)
  Lemma read_replaced : forall steps A nd B nd' fin, located steps F A nd B -> good nd' -> is_elem nd' = true -> name_of nd' = name_of nd ->
    good_tpath steps fin -> readable steps F -> final_answer fin nd' <> Nothing -> (blen (p ++ A ++ node_text nd' ++ B) <= 10485760)%N ->
    exists r, get E (p ++ A ++ node_text nd' ++ B) (tpath steps fin) = Ok r /\ describes r (final_answer fin nd').
  Proof.
    intros steps A nd B nd' fin L G EL NM GT RD NN SZ. destruct (replace_located steps F A nd B nd' L Hg G EL NM) as [F' [_ [T [G' [L' TN]]]]].
    rewrite <- T in *. pose proof (readable_names _ _ F' RD TN) as RD'.
    apply (read_at E Hord p F' Hp G' SZ steps A nd' B fin GT L'); eauto using readable_small, readable_clear.
  Qed.
  Lemma set_text_ok : forall steps A n a kids B v, good_tpath steps TheElement -> located steps F A (Elem n a false kids) B -> (blen (esc v) <= 5242880)%N ->
    let new := p ++ A ++ start_tag n a false ++ esc v ++ end_tag n ++ B in
    set E fmt_g d (tpath steps TheElement) (VStr v) = Ok (new, None) /\
    (readable steps F -> (blen new <= 10485760)%N -> exists r, get E new (tpath steps TheElement) = Ok r /\ r_type r = RElement /\ r_string r = trim_space v).
  Proof.
    intros steps A n a kids B v GT L SZ new. split.
    - unfold d, new. rewrite (set_found E fmt_g Hord p F Hp Hg Hd Hv steps A n a false kids B (VStr v) (esc v)); auto; try discriminate. cbn [value_to_xml]. now rewrite esc_escape.
    - intros RD SN. destruct (located_good _ _ _ _ _ L Hg) as [GE _]. inversion GE as [? ? ? ? GN GA GSf GK| |]; subst n0 a0 self kids0.
      assert (T : new = p ++ A ++ node_text (Elem n a false [Text (esc v)]) ++ B).
      { unfold new. rewrite node_elem, forest_one. cbn [node_text]. now rewrite <- !app_assoc. }
      rewrite T in *. destruct (read_replaced steps A _ B (Elem n a false [Text (esc v)]) TheElement L) as [r [R1 R2]]; auto; try discriminate.
      + constructor; auto; [discriminate|]. constructor; [apply text_good|constructor].
      + exists r. split; auto. now apply element_string.
  Qed.
  Lemma good_attrs_perm : forall a a', Permutation a a' -> good_attrs a -> good_attrs a'.
  Proof.
    intros a a' P [H1 H2 H3 H4]. constructor.
    - now rewrite <- (Permutation_length P).
    - eapply Permutation_NoDup; [apply Permutation_map; exact P|exact H2].
    - eapply Permutation_Forall; [apply Permutation_map; exact P|exact H3].
    - eapply Permutation_Forall; eauto.
  Qed.
  Lemma set_attr_ok : forall steps A n a self kids B x v, good_tpath steps (TheAttribute x) -> located steps F A (Elem n a self kids) B ->
    (blen (esc v) <= 5242880)%N -> exists a', Permutation a' (put_attr x v a) /\
    let new := p ++ A ++ start_tag n a' self ++ (if self then [] else forest_text kids ++ end_tag n) ++ B in
    set E fmt_g d (tpath steps (TheAttribute x)) (VStr v) = Ok (new, None) /\
    (readable steps F -> good_attrs (put_attr x v a) -> (blen new <= 10485760)%N ->
     (exists r, get E new (tpath steps (TheAttribute x)) = Ok r /\ r_type r = RAttribute /\ r_string r = v) /\
     forall y w, y <> x -> ~ In "|"%char y -> attr_value y a = Some w ->
       exists r, get E new (tpath steps (TheAttribute y)) = Ok r /\ r_type r = RAttribute /\ r_string r = w).
  Proof.
    intros steps A n a self kids B x v GT L SZ. destruct (set_attr_found E fmt_g Hord p F Hp Hg Hd Hv steps A n a self kids B x v GT L SZ) as [a' [PA S]].
    exists a'. split; auto. split; [exact S|]. intros RD GA' SN. destruct (located_good _ _ _ _ _ L Hg) as [GE _]. inversion GE as [? ? ? ? GN GA GSf GK| |]; subst n0 a0 self0 kids0.
    assert (GA2 : good_attrs a') by (eapply good_attrs_perm; [symmetry; exact PA|exact GA']).
    assert (T : p ++ A ++ start_tag n a' self ++ (if self then [] else forest_text kids ++ end_tag n) ++ B = p ++ A ++ node_text (Elem n a' self kids) ++ B)
      by (rewrite node_parts, <- !app_assoc; reflexivity).
    rewrite T in *.
    assert (RW : forall y w, ~ In "|"%char y -> attr_value y (put_attr x v a) = Some w -> exists r, get E (p ++ A ++ node_text (Elem n a' self kids) ++ B) (tpath steps (TheAttribute y)) = Ok r /\ r_type r = RAttribute /\ r_string r = w).
    { intros y w NB AV. rewrite <- (attr_perm (put_attr x v a) a' y (ga_distinct _ GA') (Permutation_sym PA)) in AV.
      destruct (read_replaced steps A _ B (Elem n a' self kids) (TheAttribute y) L) as [r [R1 R2]]; auto.
      - now constructor.
      - destruct GT as [G1 G2 G3]. constructor; [exact G1|cbn [good_final] in *; tauto|]. unfold tpath_steps in *. cbn [final_steps] in *. rewrite app_length in *. exact G3.
      - cbn [final_answer attrs_of]. rewrite AV. discriminate.
      - cbn [final_answer attrs_of] in R2. rewrite AV in R2. exists r. split; auto. }
    split.
    - apply RW; [|apply put_same]. destruct GT as [_ GF _]. apply GF.
    - intros y w NY NB AV. apply RW; auto. now rewrite put_other.
  Qed.

  (** ** Creation *)
  Lemma create_ok : forall pre m ms A n a self kids B v, good_tpath (pre ++ by_name (m :: ms)) TheElement -> located pre F A (Elem n a self kids) B ->
    called (selects m) kids = [] -> (blen (esc v) <= 5242880)%N -> exists a', Permutation a a' /\ (self = false -> a' = a) /\
    let new := p ++ A ++ node_text (Elem n a' false (kids ++ chain_of (m :: ms) v)) ++ B in
    set E fmt_g d (tpath (pre ++ by_name (m :: ms)) TheElement) (VStr v) = Ok (new, None) /\
    (readable pre F -> Forall xml_name (m :: ms) -> (blen new <= 10485760)%N ->
     exists r, get E new (tpath (pre ++ by_name (m :: ms)) TheElement) = Ok r /\ r_type r = RElement /\ r_string r = trim_space v).
  Proof.
    intros pre m ms A n a self kids B v GT L C SZ. pose proof GT as [GS _ _].
    destruct (create_below E Hord p F Hp Hg Hd Hv pre m ms [4] (esc v) A n a self kids B GS L C) as [a' [PA [SA CE]]]. exists a'. split; auto. split; auto. fold d in CE.
    assert (T : p ++ A ++ node_text (Elem n a' false (kids ++ chain_of (m :: ms) v)) ++ B =
      (p ++ A) ++ start_tag n a' false ++ forest_text kids ++ fold_right (fun n0 t => start_tag n0 [] false ++ t ++ end_tag n0) (esc v) (m :: ms) ++ end_tag n ++ B).
    { rewrite node_elem, forest_app. unfold chain_of. rewrite nest_text, forest_one. cbn [node_text]. now rewrite <- !app_assoc. }
    intros new. unfold new. split.
    - rewrite T. unfold d. rewrite (set_missing_start E fmt_g Hord p F Hp Hg Hd Hv _ (VStr v) (esc v) GT); auto; try discriminate.
      + fold d. rewrite CE. cbn [bind edit_of]. now rewrite get_result_some by apply start_tag_nonempty.
      + intros A' nd' B'. cbn [by_name map]. eapply absent_below; eauto.
      + cbn [value_to_xml]. now rewrite esc_escape.
    - intros RD XN SN. unfold new in SN. destruct (located_good _ _ _ _ _ L Hg) as [GE _]. inversion GE as [? ? ? ? GN GA GSf GK| |]; subst n0 a0 self0 kids0.
      assert (GN' : good (Elem n a' false (kids ++ chain_of (m :: ms) v))).
      { constructor; auto; [eapply good_attrs_perm; eauto|discriminate|]. apply Forall_app. split; auto. apply nest_good; auto. constructor; [apply text_good|constructor]. }
      destruct (replace_located pre F A _ B (Elem n a' false (kids ++ chain_of (m :: ms) v)) L Hg GN' eq_refl eq_refl) as [F' [_ [TF [G' [L' TN]]]]].
      destruct (located_nest ms m kids [Text (esc v)] C) as [A2 [B2 L2]]. pose proof (located_app pre F' A n a' _ B L' _ _ _ _ L2) as L3.
      rewrite <- TF in SN |- *. pose proof (readable_names _ _ F' RD TN) as RD'.
      assert (RD2 : readable (pre ++ by_name (m :: ms)) F').
      { destruct RD' as [X1 X2]. split.
        - apply Forall_app. split; auto. apply Forall_forall. intros s I. unfold by_name in I. apply in_map_iff in I. destruct I as [z [<- _]]. exact Logic.I.
        - destruct pre as [|[z [ds|]] pre]; [pose proof (located_nonempty _ _ _ _ _ L); contradiction| |]; auto. }
      destruct (read_at E Hord p F' Hp G' SN _ _ _ _ TheElement GT L3) as [r [R1 R2]]; eauto using readable_small, readable_clear; [discriminate|].
      exists r. split; auto. now apply element_string.
  Qed.
  (** A new top-level element after the others. *)
  Lemma create_top_ok : forall m ms v, good_tpath (by_name (m :: ms)) TheElement -> called (selects m) F = [] -> (blen (esc v) <= 5242880)%N ->
    let new := p ++ forest_text (F ++ chain_of (m :: ms) v) in
    set E fmt_g d (tpath (by_name (m :: ms)) TheElement) (VStr v) = Ok (new, None) /\
    (Forall xml_name (m :: ms) -> (blen new <= 10485760)%N ->
     exists r, get E new (tpath (by_name (m :: ms)) TheElement) = Ok r /\ r_type r = RElement /\ r_string r = trim_space v).
  Proof.
    intros m ms v GT C SZ new. pose proof GT as [GS _ _]. pose proof (create_root E Hord p F Hp Hg Hd Hv m ms [4] (esc v) GS C) as CE. fold d in CE. split.
    - unfold d, new. rewrite (set_missing_start E fmt_g Hord p F Hp Hg Hd Hv _ (VStr v) (esc v) GT); auto; try discriminate.
      + fold d. rewrite CE. cbn [bind edit_of]. rewrite get_result_some.
        * unfold d. rewrite forest_app. unfold chain_of. rewrite nest_text, forest_one. cbn [node_text]. now rewrite <- !app_assoc.
        * destruct (doc_nonempty p F Hd Hv) as [c [r Q]]. fold d in Q. rewrite Q. discriminate.
      + intros A nd B. cbn [by_name map]. now apply absent_here.
      + cbn [value_to_xml]. now rewrite esc_escape.
    - intros XN SN. unfold new in *.
      assert (G' : Forall good (F ++ chain_of (m :: ms) v)) by (apply Forall_app; split; auto; apply nest_good; auto; constructor; [apply text_good|constructor]).
      destruct (located_nest ms m F [Text (esc v)] C) as [A2 [B2 L2]].
      destruct (read_at E Hord p (F ++ chain_of (m :: ms) v) Hp G' SN _ _ _ _ TheElement GT L2) as [r [R1 R2]]; try discriminate; auto.
      + apply Forall_forall. intros s I. unfold by_name in I. apply in_map_iff in I. destruct I as [z [<- _]]. exact Logic.I.
      + exact Logic.I.
      + exists r. split; auto. now apply element_string.
  Qed.
  End Doc.
  (** The empty document. *)
  Lemma create_empty_ok : forall m ms v, good_tpath (by_name (m :: ms)) TheElement -> (blen (esc v) <= 5242880)%N ->
    let new := forest_text (chain_of (m :: ms) v) in
    set E fmt_g [] (tpath (by_name (m :: ms)) TheElement) (VStr v) = Ok (new, None) /\
    (Forall xml_name (m :: ms) -> (blen new <= 10485760)%N ->
     exists r, get E new (tpath (by_name (m :: ms)) TheElement) = Ok r /\ r_type r = RElement /\ r_string r = trim_space v).
  Proof.
    intros m ms v GT SZ new. pose proof GT as [GS _ _]. pose proof (segs_parse _ _ GT) as P.
    assert (Z0 : (blen ([] ++ forest_text []) <= 10485760)%N) by (vm_compute; discriminate).
    assert (TN : new = fold_right (fun n t => start_tag n [] false ++ t ++ end_tag n) (esc v) (m :: ms)).
    { unfold new, chain_of. rewrite nest_text, forest_one. reflexivity. }
    split.
    - unfold set, set_opts. change (MaxDocumentSize <? blen [])%N with false. cbn iota. rewrite (parse_default _ _ P). cbn [bind].
      rewrite segs_names. cbn [map]. unfold set_element. cbn [value_to_xml]. rewrite <- esc_escape. rewrite (proj2 (N.ltb_ge MaxValueSize (blen (esc v))) SZ).
      change (MaxDocumentSize <? blen [])%N with false. cbn iota.
      assert (CI : check_intents (elem_seg m :: map elem_seg ms) = IntentsOk).
      { change (elem_seg m :: map elem_seg ms) with (map elem_seg (m :: ms)). rewrite <- segs_names, <- (app_nil_r (segs_of _ _)). apply intents_steps. intros ? []. }
      rewrite CI. change (elem_seg m :: map elem_seg ms) with (map elem_seg (m :: ms)). rewrite <- segs_names.
      rewrite (type_attr_false _ (last_steps (by_name (m :: ms)) _ ltac:(discriminate))).
      pose proof (find_none E Hord [] [] pro_nil (Forall_nil _) Z0 (by_name (m :: ms)) [3] GS ltac:(discriminate)) as R. cbn [app forest_text flat_map] in R. rewrite R.
      + cbn [bind]. unfold create_element. cbn [o_indent default_options]. rewrite segs_names, (build_names (m :: ms) (esc v) 0) by discriminate. cbn [bind edit_of].
        rewrite <- TN. rewrite get_result_some; [reflexivity|]. rewrite TN. cbn [fold_right]. change (start_tag m [] false) with ([] ++ start_tag m [] false). rewrite <- app_assoc. apply start_tag_nonempty.
      + intros A nd B L. inversion L; match goal with Q : _ ++ _ :: _ = [] |- _ => symmetry in Q; now apply app_cons_not_nil in Q end.
    - intros XN SN. unfold new in *.
      assert (G' : Forall good (chain_of (m :: ms) v)) by (apply nest_good; auto; constructor; [apply text_good|constructor]).
      destruct (located_nest ms m [] [Text (esc v)] eq_refl) as [A2 [B2 L2]]. cbn [app] in L2.
      destruct (read_at E Hord [] (chain_of (m :: ms) v) pro_nil G' SN _ _ _ _ TheElement GT L2) as [r [R1 R2]]; try discriminate; auto.
      + apply Forall_forall. intros s I. unfold by_name in I. apply in_map_iff in I. destruct I as [z [<- _]]. exact Logic.I.
      + exact Logic.I.
      + exists r. split; auto. now apply element_string.
  Qed.
End After.
