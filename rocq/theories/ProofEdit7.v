(** Appending, and attributes of missing elements. *)
From Coq Require Import List Ascii String NArith ZArith Bool Lia Permutation.
From Verif Require Import GoStr ModelParser ModelPath ModelResult ModelQuery ModelValidate ModelBuilder SpecText SpecPath SpecTree SpecQuery SpecEdit
  ProofBase ProofEscape ProofPath ProofScan ProofSyntax ProofApi2 ProofTree ProofTree2 ProofTree3 ProofTree4 ProofTree5 ProofTree7 ProofEdit ProofEdit2 ProofEdit3 ProofEdit4 ProofEdit5 ProofEdit6.
Import ListNotations.

Lemma called_app : forall f F G, called f (F ++ G) = called f F ++ called f G.
Proof. intros. unfold called. apply filter_app. Qed.
Lemma not_ends_index : forall steps (m : bytes), ~ ends_in_index (steps ++ [(m, None)]).
Proof. intros steps m [a [n [ds H]]]. apply app_inj_tail in H. destruct H as [_ H]. discriminate. Qed.
Lemma steps_snoc : forall steps s, flat_map tstep_steps (steps ++ [s]) = flat_map tstep_steps steps ++ tstep_steps s.
Proof. intros. rewrite flat_map_app. cbn [flat_map]. now rewrite app_nil_r. Qed.
Lemma readable_snoc : forall steps s F, steps <> [] -> readable steps F -> index_small s -> readable (steps ++ [s]) F.
Proof.
  intros steps s F NE [H1 H2] S. split.
  - apply Forall_app. split; auto.
  - destruct steps as [|[n [ds|]] r]; [contradiction| |]; auto.
Qed.
Lemma insert_good : forall f c F, Forall good F -> good c -> Forall good (insert_last f c F).
Proof.
  intros f c F H G. destruct (insert_split f F) as [F1 [F2 [-> [H2 _]]]]. rewrite H2. apply Forall_app in H. destruct H. apply Forall_app. auto.
Qed.
Definition new_child (m v : bytes) : node := Elem m [] false [Text (esc v)].
Lemma new_child_good : forall m v, xml_name m -> good (new_child m v).
Proof.
  intros m v H. constructor; auto; [|discriminate|constructor; [apply text_good|constructor]]. constructor; cbn [map List.length]; try constructor. lia.
Qed.
Lemma insert_counts : forall m v F, exists F1 F2, F = F1 ++ F2 /\ insert_last (selects m) (new_child m v) F = F1 ++ new_child m v :: F2 /\
  called (selects m) F1 = called (selects m) F /\ called (selects m) (insert_last (selects m) (new_child m v) F) = called (selects m) F ++ [new_child m v].
Proof.
  intros m v F. destruct (insert_split (selects m) F) as [F1 [F2 [-> [H2 [H3 _]]]]]. exists F1, F2. rewrite H2, !called_app, H3, app_nil_r.
  repeat split; auto. rewrite called_cons. cbn [named new_child]. now rewrite selects_self, H3.
Qed.
Lemma count_firstn : forall A (l : list A) (x : A), len l < 1000 -> firstn 1000 (l ++ [x]) = l ++ [x].
Proof. intros A l x H. apply firstn_all2. rewrite app_length. cbn [List.length]. lia. Qed.

(** ** A way to compute the located element, for the examples *)
Fixpoint split_nth (f : bytes -> bool) (i : nat) (F : list node) : option (list node * node * list node) :=
  match F with
  | [] => None
  | nd :: F' =>
      let more j := match split_nth f j F' with Some (a, x, b) => Some (nd :: a, x, b) | None => None end in
      if named f nd then match i with O => Some ([], nd, F') | Datatypes.S i' => more i' end else more i
  end.
Lemma split_nth_ok : forall f F i F1 nd F2, split_nth f i F = Some (F1, nd, F2) -> F = F1 ++ nd :: F2 /\ named f nd = true /\ len (called f F1) = i.
Proof.
  intros f. induction F as [|x F IH]; intros i F1 nd F2 H; [discriminate|]. cbn [split_nth] in H.
  assert (M : forall j, match split_nth f j F with Some (a, x0, b) => Some (x :: a, x0, b) | None => None end = Some (F1, nd, F2) ->
    x :: F = F1 ++ nd :: F2 /\ named f nd = true /\ exists G, F1 = x :: G /\ len (called f G) = j).
  { intros j K. destruct (split_nth f j F) as [[[a y] b]|] eqn:Q; [|discriminate]. injection K as <- <- <-. destruct (IH _ _ _ _ Q) as [-> [H2 H3]]. repeat split; auto. now exists a. }
  destruct (named f x) eqn:N.
  - destruct i as [|i].
    + injection H as <- <- <-. auto.
    + destruct (M _ H) as [-> [H2 [G [-> H3]]]]. repeat split; auto. rewrite called_cons, N. cbn [List.length]. now rewrite H3.
  - destruct (M _ H) as [-> [H2 [G [-> H3]]]]. repeat split; auto. now rewrite called_cons, N.
Qed.
Fixpoint locate (steps : list tstep) (F : list node) : option (bytes * node * bytes) :=
  match steps with
  | [] => None
  | (n, idx) :: rest =>
      match split_nth (selects n) (index_of idx) F with
      | Some (F1, nd, F2) =>
          match rest, nd with
          | [], _ => Some (forest_text F1, nd, forest_text F2)
          | _, Elem m a false kids =>
              match locate rest kids with
              | Some (A, x, B) => Some (forest_text F1 ++ start_tag m a false ++ A, x, B ++ end_tag m ++ forest_text F2)
              | None => None
              end
          | _, _ => None
          end
      | None => None
      end
  end.
Lemma locate_ok : forall steps F A nd B, locate steps F = Some (A, nd, B) -> located steps F A nd B.
Proof.
  induction steps as [|[n idx] rest IH]; intros F A nd B H; [discriminate|]. cbn [locate] in H.
  destruct (split_nth (selects n) (index_of idx) F) as [[[F1 x] F2]|] eqn:Q; [|discriminate]. destruct (split_nth_ok _ _ _ _ _ _ Q) as [-> [H2 H3]].
  destruct rest as [|s rest].
  - injection H as <- <- <-. now constructor.
  - destruct x as [m a [|] kids| |]; try discriminate. destruct (locate (s :: rest) kids) as [[[A' y] B']|] eqn:QL; [|discriminate]. injection H as <- <- <-. constructor; auto.
Qed.

Section After.
  Variable E : env.
  Variable fmt_g : f64 -> bytes.
  Hypothesis Hord : forall k l, Permutation l (e_ord E k l).
  Section Doc.
  Variable p : bytes.
  Variable F : list node.
  Hypothesis Hp : prolog p.
  Hypothesis Hg : Forall good F.
  Let d := p ++ forest_text F.
  Hypothesis Hv : valid d = true.
  Let Hd : (blen d <= 10485760)%N := valid_size d Hv.

  (** What is read after the parent got the new child. *)
  Lemma append_read : forall steps A n a self kids B m v a', Forall good_tstep (steps ++ [(m, None)]) -> len (flat_map tstep_steps (steps ++ [(m, None)])) < 100 ->
    located steps F A (Elem n a self kids) B -> Permutation a a' ->
    let new := p ++ A ++ node_text (Elem n a' false (insert_last (selects m) (new_child m v) kids)) ++ B in
    (blen new <= 10485760)%N -> readable steps F -> xml_name m -> len (called (selects m) kids) < 1000 ->
    (forall ds, ds <> [] -> Forall digit ds -> decimal_value ds = N.of_nat (len (called (selects m) kids)) ->
       exists r, get E new (tpath (steps ++ [(m, Some ds)]) TheElement) = Ok r /\ r_type r = RElement /\ r_string r = trim_space v) /\
    exists r, get E new (tpath (steps ++ [(m, None)]) TheCount) = Ok r /\ describes r (Count (S (len (called (selects m) kids)))).
  Proof.
    intros steps A n a self kids B m v a' GS LN L PA new SN RD XN LT. destruct (located_good _ _ _ _ _ L Hg) as [GE _]. inversion GE as [? ? ? ? GN GA GSf GK| |]; subst n0 a0 self0 kids0.
    set (nd' := Elem n a' false (insert_last (selects m) (new_child m v) kids)) in *.
    assert (G' : good nd').
    { constructor; auto; [eapply good_attrs_perm; eauto|discriminate|]. apply insert_good; auto. now apply new_child_good. }
    destruct (replace_located steps F A _ B nd' L Hg G' eq_refl eq_refl) as [F' [_ [TF [GF' [L' TN]]]]]. unfold new in *. clear new. rewrite <- TF in SN |- *.
    pose proof (readable_names _ _ F' RD TN) as RD'. pose proof (located_nonempty _ _ _ _ _ L) as NE.
    destruct (insert_counts m v kids) as [K1 [K2 [EK [IL [C1 C2]]]]].
    apply Forall_app in GS as GS2. destruct GS2 as [GP GM]. apply Forall_inv in GM. destruct GM as [SM _]. cbn [fst] in SM. rewrite steps_snoc, app_length in LN. cbn [tstep_steps List.length] in LN.
    split.
    - intros ds DN DG DV.
      assert (L2 : located [(m, Some ds)] (insert_last (selects m) (new_child m v) kids) (forest_text K1) (new_child m v) (forest_text K2)).
      { rewrite IL. constructor; [apply selects_self|]. rewrite C1. cbn [index_of]. rewrite DV, Nat2N.id. reflexivity. }
      pose proof (located_app steps F' A n a' _ B L' _ _ _ _ L2) as L3.
      assert (GT : good_tpath (steps ++ [(m, Some ds)]) TheElement).
      { constructor.
        - apply Forall_app. split; auto. constructor; [|constructor]. split; cbn [fst snd]; auto.
        - cbn [good_final]. intros K. now destruct steps.
        - unfold tpath_steps. cbn [final_steps]. rewrite app_nil_r, steps_snoc, app_length. cbn [tstep_steps List.length]. lia. }
      assert (RD2 : readable (steps ++ [(m, Some ds)]) F').
      { apply readable_snoc; auto. unfold index_small. cbn [snd]. rewrite DV. lia. }
      destruct (read_at E Hord p F' Hp GF' SN _ _ _ _ TheElement GT L3) as [r [R1 R2]]; eauto using readable_small, readable_clear; [discriminate|].
      exists r. split; auto. now apply element_string.
    - assert (GT : good_tpath (steps ++ [(m, None)]) TheCount).
      { constructor; auto.
        - cbn [good_final]. split; [apply not_ends_index|]. intros K. now destruct steps.
        - unfold tpath_steps. cbn [final_steps]. rewrite app_length, steps_snoc, app_length. cbn [tstep_steps List.length]. lia. }
      destruct (get_query_text E Hord p F' F' _ _ Hp (same_all_refl F') GF' SN GT) as [r [R1 R2]].
      assert (Q : query false [(m, None)] TheCount (kids_of nd') = Count (S (len (called (selects m) kids)))).
      { rewrite query_cons. cbv zeta. cbn [is_last kids_of nd']. rewrite C2, count_firstn by auto. rewrite app_length. cbn [List.length]. now rewrite Nat.add_1_r. }
      assert (QP : query true (steps ++ [(m, None)]) TheCount F' = query false [(m, None)] TheCount (kids_of nd')).
      { apply (query_prefix steps F' A nd' B L'); eauto using readable_small, readable_clear; [discriminate|rewrite Q; discriminate]. }
      assert (R3 : denotes (Count (S (len (called (selects m) kids)))) r) by (rewrite <- Q, <- QP; exact R2). clear R2. rename R3 into R2. exists r. split; auto. apply denotes_describes; auto. exact I.
  Qed.
  Lemma append_ok : forall steps A n a kids B m v, Forall good_tstep (steps ++ [(m, None)]) -> len (flat_map tstep_steps (steps ++ [(m, None)])) < 100 ->
    located steps F A (Elem n a false kids) B -> (blen (esc v) <= 5242880)%N ->
    let new := p ++ A ++ node_text (Elem n a false (insert_last (selects m) (new_child m v) kids)) ++ B in
    (blen new <= 10485760)%N -> set E fmt_g d (tpath (steps ++ [(m, None)]) TheElement ++ bs ".-1") (VStr v) = Ok (new, None).
  Proof.
    intros steps A n a kids B m v GS LN L SZ new SN.
    destruct (append_found E fmt_g Hord p F Hp Hg Hv steps A n a kids B m (VStr v) (esc v) GS LN L) as [K1 [K2 [EK [IL S]]]]; auto; [discriminate|cbn [value_to_xml]; now rewrite esc_escape|].
    cbv zeta in S.
    assert (T : new = p ++ A ++ start_tag n a false ++ forest_text K1 ++ (start_tag m [] false ++ esc v ++ end_tag m) ++ forest_text K2 ++ end_tag n ++ B).
    { unfold new. rewrite IL, node_elem, forest_app, forest_cons. unfold new_child. rewrite node_elem, forest_one. cbn [node_text]. now rewrite <- !app_assoc. }
    rewrite <- T in S. fold d in S. rewrite S. now rewrite (proj2 (N.ltb_ge _ _) SN).
  Qed.
  Lemma append_self_ok : forall steps A n a kids B m v, Forall good_tstep (steps ++ [(m, None)]) -> len (flat_map tstep_steps (steps ++ [(m, None)])) < 100 ->
    located steps F A (Elem n a true kids) B -> (blen (esc v) <= 5242880)%N ->
    exists a', Permutation a a' /\ set E fmt_g d (tpath (steps ++ [(m, None)]) TheElement ++ bs ".-1") (VStr v) =
      Ok (p ++ A ++ node_text (Elem n a' false (insert_last (selects m) (new_child m v) kids)) ++ B, None).
  Proof.
    intros steps A n a kids B m v GS LN L SZ.
    destruct (append_self E fmt_g Hord p F Hp Hg Hv steps A n a kids B m (VStr v) (esc v) GS LN L) as [a' [PA S]]; auto; [discriminate|cbn [value_to_xml]; now rewrite esc_escape|].
    exists a'. split; [now symmetry|]. fold d in S. rewrite S. destruct (located_good _ _ _ _ _ L Hg) as [GE _]. inversion GE as [? ? ? ? GN GA GSf GK| |]; subst n0 a0 self kids0.
    rewrite (GSf eq_refl). cbn [insert_last]. rewrite node_elem, forest_one. unfold new_child. rewrite node_elem, forest_one. cbn [node_text]. now rewrite <- !app_assoc.
  Qed.
  Lemma append_top_ok : forall m v, step_name m -> (blen (esc v) <= 5242880)%N ->
    let F' := insert_last (selects m) (new_child m v) F in let new := p ++ forest_text F' in
    (blen new <= 10485760)%N -> set E fmt_g d (tpath [(m, None)] TheElement ++ bs ".-1") (VStr v) = Ok (new, None) /\
    (xml_name m -> len (called (selects m) F) < 1000 -> (forall k a s ks, In (Elem k a s ks) F -> selects m k = bytes_eqb m k) ->
     (forall ds, ds <> [] -> Forall digit ds -> decimal_value ds = N.of_nat (len (called (selects m) F)) ->
       exists r, get E new (tpath [(m, Some ds)] TheElement) = Ok r /\ r_type r = RElement /\ r_string r = trim_space v) /\
     exists r, get E new (tpath [(m, None)] TheCount) = Ok r /\ describes r (Count (S (len (called (selects m) F))))).
  Proof.
    intros m v SM SZ F' new SN. split.
    - destruct (append_top E fmt_g Hord p F Hp Hg Hv m (VStr v) (esc v) SM) as [F1 [F2 [EF [IL S]]]]; auto; [discriminate|cbn [value_to_xml]; now rewrite esc_escape|].
      cbv zeta in S. assert (T : new = p ++ forest_text F1 ++ (start_tag m [] false ++ esc v ++ end_tag m) ++ forest_text F2).
      { unfold new, F'. rewrite IL, forest_app, forest_cons. unfold new_child. rewrite node_elem, forest_one. cbn [node_text]. now rewrite <- !app_assoc. }
      rewrite <- T in S. fold d in S. rewrite S. now rewrite (proj2 (N.ltb_ge _ _) SN).
    - intros XN LT CL. assert (GF' : Forall good F') by (apply insert_good; auto; now apply new_child_good).
      destruct (insert_counts m v F) as [K1 [K2 [EK [IL [C1 C2]]]]]. fold F' in IL, C2.
      assert (CL' : forall k, In k (top_names F') -> selects m k = bytes_eqb m k).
      { intros k I. rewrite IL, top_names_app in I. apply in_app_or in I. unfold top_names at 2 in I. cbn [elems filter is_elem new_child map] in I.
        assert (I2 : In k (top_names F) \/ k = m).
        { rewrite EK, top_names_app. destruct I as [I|[I|I]]; [left; apply in_or_app; now left|now right|left; apply in_or_app; now right]. }
        destruct I2 as [I2| ->]; [|now rewrite selects_self, bytes_eqb_refl]. apply in_top_names in I2. destruct I2 as [x [y [z I2]]]. eapply CL; eauto. }
      split.
      + intros ds DN DG DV.
        assert (L2 : located [(m, Some ds)] F' (forest_text K1) (new_child m v) (forest_text K2)).
        { rewrite IL. constructor; [apply selects_self|]. rewrite C1. cbn [index_of]. rewrite DV, Nat2N.id. reflexivity. }
        assert (GT : good_tpath [(m, Some ds)] TheElement).
        { constructor; [constructor; [split; cbn [fst snd]; auto|constructor]|discriminate|cbn; lia]. }
        destruct (read_at E Hord p F' Hp GF' SN _ _ _ _ TheElement GT L2) as [r [R1 R2]]; try discriminate.
        * constructor; [|constructor]. unfold index_small. cbn [snd]. rewrite DV. lia.
        * exact CL'.
        * exists r. split; auto. now apply element_string.
      + assert (GT : good_tpath [(m, None)] TheCount).
        { constructor; [constructor; [split; [exact SM|exact I]|constructor]| |cbn; lia]. split; [|discriminate]. apply (not_ends_index [] m). }
        destruct (get_query_text E Hord p F' F' _ _ Hp (same_all_refl F') GF' SN GT) as [r [R1 R2]]. rewrite query_cons in R2. cbv zeta in R2. cbn [is_last] in R2.
        rewrite <- (called_ext (selects m) (bytes_eqb m) F' CL'), C2, count_firstn, app_length in R2 by auto. cbn [List.length] in R2. rewrite Nat.add_1_r in R2.
        exists r. split; auto. apply denotes_describes; auto. exact I.
  Qed.

  (** ** An attribute of a missing element *)
  Lemma located_nest_at : forall ms m kids K, called (selects m) kids = [] ->
    located (by_name (m :: ms)) (kids ++ nest (m :: ms) K) (forest_text kids ++ flat_map (fun n => start_tag n [] false) (removelast (m :: ms)))
      (Elem (last ms m) [] false K) (flat_map end_tag (rev (removelast (m :: ms)))).
  Proof.
    induction ms as [|m2 ms IH]; intros m kids K C.
    - cbn [nest by_name map removelast flat_map rev last]. rewrite app_nil_r. change (@nil ascii) with (forest_text []). constructor; [apply selects_self|now rewrite C].
    - specialize (IH m2 [] K eq_refl). cbn [app forest_text flat_map] in IH.
      assert (LM : last (m2 :: ms) m = last ms m2).
      { clear. revert m m2. induction ms as [|x ms IH]; intros; [reflexivity|]. change (last (m2 :: x :: ms) m) with (last (x :: ms) m). now rewrite (IH m x), (IH m2 x). }
      rewrite LM. change (removelast (m :: m2 :: ms)) with (m :: removelast (m2 :: ms)). cbn [flat_map rev]. rewrite flat_map_app. cbn [flat_map]. rewrite app_nil_r.
      change (by_name (m :: m2 :: ms)) with ((m, None) :: by_name (m2 :: ms)). change (nest (m :: m2 :: ms) K) with [Elem m [] false (nest (m2 :: ms) K)].
      rewrite <- (app_nil_r (end_tag m)). apply (loc_down m None (by_name (m2 :: ms)) kids m [] (nest (m2 :: ms) K) [] _ _ _); [apply selects_self|now rewrite C|exact IH].
  Qed.
  Lemma set_attr_missing : forall pre m ms A n a self kids B x v, good_tpath (pre ++ by_name (m :: ms)) (TheAttribute x) -> located pre F A (Elem n a self kids) B ->
    called (selects m) kids = [] -> (blen (esc v) <= 5242880)%N -> Forall xml_name (m :: ms) -> exists a', Permutation a a' /\ (self = false -> a' = a) /\
    let new := p ++ A ++ node_text (Elem n a' false (kids ++ nest (removelast (m :: ms)) [Elem (last ms m) [(x, v)] false []])) ++ B in
    ((blen (p ++ A ++ node_text (Elem n a' false (kids ++ nest (m :: ms) [])) ++ B) <= 10485760)%N ->
    set E fmt_g d (tpath (pre ++ by_name (m :: ms)) (TheAttribute x)) (VStr v) = Ok (new, None)).
  Proof.
    intros pre m ms A n a self kids B x v GT L C SZ XN. pose proof (segs_parse _ _ GT) as P. pose proof GT as [GS _ _].
    destruct (create_below E Hord p F Hp Hg Hd Hv pre m ms [0; 2] [] A n a self kids B GS L C) as [a' [PA [SA CE]]]. exists a'. split; auto. split; auto. fold d in CE. intros new SN.
    destruct (located_good _ _ _ _ _ L Hg) as [GE _]. inversion GE as [? ? ? ? GN GA GSf GK| |]; subst n0 a0 self0 kids0.
    set (nd2 := Elem n a' false (kids ++ nest (m :: ms) [])) in *.
    assert (T : (p ++ A) ++ start_tag n a' false ++ forest_text kids ++ fold_right (fun n0 t => start_tag n0 [] false ++ t ++ end_tag n0) [] (m :: ms) ++ end_tag n ++ B = p ++ A ++ node_text nd2 ++ B).
    { unfold nd2. rewrite node_elem, forest_app, nest_text. cbn [forest_text flat_map]. now rewrite <- !app_assoc. }
    rewrite T in CE.
    assert (GN2 : good nd2).
    { constructor; auto; [eapply good_attrs_perm; eauto|discriminate|]. apply Forall_app. split; auto. apply nest_good; auto. }
    destruct (replace_located pre F A _ B nd2 L Hg GN2 eq_refl eq_refl) as [F2 [_ [TF [GF2 [L2 TN]]]]].
    pose proof (located_nest_at ms m kids [] C) as LN. pose proof (located_app pre F2 A n a' _ B L2 _ _ _ _ LN) as L3.
    rewrite <- TF in CE, SN.
    assert (NE : pre ++ by_name (m :: ms) <> []) by (intros K; now destruct pre).
    destruct (segs_nonempty _ NE) as [sg [rr Q]].
    unfold d. rewrite (set_start E fmt_g p F Hd Hv _ (VStr v) _ ltac:(discriminate) P (segs_attr_nonempty _ _)). fold d.
    unfold set_element. rewrite segs_attr. rewrite Q. cbn [app]. cbn [value_to_xml]. rewrite <- esc_escape.
    rewrite (proj2 (N.ltb_ge MaxValueSize (blen (esc v))) SZ), (size_ok _ Hd).
    change (sg :: rr ++ [step_seg (Attr x, [])]) with ((sg :: rr) ++ [step_seg (Attr x, [])]). rewrite <- Q.
    rewrite intents_steps by (intros ? [<-|[]]; discriminate). rewrite last_last, removelast_last. cbn [step_seg s_type segtype_eqb s_value].
    pose proof (find_none E Hord p F Hp Hg Hd (pre ++ by_name (m :: ms)) [1] GS NE) as FN. fold d in FN. rewrite FN by (intros; cbn [by_name map]; eapply absent_below; eauto).
    cbn [bind]. unfold create_element_for_attr. rewrite CE. cbn [bind].
    assert (D2 : get_result d (p ++ forest_text F2) = p ++ forest_text F2).
    { apply get_result_some. rewrite TF. unfold nd2. rewrite node_elem, <- !app_assoc, app_assoc. apply start_tag_nonempty. }
    rewrite D2, (size_ok _ SN). destruct (find_some E Hord p F2 Hp GF2 SN _ [1; 2] _ _ _ GS L3) as [l [R AT]]. rewrite R. cbn [bind].
    destruct (slices p F2 SN _ _ _ _ _ _ _ l L3 AT) as [S1 [S2 _]].
    inversion AT as [n1 a1 self1 kids1 l1 B1 B2 B3 B4 B5 B6 B7]; subst n1 a1 self1 kids1 l1.
    apply Permutation_nil in B6 as B6'. assert (PN : Permutation [] (l_attrs l)) by exact B6.
    destruct (replaced_attrs [] (l_attrs l) x v (NoDup_nil _) PN) as [a2 [PA2 TA]]. cbn [put_attr] in PA2. apply Permutation_sym, Permutation_length_1_inv in PA2. subst a2.
    unfold replace_attribute. rewrite S1. cbn [bind]. rewrite S2. cbn [bind edit_of]. rewrite TA, B5, B7.
    assert (T3 : new = (p ++ (A ++ start_tag n a' false ++ forest_text kids ++ flat_map (fun n0 => start_tag n0 [] false) (removelast (m :: ms)))) ++
      bs "<" ++ last ms m ++ attrs_text [(x, v)] ++ bs ">" ++ (forest_text [] ++ end_tag (last ms m)) ++ flat_map end_tag (rev (removelast (m :: ms))) ++ end_tag n ++ B).
    { unfold new. rewrite node_elem, forest_app.
      assert (NT : forall names X, forest_text (nest names [X]) = flat_map (fun n0 => start_tag n0 [] false) names ++ node_text X ++ flat_map end_tag (rev names)).
      { induction names as [|y names IH]; intros X; [cbn [nest flat_map rev app]; now rewrite forest_one, app_nil_r|]. cbn [nest flat_map rev].
        rewrite forest_one, node_elem, IH, flat_map_app. cbn [flat_map]. rewrite app_nil_r, <- !app_assoc. reflexivity. }
      rewrite NT, node_elem. unfold start_tag at 3. cbn [forest_text flat_map app]. rewrite <- !app_assoc. reflexivity. }
    rewrite get_result_some.
    - rewrite T3. do 2 f_equal.
    - intros K. apply (f_equal (@List.length ascii)) in K. rewrite !app_length in K. change (len (bs "<")) with 1 in K. cbn [List.length] in K. lia.
  Qed.
  End Doc.
End After.
