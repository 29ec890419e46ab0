(** Calls of the editing functions do what the edits of trees say. *)
From Coq Require Import List Ascii String NArith ZArith Bool Lia Permutation.
From Verif Require Import GoStr ModelParser ModelPath ModelResult ModelQuery ModelValidate ModelBuilder SpecText SpecPath SpecTree SpecQuery SpecEdit SpecMod SpecRaw SpecContent SpecValid SpecHistory
  ProofBase ProofEscape ProofPath ProofScan ProofSyntax ProofApi2 ProofTree ProofTree2 ProofTree3 ProofTree4 ProofTree5 ProofTree7 ProofEdit ProofEdit2 ProofEdit3 ProofEdit4 ProofEdit5 ProofEdit6 ProofEdit7 ProofEdit8 ProofEdit11 ProofEdit12 ProofRaw ProofRaw2 ProofValid2.
Import ListNotations.


Lemma nest_split : forall ms m K, nest (m :: ms) K = nest (removelast (m :: ms)) [Elem (last ms m) [] false K].
Proof.
  induction ms as [|x ms IH]; intros m K; [reflexivity|]. change (removelast (m :: x :: ms)) with (m :: removelast (x :: ms)). rewrite last_cons.
  change (nest (m :: x :: ms) K) with [Elem m [] false (nest (x :: ms) K)]. rewrite IH. reflexivity.
Qed.
Lemma nest_length : forall names X Y, len (node_text X) <= len (node_text Y) -> len (forest_text (nest names [X])) <= len (forest_text (nest names [Y])).
Proof.
  induction names as [|n r IH]; intros X Y H; cbn [nest]; rewrite !forest_one; auto. rewrite !node_elem, !app_length. specialize (IH X Y H). lia.
Qed.
Lemma attr_longer : forall n q K, len (node_text (Elem n [] false K)) <= len (node_text (Elem n [q] false K)).
Proof.
  intros. rewrite !node_elem, !app_length. unfold start_tag. rewrite !app_length. change (len (attrs_text [])) with 0. lia.
Qed.

Section Calls.
  Variable E : env.
  Variable fmt_g : f64 -> bytes.
  Hypothesis Hord : forall k l, Permutation l (e_ord E k l).
  Section Doc.
  Variable p : bytes.
  Variable F : list node.
  Hypothesis Hp : prolog p.
  Hypothesis Hg : Forall good F.
  Let d := p ++ forest_text F.
  Hypothesis Hv : valid d = true.
  Let Hd : (blen d <= 10485760)%N := valid_size d Hv.

  Lemma set_attr_missing_top : forall m ms x v, good_tpath (by_name (m :: ms)) (TheAttribute x) ->
    called (selects m) F = [] -> (blen (esc v) <= 5242880)%N -> Forall xml_name (m :: ms) ->
    (blen (p ++ forest_text (F ++ nest (m :: ms) [])) <= 10485760)%N ->
    set E fmt_g d (tpath (by_name (m :: ms)) (TheAttribute x)) (VStr v) =
      Ok (p ++ forest_text (F ++ nest (removelast (m :: ms)) [Elem (last ms m) [(x, v)] false []]), None).
  Proof.
    intros m ms x v GT C SZ XN SN. pose proof (segs_parse _ _ GT) as P. pose proof GT as [GS _ _].
    pose proof (create_root E Hord p F Hp Hg Hd Hv m ms [0; 2] [] GS C) as CE. fold d in CE.
    assert (T : d ++ fold_right (fun n t => start_tag n [] false ++ t ++ end_tag n) [] (m :: ms) = p ++ forest_text (F ++ nest (m :: ms) [])).
    { unfold d. rewrite forest_app, nest_text. cbn [forest_text flat_map]. now rewrite <- !app_assoc. }
    rewrite T in CE.
    assert (GF2 : Forall good (F ++ nest (m :: ms) [])) by (apply Forall_app; split; auto; apply nest_good; auto).
    pose proof (located_nest_at ms m F [] C) as L3.
    assert (NE : by_name (m :: ms) <> []) by discriminate.
    destruct (segs_nonempty _ NE) as [sg [rr Q]].
    unfold d. rewrite (set_start E fmt_g p F Hd Hv _ (VStr v) _ ltac:(discriminate) P (segs_attr_nonempty _ _)). fold d.
    unfold set_element. rewrite segs_attr. rewrite Q. cbn [app]. cbn [value_to_xml]. rewrite <- esc_escape.
    rewrite (proj2 (N.ltb_ge MaxValueSize (blen (esc v))) SZ), (size_ok _ Hd).
    change (sg :: rr ++ [step_seg (Attr x, [])]) with ((sg :: rr) ++ [step_seg (Attr x, [])]). rewrite <- Q.
    rewrite intents_steps by (intros ? [<-|[]]; discriminate). rewrite last_last, removelast_last. cbn [step_seg s_type segtype_eqb s_value].
    pose proof (find_none E Hord p F Hp Hg Hd (by_name (m :: ms)) [1] GS NE) as FN. fold d in FN.
    rewrite FN by (intros; cbn [by_name map]; now apply absent_here).
    cbn [bind]. unfold create_element_for_attr. rewrite CE. cbn [bind].
    assert (D2 : get_result d (p ++ forest_text (F ++ nest (m :: ms) [])) = p ++ forest_text (F ++ nest (m :: ms) [])).
    { apply get_result_some. rewrite <- T. destruct (doc_nonempty p F Hd Hv) as [c [r0 Q0]]. fold d in Q0. rewrite Q0. discriminate. }
    rewrite D2, (size_ok _ SN). destruct (find_some E Hord p _ Hp GF2 SN _ [1; 2] _ _ _ GS L3) as [l [R AT]]. rewrite R. cbn [bind].
    destruct (slices p _ SN _ _ _ _ _ _ _ l L3 AT) as [S1 [S2 _]].
    inversion AT as [n1 a1 self1 kids1 l1 B1 B2 B3 B4 B5 B6 B7]; subst n1 a1 self1 kids1 l1.
    assert (PN : Permutation [] (l_attrs l)) by exact B6.
    destruct (replaced_attrs [] (l_attrs l) x v (NoDup_nil _) PN) as [a2 [PA2 TA]]. cbn [put_attr] in PA2. apply Permutation_sym, Permutation_length_1_inv in PA2. subst a2.
    unfold replace_attribute. rewrite S1. cbn [bind]. rewrite S2. cbn [bind edit_of]. rewrite TA, B5, B7.
    assert (T3 : p ++ forest_text (F ++ nest (removelast (m :: ms)) [Elem (last ms m) [(x, v)] false []]) =
      (p ++ forest_text F ++ flat_map (fun n0 => start_tag n0 [] false) (removelast (m :: ms))) ++
      bs "<" ++ last ms m ++ attrs_text [(x, v)] ++ bs ">" ++ (forest_text [] ++ end_tag (last ms m)) ++ flat_map end_tag (rev (removelast (m :: ms)))).
    { rewrite forest_app.
      assert (NT : forall names X, forest_text (nest names [X]) = flat_map (fun n0 => start_tag n0 [] false) names ++ node_text X ++ flat_map end_tag (rev names)).
      { induction names as [|y names IH]; intros X; [cbn [nest flat_map rev app]; now rewrite forest_one, app_nil_r|]. cbn [nest flat_map rev].
        rewrite forest_one, node_elem, IH, flat_map_app. cbn [flat_map]. rewrite app_nil_r, <- !app_assoc. reflexivity. }
      rewrite NT, node_elem. unfold start_tag at 2. cbn [forest_text flat_map app]. rewrite <- !app_assoc. reflexivity. }
    rewrite get_result_some.
    - rewrite T3. do 2 f_equal.
    - intros K. apply (f_equal (@List.length ascii)) in K. rewrite !app_length in K. change (len (bs "<")) with 1 in K. cbn [List.length] in K. lia.
  Qed.

  (** The call that stores a content. *)
  Lemma content_call : forall c d0 path, good_content c -> exists v, v <> VNil /\ value_to_xml fmt_g v = inr (forest_text (content_nodes c)) /\
    (blen (forest_text (content_nodes c)) <= 5242880)%N /\ set_content E fmt_g d0 path c = set E fmt_g d0 path v.
  Proof.
    intros c d0 path [GC SZ]. destruct c as [t|z|b|K]; cbn [content_nodes set_content] in *.
    - exists (VStr t). repeat split; auto; [discriminate|]. rewrite forest_one. cbn [value_to_xml node_text]. now rewrite esc_escape.
    - exists (VInt z). repeat split; auto; [discriminate|]. rewrite forest_one. cbn [value_to_xml node_text]. now rewrite fmt_int_decimal.
    - exists (VBool b). repeat split; auto; [discriminate|]. rewrite forest_one. reflexivity.
    - exists (VBytes (forest_text K)). repeat split; auto; [discriminate|]. unfold set_raw. rewrite (proj2 (validate_raw_spec _) (forest_fragment K GC)). reflexivity.
  Qed.
  Lemma call_ok : forall o F', legal o -> apply_edit o F = Some F' -> fits p F' ->
    exists G, call E fmt_g o d = Ok (p ++ forest_text G, None) /\ Forall2 same F' G.
  Proof.
    intros o F' LG H [FE [_ FS]]. destruct o as [steps c|steps x v|steps|steps x|steps m c]; cbn [apply_edit legal call] in *.
    - destruct LG as [GT [XN [GC _]]]. destruct (content_call c d (tpath steps TheElement) GC) as [v [NV [VX [SZ CC]]]]. rewrite CC. set (K := content_nodes c) in *.
      destruct (change_inv _ _ _ _ _ Hg H) as [[A [nd [B [l [L [SW GN]]]]]]|[[pre [post [n [a [self [kids [A [B [l [-> [L [SW [MS ML]]]]]]]]]]]]]|[l [-> [MS ML]]]]].
      + destruct nd as [n a [|] kids| |]; try discriminate. injection GN as <-. exists F'. split; [|apply same_all_refl].
        unfold d. rewrite (set_kids_ok E fmt_g Hord p F Hp Hg Hv v K NV VX SZ steps A n a kids B GT L).
        rewrite (swapped_text _ _ _ _ _ SW A B L), forest_one. reflexivity.
      + unfold new_kids in ML. destruct (names_only post) as [names|] eqn:QN; [|discriminate]. injection ML as <-.
        destruct (missing_names _ _ _ QN MS) as [m [ms [-> [-> CM]]]].
        destruct (create_kids_ok E fmt_g Hord p F Hp Hg Hv v K NV VX SZ pre m ms A n a self kids B GT L CM) as [a' [PA [SA S1]]]. fold d in S1.
        destruct (located_swapped _ _ _ _ _ [Elem n a' false (kids ++ nest (m :: ms) K)] L) as [G [SG TG]]. exists G. split.
        * rewrite S1, TG, forest_one. reflexivity.
        * eapply swapped_same; eauto. constructor; [|constructor]. constructor; auto. apply same_all_refl.
      + unfold new_kids in ML. destruct (names_only steps) as [names|] eqn:QN; [|discriminate]. injection ML as <-.
        destruct (missing_names _ _ _ QN MS) as [m [ms [-> [-> CM]]]].
        pose proof (create_top_kids_ok E fmt_g Hord p F Hp Hg Hv v K NV VX SZ m ms GT CM) as S1. fold d in S1. exists (F ++ nest (m :: ms) K). split; [exact S1|apply same_all_refl].
    - destruct LG as [GT [XN [X [SZ SM]]]].
      destruct (change_inv _ _ _ _ _ Hg H) as [[A [nd [B [l [L [SW GN]]]]]]|[[pre [post [n [a [self [kids [A [B [l [-> [L [SW [MS ML]]]]]]]]]]]]]|[l [-> [MS ML]]]]].
      + destruct nd as [n a self kids| |]; try discriminate. cbn [attr_of] in GN. destruct (_ <=? _); [|discriminate]. injection GN as <-.
        destruct (set_attr_ok E fmt_g Hord p F Hp Hg Hv steps A n a self kids B x v GT L SZ) as [a' [PA [S1 _]]]. fold d in S1.
        destruct (located_swapped _ _ _ _ _ [Elem n a' self kids] L) as [G [SG TG]]. exists G. split.
        * rewrite S1, TG, forest_one, node_parts, <- !app_assoc. reflexivity.
        * eapply swapped_same; eauto. constructor; [|constructor]. constructor; [now symmetry|apply same_all_refl].
      + unfold new_attr in ML. destruct (names_only post) as [names|] eqn:QN; [|discriminate]. injection ML as <-.
        destruct (missing_names _ _ _ QN MS) as [m [ms [-> [-> CM]]]]. rewrite last_cons in SW.
        rewrite map_app in XN. apply Forall_app in XN. destruct XN as [_ XN]. rewrite by_name_fst in XN.
        destruct (set_attr_missing E fmt_g Hord p F Hp Hg Hv pre m ms A n a self kids B x v GT L CM SZ XN) as [a' [PA [SA S1]]]. fold d in S1. cbv zeta in S1.
        destruct (located_swapped _ _ _ _ _ [Elem n a' false (kids ++ nest (removelast (m :: ms)) [Elem (last ms m) [(x, v)] false []])] L) as [G [SG TG]].
        assert (SG2 : Forall2 same F' G).
        { eapply swapped_same; eauto. constructor; [|constructor]. constructor; auto. apply same_all_refl. }
        exists G. split; auto. rewrite S1; [rewrite TG, forest_one; reflexivity|].
        rewrite app_length, (same_length_all F' G SG2), TG in FS. rewrite forest_one, !app_length in FS. unfold blen. rewrite !app_length.
        assert (LE : len (node_text (Elem n a' false (kids ++ nest (m :: ms) []))) <= len (node_text (Elem n a' false (kids ++ nest (removelast (m :: ms)) [Elem (last ms m) [(x, v)] false []])))).
        { rewrite nest_split, !node_elem, !forest_app, !app_length. pose proof (nest_length (removelast (m :: ms)) _ _ (attr_longer (last ms m) (x, v) [])). lia. }
        lia.
      + unfold new_attr in ML. destruct (names_only steps) as [names|] eqn:QN; [|discriminate]. injection ML as <-.
        destruct (missing_names _ _ _ QN MS) as [m [ms [-> [-> CM]]]]. rewrite last_cons in *. rewrite by_name_fst in XN.
        exists (F ++ nest (removelast (m :: ms)) [Elem (last ms m) [(x, v)] false []]). split; [|apply same_all_refl]. apply set_attr_missing_top; auto.
        unfold blen. rewrite app_length, forest_app, app_length in *. rewrite nest_split.
        pose proof (nest_length (removelast (m :: ms)) _ _ (attr_longer (last ms m) (x, v) [])). lia.
    - destruct (change _ nothing steps F) as [F1|] eqn:Q; injection H as <-.
      + destruct (change_inv _ _ _ _ _ Hg Q) as [[A [nd [B [l [L [SW GN]]]]]]|[[? [? [? [? [? [? [? [? [? [_ [_ [_ [_ K]]]]]]]]]]]]]|[? [_ [_ K]]]]]; try discriminate.
        injection GN as <-. exists F1. split; [|apply same_all_refl]. pose proof (swapped_text _ _ _ _ _ SW A B L) as T. change (forest_text []) with (@nil ascii) in T. cbn [app] in T.
        pose proof (delete_found E Hord p F Hp Hg Hd Hv steps A nd B LG L) as D. fold d in D. rewrite D, T.
        destruct (p ++ A ++ B) eqn:K; [|reflexivity]. exfalso. apply app_eq_nil in K. destruct K as [_ K]. rewrite K in T. now apply (forest_nonempty F1 FE).
      + exists F. split; [|apply same_all_refl]. apply (delete_missing E Hord p F Hp Hg Hd Hv steps TheElement LG); auto. intros A nd B L.
        eapply located_change; eauto. discriminate.
    - destruct (change _ nothing steps F) as [F1|] eqn:Q; injection H as <-.
      + destruct (change_inv _ _ _ _ _ Hg Q) as [[A [nd [B [l [L [SW GN]]]]]]|[[? [? [? [? [? [? [? [? [? [_ [_ [_ [_ K]]]]]]]]]]]]]|[? [_ [_ K]]]]]; try discriminate.
        destruct nd as [n a self kids| |]; try discriminate. injection GN as <-.
        pose proof (delete_attr_found E Hord p F Hp Hg Hd Hv steps A n a self kids B x LG L) as D. fold d in D. destruct (attr_value x a) as [w|] eqn:AV.
        * destruct D as [a' [PA D]]. destruct (located_swapped _ _ _ _ _ [Elem n a' self kids] L) as [G [SG TG]]. exists G. split.
          -- rewrite D, TG, forest_one, node_parts, <- !app_assoc. reflexivity.
          -- eapply swapped_same; eauto. constructor; [|constructor]. constructor; [now symmetry|apply same_all_refl].
        * rewrite (drop_absent x a AV) in SW. apply swapped_id in SW. subst F1. exists F. split; [exact D|apply same_all_refl].
      + exists F. split; [|apply same_all_refl]. apply (delete_missing E Hord p F Hp Hg Hd Hv steps (TheAttribute x) LG); eauto. intros A nd B L.
        eapply located_change; [exact L| |exact Q]. destruct (located_good _ _ _ _ _ L Hg) as [_ EL]. destruct nd; discriminate.
    - destruct LG as [GS [LN [XN [GC _]]]]. destruct (content_call c d (tpath (steps ++ [(m, None)]) TheElement ++ bs ".-1") GC) as [v [NV [VX [SZ CC]]]]. rewrite CC. set (K0 := content_nodes c) in *. destruct steps as [|s steps].
      + injection H as <-. cbn [app] in *. exists (insert_last (selects m) (child_of m K0) F). split; [|apply same_all_refl].
        assert (SM : step_name m) by (inversion GS as [|? ? [K _] _]; exact K).
        exact (append_top_kids_ok E fmt_g Hord p F Hp Hg Hv v K0 NV VX SZ m SM FS).
      + destruct (change_inv _ _ _ _ _ Hg H) as [[A [nd [B [l [L [SW GN]]]]]]|[[? [? [? [? [? [? [? [? [? [_ [_ [_ [_ K]]]]]]]]]]]]]|[? [_ [_ K]]]]]; try discriminate.
        destruct nd as [n a self kids| |]; try discriminate. injection GN as <-. pose proof (swapped_text _ _ _ _ _ SW A B L) as T. rewrite forest_one in T. destruct self.
        * destruct (append_self_kids_ok E fmt_g Hord p F Hp Hg Hv v K0 NV VX SZ (s :: steps) A n a kids B m GS LN L) as [a' [PA S1]]. fold d in S1.
          destruct (located_swapped _ _ _ _ _ [Elem n a' false (insert_last (selects m) (child_of m K0) kids)] L) as [G [SG TG]]. exists G. split.
          -- rewrite TG, forest_one. exact S1.
          -- eapply swapped_same; eauto. constructor; [|constructor]. constructor; auto. apply same_all_refl.
        * exists F'. split; [|apply same_all_refl]. rewrite T. apply (append_kids_ok E fmt_g Hord p F Hp Hg Hv v K0 NV VX SZ (s :: steps) A n a kids B m GS LN L). rewrite T in FS. exact FS.
  Qed.
  End Doc.

  Lemma state_valid : forall p F, strict_prolog p -> Forall good F -> Forall top_node F -> fits p F -> valid (p ++ forest_text F) = true.
  Proof. intros p F SP G T [H1 [H2 H3]]. now apply canonical_valid. Qed.
  Lemma history_ok : forall p ops F F', prolog p -> strict_prolog p -> history p ops F F' -> forall G, Forall good F -> Forall top_node F -> fits p F -> Forall2 same F G ->
    exists G', calls E fmt_g ops (p ++ forest_text G) = Ok (p ++ forest_text G', None) /\ Forall2 same F' G' /\ Forall good F' /\ Forall top_node F' /\ fits p F'.
  Proof.
    intros p ops F F' Hp SP H. induction H as [F|o ops F F1 F2 LG AP FT H IH]; intros G Gd T Ft S; cbn [calls].
    - exists G. auto.
    - assert (FT2 : fits p F1) by (destruct FT as [FT1 FT3]; destruct Ft as [_ [Ft _]]; split; [exact FT1|]; split; [eapply apply_shallow; eauto|exact FT3]).
      pose proof (apply_alike o F G Gd S) as AL. rewrite AP in AL. destruct (apply_edit o G) as [G1|] eqn:AG; [|destruct AL]. cbn [alike] in AL.
      pose proof (same_good_all F G S Gd) as GG.
      destruct (call_ok p G Hp GG) with (o := o) (F' := G1) as [G2 [CA SG]]; auto.
      + apply state_valid; auto; [eapply same_top; eauto|eapply same_fits; eauto].
      + eapply same_fits; eauto.
      + rewrite CA. destruct (apply_good o F F1 LG Gd T AP) as [G1' T1']. apply IH; auto. eapply same_all_trans; eauto.
  Qed.
End Calls.
