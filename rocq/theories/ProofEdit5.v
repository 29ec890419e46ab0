(** Appending; edits of documents and what is read afterwards. *)
From Coq Require Import List Ascii String NArith ZArith Bool Lia Permutation.
From Verif Require Import GoStr ModelParser ModelPath ModelResult ModelQuery ModelValidate ModelBuilder SpecText SpecPath SpecTree SpecQuery SpecEdit
  ProofBase ProofEscape ProofPath ProofScan ProofSyntax ProofApi2 ProofTree ProofTree2 ProofTree3 ProofTree4 ProofTree5 ProofTree7 ProofEdit ProofEdit2 ProofEdit3 ProofEdit4.
Import ListNotations.

Lemma valid_size : forall d, valid d = true -> (blen d <= 10485760)%N.
Proof.
  intros d H. unfold valid, validate in H. change MaxDocumentSize with 10485760%N in H. destruct (N.ltb_spec 10485760 (blen d)); [discriminate|auto].
Qed.
Lemma readable_small : forall steps F, readable steps F -> Forall index_small steps.
Proof. intros steps F [H _]. exact H. Qed.
Lemma in_top_names : forall m F, In m (top_names F) <-> exists a s k, In (Elem m a s k) F.
Proof.
  intros m F. unfold top_names, elems. rewrite in_map_iff. split.
  - intros [x [H1 H2]]. apply filter_In in H2. destruct H2 as [H2 H3]. destruct x as [n a s k| |]; try discriminate. cbn [name_of] in H1. subst. eauto.
  - intros [a [s [k H]]]. exists (Elem m a s k). split; auto. apply filter_In. auto.
Qed.
Lemma readable_clear : forall steps F, readable steps F -> clear_start steps F.
Proof.
  intros [|[n [ds|]] steps] F [_ H]; cbn [clear_start]; auto. intros m I. apply in_top_names in I. destruct I as [a [s [k I]]]. eapply H; eauto.
Qed.
Lemma readable_names : forall steps F F', readable steps F -> top_names F' = top_names F -> readable steps F'.
Proof.
  intros [|[n [ds|]] steps] F F' [H1 H2] T; split; auto. intros m a s k I. assert (I' : In m (top_names F)) by (rewrite <- T; apply in_top_names; eauto).
  apply in_top_names in I'. destruct I' as [a' [s' [k' I']]]. eapply H2; eauto.
Qed.

(** ** Paths that append *)
Definition append_seg : seg := mkSeg SIndex [] (-1) false None false [] [].
Lemma path_text_snoc : forall l x, l <> [] -> path_text (l ++ [x]) = path_text l ++ "."%char :: quote_name x.
Proof.
  induction l as [|a l IH]; intros x H; [contradiction|]. destruct l as [|b l]; [reflexivity|]. cbn [app]. change (path_text (a :: b :: l ++ [x])) with (quote_name a ++ "."%char :: path_text ((b :: l) ++ [x])).
  rewrite IH by discriminate. change (path_text (a :: b :: l)) with (quote_name a ++ "."%char :: path_text (b :: l)). now rewrite <- app_assoc.
Qed.
Lemma step_texts : forall steps, Forall good_tstep steps -> Forall good_step (flat_map tstep_steps steps).
Proof.
  intros steps H. induction H as [|[n idx] steps [H1 H2] H IH]; [constructor|]. cbn [flat_map]. apply Forall_app. split; auto. cbn [fst snd] in *.
  destruct H1 as [H1 _]. destruct idx as [ds|]; cbn [tstep_steps]; constructor; auto.
Qed.
Lemma part_minus_one : parse_part (bs "-1") = Ok (PSeg append_seg).
Proof. vm_compute. reflexivity. Qed.
Lemma merge_plain : forall l, Forall (fun sg => s_type sg <> SCount) l -> merge_fields l = l.
Proof.
  induction 1 as [|x l H1 H2 IH]; [reflexivity|]. cbn [merge_fields]. rewrite IH. destruct (s_type x) eqn:Q; auto. contradiction.
Qed.
Lemma append_parse : forall steps, steps <> [] -> Forall good_tstep steps -> len (flat_map tstep_steps steps) < 100 ->
  parse_path (tpath steps TheElement ++ bs ".-1") = Ok (segs_of steps TheElement ++ [append_seg]).
Proof.
  intros steps NE GS LN. set (raws := map (fun st => step_text st) (flat_map tstep_steps steps)).
  assert (RN : raws <> []) by (unfold raws; destruct steps as [|[n [ds|]] r]; [contradiction|discriminate|discriminate]).
  assert (T : tpath steps TheElement ++ bs ".-1" = path_text (raws ++ [bs "-1"])).
  { rewrite path_text_snoc by auto. unfold tpath, tpath_steps, steps_text. cbn [final_steps]. rewrite app_nil_r, map_map. unfold raws.
    f_equal. f_equal. apply map_ext. intros st. cbn [fst snd mods_text flat_map]. now rewrite app_nil_r. }
  rewrite T. pose proof (step_texts _ GS) as ST.
  assert (PP : parse_parts (raws ++ [bs "-1"]) = Ok (Some (segs_of steps TheElement ++ [append_seg]))).
  { unfold raws, segs_of, tpath_steps. cbn [final_steps]. rewrite app_nil_r. clear - ST. induction ST as [|st l H ST IH].
    - cbn [map app parse_parts]. rewrite part_minus_one. reflexivity.
    - cbn [map app parse_parts]. pose proof (parse_part_step st [] H (Forall_nil _)) as P. cbn [mods_text flat_map] in P. rewrite app_nil_r in P. rewrite P. cbn [bind].
      rewrite IH. reflexivity. }
  assert (R1 : raws ++ [bs "-1"] <> []) by (intros K; now destruct raws).
  assert (R2 : raws ++ [bs "-1"] <> [[]]) by (intros K; destruct raws as [|x [|y l]]; [contradiction|discriminate|discriminate]).
  pose proof (split_path_path_text _ R1 R2) as Hs. unfold parse_path. destruct (path_text (raws ++ [bs "-1"])) as [|c r] eqn:Q.
  - exfalso. apply R1. symmetry. exact Hs.
  - rewrite <- Q in *. unfold parse_path_internal. rewrite Hs. unfold raws in *.
    replace (Nat.ltb MaxPathSegments _) with false.
    2:{ symmetry. apply Nat.ltb_ge. rewrite app_length, map_length. change MaxPathSegments with 100. cbn [List.length]. lia. }
    rewrite PP. cbn [bind]. rewrite merge_plain; [reflexivity|]. apply Forall_app. split; [|repeat constructor; discriminate].
    unfold segs_of, tpath_steps. cbn [final_steps]. rewrite app_nil_r, Forall_map. apply Forall_forall. intros st I. apply in_flat_map in I.
    destruct I as [[n idx] [_ I]]. destruct idx as [ds|]; cbn [tstep_steps In] in I; intuition subst; discriminate.
Qed.
Lemma intents_append : forall steps, check_intents (segs_of steps TheElement ++ [append_seg]) = IntentsAppend.
Proof.
  induction steps as [|[n idx] rest IH]; [reflexivity|]. rewrite segs_cons. cbn [app check_intents elem_seg s_type]. destruct idx as [ds|]; cbn [app]; [|exact IH].
  cbn [check_intents]. change (s_type (step_seg (Nth ds, []))) with SIndex. cbn iota. unfold resolve_index_intent.
  rewrite (proj2 (Z.leb_le _ _)); [exact IH|]. cbn [step_seg s_index]. unfold int64_max. lia.
Qed.

(** ** Insertion after the last match *)
Lemma insert_split : forall f F, exists F1 F2, F = F1 ++ F2 /\ (forall c, insert_last f c F = F1 ++ c :: F2) /\ called f F2 = [] /\
  (called f F = [] -> F2 = []) /\ (called f F <> [] -> exists G nd, F1 = G ++ [nd] /\ named f nd = true).
Proof.
  intros f. induction F as [|x F IH].
  - exists [], []. repeat split; auto. intros H; contradiction.
  - destruct IH as [F1 [F2 [H1 [H2 [H3 [H4 H5]]]]]]. destruct (called f F) as [|y l] eqn:Q.
    + destruct (named f x) eqn:N.
      * exists [x], F. repeat split; auto; [intros c; cbn [insert_last]; now rewrite Q, N|rewrite called_cons, N; discriminate|]. intros _. exists [], x. auto.
      * exists (x :: F1), F2. rewrite called_cons, N, Q. repeat split; auto; [now rewrite H1|intros c; cbn [insert_last]; now rewrite Q, N, H2|]. intros K. contradiction.
    + exists (x :: F1), F2. rewrite called_cons, Q. repeat split; auto; [now rewrite H1|intros c; cbn [insert_last]; now rewrite Q, H2| |].
      * intros K. destruct (named f x); discriminate.
      * intros _. destruct (H5 ltac:(discriminate)) as [G [nd [-> N]]]. exists (x :: G), nd. auto.
Qed.
Lemma last_pos_none : forall n d F es, scanned F es -> Forall good F -> step_name n -> called (selects n) F = [] ->
  forall dflt, last_match_pos default_options (elem_seg n) d es dflt = dflt.
Proof.
  intros n d F es H G S C. pose proof (filter_selects n F es H G S) as FS. pose proof (scanned_count (selects n) F es H) as K. rewrite C in K. rewrite <- FS in K. clear FS C H G.
  induction es as [|e es IH]; intros dflt; [reflexivity|]. cbn [last_match_pos]. cbn [filter] in K. cbn [o_case default_options] in *. destruct (seg_matches_opts true (elem_seg n) (e_name e)); [discriminate|]. auto.
Qed.
Lemma last_pos_some : forall n d F1 m a self kids F2 es, scanned (F1 ++ Elem m a self kids :: F2) es -> Forall good (F1 ++ Elem m a self kids :: F2) -> step_name n ->
  selects n m = true -> called (selects n) F2 = [] -> forall dflt, last_match_pos default_options (elem_seg n) d es dflt = pos_of d (forest_text F2).
Proof.
  intros n d. induction F1 as [|x F1 IH]; intros m a self kids F2 es H G S M C dflt; cbn [app] in *; inversion G as [|? ? G1 G2]; subst.
  - inversion H; subst. cbn [last_match_pos e_name e_after]. rewrite matches_default. inversion G1; subst. rewrite selects_match by auto. rewrite M. eapply last_pos_none; eauto.
  - inversion H; subst; eauto. cbn [last_match_pos]. eapply IH; eauto.
Qed.
Lemma last_pos : forall n d F es dflt F1 F2, scanned F es -> Forall good F -> step_name n -> F = F1 ++ F2 -> called (selects n) F2 = [] ->
  (called (selects n) F = [] -> F2 = []) -> (called (selects n) F <> [] -> exists G nd, F1 = G ++ [nd] /\ named (selects n) nd = true) ->
  (called (selects n) F = [] -> dflt = pos_of d []) -> last_match_pos default_options (elem_seg n) d es dflt = pos_of d (forest_text F2).
Proof.
  intros n d F es dflt F1 F2 H G S EF C K1 K2 D. destruct (called (selects n) F) as [|y l] eqn:Q.
  - rewrite (K1 eq_refl), (last_pos_none n d F es H G S Q), (D eq_refl). reflexivity.
  - destruct (K2 ltac:(discriminate)) as [G0 [nd [-> N]]]. destruct nd as [m a self kids| |]; try discriminate. rewrite <- app_assoc in EF. cbn [app] in EF. subst F.
    eapply last_pos_some; eauto.
Qed.
Lemma new_elem_text : forall n v, new_elem n v = start_tag n [] false ++ v ++ end_tag n.
Proof. reflexivity. Qed.
Lemma sorted_attrs_text : forall a m, NoDup (map fst a) -> Permutation a m -> exists a', Permutation a' a /\ sorted_attrs m = attrs_text a'.
Proof.
  intros a m H P. exists (by_names a (sort_strings (map fst m))). split.
  - apply by_names_perm; auto. rewrite <- sort_perm. symmetry. now apply Permutation_map.
  - unfold sorted_attrs, attrs_text, by_names. rewrite flat_map_concat_map, (flat_map_concat_map attr_text), map_map. f_equal. apply map_ext. intros n.
    unfold attr_text. cbn [fst snd]. rewrite value_text, (value_perm m a n H P), <- esc_escape. reflexivity.
Qed.

Section Append.
  Variable E : env.
  Variable fmt_g : f64 -> bytes.
  Hypothesis Hord : forall k l, Permutation l (e_ord E k l).
  Section Doc.
  Variable p : bytes.
  Variable F : list node.
  Hypothesis Hp : prolog p.
  Hypothesis Hg : Forall good F.
  Let d := p ++ forest_text F.
  Hypothesis Hv : valid d = true.
  Let Hd : (blen d <= 10485760)%N := valid_size d Hv.

  Lemma append_start : forall steps n v xv, Forall good_tstep (steps ++ [(n, None)]) -> len (flat_map tstep_steps (steps ++ [(n, None)])) < 100 ->
    v <> VNil -> value_to_xml fmt_g v = inr xv -> (blen xv <= 5242880)%N ->
    set E fmt_g d (tpath (steps ++ [(n, None)]) TheElement ++ bs ".-1") v =
    edit_of d (let* r := append_element E default_options [0] d (segs_of steps TheElement ++ [elem_seg n; append_seg]) xv in
               match r with inl e => Ok (inl e) | inr r => Ok (inr (get_result d r)) end).
  Proof.
    intros steps n v xv GS LN NV XV SZ. assert (NE : steps ++ [(n, None)] <> []) by (intros K; now destruct steps).
    pose proof (append_parse _ NE GS LN) as P. unfold d.
    rewrite (set_start E fmt_g p F Hd Hv _ v _ NV P) by (intros K; now destruct (segs_of (steps ++ [(n, None)]) TheElement)). fold d.
    unfold set_element. destruct (segs_nonempty _ NE) as [sg [r Q]]. rewrite Q. cbn [app]. rewrite XV. rewrite (proj2 (N.ltb_ge MaxValueSize (blen xv)) SZ), (size_ok _ Hd).
    change (sg :: r ++ [append_seg]) with ((sg :: r) ++ [append_seg]). rewrite <- Q, intents_append. rewrite segs_app.
    replace (segs_of [(n, None)] TheElement) with [elem_seg n] by reflexivity. rewrite <- app_assoc. reflexivity.
  Qed.
  Lemma append_parts : forall steps n xv key, append_element E default_options key d (segs_of steps TheElement ++ [elem_seg n; append_seg]) xv =
    match segs_of steps TheElement with
    | [] => append_root E default_options (0 :: key) d (elem_seg n) xv
    | parent =>
        let* l := find_loc E default_options (1 :: key) d parent 0 in
        match l with
        | None => create_element E default_options (2 :: key) d (parent ++ [elem_seg n]) xv
        | Some l =>
            if l_self l then
              let* a := slice_to d (l_start l) in
              let* b := slice_from d (l_content_end l) in
              Ok (inr (a ++ bs "<" ++ l_name l ++ sorted_attrs (l_attrs l) ++ bs ">" ++ new_elem n xv ++ close_tag (l_name l) ++ b))
            else
              let* q := find_last_match E default_options (3 :: key) d l (elem_seg n) in
              let* a := slice_to d q in
              let* b := slice_from d q in
              let r := a ++ new_elem n xv ++ b in
              if (MaxDocumentSize <? blen r)%N then Ok (inl ErrInvalidValue) else Ok (inr r)
        end
    end.
  Proof.
    intros steps n xv key. unfold append_element.
    assert (RV : rev (segs_of steps TheElement ++ [elem_seg n; append_seg]) = append_seg :: elem_seg n :: rev (segs_of steps TheElement))
      by (rewrite rev_app_distr; reflexivity).
    rewrite RV. cbn [append_seg s_type s_index segtype_eqb negb orb elem_seg s_value]. rewrite Z.eqb_refl. cbn [negb]. rewrite rev_involutive.
    destruct (segs_of steps TheElement) as [|x l]; reflexivity.
  Qed.
  (** A non-self-closing parent. *)
  Lemma append_found : forall steps A n a kids B m v xv, Forall good_tstep (steps ++ [(m, None)]) -> len (flat_map tstep_steps (steps ++ [(m, None)])) < 100 ->
    located steps F A (Elem n a false kids) B -> v <> VNil -> value_to_xml fmt_g v = inr xv -> (blen xv <= 5242880)%N ->
    exists K1 K2, kids = K1 ++ K2 /\ (forall c, insert_last (selects m) c kids = K1 ++ c :: K2) /\
    let new := p ++ A ++ start_tag n a false ++ forest_text K1 ++ (start_tag m [] false ++ xv ++ end_tag m) ++ forest_text K2 ++ end_tag n ++ B in
    set E fmt_g d (tpath (steps ++ [(m, None)]) TheElement ++ bs ".-1") v =
      Ok (if (10485760 <? blen new)%N then (d, Some ErrInvalidValue) else (new, None)).
  Proof.
    intros steps A n a kids B m v xv GS LN L NV XV SZ. destruct (insert_split (selects m) kids) as [K1 [K2 [EK [IL [C2 [C3 C4]]]]]].
    exists K1, K2. split; auto. split; auto.
    rewrite append_start with (xv := xv) by auto. rewrite append_parts. pose proof (located_nonempty _ _ _ _ _ L) as NE.
    apply Forall_app in GS. destruct GS as [GP GM]. inversion GM as [|? ? [SM _] _]; subst. cbn [fst] in SM.
    destruct (segs_nonempty steps NE) as [sg [r Q]]. rewrite Q. cbn iota. cbv zeta. rewrite <- Q. destruct (find_some E Hord p F Hp Hg Hd steps [1; 0] A _ B GP L) as [l [R AT]]. fold d in R. rewrite R. cbn [bind].
    destruct (located_good _ _ _ _ _ L Hg) as [GE _]. inversion GE as [? ? ? ? GN GA GSf GK| |]; subst n0 a0 self kids.
    destruct (slices p F Hd _ _ _ _ _ _ _ l L AT) as [_ [_ [S3 [S4 [S5 _]]]]]. fold d in S3, S4, S5.
    inversion AT as [n1 a1 self1 kids1 l1 B1 B2 B3 B4 B5 B6 B7]; subst n1 a1 self1 kids1 l1. rewrite B7.
    unfold find_last_match, sliced. rewrite (proj2 (Z.leb_le _ _)) by (rewrite B3; lia). rewrite S5. cbn [bind].
    rewrite !app_assoc in S5 |- *. rewrite slice_from_app by (rewrite B2, !app_length; lia). cbn [bind].
    destruct (scan_forest (e_ord E) [3; 0] (K1 ++ K2) Hord GK) as [es [SC SD]].
    assert (SR : scan_res E [3; 0] (forest_text (K1 ++ K2)) = Ok es) by (unfold scan_res; now rewrite SC). rewrite SR. cbn [bind].
    rewrite (last_pos m (forest_text (K1 ++ K2)) (K1 ++ K2) es _ K1 K2 SD GK SM eq_refl C2 C3 C4).
    2:{ intros _. rewrite B3. unfold pos_of. cbn [List.length]. lia. }
    set (q := (pos_of (forest_text (K1 ++ K2)) (forest_text K2) + l_content_start l)%Z).
    assert (DQ : d = (p ++ A ++ start_tag n a false ++ forest_text K1) ++ forest_text K2 ++ end_tag n ++ B).
    { unfold d. rewrite (located_text _ _ _ _ _ L), node_elem, forest_app, <- !app_assoc. reflexivity. }
    assert (QL : q = Z.of_nat (len (p ++ A ++ start_tag n a false ++ forest_text K1))).
    { unfold q, pos_of. rewrite B2, forest_app, !app_length. lia. }
    rewrite DQ, (slice_to_app _ _ q QL). cbn [bind]. rewrite (slice_from_app _ _ q QL). cbn [bind]. rewrite <- DQ.
    rewrite new_elem_text. rewrite <- !app_assoc. change MaxDocumentSize with 10485760%N.
    match goal with |- context [(10485760 <? blen ?x)%N] => set (w := x) end. destruct (N.ltb_spec 10485760 (blen w)) as [X|X]; cbn [bind edit_of]; [reflexivity|].
    rewrite get_result_some; [reflexivity|]. unfold w. rewrite app_assoc. apply start_tag_nonempty.
  Qed.
  (** A self-closing parent is expanded. *)
  Lemma append_self : forall steps A n a kids B m v xv, Forall good_tstep (steps ++ [(m, None)]) -> len (flat_map tstep_steps (steps ++ [(m, None)])) < 100 ->
    located steps F A (Elem n a true kids) B -> v <> VNil -> value_to_xml fmt_g v = inr xv -> (blen xv <= 5242880)%N ->
    exists a', Permutation a' a /\ set E fmt_g d (tpath (steps ++ [(m, None)]) TheElement ++ bs ".-1") v =
      Ok (p ++ A ++ start_tag n a' false ++ (start_tag m [] false ++ xv ++ end_tag m) ++ end_tag n ++ B, None).
  Proof.
    intros steps A n a kids B m v xv GS LN L NV XV SZ. pose proof (located_nonempty _ _ _ _ _ L) as NE.
    destruct (segs_nonempty steps NE) as [sg [r Q]]. apply Forall_app in GS as GS2. destruct GS2 as [GP _].
    destruct (find_some E Hord p F Hp Hg Hd steps [1; 0] A _ B GP L) as [l [R AT]]. fold d in R.
    destruct (located_good _ _ _ _ _ L Hg) as [GE _]. inversion GE as [? ? ? ? GN GA GSf GK| |]; subst n0 a0 self kids0.
    destruct (slices p F Hd _ _ _ _ _ _ _ l L AT) as [S1 [_ [S3 [S4 [S5 _]]]]]. fold d in S1, S3, S4, S5.
    inversion AT as [n1 a1 self1 kids1 l1 B1 B2 B3 B4 B5 B6 B7]; subst n1 a1 self1 kids1 l1.
    destruct (sorted_attrs_text a (l_attrs l) (ga_distinct _ GA) B6) as [a' [PA TA]]. exists a'. split; auto.
    rewrite append_start with (xv := xv) by auto. rewrite append_parts, Q. cbn iota. cbv zeta. rewrite <- Q, R. cbn [bind]. rewrite B7, S1. cbn [bind]. rewrite S4. cbn [bind edit_of].
    rewrite TA, B5, new_elem_text. change (close_tag n) with (end_tag n). cbn [app].
    replace ((p ++ A) ++ bs "<" ++ n ++ attrs_text a' ++ bs ">" ++ (start_tag m [] false ++ xv ++ end_tag m) ++ end_tag n ++ B)
      with ((p ++ A) ++ start_tag n a' false ++ (start_tag m [] false ++ xv ++ end_tag m) ++ end_tag n ++ B) by (unfold start_tag; now rewrite <- !app_assoc).
    rewrite get_result_some by apply start_tag_nonempty. now rewrite <- !app_assoc.
  Qed.
  (** At the top level. *)
  Lemma append_top : forall m v xv, step_name m -> v <> VNil -> value_to_xml fmt_g v = inr xv -> (blen xv <= 5242880)%N ->
    exists F1 F2, F = F1 ++ F2 /\ (forall c, insert_last (selects m) c F = F1 ++ c :: F2) /\
    let new := p ++ forest_text F1 ++ (start_tag m [] false ++ xv ++ end_tag m) ++ forest_text F2 in
    set E fmt_g d (tpath [(m, None)] TheElement ++ bs ".-1") v =
      Ok (if (10485760 <? blen new)%N then (d, Some ErrInvalidValue) else (new, None)).
  Proof.
    intros m v xv SM NV XV SZ. destruct (insert_split (selects m) F) as [F1 [F2 [EF [IL [C2 [C3 C4]]]]]].
    exists F1, F2. split; auto. split; auto.
    assert (GM : Forall good_tstep ([] ++ [(m, None)])) by (constructor; [split; [exact SM|exact I]|constructor]).
    pose proof (append_start [] m v xv GM) as AS. cbn [app] in AS. rewrite AS by (auto; cbn; lia). pose proof (append_parts [] m xv [0]) as AP. cbn [app] in AP.
    cbn [segs_of tpath_steps flat_map final_steps app map] in *. rewrite AP. clear AP AS. unfold append_root.
    destruct d as [|c0 r0] eqn:Dn; [discriminate Hv|]. rewrite <- Dn in *.
    destruct (scan_forest (e_ord E) [0; 0] F Hord Hg) as [es [SC SD]].
    assert (SR : scan_res E [0; 0] d = Ok es) by (rewrite Dn, <- Dn; unfold scan_res, d; rewrite scan_skip by (now apply skippable_prolog); now rewrite SC).
    rewrite SR. cbn [bind].
    rewrite (last_pos m d F es _ F1 F2 SD Hg SM EF C2 C3 C4).
    2:{ intros _. unfold pos_of. cbn [List.length]. lia. }
    assert (DQ : d = (p ++ forest_text F1) ++ forest_text F2) by (unfold d; rewrite EF, forest_app, <- app_assoc; reflexivity).
    assert (QL : pos_of d (forest_text F2) = Z.of_nat (len (p ++ forest_text F1))) by (unfold pos_of; rewrite DQ at 1; rewrite !app_length; lia).
    set (q := pos_of d (forest_text F2)) in *. clearbody q.
    assert (S1 : slice_to d q = Ok (p ++ forest_text F1)) by (rewrite DQ; now apply slice_to_app).
    assert (S2 : slice_from d q = Ok (forest_text F2)) by (rewrite DQ; now apply slice_from_app).
    rewrite S1. cbn [bind]. rewrite S2. cbn [bind]. cbn [elem_seg s_value]. rewrite new_elem_text. rewrite <- !app_assoc. change MaxDocumentSize with 10485760%N.
    match goal with |- context [(10485760 <? blen ?x)%N] => set (w := x) end. destruct (N.ltb_spec 10485760 (blen w)) as [X|X]; cbn [bind edit_of]; [reflexivity|].
    rewrite get_result_some; [reflexivity|]. unfold w. rewrite app_assoc. apply start_tag_nonempty.
  Qed.
  End Doc.
End Append.
