(** The work of batches of edits. *)
From Coq Require Import List Ascii String NArith ZArith Bool Lia Permutation.
From Verif Require Import GoStr ModelParser ModelPath ModelResult ModelQuery ModelValidate ModelBuilder ModelWork ModelLoad ModelToil ModelBatch SpecText SpecPath SpecTree SpecQuery SpecEdit SpecContent SpecValid SpecHistory SpecGrammar SpecWork SpecList SpecApi SpecBatch
  ProofBase ProofPath ProofScan ProofFuel ProofGrammar2 ProofTree ProofTree2 ProofTree4 ProofTree5 ProofWork ProofWork2 ProofLoad ProofToil ProofEdit ProofEdit2 ProofEdit3 ProofEdit4 ProofEdit5 ProofEdit6 ProofEdit9 ProofList ProofApi PropToil ProofEdit10.
Import ListNotations.
Open Scope nat_scope.
Notation brackets := SpecWork.brackets.

(** ** The count erased *)
Lemma erase_set_each : forall E g xml0 l xml, erase (tset_each E g xml0 xml l) = set_each E g xml0 xml l.
Proof.
  intros E g xml0. induction l as [|[p v] l IH]; intros xml; [reflexivity|]. cbn [tset_each set_each]. rewrite erase_bind, terase_set. unfold set. apply bind_ext; auto. intros [d [e|]]; cbn [fst snd]; [reflexivity|apply IH].
Qed.
Lemma erase_delete_each : forall E xml0 l xml, erase (tdelete_each E xml0 xml l) = delete_each E xml0 xml l.
Proof.
  intros E xml0. induction l as [|p l IH]; intros xml; [reflexivity|]. cbn [tdelete_each delete_each]. rewrite erase_bind, terase_delete. unfold delete. apply bind_ext; auto. intros [d [e|]]; cbn [fst snd]; [reflexivity|apply IH].
Qed.
Lemma erase_set_many : forall E g xml paths vs, erase (tset_many E g xml paths vs) = set_many E g xml paths vs.
Proof. intros. unfold tset_many, set_many. destruct (_ <? _)%N; [reflexivity|]. destruct (negb _); [reflexivity|]. apply erase_set_each. Qed.
Lemma erase_delete_many : forall E xml paths, erase (tdelete_many E xml paths) = delete_many E xml paths.
Proof. intros. unfold tdelete_many, delete_many. destruct (_ <? _)%N; [reflexivity|]. apply erase_delete_each. Qed.

(** ** Sums *)
Definition set_cost (E : env) (g : f64 -> bytes) (d : bytes) (op : bytes * value) (c : N) (d' : bytes) : Prop := tset_opts E g default_options d (fst op) (snd op) = Ok ((d', None), c).
Definition delete_cost (E : env) (d path : bytes) (c : N) (d' : bytes) : Prop := tdelete_opts E default_options d path = Ok ((d', None), c).
Lemma set_each_sums : forall E g xml0 l xml d c, tset_each E g xml0 xml l = Ok ((d, None), c) <-> sums (set_cost E g) xml l c d.
Proof.
  intros E g xml0. induction l as [|[p v] l IH]; intros xml d c; cbn [tset_each].
  - split; intros H; [apply wret_ok in H as [H ->]; injection H as ->; constructor|inversion H; reflexivity].
  - split; intros H.
    + apply wbind_ok in H as ([d1 [e|]] & c1 & c2 & H1 & H & ->); cbn [fst snd] in H; [apply wret_ok in H as [H _]; discriminate|]. econstructor; [exact H1|]. now apply IH.
    + inversion H as [|? d1 ? ? ? c1 k S1 S2]; subst. apply IH in S2. unfold set_cost in S1. cbn [fst snd] in S1. unfold wbind. rewrite S1. cbn [bind fst snd]. rewrite S2. reflexivity.
Qed.
Lemma delete_each_sums : forall E xml0 l xml d c, tdelete_each E xml0 xml l = Ok ((d, None), c) <-> sums (delete_cost E) xml l c d.
Proof.
  intros E xml0. induction l as [|p l IH]; intros xml d c; cbn [tdelete_each].
  - split; intros H; [apply wret_ok in H as [H ->]; injection H as ->; constructor|inversion H; reflexivity].
  - split; intros H.
    + apply wbind_ok in H as ([d1 [e|]] & c1 & c2 & H1 & H & ->); cbn [fst snd] in H; [apply wret_ok in H as [H _]; discriminate|]. econstructor; [exact H1|]. now apply IH.
    + inversion H as [|? d1 ? ? ? c1 k S1 S2]; subst. apply IH in S2. unfold delete_cost in S1. unfold wbind. rewrite S1. cbn [bind fst snd]. rewrite S2. reflexivity.
Qed.

(** ** Removing elements adds nothing *)
Lemma scan_order : forall ord key fuel s l, scan_loop ord key fuel s = Some l -> Forall (fun e => len (e_body e) <= len (e_start e) /\ len (e_after e) <= len (e_body e)) l.
Proof.
  intros ord key. induction fuel as [|f IH]; intros s l H; [discriminate|]. cbn [scan_loop] in H. destruct (skip_to_next_total s) as (o & SN & _). rewrite SN in H. destruct o as [s1|]; [|injection H as <-; constructor].
  destruct (parse_element_name (next s1)) as [[[name attrs] self] s2] eqn:PE. pose proof (parse_element_name_le _ _ _ _ _ PE) as L1. pose proof (next_le s1) as L2. destruct self.
  - destruct (scan_loop ord key f s2) as [l'|] eqn:Q; [|discriminate]. injection H as <-. constructor; [cbn [e_body e_start e_after]; lia|]. eapply IH; eauto.
  - destruct (parse_content_total ord key name s2) as (t & r & PC & L3). rewrite PC in H. destruct (scan_loop ord key f r) as [l'|] eqn:Q; [|discriminate]. injection H as <-. constructor; [cbn [e_body e_start e_after]; lia|]. eapply IH; eauto.
Qed.
Definition ordered (l : location) : Prop := (l_start l <= (if l_self l then l_content_start l else l_end_tag l + Z.of_nat (len (l_name l)) + 3))%Z.
Lemma loc_order : forall E o n segs key d base l, len segs <= n -> find_loc E o key d segs base = Ok (Some l) -> ordered l.
Proof.
  intros E o. induction n as [|n IH]; intros segs key d base l L H; destruct segs as [|sg rest]; cbn [List.length] in L; try lia; cbn [find_loc] in H; destruct (MaxPositionOffset <? base)%Z; try discriminate.
  apply bind_ok in H as (es & H1 & H). cbv zeta in H.
  assert (P : Forall (fun e => len (e_body e) <= len (e_start e) /\ len (e_after e) <= len (e_body e)) es).
  { unfold scan_res, scan in H1. destruct (scan_loop (e_ord E) key (S (len d)) d) as [l'|] eqn:Q; [|discriminate]. injection H1 as <-. eapply scan_order; eauto. }
  rewrite Forall_forall in P. set (ms := filter (fun e => seg_matches_opts (o_case o) sg (e_name e)) es) in *. assert (MI : forall e, In e ms -> In e es) by (intros e I; apply filter_In in I; tauto).
  assert (A : forall e, In e ms -> Ok (Some (elem_location d base e)) = Ok (Some l) -> ordered l).
  { intros e I Q. assert (elem_location d base e = l) as <- by congruence. unfold ordered. cbn [l_start l_self l_content_start l_end_tag l_name elem_location]. destruct (P e (MI e I)) as [P1 P2]. unfold pos_of. destruct (e_self e); lia. }
  assert (G : forall e rest' key' b, In e ms -> len rest' <= len rest -> find_loc E o key' (e_content e) rest' b = Ok (Some l) -> ordered l).
  { intros e rest' key' b I L' Q. eapply IH; [|exact Q]. lia. }
  destruct rest as [|nx rest2].
  - destruct ms as [|e l0]; [discriminate|]. eapply A; [now left|exact H].
  - assert (Y : match ms with [] => Ok None | e :: _ => if (MaxPositionOffset <? base + pos_of d (e_body e))%Z then Ok None else find_loc E o (child_key site_query e key) (e_content e) (nx :: rest2) (base + pos_of d (e_body e))%Z end = Ok (Some l) -> ordered l).
    { destruct ms as [|e l0]; [discriminate|]. destruct (_ <? _)%Z; [discriminate|]. intros Q. eapply G; [now left|apply le_n|exact Q]. }
    destruct (s_type nx); try (apply Y; exact H).
    destruct (nth_elem ms (s_index nx)) as [e|] eqn:NE; [|discriminate]. apply nth_elem_in in NE.
    destruct rest2 as [|y r2]; [eapply A; eauto|]. destruct (_ <? _)%Z; [discriminate|]. eapply G; [exact NE| |exact H]. cbn [List.length]. lia.
Qed.
Lemma skip_more : forall (s : bytes) i j, skipn (i + j) s = skipn i (skipn j s).
Proof. intros s i j. revert s. induction j as [|j IH]; intros s; [now rewrite Nat.add_0_r|]. rewrite Nat.add_succ_r. destruct s as [|c s]; [now rewrite !skipn_nil|]. cbn [skipn]. apply IH. Qed.
Lemma cut_brackets : forall d i j a b, slice_to d i = Ok a -> slice_from d j = Ok b -> (i <= j)%Z -> (brackets (a ++ b) <= brackets d)%N.
Proof.
  intros d i j a b Ha Hb L. unfold slice_to, slice_from in *. destruct (_ && _)%bool eqn:Q; [|discriminate]. destruct (_ && _)%bool eqn:Q2 in Hb; [|discriminate]. injection Ha as <-. injection Hb as <-.
  apply andb_true_iff in Q, Q2. destruct Q as [Q _], Q2 as [Q2 _]. apply Z.leb_le in Q, Q2. rewrite <- (firstn_skipn (Z.to_nat i) d) at 3. rewrite !brackets_app. apply N.add_le_mono_l.
  replace (Z.to_nat j) with ((Z.to_nat j - Z.to_nat i) + Z.to_nat i) by lia. rewrite skip_more. apply brackets_skipn.
Qed.
Lemma delete_mono : forall E o d segs r, s_type (last segs (mkSeg SElem [] 0%Z false None false [] [])) <> SAttr -> delete_element E o d segs = Ok (inr r) -> (brackets r <= brackets d)%N.
Proof.
  intros E o d segs r NA H. unfold delete_element in H. destruct segs as [|sg segs]; [discriminate|]. destruct (_ <? _)%N; [discriminate|]. cbv zeta in H.
  assert (Q : segtype_eqb (s_type (last (sg :: segs) (mkSeg SElem [] 0%Z false None false [] []))) SAttr = false) by (destruct (s_type (last (sg :: segs) _)); try reflexivity; now elim NA).
  rewrite Q in H. apply bind_ok in H as (l & H1 & H). destruct l as [l|]; [|injection H as <-; lia].
  apply bind_ok in H as (a & Ha & H). apply bind_ok in H as (b & Hb & H). injection H as <-.
  pose proof (cut_brackets _ _ _ _ _ Ha Hb (loc_order E o _ _ _ _ _ _ (le_n _) H1)) as C. destruct (a ++ b); cbn [get_result]; lia.
Qed.
(** A path to an element. *)
Definition to_element (path : bytes) : Prop := exists l x, path_means path (Steps (l ++ [x])) /\ forall n, fst x <> GAttr n.
Lemma delete_step_mono : forall E d path c d', to_element path -> delete_cost E d path c d' -> (brackets d' <= brackets d)%N.
Proof.
  intros E d path c d' (l & x & M & NA) H. unfold delete_cost in H.
  assert (D : delete_opts E default_options d path = Ok (d', None)) by (apply (proj2 (C83_count E (fun _ => []) default_options d path VNil (d', None))); eauto).
  unfold delete_opts in D. destruct (_ <? _)%N; [discriminate|]. destruct (negb _); [discriminate|]. apply bind_ok in D as (segs & P & D).
  assert (segs = map seg_of (l ++ [x])) as ->.
  { pose proof (path_means_res _ _ M) as R. cbn [meaning_res] in R. unfold parse_path_opts in P. rewrite R in P. cbn [bind default_options o_case] in P. now injection P as <-. }
  remember (map seg_of (l ++ [x])) as segs. destruct segs as [|sg segs]; [discriminate|]. unfold edit_of in D. apply bind_ok in D as ([e|r] & D1 & D); [discriminate|]. injection D as <-.
  eapply delete_mono; [|exact D1]. rewrite Heqsegs, map_app. cbn [map]. rewrite last_last. destruct x as [[]]; try discriminate. now elim (NA n).
Qed.
Lemma delete_sum_bound : forall E, (forall k m, Permutation m (e_ord E k m)) -> forall d ps c d', sums (delete_cost E) d ps c d' -> Forall to_element ps ->
  (c <= N.of_nat (len ps) * (100 + brackets d))%N /\ (brackets d' <= brackets d)%N.
Proof.
  intros E P. induction 1 as [d|d d1 d2 p ps c k S1 S2 IH]; intros F; [split; [apply N.le_0_l|lia]|]. inversion F as [|? ? F1 F2]; subst. destruct (IH F2) as [B1 B2].
  pose proof (delete_step_mono _ _ _ _ _ F1 S1) as M. split; [|lia].
  assert (C : (c <= 100 + brackets d)%N).
  { eapply (toil_delete E default_options d p 100 P); [|exact S1]. intros segs Q. apply opts_brackets in Q as (_ & _ & _ & _ & Q). lia. }
  cbn [List.length]. rewrite Nnat.Nat2N.inj_succ, N.mul_succ_l. assert (X : (N.of_nat (len ps) * (100 + brackets d1) <= N.of_nat (len ps) * (100 + brackets d))%N) by (apply N.mul_le_mono_l; lia). lia.
Qed.

(** ** Appending *)
Lemma scanned_len : forall F es, scanned F es -> len es = child_elements F.
Proof. unfold child_elements. induction 1; cbn [filter is_elem List.length]; lia. Qed.
Lemma find_count : forall E o key d segs base r c, tfind_loc E o key d segs base = Ok (r, c) -> find_loc E o key d segs base = Ok r.
Proof. intros E o key d segs base r c H. rewrite <- terase_loc. unfold erase. now rewrite H. Qed.
Section Append.
  Variable E : env.
  Variable fmt_g : f64 -> bytes.
  Hypothesis Hord : forall k l, Permutation l (e_ord E k l).
  Variable p : bytes.
  Hypothesis Hp : prolog p.
  (** To find the last child, all are looked at. *)
  Lemma append_cost : forall F steps A n a kids B m v xv r c, Forall good F -> valid (p ++ forest_text F) = true ->
    Forall good_tstep (steps ++ [(m, None)]) -> len (flat_map tstep_steps (steps ++ [(m, None)])) < 100 ->
    located steps F A (Elem n a false kids) B -> v <> VNil -> value_to_xml fmt_g v = inr xv -> (blen xv <= 5242880)%N ->
    tset_opts E fmt_g default_options (p ++ forest_text F) (tpath (steps ++ [(m, None)]) TheElement ++ bs ".-1") v = Ok (r, c) ->
    (N.of_nat (child_elements kids) + 1 <= c)%N.
  Proof.
    intros F steps A n a kids B m v xv r c Hg Hv GS LN L NV XV SZ H. pose proof (valid_size _ Hv) as Hd. assert (NE : steps ++ [(m, None)] <> []) by (intros K; now destruct steps).
    pose proof (append_parse _ NE GS LN) as P. set (d := p ++ forest_text F) in *. unfold tset_opts in H. rewrite (size_ok _ Hd) in H.
    assert (VD : match d with [] => false | _ :: _ => negb (valid d) end = false) by (rewrite Hv; now destruct d). rewrite VD in H.
    assert (H' : (let! segs := wlift (parse_path_opts default_options (tpath (steps ++ [(m, None)]) TheElement ++ bs ".-1")) in
        match segs with [] => wret (d, Some ErrInvalidPath) | _ :: _ => tedit_of d (tset_element E fmt_g default_options d segs v) end) = Ok (r, c)) by (destruct v; try exact H; contradiction).
    clear H. rename H' into H.
    unfold parse_path_opts in H. rewrite P in H. cbn [bind default_options o_case] in H. apply wbind_ok in H as (segs & c1 & c2 & H1 & H & ->). apply wlift_ok in H1 as [H1 ->]. injection H1 as <-.
    destruct (segs_of (steps ++ [(m, None)]) TheElement ++ [append_seg]) as [|s0 ss] eqn:SQ; [now destruct (segs_of (steps ++ [(m, None)]) TheElement)|]. rewrite <- SQ in H.
    unfold tedit_of in H. apply wbind_ok in H as (x & c3 & c4 & H & H2 & ->). unfold tset_element in H. rewrite SQ, XV in H. rewrite (proj2 (N.ltb_ge MaxValueSize (blen xv)) SZ), (size_ok _ Hd) in H. rewrite <- SQ, intents_append in H.
    apply wbind_ok in H as (y & c5 & c6 & H & H3 & ->).
    unfold tappend_element in H. rewrite segs_app in H. replace (segs_of [(m, None)] TheElement) with [elem_seg m] in H by reflexivity. rewrite !rev_app_distr in H. cbn [rev app append_seg s_type s_index segtype_eqb negb orb elem_seg] in H. rewrite Z.eqb_refl in H. cbn [negb] in H. rewrite rev_involutive in H.
    pose proof (located_nonempty _ _ _ _ _ L) as NS. destruct (segs_nonempty steps NS) as [sg [sr Q]]. rewrite Q in H. rewrite <- Q in H.
    apply Forall_app in GS. destruct GS as [GP GM].
    apply wbind_ok in H as (l' & c7 & c8 & H4 & H & ->). pose proof (find_count _ _ _ _ _ _ _ _ H4) as FC. destruct (find_some E Hord p F Hp Hg Hd steps [1; 0] A _ B GP L) as [l [R AT]]. fold d in R. change default_options with default_options in FC.
    assert (l' = Some l) by congruence. subst l'. destruct (located_good _ _ _ _ _ L Hg) as [GE _]. inversion GE as [? ? ? ? GN GA GSf GK| |]; subst n0 a0 self kids0.
    destruct (slices p F Hd _ _ _ _ _ _ _ l L AT) as [_ [_ [S3 [S4 [S5 _]]]]]. fold d in S3, S4, S5. inversion AT as [n1 a1 self1 kids1 l1 B1 B2 B3 B4 B5 B6 B7]; subst n1 a1 self1 kids1 l1. rewrite B7 in H.
    apply wbind_ok in H as (q & c9 & c10 & H & _ & ->). unfold tfind_last_match in H. apply wbind_ok in H as (content & c11 & c12 & HS & H & ->). apply wlift_ok in HS as [HS ->].
    apply wbind_ok in H as (es & c13 & c14 & HL & _ & ->). apply lscan_ok in HL as [-> HL].
    assert (CT : content = forest_text kids).
    { unfold sliced in HS. rewrite (proj2 (Z.leb_le _ _)) in HS by (rewrite B3; lia). rewrite S5 in HS. cbn [bind] in HS. rewrite !app_assoc in HS. rewrite slice_from_app in HS by (rewrite B2, !app_length; lia). now injection HS as <-. }
    subst content. destruct (scan_forest (e_ord E) [3; 0] kids Hord GK) as [es' [SC SD]]. unfold scan_res in HL. rewrite SC in HL. injection HL as <-. rewrite (scanned_len _ _ SD). lia.
  Qed.
End Append.
