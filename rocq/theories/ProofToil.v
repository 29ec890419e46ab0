(** Lemmas for C83: erasing the count of elements met by an edit, and its bound. *)
From Coq Require Import List Ascii String NArith ZArith Bool Lia SpecFloat Permutation.
From Verif Require Import GoStr ModelParser ModelPath ModelResult ModelQuery ModelValidate ModelBuilder ModelWork ModelLoad ModelToil SpecText SpecPath SpecTree SpecGrammar SpecScan SpecWork SpecLoad
  ProofBase ProofScan ProofFuel ProofTree ProofGrammar2 ProofSight3 ProofModest ProofInert ProofWork ProofWork2 ProofLoad.
Import ListNotations.

(** ** Erasing the count *)
Lemma erase_wlift : forall A (m : Res A), erase (wlift m) = m.
Proof. intros. apply erase_lift. Qed.
Ltac er := repeat first [rewrite erase_ret|rewrite erase_wlift|rewrite erase_bind|rewrite erase_scan|rewrite erase_cost].
Lemma terase_find : forall E o n segs key d base, len segs <= n -> erase (tfind_loc E o key d segs base) = find_loc E o key d segs base.
Proof.
  intros E o. induction n as [|n IH]; intros segs key d base L; destruct segs as [|sg rest]; cbn [List.length] in L; try lia; cbn [tfind_loc find_loc];
    destruct (MaxPositionOffset <? base)%Z; try reflexivity.
  er. apply bind_ext; auto. intros es. cbv zeta. destruct rest as [|nx rest2]; [destruct (filter _ es); reflexivity|].
  assert (X : forall e, erase (if (MaxPositionOffset <? base + pos_of d (e_body e))%Z then wret None else tfind_loc E o (child_key site_query e key) (e_content e) (nx :: rest2) (base + pos_of d (e_body e))%Z) =
    (if (MaxPositionOffset <? base + pos_of d (e_body e))%Z then Ok None else find_loc E o (child_key site_query e key) (e_content e) (nx :: rest2) (base + pos_of d (e_body e))%Z)).
  { intros e. destruct (_ <? _)%Z; [reflexivity|]. apply IH. cbn [List.length] in *. lia. }
  destruct (s_type nx); try (destruct (filter _ es) as [|e l]; [reflexivity|apply X]). clear X.
  destruct (nth_elem _ _) as [e|]; [|reflexivity]. destruct rest2 as [|y r2]; [reflexivity|]. destruct (_ <? _)%Z; [reflexivity|]. apply IH. cbn [List.length] in *. lia.
Qed.
Lemma terase_loc : forall E o key d segs base, erase (tfind_loc E o key d segs base) = find_loc E o key d segs base.
Proof. intros. eapply terase_find. apply le_n. Qed.
Lemma terase_root : forall E o key d path v, erase (tcreate_in_root E o key d path v) = create_in_root E o key d path v.
Proof.
  intros E o key d path v. unfold tcreate_in_root. er. transitivity (let* _ := scan_res E (0 :: key) d in create_in_root E o key d path v).
  - apply bind_ext; auto. intros es. now er.
  - unfold create_in_root. destruct (scan_res E (0 :: key) d); reflexivity.
Qed.
Lemma terase_parent : forall E o key d path n, erase (tfind_parent E o key d path n) = find_parent E o key d path n.
Proof.
  intros E o key d path n. induction n as [|n IH]; [reflexivity|]. cbn [tfind_parent find_parent]. er. rewrite terase_loc. apply bind_ext; auto. intros [l|]; [reflexivity|exact IH].
Qed.
Lemma terase_create : forall E o key d path v, erase (tcreate_element E o key d path v) = create_element E o key d path v.
Proof.
  intros E o key d path v. unfold tcreate_element, create_element. destruct d as [|c d]; [reflexivity|]. er. rewrite terase_parent. apply bind_ext; auto.
  intros [[l i]|]; [|apply terase_root]. er. apply bind_ext; auto.
Qed.
Lemma terase_attr : forall E o key d path name v, erase (tcreate_element_for_attr E o key d path name v) = create_element_for_attr E o key d path name v.
Proof.
  intros E o key d path name v. unfold tcreate_element_for_attr, create_element_for_attr. er. rewrite terase_create. apply bind_ext; auto. intros [e|r]; [reflexivity|]. cbv zeta.
  destruct (_ <? _)%N; [reflexivity|]. er. rewrite terase_loc. apply bind_ext; auto. intros [l|]; [|reflexivity]. er. apply bind_ext; auto.
Qed.
Lemma terase_last : forall E o key d p sg, erase (tfind_last_match E o key d p sg) = find_last_match E o key d p sg.
Proof. intros. unfold tfind_last_match, find_last_match. er. apply bind_ext; auto. intros c. er. apply bind_ext; auto. Qed.
Lemma terase_append_root : forall E o key d sg v, erase (tappend_root E o key d sg v) = append_root E o key d sg v.
Proof.
  intros E o key d sg v. unfold tappend_root, append_root. destruct d as [|c d]; [reflexivity|]. er. apply bind_ext; auto. intros es. cbv zeta. er. apply bind_ext; auto. intros a. er.
  apply bind_ext; auto. intros b. destruct (_ <? _)%N; reflexivity.
Qed.
Lemma terase_append : forall E o key d path v, erase (tappend_element E o key d path v) = append_element E o key d path v.
Proof.
  intros E o key d path v. unfold tappend_element, append_element. destruct (rev path) as [|ls [|sg rp]]; try reflexivity. cbv zeta. destruct (_ || _); [reflexivity|]. destruct (negb _); [reflexivity|].
  destruct (rev rp) as [|p0 ps]; [apply terase_append_root|]. er. rewrite terase_loc. apply bind_ext; auto. intros [l|]; [|apply terase_create]. destruct (l_self l).
  - er. apply bind_ext; auto. intros a. er. apply bind_ext; auto.
  - er. rewrite terase_last. apply bind_ext; auto. intros p. er. apply bind_ext; auto. intros a. cbv zeta. er. apply bind_ext; auto. intros b. destruct (_ <? _)%N; reflexivity.
Qed.
Lemma terase_set_element : forall E g o d path v, erase (tset_element E g o d path v) = set_element E g o d path v.
Proof.
  intros E g o d path v. unfold tset_element, set_element. destruct path as [|sg path]; [reflexivity|]. destruct (value_to_xml g v) as [e|xv]; [reflexivity|].
  destruct (_ <? _)%N; [reflexivity|]. destruct (_ <? _)%N; [reflexivity|]. cbv zeta.
  assert (F : forall (m : W (err + bytes)) (m' : Res (err + bytes)), erase m = m' -> erase (let! r := m in match r with inl e => wret (inl e) | inr r => wret (inr (get_result d r)) end) = 
    (let* r := m' in match r with inl e => Ok (inl e) | inr r => Ok (inr (get_result d r)) end)).
  { intros m m' <-. er. apply bind_ext; auto. intros [e|r]; reflexivity. }
  destruct (check_intents (sg :: path)); [| |reflexivity].
  - destruct (segtype_eqb _ _).
    + er. rewrite terase_loc. apply bind_ext; auto. intros [l|]; [|apply terase_attr]. apply F. apply erase_wlift.
    + er. rewrite terase_loc. apply bind_ext; auto. intros [l|]; [|apply F, terase_create]. apply F. apply erase_wlift.
  - apply F, terase_append.
Qed.
Lemma terase_delete_element : forall E o d path, erase (tdelete_element E o d path) = delete_element E o d path.
Proof.
  intros E o d path. unfold tdelete_element, delete_element. destruct path as [|sg path]; [reflexivity|]. destruct (_ <? _)%N; [reflexivity|]. cbv zeta. destruct (segtype_eqb _ _).
  - destruct (removelast (sg :: path)) as [|x ep]; [reflexivity|]. er. rewrite terase_loc. apply bind_ext; auto. intros [l|]; [|reflexivity]. apply erase_wlift.
  - er. rewrite terase_loc. apply bind_ext; auto. intros [l|]; [|reflexivity]. er. apply bind_ext; auto. intros a. er. apply bind_ext; auto.
Qed.
Lemma terase_edit : forall xml m m', erase m = m' -> erase (tedit_of xml m) = edit_of xml m'.
Proof. intros xml m m' <-. unfold tedit_of, edit_of. er. apply bind_ext; auto. Qed.
Lemma terase_delete : forall E o xml path, erase (tdelete_opts E o xml path) = delete_opts E o xml path.
Proof.
  intros E o xml path. unfold tdelete_opts, delete_opts. destruct (_ <? _)%N; [reflexivity|]. destruct (negb _); [reflexivity|]. er. apply bind_ext; auto. intros [|sg segs]; [reflexivity|].
  apply terase_edit, terase_delete_element.
Qed.
Lemma terase_set : forall E g o xml path v, erase (tset_opts E g o xml path v) = set_opts E g o xml path v.
Proof.
  intros E g o xml path v. unfold tset_opts, set_opts. destruct (_ <? _)%N; [reflexivity|]. destruct (match xml with [] => false | _ :: _ => _ end); [reflexivity|].
  destruct v; try apply terase_delete; er; apply bind_ext; auto; intros [|sg segs]; try reflexivity; apply terase_edit, terase_set_element.
Qed.

(** ** The bound *)
Lemma sees_parts : forall s l, sees s l -> Forall (fun e => (brackets (e_name e) + keys_brackets (e_attrs e) <= brackets s)%N) l.
Proof.
  induction 1 as [s L|s s1 n m gt r l L T S IH|s s1 n m gt r t r' l L T I S IH]; [constructor| |];
    apply leads_brackets with (s' := "<"%char :: s1) in L; auto; apply tag_brackets in T; rewrite brackets_cons, attrs_brackets in *; change (Ascii.eqb "<" "<") with true in L; cbv iota in L.
  - constructor; [cbn [e_name e_attrs]; lia|]. eapply Forall_impl; [|exact IH]. cbv beta. intros e X. lia.
  - apply inner_brackets in I. constructor; [cbn [e_name e_attrs]; lia|]. eapply Forall_impl; [|exact IH]. cbv beta. intros e X. lia.
Qed.
Lemma keys_perm : forall m m', Permutation m m' -> keys_brackets m = keys_brackets m'.
Proof. induction 1; cbn [keys_brackets]; lia. Qed.
Lemma weight_pick : forall e l, In e l -> (N.of_nat (len l) + brackets (e_content e) <= weight l)%N.
Proof.
  intros e l H. apply in_split in H as (a & b & ->). rewrite weight_app, app_length. cbn [weight List.length]. pose proof (weight_len a). pose proof (weight_len b). lia.
Qed.
Lemma brackets_firstn : forall n s, (brackets (firstn n s) <= brackets s)%N.
Proof. intros n s. rewrite <- (firstn_skipn n s) at 2. rewrite brackets_app. lia. Qed.
Lemma brackets_skipn : forall n s, (brackets (skipn n s) <= brackets s)%N.
Proof. intros n s. rewrite <- (firstn_skipn n s) at 2. rewrite brackets_app. lia. Qed.
Lemma to_brackets : forall d n x, slice_to d n = Ok x -> (brackets x <= brackets d)%N.
Proof. intros d n x H. unfold slice_to in H. destruct (_ && _)%bool; [|discriminate]. injection H as <-. apply brackets_firstn. Qed.
Lemma from_brackets : forall d n x, slice_from d n = Ok x -> (brackets x <= brackets d)%N.
Proof. intros d n x H. unfold slice_from in H. destruct (_ && _)%bool; [|discriminate]. injection H as <-. apply brackets_skipn. Qed.

(** The names in a path. *)
Fixpoint mass (segs : list seg) : N := match segs with [] => 0 | sg :: rest => brackets (s_value sg) + mass rest end%N.
Lemma mass_app : forall a b, mass (a ++ b) = (mass a + mass b)%N.
Proof. induction a as [|x a IH]; intros b; [reflexivity|]. cbn [app mass]. rewrite IH. lia. Qed.
Lemma mass_skipn : forall n l, (mass (skipn n l) <= mass l)%N.
Proof. intros n l. rewrite <- (firstn_skipn n l) at 2. rewrite mass_app. lia. Qed.
Lemma brackets_build : forall indent path i, brackets indent = 0%N -> (brackets (build_path indent i path []) <= 2 * N.of_nat (len path) + 2 * mass path)%N.
Proof.
  intros indent path i B. revert i. induction path as [|sg rest IH]; intros i; [cbn; lia|].
  assert (R : forall k, brackets (repeat_bytes k indent) = 0%N) by (induction k as [|k IHk]; [reflexivity|]; cbn [repeat_bytes]; rewrite brackets_app; lia).
  assert (I : brackets (match indent with [] => [] | _ :: _ => lf :: repeat_bytes i indent end) = 0%N) by (destruct indent; [reflexivity|]; rewrite brackets_cons, R; reflexivity).
  specialize (IH (S i)). cbn [build_path mass List.length]. rewrite Nnat.Nat2N.inj_succ.
  assert (V : forall l : list seg, brackets (match l with [] => [] | _ :: _ => [] end) = 0%N) by (intros [|? ?]; reflexivity).
  unfold bytes in *. destruct (s_type sg); try lia; rewrite !brackets_app, I, V; unfold open_tag, close_tag; rewrite !brackets_app; change (brackets (bs "<")) with 1%N; change (brackets (bs "</")) with 1%N; change (brackets (bs ">")) with 0%N; lia.
Qed.

Lemma free_seq : forall A B (m : W A) (f : A -> W B), free m -> (forall x, free (f x)) -> free (wbind m f).
Proof. intros A B m f M F. apply free_bind; auto. Qed.

Section Upper.
  Variable E : env.
  Hypothesis Hord : forall k l, Permutation l (e_ord E k l).
  Variable o : options.
  Lemma lscan_ok : forall key s es c, lscan E key s = Ok (es, c) -> c = (1 + N.of_nat (len es))%N /\ scan_res E key s = Ok es.
  Proof. intros key s es c H. unfold lscan in H. apply bind_ok in H as (es' & H & Q). assert (es' = es) as -> by congruence. split; [congruence|auto]. Qed.
  Lemma find_toil : forall n segs key d base, len segs <= n -> within (N.of_nat (len segs) + brackets d) (tfind_loc E o key d segs base).
  Proof.
    induction n as [|n IH]; intros segs key d base L; destruct segs as [|sg rest]; cbn [List.length] in L; try lia; cbn [tfind_loc]; destruct (MaxPositionOffset <? base)%Z; try apply within_ret.
    intros x c H. apply wbind_ok in H as (es & c1 & c2 & H1 & H & ->). apply lscan_ok in H1 as [-> H1]. apply (scan_weight E Hord) in H1. cbv zeta in H.
    set (ms := filter (fun e => seg_matches_opts (o_case o) sg (e_name e)) es) in *. assert (MI : forall e, In e ms -> In e es) by (intros e I; apply filter_In in I; tauto).
    pose proof (weight_len es) as WL. cbn [List.length]. rewrite Nnat.Nat2N.inj_succ.
    assert (G : forall e rest' key' b, In e es -> len rest' <= len rest -> tfind_loc E o key' (e_content e) rest' b = Ok (x, c2) -> (1 + N.of_nat (len es) + c2 <= N.succ (N.of_nat (len rest)) + brackets d)%N).
    { intros e rest' key' b I L' Q. apply IH in Q; [|lia]. pose proof (weight_pick e es I). lia. }
    assert (Z : c2 = 0%N -> (1 + N.of_nat (len es) + c2 <= N.succ (N.of_nat (len rest)) + brackets d)%N) by (intros ->; lia).
    destruct rest as [|nx rest2].
    - destruct ms as [|e l]; apply wret_ok in H as [_ ->]; apply Z; reflexivity.
    - assert (Y : match ms with [] => wret None | e :: _ => if (MaxPositionOffset <? base + pos_of d (e_body e))%Z then wret None else tfind_loc E o (child_key site_query e key) (e_content e) (nx :: rest2) (base + pos_of d (e_body e))%Z end = Ok (x, c2) ->
        (1 + N.of_nat (len es) + c2 <= N.succ (N.of_nat (len (nx :: rest2))) + brackets d)%N).
      { destruct ms as [|e l]; [intros Q; apply wret_ok in Q as [_ ->]; apply Z; reflexivity|]. destruct (_ <? _)%Z; [intros Q; apply wret_ok in Q as [_ ->]; apply Z; reflexivity|]. intros Q. eapply G; [|apply le_n|exact Q]. apply MI. now left. }
      destruct (s_type nx); try (apply Y; exact H).
      destruct (nth_elem ms (s_index nx)) as [e|] eqn:NE; [|apply wret_ok in H as [_ ->]; apply Z; reflexivity]. apply nth_elem_in in NE.
      destruct rest2 as [|y r2]; [apply wret_ok in H as [_ ->]; apply Z; reflexivity|]. destruct (_ <? _)%Z; [apply wret_ok in H as [_ ->]; apply Z; reflexivity|].
      eapply G; [apply MI; exact NE| |exact H]. cbn [List.length]. lia.
  Qed.
  Lemma loc_toil : forall key d segs base, within (N.of_nat (len segs) + brackets d) (tfind_loc E o key d segs base).
  Proof. intros. eapply find_toil. apply le_n. Qed.
  Lemma find_parts : forall n segs key d base l, len segs <= n -> find_loc E o key d segs base = Ok (Some l) -> (brackets (l_name l) + keys_brackets (l_attrs l) <= brackets d)%N.
  Proof.
    induction n as [|n IH]; intros segs key d base l L H; destruct segs as [|sg rest]; cbn [List.length] in L; try lia; cbn [find_loc] in H; destruct (MaxPositionOffset <? base)%Z; try discriminate.
    apply bind_ok in H as (es & H1 & H). cbv zeta in H.
    pose proof (sees_parts _ _ (scan_sees E key d es Hord H1)) as P. rewrite Forall_forall in P. pose proof (scan_weight E Hord _ _ _ H1) as WS.
    set (ms := filter (fun e => seg_matches_opts (o_case o) sg (e_name e)) es) in *. assert (MI : forall e, In e ms -> In e es) by (intros e I; apply filter_In in I; tauto).
    assert (A : forall e, In e ms -> Ok (Some (elem_location d base e)) = Ok (Some l) -> (brackets (l_name l) + keys_brackets (l_attrs l) <= brackets d)%N).
    { intros e I Q. assert (elem_location d base e = l) as <- by congruence. cbn [l_name l_attrs elem_location]. apply P, MI, I. }
    assert (G : forall e rest' key' b, In e ms -> len rest' <= len rest -> find_loc E o key' (e_content e) rest' b = Ok (Some l) -> (brackets (l_name l) + keys_brackets (l_attrs l) <= brackets d)%N).
    { intros e rest' key' b I L' Q. apply IH in Q; [|lia]. pose proof (weight_pick e es (MI _ I)). lia. }
    destruct rest as [|nx rest2].
    - destruct ms as [|e l0]; [discriminate|]. eapply A; [now left|exact H].
    - assert (Y : match ms with [] => Ok None | e :: _ => if (MaxPositionOffset <? base + pos_of d (e_body e))%Z then Ok None else find_loc E o (child_key site_query e key) (e_content e) (nx :: rest2) (base + pos_of d (e_body e))%Z end = Ok (Some l) ->
        (brackets (l_name l) + keys_brackets (l_attrs l) <= brackets d)%N).
      { destruct ms as [|e l0]; [discriminate|]. destruct (_ <? _)%Z; [discriminate|]. intros Q. eapply G; [now left|apply le_n|exact Q]. }
      destruct (s_type nx); try (apply Y; exact H).
      destruct (nth_elem ms (s_index nx)) as [e|] eqn:NE; [|discriminate]. apply nth_elem_in in NE.
      destruct rest2 as [|y r2]; [eapply A; eauto|]. destruct (_ <? _)%Z; [discriminate|]. eapply G; [exact NE| |exact H]. cbn [List.length]. lia.
  Qed.
  Lemma parent_toil : forall key d path n, n <= len path -> within (N.of_nat n * (N.of_nat (len path) + brackets d)) (tfind_parent E o key d path n).
  Proof.
    intros key d path n. induction n as [|n IH]; intros L; [apply within_ret|]. cbn [tfind_parent]. apply within_bind.
    exists (N.of_nat (len path) + brackets d)%N, (N.of_nat n * (N.of_nat (len path) + brackets d))%N. split.
    - eapply within_le; [apply loc_toil|]. rewrite firstn_length. lia.
    - split; [|rewrite Nnat.Nat2N.inj_succ; lia]. intros [l|] c _; [apply within_ret|]. apply IH. lia.
  Qed.
  Lemma root_toil : forall key d path v, within (2 * (1 + brackets d)) (tcreate_in_root E o key d path v).
  Proof.
    intros key d path v x c H. apply wbind_ok in H as (es & c1 & c2 & H1 & H & ->). apply lscan_ok in H1 as [-> H1]. apply (scan_load E Hord) in H1 as [_ H1].
    assert (W0 : within (1 + N.of_nat (len es)) (wcost (1 + N.of_nat (len es)) (wlift (create_in_root E o key d path v)))) by (eapply within_cost; [apply (within_lift _ 0%N)|lia]).
    apply W0 in H. lia.
  Qed.
  Lemma create_toil : forall key d path v, within (N.of_nat (len path) * (N.of_nat (len path) + brackets d) + 2 * (1 + brackets d)) (tcreate_element E o key d path v).
  Proof.
    intros key d path v. unfold tcreate_element. destruct d as [|c0 d0]; [apply within_ret|]. set (d := c0 :: d0). apply within_bind.
    exists (N.of_nat (len path) * (N.of_nat (len path) + brackets d))%N, (2 * (1 + brackets d))%N. split; [eapply within_le; [apply parent_toil; lia|]; apply N.mul_le_mono_r; lia|]. split; [|lia].
    intros [[l i]|] c _; [|apply root_toil]. eapply within_le; [|apply N.le_0_l]. apply within_then; [apply within_lift|]. intros; apply free_ret.
  Qed.
  Lemma delete_toil : forall d path, within (N.of_nat (len path) + brackets d) (tdelete_element E o d path).
  Proof.
    intros d path. unfold tdelete_element. destruct path as [|sg rest]; [apply within_ret|]. destruct (_ <? _)%N; [apply within_ret|]. cbv zeta. set (path := sg :: rest). destruct (segtype_eqb _ _).
    - assert (RL : len (removelast path) <= len path) by (rewrite removelast_firstn_len, firstn_length; lia).
      destruct (removelast path) as [|x ep]; [apply within_ret|]. apply within_then; [eapply within_le; [apply loc_toil|lia]|]. intros [l|]; [|apply free_ret]. apply free_lift.
    - apply within_then; [apply loc_toil|]. intros [l|]; [|apply free_ret]. apply free_seq; [apply free_lift|]. intros a. apply free_seq; [apply free_lift|]. intros; apply free_ret.
  Qed.
  Hypothesis Hind : brackets (o_indent o) = 0%N.
  Lemma reopen_brackets : forall key n a d, (brackets n + keys_brackets a <= brackets d)%N -> (brackets (reopen_tag E key n a) <= 1 + brackets d)%N.
  Proof.
    intros key n a d H. unfold reopen_tag. rewrite !brackets_app, write_attrs_text, attrs_brackets, <- (keys_perm _ _ (Hord key a)). change (brackets (bs "<")) with 1%N. change (brackets (bs ">")) with 0%N. lia.
  Qed.
  Lemma close_brackets : forall n, brackets (close_tag n) = (1 + brackets n)%N.
  Proof. intros n. unfold close_tag. rewrite !brackets_app. change (brackets (bs "</")) with 1%N. change (brackets (bs ">")) with 0%N. lia. Qed.
  Definition grown (d : bytes) (path : list seg) : N := (4 * brackets d + 2 + 2 * N.of_nat (len path) + 2 * mass path)%N.
  Lemma created_root : forall key d path r, create_in_root E o key d path [] = Ok (inr r) -> (brackets r <= grown d path)%N.
  Proof.
    intros key d path r H. unfold create_in_root in H. apply bind_ok in H as (es & H1 & H). cbv zeta in H. unfold grown. pose proof (brackets_build (o_indent o) path 0 Hind) as BP.
    destruct (match path with sg :: _ => _ | [] => false end).
    { assert (r = d ++ build_path (o_indent o) 0 path []) as -> by congruence. rewrite brackets_app. lia. }
    destruct es as [|e es]; [discriminate|]. pose proof (sees_parts _ _ (scan_sees E _ d _ Hord H1)) as P. inversion P as [|? ? P1 _]; subst.
    set (path' := match path with sg :: rest => if segtype_eqb (s_type sg) SElem && bytes_eqb (s_value sg) (e_name e) then rest else path | [] => path end) in *.
    assert (BP' : (brackets (build_path (o_indent o) 0 path' []) <= 2 * N.of_nat (len path) + 2 * mass path)%N).
    { subst path'. destruct path as [|sg rest]; [exact BP|]. destruct (_ && _); [|exact BP]. pose proof (brackets_build (o_indent o) rest 0 Hind). cbn [mass List.length]. lia. }
    clearbody path'. destruct path' as [|p0 ps]; [assert (r = []) as -> by congruence; rewrite brackets_nil; lia|]. set (path' := p0 :: ps) in *. destruct (e_self e).
    - apply bind_ok in H as (a & Ha & H). apply bind_ok in H as (b & Hb & H). apply to_brackets in Ha. apply from_brackets in Hb.
      pose proof (reopen_brackets (1 :: key) (e_name e) (e_attrs e) d P1) as RB. remember (build_path (o_indent o) 0 path' []) as bp. remember (reopen_tag E (1 :: key) (e_name e) (e_attrs e)) as rt.
      assert (r = a ++ rt ++ bp ++ close_tag (e_name e) ++ b) as -> by congruence. rewrite !brackets_app, close_brackets. lia.
    - apply bind_ok in H as (a & Ha & H). apply bind_ok in H as (b & Hb & H). apply to_brackets in Ha. apply from_brackets in Hb. remember (build_path (o_indent o) 0 path' []) as bp.
      assert (r = a ++ bp ++ b) as -> by congruence. rewrite !brackets_app. lia.
  Qed.
  Lemma created : forall key d path r, create_element E o key d path [] = Ok (inr r) -> (brackets (get_result d r) <= grown d path)%N.
  Proof.
    intros key d path r H. assert (Z : (brackets r <= grown d path)%N -> (brackets (get_result d r) <= grown d path)%N) by (destruct r; cbn [get_result]; auto; unfold grown; lia). apply Z. clear Z.
    unfold create_element in H. pose proof (brackets_build (o_indent o) path 0 Hind) as BP. destruct d as [|c0 d0]; [assert (r = build_path (o_indent o) 0 path []) as -> by congruence; unfold grown; lia|]. set (d := c0 :: d0) in *.
    apply bind_ok in H as (p & H1 & H). destruct p as [[l i]|]; [|eapply created_root; eauto]. apply bind_ok in H as (r' & H & Q). assert (r' = r) as -> by congruence. clear Q.
    assert (P : (brackets (l_name l) + keys_brackets (l_attrs l) <= brackets d)%N).
    { revert H1. generalize (len path - 1) as n. induction n as [|n IH]; [discriminate|]. cbn [find_parent]. intros Q. apply bind_ok in Q as ([l'|] & Q1 & Q); [|auto].
      assert (l' = l) as -> by congruence. eapply find_parts; [apply le_n|exact Q1]. }
    assert (BP' : (brackets (build_path (o_indent o) 0 (skipn i path) []) <= 2 * N.of_nat (len path) + 2 * mass path)%N).
    { eapply N.le_trans; [apply brackets_build; exact Hind|]. pose proof (mass_skipn i path). rewrite skipn_length. lia. }
    unfold create_in_parent in H. unfold grown. destruct (l_self l).
    - apply bind_ok in H as (a & Ha & H). apply bind_ok in H as (b & Hb & H). apply to_brackets in Ha. apply from_brackets in Hb.
      pose proof (reopen_brackets (2 :: key) (l_name l) (l_attrs l) d P) as RB. remember (build_path (o_indent o) 0 (skipn i path) []) as bp. remember (reopen_tag E (2 :: key) (l_name l) (l_attrs l)) as rt.
      assert (r = a ++ rt ++ bp ++ close_tag (l_name l) ++ b) as -> by congruence. rewrite !brackets_app, close_brackets. lia.
    - apply bind_ok in H as (a & Ha & H). apply bind_ok in H as (b & Hb & H). apply to_brackets in Ha. apply from_brackets in Hb. remember (build_path (o_indent o) 0 (skipn i path) []) as bp.
      assert (r = a ++ bp ++ b) as -> by congruence. rewrite !brackets_app. lia.
  Qed.
  Lemma attr_toil : forall key d path name v, within (N.of_nat (len path) * (N.of_nat (len path) + brackets d) + 2 * (1 + brackets d) + N.of_nat (len path) + grown d path) (tcreate_element_for_attr E o key d path name v).
  Proof.
    intros key d path name v. unfold tcreate_element_for_attr. apply within_bind.
    exists (N.of_nat (len path) * (N.of_nat (len path) + brackets d) + 2 * (1 + brackets d))%N, (N.of_nat (len path) + grown d path)%N. split; [apply create_toil|]. split; [|lia].
    intros [e|r] c H; [apply within_ret|]. cbv zeta. destruct (_ <? _)%N; [apply within_ret|].
    assert (B : (brackets (get_result d r) <= grown d path)%N). { apply (created (0 :: key)). rewrite <- terase_create. unfold erase. rewrite H. reflexivity. }
    apply within_then; [eapply within_le; [apply loc_toil|lia]|]. intros [l|]; [|apply free_ret]. apply free_seq; [apply free_lift|]. intros; apply free_ret.
  Qed.
  Lemma sliced_brackets : forall d a b x, sliced d a b = Ok x -> (brackets x <= brackets d)%N.
  Proof.
    intros d a b x H. unfold sliced in H. destruct (a <=? b)%Z; [|discriminate]. apply bind_ok in H as (y & H1 & H2). apply to_brackets in H1. apply from_brackets in H2. lia.
  Qed.
  Lemma last_toil : forall key d p sg, within (1 + brackets d) (tfind_last_match E o key d p sg).
  Proof.
    intros key d p sg x c H. unfold tfind_last_match in H. apply wbind_ok in H as (s & c1 & c2 & H1 & H & ->). apply wlift_ok in H1 as [H1 ->]. apply sliced_brackets in H1.
    apply wbind_ok in H as (es & c1 & c3 & H2 & H & ->). apply lscan_ok in H2 as [-> H2]. apply wret_ok in H as [_ ->]. apply (scan_load E Hord) in H2 as [_ H2]. lia.
  Qed.
  Lemma append_root_toil : forall key d sg v, within (1 + brackets d) (tappend_root E o key d sg v).
  Proof.
    intros key d sg v. unfold tappend_root. destruct d as [|c0 d0]; [apply within_ret|]. set (d := c0 :: d0). apply within_then.
    - intros x c H. apply lscan_ok in H as [-> H]. apply (scan_load E Hord) in H as [_ H]. exact H.
    - intros es. cbv zeta. apply free_seq; [apply free_lift|]. intros a. apply free_seq; [apply free_lift|]. intros b. destruct (_ <? _)%N; apply free_ret.
  Qed.
  Lemma append_toil : forall key d path v n, len path <= n -> within (N.of_nat n * (N.of_nat n + brackets d) + 3 * brackets d + N.of_nat n + 2) (tappend_element E o key d path v).
  Proof.
    intros key d path v n L. unfold tappend_element. destruct (rev path) as [|ls [|sg rp]] eqn:R; try apply within_ret. cbv zeta. destruct (_ || _); [apply within_ret|]. destruct (negb _); [apply within_ret|].
    assert (LP : len path = 2 + len (rev rp)) by (rewrite <- (rev_length path), R, rev_length; reflexivity).
    destruct (rev rp) as [|p0 ps] eqn:RP; [eapply within_le; [apply append_root_toil|]; lia|]. set (parent := p0 :: ps) in *.
    apply within_bind. exists (N.of_nat n + brackets d)%N, (N.of_nat n * (N.of_nat n + brackets d) + 2 * (1 + brackets d))%N. split; [eapply within_le; [apply loc_toil|lia]|]. split; [|lia].
    intros [l|] c _.
    - destruct (l_self l).
      + eapply within_le; [|apply N.le_0_l]. apply within_then; [apply within_lift|]. intros a. apply free_seq; [apply free_lift|]. intros; apply free_ret.
      + eapply within_le; [apply within_then; [apply last_toil|]|lia]. intros p. apply free_seq; [apply free_lift|]. intros a. cbv zeta. apply free_seq; [apply free_lift|]. intros b. destruct (_ <? _)%N; apply free_ret.
    - eapply within_le; [apply create_toil|]. rewrite app_length. cbn [List.length]. apply N.add_le_mono_r. apply N.mul_le_mono; lia.
  Qed.
  Lemma set_toil : forall g d path v, within ((N.of_nat (len path) + 6) * (N.of_nat (len path) + brackets d) + 2 * mass path) (tset_element E g o d path v).
  Proof.
    intros g d path v. unfold tset_element. destruct path as [|sg rest]; [apply within_ret|]. destruct (value_to_xml g v) as [e|xv]; [apply within_ret|].
    destruct (_ <? _)%N; [apply within_ret|]. destruct (_ <? _)%N; [apply within_ret|]. cbv zeta. set (path := sg :: rest).
    assert (F : forall b (m : W (err + bytes)), within b m -> within b (let! r := m in match r with inl e => wret (inl e) | inr r => wret (inr (get_result d r)) end)).
    { intros b m H. apply within_then; auto. intros [e|r]; apply free_ret. }
    assert (LP : (1 <= N.of_nat (len path))%N) by (unfold path; cbn [List.length]; lia).
    destruct (check_intents path); [| |apply within_ret].
    - destruct (segtype_eqb _ _).
      + assert (RL : path = removelast path ++ [last path (mkSeg SElem [] 0%Z false None false [] [])]) by (apply app_removelast_last; discriminate).
        remember (removelast path) as ep. remember (last path (mkSeg SElem [] 0%Z false None false [] [])) as ls. rewrite RL in *. clear RL Heqep Heqls. rewrite app_length in *. cbn [List.length] in *. rewrite mass_app.
        apply within_bind. exists (N.of_nat (len ep) + brackets d)%N, (N.of_nat (len ep) * (N.of_nat (len ep) + brackets d) + 2 * (1 + brackets d) + N.of_nat (len ep) + grown d ep)%N.
        split; [apply loc_toil|]. split; [|unfold grown; rewrite Nnat.Nat2N.inj_add; change (N.of_nat 1) with 1%N; set (m := N.of_nat (len ep)); nia].
        intros [l|] c _; [|apply attr_toil]. apply F. apply within_lift.
      + apply within_bind. exists (N.of_nat (len path) + brackets d)%N, (N.of_nat (len path) * (N.of_nat (len path) + brackets d) + 2 * (1 + brackets d))%N.
        split; [apply loc_toil|]. split; [|nia]. intros [l|] c _; [|apply F, create_toil]. apply F. apply within_lift.
    - apply F. eapply within_le; [apply append_toil, le_n|]. nia.
  Qed.
End Upper.

(** ** The steps of a path *)
Fixpoint total_brackets (l : list bytes) : N := match l with [] => 0 | x :: l' => brackets x + total_brackets l' end%N.
Lemma split_loop_brackets : forall s b h t, split_loop b s = (h, t) -> (brackets h + total_brackets t <= brackets s)%N.
Proof.
  induction s as [|c s IH]; intros b h t H; cbn [split_loop] in H.
  - injection H as <- <-. cbn; lia.
  - rewrite (brackets_cons c s). destruct b; [|destruct (Ascii.eqb c backslash); [|destruct (Ascii.eqb c ".")]].
    + destruct (split_loop false s) as [h1 t1] eqn:Q. apply IH in Q. assert (h = c :: h1 /\ t = t1) as [-> ->] by (split; congruence). rewrite brackets_cons. destruct (Ascii.eqb c "<"); lia.
    + apply IH in H. destruct (Ascii.eqb c "<"); lia.
    + destruct (split_loop false s) as [h1 t1] eqn:Q. apply IH in Q. assert (h = [] /\ t = h1 :: t1) as [-> ->] by (split; congruence). cbn [total_brackets]. rewrite brackets_nil. destruct (Ascii.eqb c "<"); lia.
    + destruct (split_loop false s) as [h1 t1] eqn:Q. apply IH in Q. assert (h = c :: h1 /\ t = t1) as [-> ->] by (split; congruence). rewrite brackets_cons. destruct (Ascii.eqb c "<"); lia.
Qed.
Lemma split_on_brackets : forall b s h t, split_on b s = (h, t) -> (brackets h <= brackets s)%N.
Proof.
  induction s as [|c s IH]; cbn [split_on]; intros h t H; [injection H as <- <-; lia|]. destruct (split_on b s) as [h1 t1] eqn:Q. specialize (IH _ _ eq_refl). rewrite (brackets_cons c s).
  destruct (Ascii.eqb c b); [assert (h = []) as -> by congruence|assert (h = c :: h1) as -> by congruence; rewrite brackets_cons]; rewrite ?brackets_nil; destruct (Ascii.eqb c "<"); lia.
Qed.
Lemma part_brackets : forall part sg, parse_part part = Ok (PSeg sg) -> (brackets (s_value sg) <= brackets part)%N.
Proof.
  intros part sg H. unfold parse_part in H. destruct part as [|c0 part]; [discriminate|]. unfold parse_modifiers in H. destruct (split_on "|" (c0 :: part)) as [pp mods] eqn:M. apply split_on_brackets in M.
  remember (c0 :: part) as w. clear Heqw.
  destruct (strip_prefix (bs "#(") pp) as [body|].
  - cbv zeta in H. destruct (if has_suffix (bs ")#") pp then Some (true, len pp - 2) else if has_suffix (bs ")") pp then Some (false, len pp - 1) else None) as [[all k]|]; [|discriminate].
    destruct (Nat.leb k 2); [discriminate|]. apply bind_ok in H as ([f|] & _ & H); [|discriminate]. assert (s_value sg = []) as -> by (injection H as <-; reflexivity). rewrite brackets_nil. lia.
  - cbv zeta in H. destruct pp as [|c v]; [assert (s_value sg = []) as -> by (injection H as <-; reflexivity); rewrite brackets_nil; lia|].
    assert (V : (brackets v <= brackets (c :: v))%N) by (rewrite brackets_cons; lia).
    assert (Z : s_value sg = [] \/ s_value sg = v \/ s_value sg = c :: v).
    { repeat match type of H with context [if ?b then _ else _] => destruct b end; injection H as <-; auto. }
    destruct Z as [-> | [-> | ->]]; rewrite ?brackets_nil; lia.
Qed.
Lemma parts_brackets : forall l ss, parse_parts l = Ok (Some ss) -> (mass ss <= total_brackets l)%N /\ len ss <= len l.
Proof.
  induction l as [|x l IH]; cbn [parse_parts]; intros ss H; [injection H as <-; split; [cbn; lia|auto]|].
  apply bind_ok in H as (w & H1 & H2). cbn [total_brackets List.length]. destruct w as [| |sg]; [apply IH in H2 as []; split; lia|discriminate|].
  apply bind_ok in H2 as ([ss'|] & H2 & H3); [|discriminate]. assert (ss = sg :: ss') as -> by congruence. apply IH in H2 as []. apply part_brackets in H1. cbn [mass List.length]. split; lia.
Qed.
Lemma merge_brackets : forall n l, len l <= n -> (mass (merge_fields l) <= mass l)%N /\ len (merge_fields l) <= len l.
Proof.
  induction n as [|n IH]; intros l L; destruct l as [|x l]; cbn [List.length] in *; try lia; [cbn; split; lia|cbn; split; lia|].
  assert (H1 : (mass (merge_fields l) <= mass l)%N /\ len (merge_fields l) <= len l) by (apply IH; lia). destruct H1 as [H1 H1'].
  assert (D : (mass (x :: merge_fields l) <= mass (x :: l))%N /\ len (x :: merge_fields l) <= S (len l)) by (cbn [mass List.length]; split; lia).
  cbn [merge_fields]. destruct (s_type x); try exact D. destruct l as [|nx l2]; [exact D|].
  assert (H2 : (mass (merge_fields l2) <= mass l2)%N /\ len (merge_fields l2) <= len l2) by (apply IH; cbn [List.length] in *; lia). destruct H2 as [H2 H2'].
  assert (D2 : forall f m, (mass (mkSeg SField [] 0%Z false None false f m :: merge_fields l2) <= mass (x :: nx :: l2))%N /\ len (mkSeg SField [] 0%Z false None false f m :: merge_fields l2) <= S (len (nx :: l2))).
  { intros f m. cbn [mass List.length s_value]. rewrite brackets_nil. split; lia. }
  destruct (s_type nx); try exact D; destruct (_ && _); try exact D; apply D2.
Qed.
Lemma path_brackets : forall path segs, parse_path path = Ok segs -> (mass segs <= brackets path)%N /\ len segs <= 100.
Proof.
  intros path segs H. destruct path as [|c path]; [injection H as <-; split; [cbn; lia|apply Nat.le_0_l]|].
  unfold parse_path in H. apply bind_ok in H as (r & H1 & H). destruct r as [ss|]; [|injection H as <-; split; [cbn [mass]; lia|apply Nat.le_0_l]]. assert (ss = segs) as -> by congruence. clear H.
  unfold parse_path_internal in H1. destruct (Nat.ltb MaxPathSegments _) eqn:M; [discriminate|]. apply Nat.ltb_ge in M. apply bind_ok in H1 as (r & H1 & H). destruct r as [ss|]; [|discriminate].
  assert (merge_fields ss = segs) as <- by congruence. apply parts_brackets in H1 as [B1 B2]. destruct (merge_brackets _ ss (le_n _)) as [B3 B4].
  assert (B5 : (total_brackets (split_path (c :: path)) <= brackets (c :: path))%N).
  { unfold split_path in *. destruct (split_loop false (c :: path)) as [h t] eqn:Q. apply split_loop_brackets in Q. exact Q. }
  change MaxPathSegments with 100 in M. split; [eapply N.le_trans; [exact B3|]; eapply N.le_trans; [exact B1|exact B5]|]. eapply Nat.le_trans; [exact B4|]. eapply Nat.le_trans; eauto.
Qed.
Lemma lower_brackets : forall s, brackets (to_lower_ascii s) = brackets s.
Proof.
  induction s as [|c s IH]; [reflexivity|]. unfold to_lower_ascii in *. cbn [map]. rewrite !brackets_cons, IH. f_equal.
  destruct c as [[] [] [] [] [] [] [] []]; reflexivity.
Qed.
Lemma lower_mass : forall l, (mass (map lower_seg l) = mass l)%N.
Proof. induction l as [|x l IH]; [reflexivity|]. cbn [map mass]. rewrite IH. f_equal. unfold lower_seg. cbn [s_value]. try apply lower_brackets. destruct (s_type x); cbn [s_value]; rewrite ?lower_brackets; reflexivity. Qed.
Lemma opts_brackets : forall o path segs, parse_path_opts o path = Ok segs -> exists segs', parse_path path = Ok segs' /\ len segs = len segs' /\ (mass segs <= brackets path)%N /\ len segs <= 100.
Proof.
  intros o path segs H. unfold parse_path_opts in H. apply bind_ok in H as (l & H & Q). exists l. split; auto. destruct (path_brackets _ _ H) as [B L].
  destruct (o_case o); [assert (l = segs) as -> by congruence; auto|]. assert (segs = map lower_seg l) as -> by congruence. rewrite map_length, lower_mass. auto.
Qed.
