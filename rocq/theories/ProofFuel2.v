(** Termination and panic-freedom for the WithOptions queries, the methods of Result
    and the editing functions. *)
From Coq Require Import List Ascii String NArith ZArith Bool Lia.
From Verif Require Import GoStr ModelParser ModelPath ModelResult ModelQuery ModelValidate ModelBuilder
  ModelQueryOpts ModelApi ProofBase ProofScan ProofPath ProofFuel.
Import ListNotations.

(** ** Queries with options *)
Lemma field_children_opts_ok : forall E cs key field l, ok (field_children_opts E cs key field l).
Proof.
  intros E cs key field l. induction l as [|e l IH]; simpl; auto.
  apply ok_bind; auto. intros es _. apply ok_bind; auto.
Qed.
Lemma field_extract_opts_ok : forall E cs key l sg, ok (field_extract_opts E cs key l sg).
Proof.
  intros. unfold field_extract_opts. destruct (s_field sg) as [|c name] eqn:F; auto.
  apply ok_bind.
  - destruct (Ascii.eqb c "@"); auto. destruct (bytes_eqb (c :: name) (bs "%")); auto.
    apply field_children_opts_ok.
  - intros all _. destruct (firstn MaxWildcardResults all); auto.
Qed.
#[export] Hint Resolve field_extract_opts_ok : core.

Section ExecOptsOk.
  Variables (E : env) (cs : bool) (n : nat) (plain rec : qrec).
  Hypothesis Hplain : rec_ok n plain.
  Hypothesis Hrec : rec_ok n rec.

  Lemma process_first_opts_ok : forall key e sg rest, fits n rest -> ok (process_first_opts E cs rec key e sg rest).
  Proof.
    intros key e sg rest [H1 H2]. unfold process_first_opts. destruct rest as [|nx rest]; auto.
    destruct (s_type nx); auto; try (apply Hrec; auto; fail).
    destruct (attr_lookup E cs key (s_value nx) e); auto.
  Qed.
  Lemma process_all_opts_ok : forall key l sg rest, fits n rest -> ok (process_all_opts E cs rec key l sg rest).
  Proof.
    intros key l sg rest H. unfold process_all_opts. destruct rest as [|nx rest]; auto.
    destruct (s_type nx); auto;
      try (apply ok_bind; [eapply query_each_ok; eauto|]; intros all _);
      match goal with |- ok (match ?x with _ => _ end) => destruct x; auto end.
  Qed.
  Lemma route_matches_opts_ok : forall key l sg rest, fits n rest -> ok (route_matches_opts E cs rec key l sg rest).
  Proof.
    intros key l sg rest H. unfold route_matches_opts. destruct l as [|e l]; auto.
    destruct (s_all sg); [apply process_all_opts_ok; auto|apply process_first_opts_ok; auto].
  Qed.
  Lemma handle_wildcard_opts_ok : forall key l rest, fits n rest -> ok (handle_wildcard_opts E cs rec key l rest).
  Proof.
    intros key l rest H. unfold handle_wildcard_opts. destruct rest as [|nx rest]; auto.
    destruct (s_type nx);
      try (apply ok_bind; [eapply query_each_ok; eauto|]; intros all _);
      match goal with |- ok (match ?x with _ => _ end) => destruct x; auto end.
  Qed.
  Lemma search_add_opts_ok : forall key e rest, fits n rest -> ok (search_add_opts E cs rec key e rest).
  Proof.
    intros key e rest [H1 H2]. unfold search_add_opts. destruct rest as [|nx rest]; auto.
    destruct (s_type nx); auto; apply ok_bind; auto.
  Qed.
  Lemma rsearch_opts_ok : forall k key target rest st s, fits n rest ->
    ok (rsearch_opts E cs rec k key target rest st s).
  Proof.
    induction k as [|k IH]; intros key target rest st s Hf; cbn [rsearch_opts]; auto.
    match goal with |- ok (if ?b then _ else _) => destruct b; auto end.
    apply ok_bind; auto. intros es _.
    generalize ((fst st + 1)%N, snd st). clear st.
    induction es as [|e es IHes]; intros st; auto.
    apply ok_bind; [destruct (e_content e); auto|]. intros st1 _.
    destruct (MaxRecursiveOperations <=? fst st1)%N; auto.
    destruct (seg_matches_opts cs target (e_name e)); auto.
    destruct (Nat.leb MaxWildcardResults (len (snd st1))); auto.
    apply ok_bind; [apply search_add_opts_ok; auto|]. intros; auto.
  Qed.
  Lemma handle_recursive_opts_ok : forall key rest s, fits n rest -> ok (handle_recursive_opts E cs rec key rest s).
  Proof.
    intros key rest s H. unfold handle_recursive_opts. destruct rest as [|target rest]; auto.
    apply ok_bind.
    - apply rsearch_opts_ok. eapply fits_tail; eauto.
    - intros st _. destruct (snd st); auto.
  Qed.
  Lemma rec_fits_opts : forall key root s segs, fits n segs -> ok (rec key root s segs).
  Proof. intros key root s segs [H1 H2]; apply Hrec; auto. Qed.
  Lemma root_array_opts_ok : forall key l nx more, fits n (nx :: more) -> ok (root_array_opts E cs rec key l nx more).
  Proof.
    intros key l nx more H. apply fits_tail in H. unfold root_array_opts. destruct l as [|e l]; auto.
    destruct (s_type nx); auto. destruct (nth_elem (e :: l) (s_index nx)); auto.
    destruct more as [|n2 more]; auto. destruct (s_type n2); auto using rec_fits_opts.
  Qed.
  Lemma array_op_opts_ok : forall key l nx more, fits n (nx :: more) -> ok (array_op_opts E cs rec key l nx more).
  Proof.
    intros key l nx more H. apply fits_tail in H. unfold array_op_opts. destruct l as [|e l]; auto.
    destruct (s_type nx); auto. destruct (nth_elem (e :: l) (s_index nx)); auto.
    destruct more as [|n2 more]; auto. destruct (s_type n2); auto using rec_fits_opts.
  Qed.
  Lemma first_loop_opts_ok : forall key l sg rest, fits n rest -> ok (first_loop_opts E cs rec key l sg rest).
  Proof.
    intros key l sg rest H. induction l as [|e l IH]; cbn [first_loop_opts]; auto.
    destruct rest as [|nx more]; auto.
    destruct (s_type nx); auto;
      try (apply ok_bind; [now apply rec_fits_opts|]; intros r _; destruct (is_null r); auto).
    destruct (attr_lookup E cs key (s_value nx) e), more; auto.
  Qed.
  Lemma exec_element_opts_ok : forall key es sg rest, fits n rest ->
    ok (exec_element_opts E cs plain rec key es sg rest).
  Proof.
    intros key es sg rest H. unfold exec_element_opts. destruct rest as [|nx more]; [apply first_loop_opts_ok; auto|].
    destruct (s_type nx); auto using first_loop_opts_ok, array_op_opts_ok.
    apply ok_bind.
    - eapply filter_elems_ok; eauto. eapply fits_filter; eauto.
    - intros l _. apply route_matches_opts_ok. eapply fits_tail; eauto.
  Qed.
  Lemma exec_body_opts_ok : forall key root s segs, cost segs < S n -> safe segs ->
    ok (exec_body_opts E cs plain rec key root s segs).
  Proof.
    intros key root s segs Hc Hs. unfold exec_body_opts. destruct segs as [|sg rest]; auto.
    apply ok_bind; auto. intros es _.
    inversion Hs as [|? ? Hsg Hrest]; subst. simpl in Hc. pose proof (seg_cost_pos sg).
    assert (Hf : fits n rest) by (split; auto; lia).
    destruct (s_type sg); auto.
    - destruct (root && cs); [|apply exec_element_opts_ok; auto].
      destruct rest as [|nx more]; [apply exec_element_opts_ok; auto|].
      destruct (s_type nx); auto using exec_element_opts_ok, root_array_opts_ok.
    - destruct (s_wild sg); [apply handle_recursive_opts_ok; auto|].
      destruct (firstn MaxWildcardResults es); auto. apply handle_wildcard_opts_ok; auto.
    - apply ok_bind; [|intros; apply route_matches_opts_ok; auto].
      eapply filter_elems_upto_ok; eauto. unfold filt_fits. unfold seg_cost, seg_safe in *.
      destruct (s_filter sg); auto. split; auto. lia.
  Qed.
End ExecOptsOk.

Lemma exec_opts_ok : forall E cs fuel, rec_ok fuel (exec_opts E cs fuel).
Proof.
  intros E cs. induction fuel as [|f IH]; intros key root s segs Hc Hs; [lia|].
  cbn [exec_opts]. eapply exec_body_opts_ok; eauto. apply exec_ok.
Qed.

Lemma lower_cost : forall segs, cost (map lower_seg segs) = cost segs.
Proof.
  induction segs as [|sg segs IH]; auto. cbn [map cost]. rewrite IH. f_equal.
  unfold seg_cost, lower_seg. destruct (s_type sg); auto.
Qed.
Lemma lower_safe : forall segs, safe segs -> safe (map lower_seg segs).
Proof.
  intros segs H. unfold safe in *. induction H; simpl; constructor; auto.
  unfold seg_safe, lower_seg in *. destruct (s_type x); auto.
Qed.
Lemma parse_opts_ok : forall o path, ok (parse_path path) -> ok (parse_path_opts o path).
Proof. intros o path H. unfold parse_path_opts. apply ok_bind; auto. Qed.
Lemma parse_opts_cost : forall o path segs, parse_path_opts o path = Ok segs ->
  cost segs <= 2 * len path /\ safe segs.
Proof.
  intros o path segs H. unfold parse_path_opts in H. apply bind_ok in H. destruct H as [ss [H1 H2]].
  apply parse_path_cost in H1. destruct H1 as [H1 H3]. injection H2; intros; subst.
  destruct (o_case o); auto. rewrite lower_cost. split; auto using lower_safe.
Qed.

Lemma get_opts_ok : forall E o xml path, ok (parse_path path) -> ok (get_opts E o xml path).
Proof.
  intros E o xml path H. unfold get_opts. destruct (MaxDocumentSize <? blen xml)%N; auto.
  destruct (is_default_options o).
  - apply ok_bind; auto. intros segs Hs. destruct segs as [|sg segs]; auto.
    apply parse_path_cost in Hs. destruct Hs as [Hc Hs]. eapply exec_ok; eauto. unfold query_fuel. lia.
  - apply ok_bind; [now apply parse_opts_ok|]. intros segs Hs. destruct segs as [|sg segs]; auto.
    apply parse_opts_cost in Hs. destruct Hs as [Hc Hs]. eapply exec_opts_ok; eauto. unfold query_fuel. lia.
Qed.

(** ** Outcomes: [parse_path] returns or panics; queries follow it *)
Definition fin {A} (m : Res A) : Prop := m <> OutOfFuel.
Lemma fin_bind : forall A B (m : Res A) (f : A -> Res B), fin m -> (forall a, m = Ok a -> fin (f a)) -> fin (bind m f).
Proof. intros A B [a| |] f Hm Hf; simpl; unfold fin in *; auto; discriminate. Qed.
Lemma fin_ok : forall A (m : Res A), ok m -> fin m.
Proof. intros A m [a ->]. discriminate. Qed.
Lemma fin_ret : forall A (a : A), fin (Ok a).
Proof. discriminate. Qed.
#[export] Hint Resolve fin_ret fin_ok : core.

Lemma parse_filter_fin : forall e, fin (parse_filter_condition e).
Proof.
  intros e. unfold parse_filter_condition. destruct (MaxFilterExpressionLength <? blen e)%N; auto.
  destruct (mem nul e); auto. destruct (trim_space e) as [|a e1]; auto.
  destruct (negb (contains_any op_chars (a :: e1))); auto.
  destruct (find_op (a :: e1)) as [[[p op] v]|]; auto.
  destruct (contains_any ctl_chars p); auto. destruct (trim_space p) as [|b p1]; auto.
  destruct (trim_space v) as [|d v1]; auto. destruct (contains_any op_chars (b :: p1)); auto.
  apply fin_bind.
  - unfold unquote. destruct (quoted_with squote (d :: v1) || quoted_with dquote (d :: v1)); auto.
    destruct v1; discriminate.
  - intros x _. destruct (contains_any ctl_chars x); auto.
Qed.
Lemma parse_part_fin : forall p, fin (parse_part p).
Proof.
  intros p. unfold parse_part. destruct p as [|c0 part]; auto.
  destruct (parse_modifiers (c0 :: part)) as [pp mods].
  destruct (strip_prefix (bs "#(") pp) as [body|] eqn:SP.
  - match goal with |- fin (match ?c with _ => _ end) => destruct c as [[all endidx]|] end; auto.
    destruct (Nat.leb endidx 2); auto. apply fin_bind; [apply parse_filter_fin|]. intros [f|] _; auto.
  - destruct pp as [|c pp]; auto.
    repeat match goal with |- context [if ?b then _ else _] => destruct b end; auto.
Qed.
Lemma parse_parts_fin : forall l, fin (parse_parts l).
Proof.
  induction l as [|x l IH]; simpl; auto.
  apply fin_bind; [apply parse_part_fin|]. intros [] _; auto.
  apply fin_bind; auto. intros [ss|] _; auto.
Qed.
Lemma parse_path_fin : forall path, fin (parse_path path).
Proof.
  intros [|c path]; [apply fin_ret|]. unfold parse_path. apply fin_bind.
  - unfold parse_path_internal. destruct (Nat.ltb MaxPathSegments (len (split_path (c :: path)))); auto.
    apply fin_bind; [apply parse_parts_fin|]. intros [ss|] _; auto.
  - intros [ss|] _; auto.
Qed.
#[export] Hint Resolve parse_path_fin : core.

Lemma get_fin : forall E xml path, fin (get E xml path).
Proof.
  intros E xml path. destruct (parse_path path) as [segs| |] eqn:P.
  - apply fin_ok. apply get_ok. rewrite P; auto.
  - unfold get. destruct (MaxDocumentSize <? blen xml)%N; auto. rewrite P. discriminate.
  - exfalso. eapply parse_path_fin; eauto.
Qed.
Lemma get_opts_fin : forall E o xml path, fin (get_opts E o xml path).
Proof.
  intros E o xml path. destruct (parse_path path) as [segs| |] eqn:P.
  - apply fin_ok. apply get_opts_ok. rewrite P; auto.
  - unfold get_opts, parse_path_opts. destruct (MaxDocumentSize <? blen xml)%N; auto. rewrite P.
    destruct (is_default_options o); discriminate.
  - exfalso. eapply parse_path_fin; eauto.
Qed.
Lemma get_panic_iff : forall E xml path,
  get E xml path = Panic <-> (blen xml <= MaxDocumentSize)%N /\ parse_path path = Panic.
Proof.
  intros E xml path. split.
  - intros H. destruct (parse_path path) as [segs| |] eqn:P.
    + destruct (get_ok E xml path) as [r Hr]; [rewrite P; auto|congruence].
    + split; auto. unfold get in H. destruct (N.ltb_spec MaxDocumentSize (blen xml)); [discriminate|auto].
    + exfalso. eapply parse_path_fin; eauto.
  - intros [H1 H2]. unfold get. rewrite (proj2 (N.ltb_ge _ _) H1), H2. auto.
Qed.
Lemma get_many_fin : forall E xml paths, fin (get_many E xml paths).
Proof.
  induction paths as [|p ps IH]; simpl; auto. apply fin_bind; [apply get_fin|]. intros r _.
  apply fin_bind; auto.
Qed.

(** ** Methods of Result *)
Lemma r_get_fin : forall E path r, fin (r_get E r path).
Proof.
  intros E path. fix IH 1. intros [t raw s n l]. destruct t; simpl; auto.
  - unfold get_raw. destruct (is_multi_root raw); apply get_fin.
  - destruct l as [|x l]; auto.
Qed.
Lemma r_get_opts_fin : forall E o path r, fin (r_get_opts E o r path).
Proof.
  intros E o path r. unfold r_get_opts. destruct (is_default_options o); [apply r_get_fin|].
  revert r. fix IH 1. intros [t raw s n l]. destruct t; simpl; auto.
  - unfold get_raw_opts. destruct (is_multi_root raw); apply get_opts_fin.
  - destruct l as [|x l]; auto.
Qed.
Lemma map_children_ok : forall E keyf s, ok (map_children E keyf s).
Proof.
  intros E keyf s. unfold map_children. destruct (MaxDocumentSize <? blen s)%N; auto.
  destruct s as [|c s]; auto. apply ok_bind; auto.
Qed.
Lemma r_map_with_ok : forall E keyf r, ok (r_map_with E keyf r).
Proof.
  intros E keyf. fix IH 1. intros [t raw s n l]. destruct t; simpl; auto.
  - apply map_children_ok.
  - destruct l as [|x l]; auto.
Qed.
Lemma r_map_opts_ok : forall E o r, ok (r_map_opts E o r).
Proof. intros. unfold r_map_opts, r_map. destruct (is_default_options o); apply r_map_with_ok. Qed.

(** ** Editing functions *)
Lemma find_loc_ok_n : forall E o n segs key d base, len segs <= n -> ok (find_loc E o key d segs base).
Proof.
  intros E o. induction n as [|n IH]; intros segs key d base Hn; destruct segs as [|sg rest]; cbn [find_loc];
    destruct (MaxPositionOffset <? base)%Z; auto; cbn [List.length] in Hn; [lia|].
  apply ok_bind; auto. intros es _.
  destruct rest as [|nx rest2].
  - destruct (filter (fun e => seg_matches_opts (o_case o) sg (e_name e)) es); auto.
  - cbn [List.length] in Hn. destruct (s_type nx);
     try (destruct (filter (fun e => seg_matches_opts (o_case o) sg (e_name e)) es); auto;
          match goal with |- ok (if ?b then _ else _) => destruct b; auto; apply IH; cbn [List.length]; lia end).
    destruct (nth_elem _ _) as [e|]; auto. destruct rest2 as [|n2 r2]; auto.
    match goal with |- ok (if ?b then _ else _) => destruct b; auto; apply IH; cbn [List.length] in *; lia end.
Qed.
Lemma find_loc_ok : forall E o segs key d base, ok (find_loc E o key d segs base).
Proof. intros. eapply find_loc_ok_n; eauto. Qed.
#[export] Hint Resolve find_loc_ok : core.
Lemma slice_to_fin : forall d n, fin (slice_to d n).
Proof. intros. unfold slice_to. destruct (_ && _); auto; discriminate. Qed.
Lemma slice_from_fin : forall d n, fin (slice_from d n).
Proof. intros. unfold slice_from. destruct (_ && _); auto; discriminate. Qed.
#[export] Hint Resolve slice_to_fin slice_from_fin : core.
Ltac finb := first [solve [auto] | apply fin_bind; [solve [finb]|intros ? _; finb] | idtac].

Lemma find_parent_ok : forall E o path n key d, ok (find_parent E o key d path n).
Proof.
  induction n as [|n IH]; intros; simpl; auto.
  apply ok_bind; auto. intros [l|] _; auto.
Qed.
Lemma create_in_parent_fin : forall E o key d l path v, fin (create_in_parent E o key d l path v).
Proof. intros. unfold create_in_parent. destruct (l_self l); finb. Qed.
Lemma create_in_root_fin : forall E o key d path v, fin (create_in_root E o key d path v).
Proof.
  intros. unfold create_in_root. apply fin_bind; auto. intros es _.
  match goal with |- fin (if ?b then _ else _) => destruct b; auto end.
  destruct es as [|e es]; auto.
  match goal with |- fin (match ?b with _ => _ end) => destruct b; auto end.
  destruct (e_self e); finb.
Qed.
Lemma create_element_fin : forall E o key d path v, fin (create_element E o key d path v).
Proof.
  intros. unfold create_element. destruct d as [|c d]; auto.
  apply fin_bind; [apply fin_ok, find_parent_ok|]. intros [[l i]|] _.
  - apply fin_bind; [apply create_in_parent_fin|]. auto.
  - apply create_in_root_fin.
Qed.
Lemma replace_attribute_fin : forall o d l n v, fin (replace_attribute o d l n v).
Proof. intros. unfold replace_attribute. finb. Qed.
Lemma create_element_for_attr_fin : forall E o key d path n v, fin (create_element_for_attr E o key d path n v).
Proof.
  intros. unfold create_element_for_attr. apply fin_bind; [apply create_element_fin|].
  intros [e|r] _; auto. destruct (MaxDocumentSize <? blen (get_result d r))%N; auto.
  apply fin_bind; auto. intros [l|] _; auto. apply fin_bind; [apply replace_attribute_fin|]. auto.
Qed.
Lemma append_root_fin : forall E o key d sg v, fin (append_root E o key d sg v).
Proof.
  intros. unfold append_root. destruct d as [|c d]; auto. finb.
  match goal with |- fin (if ?b then _ else _) => destruct b; auto end.
Qed.
Lemma find_last_match_fin : forall E o key d p sg, fin (find_last_match E o key d p sg).
Proof.
  intros. unfold find_last_match, sliced. apply fin_bind.
  - destruct (_ <=? _)%Z; [finb|discriminate].
  - intros c _. finb.
Qed.
Lemma append_element_fin : forall E o key d path v, fin (append_element E o key d path v).
Proof.
  intros. unfold append_element. destruct (rev path) as [|ls [|sg rp]]; auto.
  match goal with |- fin (if ?b then _ else _) => destruct b; auto end.
  match goal with |- fin (if ?b then _ else _) => destruct b; auto end.
  destruct (rev rp) as [|p0 ps]; [apply append_root_fin|].
  apply fin_bind; auto. intros [l|] _; [|apply create_element_fin].
  destruct (l_self l); [finb|]. apply fin_bind; [apply find_last_match_fin|]. intros p _. finb.
  match goal with |- fin (if ?b then _ else _) => destruct b; auto end.
Qed.
Lemma set_element_fin : forall E g o d path v, fin (set_element E g o d path v).
Proof.
  intros. unfold set_element. destruct path as [|sg path]; auto.
  destruct (value_to_xml g v) as [e|xv]; auto.
  destruct (MaxValueSize <? blen xv)%N; auto. destruct (MaxDocumentSize <? blen d)%N; auto.
  destruct (check_intents (sg :: path)); auto.
  - match goal with |- fin (if ?b then _ else _) => destruct b end.
    + apply fin_bind; auto. intros [l|] _; [|apply create_element_for_attr_fin].
      apply fin_bind; [|intros [?|?] _; auto]. unfold lift. apply fin_bind; [apply replace_attribute_fin|auto].
    + apply fin_bind; auto. intros [l|] _.
      * apply fin_bind; [|intros [?|?] _; auto]. unfold lift, replace_element. finb.
      * apply fin_bind; [apply create_element_fin|intros [?|?] _; auto].
  - apply fin_bind; [apply append_element_fin|intros [?|?] _; auto].
Qed.
Lemma delete_element_fin : forall E o d path, fin (delete_element E o d path).
Proof.
  intros. unfold delete_element. destruct path as [|sg path]; auto.
  destruct (MaxDocumentSize <? blen d)%N; auto.
  match goal with |- fin (if ?b then _ else _) => destruct b end.
  - destruct (removelast (sg :: path)) as [|e0 ep]; auto.
    apply fin_bind; auto. intros [l|] _; auto. unfold lift. apply fin_bind; [|auto].
    unfold delete_attribute. match goal with |- fin (if ?b then _ else _) => destruct b; auto end. finb.
  - apply fin_bind; auto. intros [l|] _; auto. finb.
Qed.
Lemma edit_of_fin : forall xml r, fin r -> fin (edit_of xml r).
Proof. intros. unfold edit_of. apply fin_bind; auto. Qed.
Lemma parse_path_opts_fin : forall o path, fin (parse_path_opts o path).
Proof. intros. unfold parse_path_opts. apply fin_bind; auto. Qed.
Lemma delete_opts_fin : forall E o xml path, fin (delete_opts E o xml path).
Proof.
  intros. unfold delete_opts. destruct (MaxDocumentSize <? blen xml)%N; auto.
  destruct (negb (valid xml)); auto. apply fin_bind; [apply parse_path_opts_fin|].
  intros [|sg segs] _; auto. apply edit_of_fin, delete_element_fin.
Qed.
Lemma set_opts_fin : forall E g o xml path v, fin (set_opts E g o xml path v).
Proof.
  intros. unfold set_opts. destruct (MaxDocumentSize <? blen xml)%N; auto.
  match goal with |- fin (if ?b then _ else _) => destruct b; auto end.
  destruct v; try apply delete_opts_fin;
    (apply fin_bind; [apply parse_path_opts_fin|]; intros [|sg segs] _; auto;
     apply edit_of_fin, set_element_fin).
Qed.
Lemma set_raw_fin : forall E g xml path raw, fin (set_raw E g xml path raw).
Proof. intros. unfold set_raw. destruct (validate_raw raw); auto. apply set_opts_fin. Qed.
Lemma set_many_fin : forall E g xml paths vs, fin (set_many E g xml paths vs).
Proof.
  intros. unfold set_many. destruct (MaxDocumentSize <? blen xml)%N; auto.
  match goal with |- fin (if ?b then _ else _) => destruct b; auto end.
  generalize xml at 2. generalize (combine paths vs). intros l. induction l as [|[p v] l IH]; intros x; simpl; auto.
  apply fin_bind; [apply set_opts_fin|]. intros [x' [e|]] _; simpl; auto.
Qed.
Lemma delete_many_fin : forall E xml paths, fin (delete_many E xml paths).
Proof.
  intros. unfold delete_many. destruct (MaxDocumentSize <? blen xml)%N; auto.
  generalize xml at 2. generalize (dedupe [] paths). intros l. induction l as [|p l IH]; intros x; simpl; auto.
  apply fin_bind; [apply delete_opts_fin|]. intros [x' [e|]] _; simpl; auto.
Qed.

(** ** Where a parse panics *)
Definition op_text (op : fop) : bytes :=
  match op with
  | OpEq => bs "==" | OpNe => bs "!=" | OpLt => bs "<" | OpGt => bs ">" | OpLe => bs "<="
  | OpGe => bs ">=" | OpMatch => bs "%" | OpNotMatch => bs "!%" | OpExists => []
  end.
Lemma two_op_text : forall a b op, two_op a b = Some op -> op_text op = [a; b].
Proof.
  intros a b op. unfold two_op.
  destruct (Ascii.eqb_spec b "="); [subst b|];
  repeat match goal with |- context [Ascii.eqb a ?x] => destruct (Ascii.eqb_spec a x); [subst a|] end;
  cbn [andb]; try discriminate; try (intros H; injection H; intros; subst; reflexivity).
  destruct (Ascii.eqb_spec b "%"); [subst b|discriminate]. intros H; injection H; intros; subst; reflexivity.
Qed.
Lemma one_op_text : forall a op, one_op a = Some op -> op_text op = [a].
Proof.
  intros a op. unfold one_op.
  repeat match goal with |- context [Ascii.eqb a ?x] => destruct (Ascii.eqb_spec a x); [subst a|] end;
  try discriminate; intros H; injection H; intros; subst; reflexivity.
Qed.
Lemma find_two_text : forall s p op q, find_two s = Some (p, op, q) -> s = p ++ op_text op ++ q.
Proof.
  induction s as [|a s IH]; intros p op q H; [discriminate|].
  cbn [find_two] in H. destruct s as [|b r]; [discriminate|].
  destruct (two_op a b) eqn:T.
  - injection H; intros; subst. apply two_op_text in T. rewrite T. auto.
  - destruct (find_two (b :: r)) as [[[p1 op1] q1]|]; [|discriminate].
    injection H; intros; subst. simpl. now rewrite (IH _ _ _ eq_refl).
Qed.
Lemma find_one_text : forall s p op q, find_one s = Some (p, op, q) -> s = p ++ op_text op ++ q.
Proof.
  induction s as [|a s IH]; intros p op q H; [discriminate|].
  cbn [find_one] in H. destruct (one_op a) eqn:T.
  - injection H; intros; subst. apply one_op_text in T. rewrite T. auto.
  - destruct (find_one s) as [[[p1 op1] q1]|]; [|discriminate].
    injection H; intros; subst. simpl. now rewrite (IH _ _ _ eq_refl).
Qed.
Lemma find_op_text : forall s p op q, find_op s = Some (p, op, q) -> s = p ++ op_text op ++ q.
Proof.
  unfold find_op; intros s p op q H. destruct (find_two s) eqn:E.
  - injection H; intros; subst. now apply find_two_text.
  - now apply find_one_text.
Qed.
Lemma bind_panic : forall A B (m : Res A) (f : A -> Res B), bind m f = Panic ->
  m = Panic \/ exists a, m = Ok a /\ f a = Panic.
Proof. intros A B [a| |] f H; simpl in *; eauto; discriminate. Qed.
Lemma unquote_panic : forall v, unquote v = Panic -> v = [] \/ v = [squote] \/ v = [dquote].
Proof.
  intros v. unfold unquote. destruct v as [|c [|d v]]; auto.
  - unfold quoted_with, has_suffix, has_prefix. cbn [rev app strip_prefix].
    destruct (Ascii.eqb_spec squote c); [subst; auto|].
    destruct (Ascii.eqb_spec dquote c); [subst; auto|]. cbn. intros H; discriminate H.
  - destruct (_ || _); intros H; discriminate H.
Qed.

(** A filter condition whose literal is one quote character. *)
Definition lone_quote (cond : bytes) : Prop :=
  exists lhs op rhs q, cond = lhs ++ op_text op ++ rhs /\ op <> OpExists /\
    (q = squote \/ q = dquote) /\ trim_space rhs = [q].
Lemma find_two_ops : forall s p op q, find_two s = Some (p, op, q) -> op <> OpExists.
Proof.
  induction s as [|a s IH]; intros p op q H; [discriminate|].
  cbn [find_two] in H. destruct s as [|b r]; [discriminate|].
  destruct (two_op a b) eqn:T.
  - injection H; intros; subst. apply two_op_text in T. intros ->. discriminate.
  - destruct (find_two (b :: r)) as [[[p1 op1] q1]|]; [|discriminate].
    injection H; intros; subst. eauto.
Qed.
Lemma find_one_ops : forall s p op q, find_one s = Some (p, op, q) -> op <> OpExists.
Proof.
  induction s as [|a s IH]; intros p op q H; [discriminate|].
  cbn [find_one] in H. destruct (one_op a) eqn:T.
  - injection H; intros; subst. apply one_op_text in T. intros ->. discriminate.
  - destruct (find_one s) as [[[p1 op1] q1]|]; [|discriminate].
    injection H; intros; subst. eauto.
Qed.
Lemma parse_filter_panic : forall e, parse_filter_condition e = Panic -> lone_quote (trim_space e).
Proof.
  intros e. unfold parse_filter_condition. destruct (MaxFilterExpressionLength <? blen e)%N; [discriminate|].
  destruct (mem nul e); [discriminate|]. destruct (trim_space e) as [|a e1]; [discriminate|].
  destruct (negb (contains_any op_chars (a :: e1))); [discriminate|].
  destruct (find_op (a :: e1)) as [[[p op] v]|] eqn:Fo; [|discriminate].
  destruct (contains_any ctl_chars p); [discriminate|]. destruct (trim_space p) as [|b p1]; [discriminate|].
  destruct (trim_space v) as [|d v1] eqn:Tv; [discriminate|].
  destruct (contains_any op_chars (b :: p1)); [discriminate|].
  intros H. apply bind_panic in H. destruct H as [H|[x [_ H]]].
  - apply unquote_panic in H. destruct H as [H|H]; [discriminate|].
    pose proof Fo as Fo2. apply find_op_text in Fo.
    assert (Ho : op <> OpExists).
    { unfold find_op in Fo2. destruct (find_two (a :: e1)) eqn:E2;
        [injection Fo2; intros; subst; eapply find_two_ops; eauto|eapply find_one_ops; eauto]. }
    destruct H as [H|H]; exists p, op, v; eexists; rewrite Tv; eauto.
  - destruct (contains_any ctl_chars x); discriminate.
Qed.

Lemma has_suffix_app : forall p s, has_suffix p s = true -> exists t, s = t ++ p.
Proof. intros p s H. now apply has_suffix_spec in H. Qed.

(** One step of a path is a filter with a lone quote, possibly followed by modifiers. *)
Definition lone_quote_step (part : bytes) : Prop :=
  exists cond tail, part = bs "#(" ++ cond ++ ")"%char :: tail /\ lone_quote (trim_space cond).
Lemma split_on_head : forall b s h t, split_on b s = (h, t) -> exists r, s = h ++ r.
Proof.
  induction s as [|c s IH]; simpl; intros h t H.
  - injection H; intros; subst. exists []; auto.
  - destruct (split_on b s) as [h1 t1]. destruct (IH _ _ eq_refl) as [r Hr].
    destruct (Ascii.eqb c b); injection H; intros; subst.
    + now exists (c :: h1 ++ r).
    + exists r. simpl. congruence.
Qed.
Lemma cut_suffix : forall pp body suf, pp = bs "#(" ++ body -> (exists t, pp = t ++ suf) ->
  2 < len pp - len suf -> body = firstn (len pp - len suf - 2) body ++ suf.
Proof.
  intros pp body suf H1 [t H2] H3. assert (len t = len pp - len suf) by (rewrite H2, app_length; lia).
  destruct t as [|a [|b t]]; cbn [List.length] in *; try lia.
  rewrite H2 in H1. injection H1; intros. subst body.
  replace (len pp - len suf - 2) with (len t) by lia.
  rewrite firstn_app, firstn_all, Nat.sub_diag. simpl. now rewrite app_nil_r.
Qed.
Lemma parse_part_panic : forall part, parse_part part = Panic -> lone_quote_step part.
Proof.
  intros part. unfold parse_part. destruct part as [|c0 part]; [discriminate|].
  unfold parse_modifiers. destruct (split_on "|" (c0 :: part)) as [pp mods] eqn:M.
  apply split_on_head in M. destruct M as [r M].
  destruct (strip_prefix (bs "#(") pp) as [body|] eqn:SP.
  - apply strip_prefix_spec in SP.
    set (cut := if has_suffix (bs ")#") pp then Some (true, len pp - 2)
                else if has_suffix (bs ")") pp then Some (false, len pp - 1) else None).
    assert (Hc : match cut with Some (_, e) => 2 < e -> exists c2 t2, firstn (e - 2) body = c2 /\ pp = bs "#(" ++ c2 ++ ")"%char :: t2
                 | None => True end).
    { unfold cut. destruct (has_suffix (bs ")#") pp) eqn:S1.
      - intros He. apply has_suffix_app in S1. eexists. exists (bs "#"). split; [reflexivity|].
        pose proof (cut_suffix _ _ _ SP S1 He) as K. etransitivity; [exact SP|]. f_equal. exact K.
      - destruct (has_suffix (bs ")") pp) eqn:S2; auto.
        intros He. apply has_suffix_app in S2. eexists. exists []. split; [reflexivity|].
        pose proof (cut_suffix _ _ _ SP S2 He) as K. etransitivity; [exact SP|]. f_equal. exact K. }
    destruct cut as [[all endidx]|]; [|discriminate].
    destruct (Nat.leb_spec endidx 2) as [|Hgt]; [discriminate|].
    destruct (Hc Hgt) as [c2 [t2 [E1 E2]]]. rewrite E1. intros H.
    apply bind_panic in H. destruct H as [H|[f [_ H]]]; [|destruct f; discriminate].
    apply parse_filter_panic in H. exists c2, (t2 ++ r). split; auto.
    rewrite M, E2. rewrite <- !app_assoc. reflexivity.
  - destruct pp as [|c pp]; [discriminate|].
    repeat match goal with |- context [if ?b then _ else _] => destruct b end; discriminate.
Qed.
Lemma parse_parts_panic : forall l, parse_parts l = Panic -> exists x, In x l /\ lone_quote_step x.
Proof.
  induction l as [|x l IH]; simpl; intros H; [discriminate|].
  apply bind_panic in H. destruct H as [H|[o [_ H]]].
  - apply parse_part_panic in H. eauto.
  - assert (K : parse_parts l = Panic).
    { destruct o; [auto|discriminate|]. apply bind_panic in H. destruct H as [H|[r [_ H]]]; auto.
      destruct r; discriminate. }
    destruct (IH K) as [y [Hy1 Hy2]]. eauto.
Qed.
Lemma parse_path_panic : forall path, parse_path path = Panic ->
  exists x, In x (split_path path) /\ lone_quote_step x.
Proof.
  intros [|c path] H; [discriminate|]. unfold parse_path in H. apply bind_panic in H.
  destruct H as [H|[r [_ H]]]; [|destruct r; discriminate].
  unfold parse_path_internal in H. destruct (Nat.ltb MaxPathSegments (len (split_path (c :: path)))); [discriminate|].
  apply bind_panic in H. destruct H as [H|[r [_ H]]]; [|destruct r; discriminate].
  now apply parse_parts_panic.
Qed.
Lemma lone_quote_step_in : forall x, lone_quote_step x -> exists q, (q = squote \/ q = dquote) /\ In q x.
Proof.
  intros x [cond [tail [-> [lhs [op [rhs [q [H1 [_ [H2 H3]]]]]]]]]]. exists q. split; auto.
  assert (In q cond).
  { apply trim_space_in. rewrite H1. rewrite !in_app_iff. right; right. apply trim_space_in. rewrite H3. now left. }
  rewrite !in_app_iff. auto.
Qed.
Lemma parse_path_no_quote : forall path, ~ In squote path -> ~ In dquote path -> parse_path path <> Panic.
Proof.
  intros path H1 H2 H. apply parse_path_panic in H. destruct H as [x [Hx H]].
  apply lone_quote_step_in in H. destruct H as [q [[-> | ->] Hq]].
  - apply H1. eapply split_path_in; eauto.
  - apply H2. eapply split_path_in; eauto.
Qed.
