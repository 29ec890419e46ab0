(** Bounds on the number of results under options. *)
From Coq Require Import List Ascii String NArith ZArith Bool Lia Permutation.
From Verif Require Import GoStr ModelParser ModelPath ModelResult ModelQuery ModelBuilder ModelQueryOpts SpecText SpecPath SpecTree SpecQuery SpecBound
  SpecScan ProofBase ProofScan ProofPath ProofSyntax ProofFuel ProofBound ProofSight3.
Import ListNotations.

(** ** A tag has at most one hundred attributes. *)
Lemma attributes_len : forall k s l r, attributes k s l r -> len l <= k.
Proof. induction 1; cbn [List.length]; lia. Qed.
Lemma settled_len : forall l m, settled l m -> len m <= len l.
Proof.
  intros l m [N H]. rewrite <- (map_length fst m), <- (map_length fst l). apply NoDup_incl_length; auto.
  intros x X. apply in_map_iff in X. destruct X as [[y v] [<- X]]. apply H in X. destruct X as [a [b [-> _]]].
  rewrite map_app. apply in_or_app. right. now left.
Qed.
Lemma tag_len : forall s n m self gt r, tag s n m self gt r -> len m <= 100.
Proof. intros s n m self gt r H. inversion H; subst. apply attributes_len in H1. apply settled_len in H2. lia. Qed.
Definition modest (e : elem) : Prop := len (e_attrs e) <= 100.
Lemma sees_modest : forall s l, sees s l -> Forall modest l.
Proof. induction 1; constructor; auto; unfold modest; cbn [e_attrs]; eapply tag_len; eauto. Qed.

Definition spread (cs : bool) : N := if cs then 1 else 100.
Lemma spread_pos : forall cs, (1 <= spread cs)%N. Proof. destruct cs; cbn; lia. Qed.

Section Bound.
  Variable E : env.
  Hypothesis Ho : forall k l, Permutation l (e_ord E k l).
  Variable cs : bool.
  Variables plain rec : qrec.
  Let c := spread cs.
  Hypothesis Hrec : forall k root s segs r, bare segs -> rec k root s segs = Ok r -> fits (c * width segs) r.
  Lemma c_pos : (1 <= c)%N. Proof. apply spread_pos. Qed.

  Lemma lookup_few : forall key name e, few 1 (map r_attribute (opt_list (attr_lookup E cs key name e))).
  Proof. intros key name e. destruct (attr_lookup E cs key name e); split; cbn; try lia; repeat constructor. discriminate. Qed.
  Lemma all_few : forall key name e, modest e -> few c (map r_attribute (attr_lookup_all E cs key name e)).
  Proof.
    intros key name e M. split; [|apply Forall_map; apply Forall_forall; discriminate]. rewrite map_length. unfold attr_lookup_all, c, spread. destruct cs.
    - destruct (map_get name (e_attrs e)); cbn; lia.
    - rewrite map_length. unfold modest in M. rewrite (Permutation_length (Ho (child_key site_attr e key) (e_attrs e))) in M.
      assert (K : forall (f : bytes * bytes -> bool) l, len (filter f l) <= len l) by (clear; intros f; induction l as [|x l IH]; cbn [filter List.length]; [lia|]; destruct (f x); cbn [List.length]; lia).
      specialize (K (fun a => bytes_eqb (to_lower_ascii (fst a)) name) (e_ord E (child_key site_attr e key) (e_attrs e))). lia.
  Qed.
  Lemma flat_few : forall w (f : elem -> list result) l, Forall modest l -> (forall e, modest e -> few w (f e)) -> few (N.of_nat (len l) * w) (flat_map f l).
  Proof.
    intros w f l M H. induction M as [|x l X M IH]; [split; [cbn; lia|constructor]|]. cbn [flat_map List.length].
    replace (N.of_nat (S (len l)) * w)%N with (w + N.of_nat (len l) * w)%N by lia. apply few_app; auto.
  Qed.
  Lemma field_children_single : forall key f l rs, field_children_opts E cs key f l = Ok rs -> Forall single rs.
  Proof.
    intros key f. induction l as [|e l IH]; intros rs H; cbn [field_children_opts] in H; [injection H as <-; constructor|].
    apply bind_ok in H. destruct H as [es [_ H]]. apply bind_ok in H. destruct H as [r [H1 H]]. injection H as <-.
    apply Forall_app. split; auto. apply Forall_map. apply Forall_forall. intros; discriminate.
  Qed.
  Lemma field_bound : forall key l sg r, s_mods sg = [] -> field_extract_opts E cs key l sg = Ok r -> fits 1000 r.
  Proof.
    intros key l sg r Hm H. unfold field_extract_opts in H. destruct (s_field sg) as [|d name] eqn:F.
    - injection H as <-. apply fits_one; [discriminate|lia].
    - apply bind_ok in H. destruct H as [all [H1 H2]].
      assert (S : Forall single all).
      { destruct (Ascii.eqb d "@"); [|destruct (bytes_eqb (d :: name) (bs "%"))].
        - injection H1 as <-. apply Forall_flat_map. apply Forall_forall. intros e _. apply lookup_few.
        - injection H1 as <-. apply Forall_flat_map. apply Forall_forall. intros e _. destruct (extract_direct (e_content e)); repeat constructor. discriminate.
        - eapply field_children_single; eauto. }
      assert (FW : few 1000 (firstn MaxWildcardResults all)).
      { apply few_le with (N.min (N.of_nat (len all)) (N.of_nat MaxWildcardResults)); [apply few_firstn; split; auto; lia|]. unfold MaxWildcardResults. lia. }
      rewrite Hm in H2. change (apply_modifiers E (r_array (firstn MaxWildcardResults all)) []) with (r_array (firstn MaxWildcardResults all)) in H2.
      destruct (firstn MaxWildcardResults all); injection H2 as <-; now apply fits_array.
  Qed.
  Lemma process_first_bound : forall key e sg rest r, bare (sg :: rest) -> process_first_opts E cs rec key e sg rest = Ok r -> fits (c * width rest) r.
  Proof.
    intros key e sg rest r B H. inversion B as [|? ? B1 B2]; subst. unfold process_first_opts in H. pose proof (width_pos rest) as L. pose proof c_pos as C.
    assert (L1 : (1 <= c * width rest)%N) by nia.
    destruct rest as [|nx more].
    - injection H as <-. rewrite B1. apply fits_one; auto. discriminate.
    - inversion B2 as [|? ? B3 B4]; subst. rewrite B3 in H. destruct (s_type nx) eqn:T; try (eapply Hrec; eauto; fail).
      + destruct (attr_lookup E cs key (s_value nx) e); injection H as <-; apply fits_one; auto; discriminate.
      + injection H as <-. apply fits_one; auto. discriminate.
      + apply field_bound in H; auto. eapply fits_le; eauto. cbn [width]. unfold multi. rewrite T. pose proof (width_pos more). nia.
  Qed.
  Lemma query_each_bound : forall key l rest rs, bare rest -> query_each rec key l rest = Ok rs -> few (N.of_nat (len l) * (c * width rest)) rs.
  Proof.
    intros key l rest rs B. revert rs. induction l as [|e l IH]; intros rs H; cbn [query_each] in H.
    - injection H as <-. split; [cbn; lia|constructor].
    - apply bind_ok in H. destruct H as [r [H1 H]]. apply bind_ok in H. destruct H as [rs' [H2 H]]. injection H as <-.
      apply few_le with (c * width rest + N.of_nat (len l) * (c * width rest))%N; [|cbn [List.length]; lia]. apply few_app; auto. apply fits_flat. eapply Hrec; eauto.
  Qed.
  Lemma process_all_bound : forall key l sg rest r, bare (sg :: rest) -> len l <= 1000 -> Forall modest l -> process_all_opts E cs rec key l sg rest = Ok r -> fits (c * (1000 * width rest)) r.
  Proof.
    intros key l sg rest r B Hl M H. inversion B as [|? ? B1 B2]; subst. unfold process_all_opts in H. pose proof (width_pos rest) as L. pose proof c_pos as C.
    destruct rest as [|nx more].
    - injection H as <-. rewrite B1. change (apply_modifiers E ?x []) with x. apply fits_array.
      eapply few_le; [apply few_map; discriminate|]. cbn [width] in *. lia.
    - inversion B2 as [|? ? B3 B4]; subst. destruct (s_type nx) eqn:T;
        try (apply bind_ok in H; destruct H as [all [H1 H]]; refine (finish_bound E _ _ _ _ B3 _ _ H);
             [eapply few_le; [exact (query_each_bound _ _ _ _ B2 H1)|]; nia|nia]; fail).
      + refine (finish_bound E _ _ _ _ B3 _ _ H); [|nia]. eapply few_le; [apply (flat_few c); [exact M|intros; now apply all_few]|nia].
      + refine (finish_bound E _ _ _ _ B3 _ _ H); [|nia]. eapply few_le; [apply few_map; discriminate|nia].
      + apply field_bound in H; auto. eapply fits_le; eauto. nia.
  Qed.
  Lemma route_bound : forall key l sg rest r, bare (sg :: rest) -> s_type sg = SFilter -> len l <= 1000 -> Forall modest l ->
    route_matches_opts E cs rec key l sg rest = Ok r -> fits (c * width (sg :: rest)) r.
  Proof.
    intros key l sg rest r B T Hl M H. unfold route_matches_opts in H. cbn [width]. unfold multi. rewrite T. pose proof (width_pos rest) as L. pose proof c_pos as C.
    destruct l as [|e l]; [injection H as <-; apply fits_one; [discriminate|destruct (s_all sg); nia]|].
    destruct (s_all sg).
    - eapply process_all_bound; eauto.
    - apply process_first_bound in H; auto. eapply fits_le; eauto. nia.
  Qed.
  Lemma wildcard_bound : forall key l rest r, bare rest -> len l <= 1000 -> Forall modest l -> handle_wildcard_opts E cs rec key l rest = Ok r -> fits (c * (1000 * width rest)) r.
  Proof.
    intros key l rest r B Hl M H. unfold handle_wildcard_opts in H. pose proof (width_pos rest) as L. pose proof c_pos as C. destruct rest as [|nx more].
    - injection H as <-. apply fits_package; [|cbn [width]; lia]. eapply few_le; [apply few_map; discriminate|]. cbn [width] in *. lia.
    - inversion B as [|? ? B3 B4]; subst. destruct (s_type nx) eqn:T;
        try (apply bind_ok in H; destruct H as [p [H1 H]]; refine (finish_bound E _ _ _ _ B3 _ _ H);
             [eapply few_le; [exact (query_each_bound _ _ _ _ B H1)|]; nia|nia]; fail).
      + refine (finish_bound E _ _ _ _ B3 _ _ H); [|nia]. destruct more; [eapply few_le; [apply (flat_few c); [exact M|intros; now apply all_few]|nia]|split; [cbn; lia|constructor]].
      + refine (finish_bound E _ _ _ _ B3 _ _ H); [|nia]. eapply few_le; [apply few_map; discriminate|nia].
  Qed.
  Lemma search_add_bound : forall key e rest add, bare rest -> modest e -> search_add_opts E cs rec key e rest = Ok add -> few (c * width rest) add.
  Proof.
    intros key e rest add B M H. unfold search_add_opts in H. pose proof (width_pos rest) as L. pose proof c_pos as C. destruct rest as [|nx more].
    - injection H as <-. split; [cbn [List.length]; nia|]. repeat constructor. discriminate.
    - inversion B as [|? ? B3 B4]; subst. destruct (s_type nx) eqn:T;
        try (apply bind_ok in H; destruct H as [r [H1 H]]; injection H as <-; apply fits_flat; eapply Hrec; eauto; fail).
      + injection H as <-. destruct more; [eapply few_le; [now apply all_few|nia]|split; [cbn [List.length]; nia|constructor]].
      + injection H as <-. split; [cbn [List.length]; nia|]. repeat constructor. discriminate.
  Qed.
  Lemma rsearch_bound : forall n key target rest st s st', bare rest -> few (999 + c * width rest) (snd st) ->
    rsearch_opts E cs rec n key target rest st s = Ok st' -> few (999 + c * width rest) (snd st').
  Proof.
    induction n as [|n IH]; intros key target rest st s st' B F H; cbn [rsearch_opts] in H.
    - injection H as <-. exact F.
    - match type of H with (if ?b then _ else _) = _ => destruct b; [injection H as <-; exact F|] end.
      apply bind_ok in H. destruct H as [es [S0 H]]. apply scan_sees in S0; [|exact Ho]. apply sees_modest in S0.
      assert (F0 : few (999 + c * width rest) (snd ((fst st + 1)%N, snd st))) by exact F.
      revert F0 H. generalize ((fst st + 1)%N, snd st). clear F st. induction S0 as [|e es M S0 IHes]; intros st F H; [injection H as <-; exact F|].
      apply bind_ok in H. destruct H as [st1 [H1 H]].
      assert (F1 : few (999 + c * width rest) (snd st1)). { destruct (e_content e); [injection H1 as <-; exact F|]. eapply IH; eauto. }
      destruct (MaxRecursiveOperations <=? fst st1)%N; [injection H as <-; exact F1|].
      destruct (seg_matches_opts cs target (e_name e)); [|eauto].
      destruct (Nat.leb MaxWildcardResults (len (snd st1))) eqn:Q; [injection H as <-; exact F1|].
      apply bind_ok in H. destruct H as [add [H2 H]]. apply search_add_bound in H2; auto. eapply IHes; [|exact H]. cbn [snd].
      apply Nat.leb_gt in Q. unfold MaxWildcardResults in Q. apply few_app; auto. destruct F1 as [_ F1]. split; auto. lia.
  Qed.
  Lemma recursive_bound : forall key rest s r, bare rest -> handle_recursive_opts E cs rec key rest s = Ok r -> fits (c * (1000 * width rest)) r.
  Proof.
    intros key rest s r B H. unfold handle_recursive_opts in H. pose proof (width_pos rest) as L. pose proof c_pos as C. destruct rest as [|target rest].
    - injection H as <-. apply fits_one; [discriminate|nia].
    - inversion B as [|? ? B1 B2]; subst. apply bind_ok in H. destruct H as [st [H1 H]]. pose proof (width_pos rest) as L2.
      apply rsearch_bound in H1; auto; [|split; [cbn [List.length snd]; lia|constructor]].
      assert (W : (999 + c * width rest <= c * (1000 * width (target :: rest)))%N) by (cbn [width]; destruct (multi target); nia).
      eapply few_le in H1; [|exact W]. apply fits_package in H1; [|nia]. destruct (snd st) as [|x l]; injection H as <-; [apply fits_one; [discriminate|nia]|exact H1].
  Qed.
  Lemma root_array_bound : forall key l nx more r, bare (nx :: more) -> In (s_type nx) [SIndex; SCount; SField] -> root_array_opts E cs rec key l nx more = Ok r -> fits (c * width (nx :: more)) r.
  Proof.
    intros key l nx more r B T H. inversion B as [|? ? B1 B2]; subst. pose proof (width_pos (nx :: more)) as L. pose proof (width_pos more) as L2. pose proof c_pos as C. unfold root_array_opts in H.
    assert (L1 : (1 <= c * width (nx :: more))%N) by nia.
    assert (LW : (c * width more <= c * width (nx :: more))%N) by (cbn [width]; destruct (multi nx); nia).
    destruct l as [|e l]; [injection H as <-; apply fits_one; auto; discriminate|].
    cbn [In] in T. destruct T as [T|[T|[T|[]]]]; rewrite <- T in H.
    - destruct (nth_elem (e :: l) (s_index nx)) as [e'|]; [|injection H as <-; apply fits_one; auto; discriminate].
      destruct more as [|n2 more]; [injection H as <-; apply fits_one; auto; discriminate|].
      destruct (s_type n2); try (eapply fits_le; [eapply Hrec; eauto|]; auto; fail).
      + destruct (map_get (s_value n2) (e_attrs e')); injection H as <-; apply fits_one; auto; discriminate.
      + injection H as <-; apply fits_one; auto; discriminate.
    - injection H as <-. apply fits_one; auto; discriminate.
    - apply field_bound in H; auto. eapply fits_le; eauto. cbn [width]. unfold multi. rewrite <- T. nia.
  Qed.
  Lemma array_op_bound : forall key l nx more r, bare (nx :: more) -> array_op_opts E cs rec key l nx more = Ok r -> fits (c * width (nx :: more)) r.
  Proof.
    intros key l nx more r B H. inversion B as [|? ? B1 B2]; subst. pose proof (width_pos (nx :: more)) as L. pose proof (width_pos more) as L2. pose proof c_pos as C. unfold array_op_opts in H.
    assert (L1 : (1 <= c * width (nx :: more))%N) by nia.
    assert (LW : (c * width more <= c * width (nx :: more))%N) by (cbn [width]; destruct (multi nx); nia).
    destruct l as [|e l]; [injection H as <-; apply fits_one; auto; discriminate|].
    destruct (s_type nx); try (injection H as <-; apply fits_one; auto; discriminate).
    destruct (nth_elem (e :: l) (s_index nx)) as [e'|]; [|injection H as <-; apply fits_one; auto; discriminate].
    destruct more as [|n2 more]; [injection H as <-; apply fits_one; auto; discriminate|].
    destruct (s_type n2); try (eapply fits_le; [eapply Hrec; eauto|]; auto; fail).
    destruct (attr_lookup E cs key (s_value n2) e'); injection H as <-; apply fits_one; auto; discriminate.
  Qed.
  Lemma first_loop_bound : forall key l sg rest r, bare (sg :: rest) -> first_loop_opts E cs rec key l sg rest = Ok r -> fits (c * width rest) r.
  Proof.
    intros key l sg rest r B. inversion B as [|? ? B1 B2]; subst. pose proof (width_pos rest) as L. pose proof c_pos as C.
    assert (L1 : (1 <= c * width rest)%N) by nia. induction l as [|e l IH]; intros H; cbn [first_loop_opts] in H.
    - injection H as <-. apply fits_one; auto. discriminate.
    - destruct rest as [|nx more]; [injection H as <-; apply fits_one; auto; discriminate|].
      destruct (s_type nx); try (apply bind_ok in H; destruct H as [r' [H1 H]]; destruct (is_null r'); [auto|injection H as <-; eapply Hrec; eauto; fail]).
      + destruct (attr_lookup E cs key (s_value nx) e), more; injection H as <-; apply fits_one; auto; discriminate.
      + injection H as <-. apply fits_one; auto. discriminate.
  Qed.
  Lemma filter_elems_modest : forall key f l l', Forall modest l -> filter_elems E plain key f l = Ok l' -> Forall modest l'.
  Proof.
    intros key f l l' M. revert l'. induction M as [|e l X M IH]; intros l' H; cbn [filter_elems] in H; [injection H as <-; constructor|].
    apply bind_ok in H. destruct H as [b [_ H]]. apply bind_ok in H. destruct H as [l2 [H1 H]]. injection H as <-. apply IH in H1. destruct b; auto.
  Qed.
  Lemma filter_upto_modest : forall n key f l l', Forall modest l -> filter_elems_upto n E plain key f l = Ok l' -> Forall modest l'.
  Proof.
    intros n key f l l' M. revert n l'. induction M as [|e l X M IH]; intros n l' H; cbn [filter_elems_upto] in H; [injection H as <-; constructor|].
    apply bind_ok in H. destruct H as [b [_ H]]. destruct b; [|eauto]. destruct n as [|[|n]];
      try (apply bind_ok in H; destruct H as [l2 [H1 H]]; injection H as <-; constructor; [exact X|eauto]; fail); injection H as <-; (constructor; [exact X|constructor]).
  Qed.
  Lemma firstn_modest : forall n l, Forall modest l -> Forall modest (firstn n l).
  Proof. intros n l M. revert n. induction M; intros [|n]; cbn [firstn]; constructor; auto. Qed.
  Lemma filter_modest : forall f l, Forall modest l -> Forall modest (filter f l).
  Proof. intros f l M. induction M as [|x l X M IH]; cbn [filter]; [constructor|]. destruct (f x); auto. Qed.
  Lemma exec_element_bound : forall key es sg rest r, bare (sg :: rest) -> Forall modest es -> exec_element_opts E cs plain rec key es sg rest = Ok r -> fits (c * width rest) r.
  Proof.
    intros key es sg rest r B M H. inversion B as [|? ? B1 B2]; subst. unfold exec_element_opts in H. destruct rest as [|nx more]; [eapply first_loop_bound; eauto|].
    inversion B2 as [|? ? B3 B4]; subst. pose proof (width_pos more) as L. pose proof c_pos as C.
    destruct (s_type nx) eqn:T; try (eapply first_loop_bound; eauto; fail); try (eapply array_op_bound; eauto; fail).
    - apply bind_ok in H. destruct H as [l [H1 H]]. pose proof (filter_elems_len _ _ _ _ _ _ H1) as Q.
      eapply filter_elems_modest in H1; [|apply firstn_modest; apply filter_modest; exact M]. eapply route_bound in H; eauto.
      match type of Q with _ <= len (firstn ?n ?x) => pose proof (firstn_le_length n x) end. unfold MaxWildcardResults in *. lia.
    - apply field_bound in H; auto. eapply fits_le; eauto. cbn [width]. unfold multi. rewrite T. nia.
  Qed.
  Lemma exec_body_bound : forall key root s segs r, bare segs -> exec_body_opts E cs plain rec key root s segs = Ok r -> fits (c * width segs) r.
  Proof.
    intros key root s segs r B H. unfold exec_body_opts in H. pose proof c_pos as C. destruct segs as [|sg rest]; [injection H as <-; apply fits_one; [discriminate|cbn [width]; lia]|].
    inversion B as [|? ? B1 B2]; subst. apply bind_ok in H. destruct H as [es [S0 H]]. apply scan_sees in S0; [|exact Ho]. apply sees_modest in S0.
    pose proof (width_pos rest) as L. pose proof (width_pos (sg :: rest)) as L2. assert (L1 : (1 <= c * width (sg :: rest))%N) by nia.
    assert (LW : (c * width rest <= c * width (sg :: rest))%N) by (cbn [width]; destruct (multi sg); nia).
    destruct (s_type sg) eqn:T; try (injection H as <-; apply fits_one; auto; discriminate).
    - assert (X : forall r, exec_element_opts E cs plain rec key es sg rest = Ok r -> fits (c * width (sg :: rest)) r).
      { intros r0 K. eapply fits_le; [eapply exec_element_bound; eauto|auto]. }
      destruct (root && cs); [|auto]. destruct rest as [|nx more]; [auto|].
      destruct (s_type nx) eqn:T2; auto; (eapply fits_le; [eapply root_array_bound; [exact B2| |exact H]|auto]); rewrite T2; cbn; auto.
    - assert (W : width (sg :: rest) = (1000 * width rest)%N) by (cbn [width]; unfold multi; now rewrite T). rewrite W in *.
      destruct (s_wild sg).
      + eapply recursive_bound; eauto.
      + pose proof (firstn_le_length MaxWildcardResults es) as FL. pose proof (firstn_modest MaxWildcardResults es S0) as FM.
        destruct (firstn MaxWildcardResults es) as [|e0 l]; [injection H as <-; apply fits_one; auto; discriminate|].
        eapply wildcard_bound; eauto.
    - apply bind_ok in H. destruct H as [l [H1 H]]. pose proof (filter_upto_modest _ _ _ _ _ S0 H1) as FM. unfold MaxWildcardResults in H1. apply filter_upto_len in H1. eapply route_bound in H; eauto.
    - injection H as <-. apply fits_array. split; [cbn [List.length]; lia|constructor].
  Qed.
End Bound.
Lemma exec_opts_bound : forall E cs, (forall k l, Permutation l (e_ord E k l)) -> forall fuel key root s segs r, bare segs ->
  exec_opts E cs fuel key root s segs = Ok r -> fits (spread cs * width segs) r.
Proof.
  intros E cs Ho. induction fuel as [|f IH]; intros key root s segs r B H; [discriminate|]. cbn [exec_opts] in H. eapply exec_body_bound; eauto.
Qed.
Lemma lower_bare : forall segs, bare segs -> bare (map lower_seg segs) /\ width (map lower_seg segs) = width segs.
Proof.
  induction 1 as [|sg segs M B [IH1 IH2]]; [split; [constructor|reflexivity]|]. cbn [map width]. rewrite IH2. split.
  - constructor; auto. unfold lower_seg. destruct (s_type sg); auto.
  - f_equal. unfold multi, lower_seg. destruct (s_type sg) eqn:T; cbn [s_type]; rewrite ?T; reflexivity.
Qed.
Lemma parsed_bound : forall parts segs, Forall (fun p => ~ In "|"%char p) parts -> parse_path (path_text parts) = Ok segs ->
  bare segs /\ (width segs <= power parts)%N.
Proof.
  intros parts segs Hb P. unfold parse_path in P.
  assert (Hpos : (1 <= power parts)%N) by (clear; induction parts as [|p parts IH]; [cbn; lia|]; rewrite power_cons; destruct (multiplies p); lia).
  assert (N0 : bare [] /\ (width [] <= power parts)%N) by (split; [constructor|cbn; lia]).
  destruct (path_text parts) eqn:Q; [injection P as <-; auto|]. rewrite <- Q in *.
  assert (R1 : parts <> []) by (intros ->; discriminate). assert (R2 : parts <> [[]]) by (intros ->; discriminate).
  apply bind_ok in P. destruct P as [o [P1 P]]. unfold parse_path_internal in P1. rewrite split_path_path_text in P1 by auto.
  match type of P1 with (if ?b then _ else _) = _ => destruct b end; [inversion P1; subst o; inversion P; subst segs; auto|].
  apply bind_ok in P1. destruct P1 as [ss [P1 P2]]. destruct ss as [ss|]; [|inversion P2; subst o; inversion P; subst segs; auto].
  inversion P2; subst o. inversion P; subst segs. destruct (parts_bound _ _ Hb P1) as [K1 K2]. destruct (merge_bound _ ss (le_n _) K1) as [K3 K4]. split; auto. lia.
Qed.
Lemma path_bound_opts : forall E o xml parts r, (forall k l, Permutation l (e_ord E k l)) -> Forall (fun p => ~ In "|"%char p) parts ->
  get_opts E o xml (path_text parts) = Ok r -> fits (spread (o_case o) * power parts) r.
Proof.
  intros E o xml parts r Ho Hb H. pose proof (spread_pos (o_case o)) as C.
  assert (Hpos : (1 <= power parts)%N) by (clear; induction parts as [|p parts IH]; [cbn; lia|]; rewrite power_cons; destruct (multiplies p); lia).
  unfold get_opts in H. destruct (MaxDocumentSize <? blen xml)%N; [injection H as <-; apply fits_one; [discriminate|nia]|].
  destruct (is_default_options o) eqn:D.
  - apply bind_ok in H. destruct H as [segs [P H]]. destruct (parsed_bound _ _ Hb P) as [K1 K2]. destruct segs; [injection H as <-; apply fits_one; [discriminate|nia]|].
    eapply fits_le; [eapply exec_bound; eauto|]. nia.
  - apply bind_ok in H. destruct H as [segs' [P' H]]. unfold parse_path_opts in P'. apply bind_ok in P'. destruct P' as [segs [P P']]. destruct (parsed_bound _ _ Hb P) as [K1 K2].
    assert (K : bare segs' /\ width segs' = width segs).
    { injection P' as <-. destruct (o_case o); [auto|now apply lower_bare]. }
    destruct K as [K3 K4]. destruct segs'; [injection H as <-; apply fits_one; [discriminate|nia]|].
    eapply fits_le; [eapply exec_opts_bound; eauto|]. rewrite K4. nia.
Qed.
