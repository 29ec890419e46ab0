(** A query depends on the registry only through the modifiers its path names. *)
From Coq Require Import List Ascii String NArith ZArith Bool Lia SpecFloat.
From Verif Require Import GoStr ModelParser ModelPath ModelResult ModelQuery ModelBuilder ModelQueryOpts ProofBase.
Import ListNotations.

Section Name.
  Variable E : env.
  Variable c' : bytes -> option (result -> result).
  Variable P : bytes -> Prop.
  Hypothesis same : forall n, P n -> e_custom E n = c' n.
  Let E' := mkEnv (e_ord E) (e_parse_float E) (e_sort E) (e_codec E) (e_to_lower E) c'.

  Lemma loop_same : forall ms r, Forall P ms -> apply_loop E r ms = apply_loop E' r ms.
  Proof.
    induction ms as [|n ms IH]; intros r H; cbn [apply_loop]; auto. inversion H; subst.
    assert (G : get_modifier E n = get_modifier E' n).
    { unfold get_modifier. change (builtin E' n) with (builtin E n). destruct (builtin E n); auto. }
    rewrite G. destruct (get_modifier E' n); auto. cbv zeta. destruct (is_null (r0 r)); auto.
  Qed.
  Lemma mods_same : forall ms r, Forall P ms -> apply_modifiers E r ms = apply_modifiers E' r ms.
  Proof. intros ms r H. unfold apply_modifiers. destruct (Nat.ltb _ _); auto. now apply loop_same. Qed.

  Definition seg_named (s : seg) : Prop := Forall P (s_mods s) /\ forall f, s_filter s = Some f -> ~ In "|"%char (f_path f).
  (** What parsing a path without a bar gives. *)
  Hypothesis plain_paths : forall path l, ~ In "|"%char path -> parse_path path = Ok l -> Forall seg_named l.

  Definition agree (r1 r2 : qrec) : Prop := forall key root s segs, Forall seg_named segs -> r1 key root s segs = r2 key root s segs.

  Ltac case_on := match goal with
    | |- context [match ?x with _ => _ end] => destruct x eqn:?
    end.
  Lemma filter_same : forall r1 r2 key f e, agree r1 r2 -> (forall g, f = Some g -> ~ In "|"%char (f_path g)) ->
    eval_filter_opt E r1 key f e = eval_filter_opt E' r2 key f e.
  Proof.
    intros r1 r2 key f e A H. destruct f as [f|]; auto. specialize (H f eq_refl). cbn [eval_filter_opt]. unfold eval_filter.
    assert (Q : forall k c, (let* segs := parse_path (f_path f) in let* r := r1 k true c segs in Ok (filter_decide E (f_op f) (r_exists r) (r_string r) (f_value f))) =
      (let* segs := parse_path (f_path f) in let* r := r2 k true c segs in Ok (filter_decide E' (f_op f) (r_exists r) (r_string r) (f_value f)))).
    { intros k c. destruct (parse_path (f_path f)) as [segs| |] eqn:PP; auto. cbn [bind]. rewrite A by (eapply plain_paths; eauto). reflexivity. }
    rewrite Q. destruct (f_path f); auto.
  Qed.
  Lemma filter_elems_same : forall r1 r2 key f l, agree r1 r2 -> (forall g, f = Some g -> ~ In "|"%char (f_path g)) ->
    filter_elems E r1 key f l = filter_elems E' r2 key f l.
  Proof. intros r1 r2 key f l A H. induction l as [|e l IH]; cbn [filter_elems]; auto. rewrite (filter_same r1 r2), IH; auto. Qed.
  Lemma filter_upto_same : forall r1 r2 key f l n, agree r1 r2 -> (forall g, f = Some g -> ~ In "|"%char (f_path g)) ->
    filter_elems_upto n E r1 key f l = filter_elems_upto n E' r2 key f l.
  Proof.
    intros r1 r2 key f l n A H. revert n. induction l as [|e l IH]; intros n; cbn [filter_elems_upto]; auto. rewrite (filter_same r1 r2) by auto.
    destruct (eval_filter_opt E' r2 key f e) as [b| |]; auto. cbn [bind]. destruct b; auto. destruct n as [|[|n]]; auto. now rewrite IH.
  Qed.
  Lemma children_same : forall key f l, field_children E key f l = field_children E' key f l.
  Proof. intros key f l. induction l as [|e l IH]; cbn [field_children]; auto. change (scan_res E') with (scan_res E). now rewrite IH. Qed.
  Lemma extract_same : forall key l sg, Forall P (s_mods sg) -> field_extract E key l sg = field_extract E' key l sg.
  Proof.
    intros key l sg H. unfold field_extract. destruct (s_field sg) as [|c name]; auto. rewrite children_same.
    match goal with |- bind ?x _ = bind ?x _ => destruct x as [a| |]; auto end. cbn [bind]. destruct (firstn _ a); auto. now rewrite mods_same.
  Qed.

  Section Rec.
    Variable r1 r2 : qrec.
    Hypothesis A : agree r1 r2.
    Ltac fa := repeat match goal with
      | H : Forall seg_named (_ :: _) |- _ => inversion H; clear H; subst
      | H : seg_named _ |- _ => let a := fresh "Hm" in let b := fresh "Hf" in destruct H as [a b]
      end.
    Lemma first_same : forall key e sg rest, Forall seg_named (sg :: rest) -> process_first E r1 key e sg rest = process_first E' r2 key e sg rest.
    Proof.
      intros key e sg rest H. unfold process_first. pose proof H as H0. inversion H0 as [|? ? H1 H2]. clear H0. subst. destruct rest as [|nx more].
      - fa. now rewrite mods_same.
      - rewrite A by exact H2. fa. destruct (s_type nx); auto; try (now rewrite mods_same); [|now apply extract_same].
        destruct (map_get _ _); auto. now rewrite mods_same.
    Qed.
    Lemma each_same : forall key l rest, Forall seg_named rest -> query_each r1 key l rest = query_each r2 key l rest.
    Proof. intros key l rest H. induction l as [|e l IH]; cbn [query_each]; auto. now rewrite A, IH. Qed.
    Lemma wild_each_same : forall key l rest, Forall seg_named rest -> wild_each r1 key l rest = wild_each r2 key l rest.
    Proof. intros key l rest H. induction l as [|e l IH]; cbn [wild_each]; auto. now rewrite A, IH. Qed.
    Lemma all_same : forall key l sg rest, Forall seg_named (sg :: rest) -> process_all E r1 key l sg rest = process_all E' r2 key l sg rest.
    Proof.
      intros key l sg rest H. unfold process_all. inversion H as [|? ? H1 H2]. subst. destruct rest as [|nx more].
      - fa. now rewrite mods_same.
      - rewrite each_same by exact H2. fa. rewrite extract_same by auto.
        assert (Fin : forall all, match all with [] => Ok r_null | _ :: _ => Ok (apply_modifiers E (package all) (s_mods nx)) end =
          match all with [] => Ok r_null | _ :: _ => Ok (apply_modifiers E' (package all) (s_mods nx)) end).
        { intros [|x all]; auto. now rewrite mods_same. }
        cbv zeta. destruct (s_type nx); auto; try apply Fin; (destruct (query_each r2 key l (nx :: more)) as [al| |]; auto; cbn [bind]; apply Fin).
    Qed.
    Lemma route_same : forall key l sg rest, Forall seg_named (sg :: rest) -> route_matches E r1 key l sg rest = route_matches E' r2 key l sg rest.
    Proof. intros key l sg rest H. unfold route_matches. destruct l; auto. destruct (s_all sg); [now apply all_same|now apply first_same]. Qed.
    Lemma wildcard_same : forall key l rest, Forall seg_named rest -> handle_wildcard E r1 key l rest = handle_wildcard E' r2 key l rest.
    Proof.
      intros key l rest H. unfold handle_wildcard. destruct rest as [|nx more]; auto. rewrite wild_each_same by exact H. fa.
      assert (Fin : forall all (empty : bool), match all with [] => Ok (if empty then r_array [] else r_null) | _ :: _ => Ok (apply_modifiers E (package all) (s_mods nx)) end =
        match all with [] => Ok (if empty then r_array [] else r_null) | _ :: _ => Ok (apply_modifiers E' (package all) (s_mods nx)) end).
      { intros [|x all]; auto. intros _. now rewrite mods_same. }
      cbv zeta. destruct (s_type nx); try exact (Fin _ false); (destruct (wild_each r2 key l (nx :: more)) as [al| |]; auto; cbn [bind]; apply Fin).
    Qed.
    Lemma add_same : forall key e rest, Forall seg_named rest -> search_add E r1 key e rest = search_add E' r2 key e rest.
    Proof.
      intros key e rest H. unfold search_add. destruct rest as [|nx more]; auto. rewrite A by exact H. fa. rewrite extract_same by auto. reflexivity.
    Qed.
    Lemma search_same : forall n key target rest st s, Forall seg_named rest -> rsearch E r1 n key target rest st s = rsearch E' r2 n key target rest st s.
    Proof.
      induction n as [|n IH]; intros key target rest st s H; cbn [rsearch]; auto. cbv zeta.
      destruct (_ || _)%bool; auto. change (scan_res E' key s) with (scan_res E key s). destruct (scan_res E key s) as [es| |]; auto. cbn [bind].
      generalize (fst st + 1, snd st)%N. induction es as [|e es IHe]; intros st'; auto.
      assert (Q : match e_content e with [] => Ok st' | _ :: _ => rsearch E r1 n (child_key site_search e key) target rest st' (e_content e) end =
        match e_content e with [] => Ok st' | _ :: _ => rsearch E' r2 n (child_key site_search e key) target rest st' (e_content e) end).
      { destruct (e_content e); auto. }
      rewrite Q. destruct (match e_content e with [] => Ok st' | _ :: _ => rsearch E' r2 n (child_key site_search e key) target rest st' (e_content e) end) as [st1| |]; auto.
      cbn [bind]. destruct (_ <=? _)%N; auto. destruct (seg_matches _ _); auto. destruct (Nat.leb _ _); auto. rewrite add_same by auto.
      destruct (search_add E' r2 key e rest) as [ad| |]; auto. cbn [bind]. apply IHe.
    Qed.
    Lemma recursive_same : forall key rest s, Forall seg_named rest -> handle_recursive E r1 key rest s = handle_recursive E' r2 key rest s.
    Proof. intros key rest s H. unfold handle_recursive. destruct rest as [|t rest]; auto. inversion H; subst. now rewrite search_same. Qed.
    Lemma root_same : forall key l nx more, Forall seg_named (nx :: more) -> root_array E r1 key l nx more = root_array E' r2 key l nx more.
    Proof.
      intros key l nx more H. unfold root_array. destruct l; auto. inversion H as [|? ? [H1 _] H2]; subst. rewrite extract_same by auto.
      destruct (s_type nx); auto. destruct (nth_elem _ _); auto. destruct more as [|n2 m2]; auto. rewrite A by auto. reflexivity.
    Qed.
    Lemma array_same : forall key l nx more, Forall seg_named (nx :: more) -> array_op E r1 key l nx more = array_op E' r2 key l nx more.
    Proof.
      intros key l nx more H. unfold array_op. destruct l; auto. inversion H as [|? ? [H1 _] H2]; subst.
      destruct (s_type nx); rewrite ?(mods_same (s_mods nx)) by auto; auto. destruct (nth_elem _ _); auto. destruct more as [|n2 m2]; [now rewrite mods_same|].
      rewrite A by auto. inversion H2 as [|? ? [H3 _] H4]; subst. destruct (s_type n2); auto. destruct (map_get _ _); auto. destruct m2; auto. now rewrite mods_same.
    Qed.
    Lemma loops_same : forall key l sg rest, Forall seg_named (sg :: rest) -> first_loop E r1 key l sg rest = first_loop E' r2 key l sg rest.
    Proof.
      intros key l sg rest H. induction l as [|e l IH]; cbn [first_loop]; auto. inversion H as [|? ? [H1 _] H2]; subst. destruct rest as [|nx more]; [now rewrite mods_same|].
      rewrite A, IH by auto. inversion H2 as [|? ? [H3 _] H4]; subst. destruct (s_type nx); auto; [|now rewrite mods_same].
      destruct (map_get _ _); auto. destruct more; auto. now rewrite mods_same.
    Qed.
    Lemma element_same : forall key es sg rest, Forall seg_named (sg :: rest) -> exec_element E r1 key es sg rest = exec_element E' r2 key es sg rest.
    Proof.
      intros key es sg rest H. unfold exec_element. cbv zeta. rewrite loops_same by auto. inversion H as [|? ? [H1 _] H2]; subst. destruct rest as [|nx more]; auto.
      rewrite array_same by auto. pose proof H2 as H3. inversion H3 as [|? ? [H4 H5] H6]; subst. rewrite extract_same by auto. rewrite (filter_elems_same r1 r2) by auto.
      destruct (s_type nx); auto. destruct (filter_elems _ _ _ _ _) as [l| |]; auto. cbn [bind]. now apply route_same.
    Qed.
    Lemma body_same : forall key root s segs, Forall seg_named segs -> exec_body E r1 key root s segs = exec_body E' r2 key root s segs.
    Proof.
      intros key root s segs H. unfold exec_body. destruct segs as [|sg rest]; auto. change (scan_res E' key s) with (scan_res E key s).
      destruct (scan_res E key s) as [es| |]; auto. cbn [bind]. rewrite element_same by auto. pose proof H as H0. inversion H0 as [|? ? [H1 H2] H3]; subst.
      rewrite (filter_upto_same r1 r2) by auto. rewrite recursive_same by auto.
      destruct (s_type sg); auto.
      - destruct root; auto. destruct rest as [|nx more]; auto. rewrite root_same by auto. reflexivity.
      - destruct (s_wild sg); auto. destruct (firstn _ es); auto. rewrite wildcard_same by auto.
        destruct (handle_wildcard _ _ _ _ _) as [r| |]; auto. cbn [bind]. destruct rest; auto. now rewrite mods_same.
      - destruct (filter_elems_upto _ _ _ _ _ _) as [l| |]; auto. cbn [bind]. now apply route_same.
    Qed.
  End Rec.
  Lemma exec_same : forall fuel, agree (exec E fuel) (exec E' fuel).
  Proof. induction fuel as [|f IH]; intros key root s segs H; cbn [exec]; auto. now apply body_same. Qed.

  Lemma children_opts_same : forall cs key f l, field_children_opts E cs key f l = field_children_opts E' cs key f l.
  Proof. intros cs key f l. induction l as [|e l IH]; cbn [field_children_opts]; auto. change (scan_res E') with (scan_res E). now rewrite IH. Qed.
  Lemma extract_opts_same : forall cs key l sg, Forall P (s_mods sg) -> field_extract_opts E cs key l sg = field_extract_opts E' cs key l sg.
  Proof.
    intros cs key l sg H. unfold field_extract_opts. destruct (s_field sg) as [|c name]; auto. rewrite children_opts_same.
    change (attr_lookup E') with (attr_lookup E).
    match goal with |- bind ?x _ = bind ?x _ => destruct x as [a| |]; auto end. cbn [bind]. destruct (firstn _ a); auto. now rewrite mods_same.
  Qed.
  Section RecOpts.
    Variable cs : bool.
    Variable q1 q2 r1 r2 : qrec.
    Hypothesis Q : agree q1 q2.
    Hypothesis A : agree r1 r2.
    Lemma first_o : forall key e sg rest, Forall seg_named (sg :: rest) -> process_first_opts E cs r1 key e sg rest = process_first_opts E' cs r2 key e sg rest.
    Proof.
      intros key e sg rest H. unfold process_first_opts. inversion H as [|? ? [H1 _] H2]. subst. destruct rest as [|nx more]; [now rewrite mods_same|].
      rewrite A by exact H2. inversion H2 as [|? ? [H3 _] H4]. subst. change (attr_lookup E') with (attr_lookup E).
      destruct (s_type nx); auto; try (now rewrite mods_same); [|now apply extract_opts_same]. destruct (attr_lookup _ _ _ _ _); auto. now rewrite mods_same.
    Qed.
    Lemma all_o : forall key l sg rest, Forall seg_named (sg :: rest) -> process_all_opts E cs r1 key l sg rest = process_all_opts E' cs r2 key l sg rest.
    Proof.
      intros key l sg rest H. unfold process_all_opts. inversion H as [|? ? [H1 _] H2]. subst. destruct rest as [|nx more]; [now rewrite mods_same|].
      rewrite (each_same r1 r2 A) by exact H2. inversion H2 as [|? ? [H3 _] H4]. subst. rewrite extract_opts_same by auto. change (attr_lookup_all E') with (attr_lookup_all E).
      assert (Fin : forall all, match all with [] => Ok r_null | _ :: _ => Ok (apply_modifiers E (package all) (s_mods nx)) end =
          match all with [] => Ok r_null | _ :: _ => Ok (apply_modifiers E' (package all) (s_mods nx)) end).
      { intros [|x all]; auto. now rewrite mods_same. }
      cbv zeta. destruct (s_type nx); auto; try apply Fin; (destruct (query_each r2 key l (nx :: more)) as [al| |]; auto; cbn [bind]; apply Fin).
    Qed.
    Lemma route_o : forall key l sg rest, Forall seg_named (sg :: rest) -> route_matches_opts E cs r1 key l sg rest = route_matches_opts E' cs r2 key l sg rest.
    Proof. intros key l sg rest H. unfold route_matches_opts. destruct l; auto. destruct (s_all sg); [now apply all_o|now apply first_o]. Qed.
    Lemma wildcard_o : forall key l rest, Forall seg_named rest -> handle_wildcard_opts E cs r1 key l rest = handle_wildcard_opts E' cs r2 key l rest.
    Proof.
      intros key l rest H. unfold handle_wildcard_opts. destruct rest as [|nx more]; auto. rewrite (each_same r1 r2 A) by exact H. inversion H as [|? ? [H3 _] H4]. subst.
      change (attr_lookup_all E') with (attr_lookup_all E).
      assert (Fin : forall all, match all with [] => Ok r_null | _ :: _ => Ok (apply_modifiers E (package all) (s_mods nx)) end =
          match all with [] => Ok r_null | _ :: _ => Ok (apply_modifiers E' (package all) (s_mods nx)) end).
      { intros [|x all]; auto. now rewrite mods_same. }
      cbv zeta. destruct (s_type nx); auto; try apply Fin; (destruct (query_each r2 key l (nx :: more)) as [al| |]; auto; cbn [bind]; apply Fin).
    Qed.
    Lemma add_o : forall key e rest, Forall seg_named rest -> search_add_opts E cs r1 key e rest = search_add_opts E' cs r2 key e rest.
    Proof. intros key e rest H. unfold search_add_opts. destruct rest as [|nx more]; auto. rewrite A by exact H. reflexivity. Qed.
    Lemma search_o : forall n key target rest st s, Forall seg_named rest -> rsearch_opts E cs r1 n key target rest st s = rsearch_opts E' cs r2 n key target rest st s.
    Proof.
      induction n as [|n IH]; intros key target rest st s H; cbn [rsearch_opts]; auto. cbv zeta.
      destruct (_ || _)%bool; auto. change (scan_res E' key s) with (scan_res E key s). destruct (scan_res E key s) as [es| |]; auto. cbn [bind].
      generalize (fst st + 1, snd st)%N. induction es as [|e es IHe]; intros st'; auto.
      assert (QQ : match e_content e with [] => Ok st' | _ :: _ => rsearch_opts E cs r1 n (child_key site_search e key) target rest st' (e_content e) end =
        match e_content e with [] => Ok st' | _ :: _ => rsearch_opts E' cs r2 n (child_key site_search e key) target rest st' (e_content e) end).
      { destruct (e_content e); auto. }
      rewrite QQ. destruct (match e_content e with [] => Ok st' | _ :: _ => rsearch_opts E' cs r2 n (child_key site_search e key) target rest st' (e_content e) end) as [st1| |]; auto.
      cbn [bind]. destruct (_ <=? _)%N; auto. destruct (seg_matches_opts _ _ _); auto. destruct (Nat.leb _ _); auto. rewrite add_o by auto.
      destruct (search_add_opts E' cs r2 key e rest) as [ad| |]; auto. cbn [bind]. apply IHe.
    Qed.
    Lemma recursive_o : forall key rest s, Forall seg_named rest -> handle_recursive_opts E cs r1 key rest s = handle_recursive_opts E' cs r2 key rest s.
    Proof. intros key rest s H. unfold handle_recursive_opts. destruct rest as [|t rest]; auto. inversion H; subst. now rewrite search_o. Qed.
    Lemma root_o : forall key l nx more, Forall seg_named (nx :: more) -> root_array_opts E cs r1 key l nx more = root_array_opts E' cs r2 key l nx more.
    Proof.
      intros key l nx more H. unfold root_array_opts. destruct l; auto. inversion H as [|? ? [H1 _] H2]; subst. rewrite extract_opts_same by auto.
      destruct (s_type nx); auto. destruct (nth_elem _ _); auto. destruct more as [|n2 m2]; auto. rewrite A by auto. reflexivity.
    Qed.
    Lemma array_o : forall key l nx more, Forall seg_named (nx :: more) -> array_op_opts E cs r1 key l nx more = array_op_opts E' cs r2 key l nx more.
    Proof.
      intros key l nx more H. unfold array_op_opts. destruct l; auto. inversion H as [|? ? [H1 _] H2]; subst.
      destruct (s_type nx); auto. destruct (nth_elem _ _); auto. destruct more as [|n2 m2]; auto. rewrite A by auto. reflexivity.
    Qed.
    Lemma loops_o : forall key l sg rest, Forall seg_named (sg :: rest) -> first_loop_opts E cs r1 key l sg rest = first_loop_opts E' cs r2 key l sg rest.
    Proof.
      intros key l sg rest H. induction l as [|e l IH]; cbn [first_loop_opts]; auto. inversion H as [|? ? [H1 _] H2]; subst. destruct rest as [|nx more]; auto.
      rewrite A, IH by auto. reflexivity.
    Qed.
    Lemma element_o : forall key es sg rest, Forall seg_named (sg :: rest) -> exec_element_opts E cs q1 r1 key es sg rest = exec_element_opts E' cs q2 r2 key es sg rest.
    Proof.
      intros key es sg rest H. unfold exec_element_opts. cbv zeta. rewrite loops_o by auto. inversion H as [|? ? [H1 _] H2]; subst. destruct rest as [|nx more]; auto.
      rewrite array_o by auto. pose proof H2 as H3. inversion H3 as [|? ? [H4 H5] H6]; subst. rewrite extract_opts_same by auto. rewrite (filter_elems_same q1 q2) by auto.
      destruct (s_type nx); auto. destruct (filter_elems _ _ _ _ _) as [l| |]; auto. cbn [bind]. now apply route_o.
    Qed.
    Lemma body_o : forall key root s segs, Forall seg_named segs -> exec_body_opts E cs q1 r1 key root s segs = exec_body_opts E' cs q2 r2 key root s segs.
    Proof.
      intros key root s segs H. unfold exec_body_opts. destruct segs as [|sg rest]; auto. change (scan_res E' key s) with (scan_res E key s).
      destruct (scan_res E key s) as [es| |]; auto. cbn [bind]. rewrite element_o by auto. pose proof H as H0. inversion H0 as [|? ? [H1 H2] H3]; subst.
      rewrite (filter_upto_same q1 q2) by auto. rewrite recursive_o by auto.
      destruct (s_type sg); auto.
      - destruct (root && cs)%bool; auto. destruct rest as [|nx more]; auto. rewrite root_o by auto. reflexivity.
      - destruct (s_wild sg); auto. destruct (firstn _ es); auto. now rewrite wildcard_o.
      - destruct (filter_elems_upto _ _ _ _ _ _) as [l| |]; auto. cbn [bind]. now apply route_o.
    Qed.
  End RecOpts.
  Lemma exec_opts_same : forall cs fuel, agree (exec_opts E cs fuel) (exec_opts E' cs fuel).
  Proof.
    induction fuel as [|f IH]; intros key root s segs H; cbn [exec_opts]; auto. apply body_o; auto. apply exec_same.
  Qed.
End Name.
