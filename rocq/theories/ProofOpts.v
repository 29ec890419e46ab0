(** Queries with options: only case sensitivity matters on paths without modifiers. *)
From Coq Require Import List Ascii String NArith ZArith Bool Lia.
From Verif Require Import GoStr ModelParser ModelPath ModelResult ModelQuery ModelBuilder ModelQueryOpts
  SpecPath ProofBase ProofScan ProofPath ProofFuel ProofFuel2 ProofSyntax ProofApi ProofApi2.
Import ListNotations.

Definition no_mods (sg : seg) : Prop := s_mods sg = [].
Definition bare (sg : seg) : Prop := s_mods sg = [] /\ (s_type sg <> SWild).
Definition bare2 (sg : seg) : Prop := s_mods sg = [] /\ (s_type sg <> SField).

Lemma apply_nil : forall E r, apply_modifiers E r [] = r.
Proof. reflexivity. Qed.
Lemma attr_lookup_all_cs : forall E key name e, attr_lookup_all E true key name e =
  match map_get name (e_attrs e) with Some v => [v] | None => [] end.
Proof. reflexivity. Qed.
Lemma flat_map_ext_all : forall {A B} (f g : A -> list B) l, (forall x, f x = g x) -> flat_map f l = flat_map g l.
Proof. intros A B f g l H. induction l; simpl; auto. now rewrite H, IHl. Qed.
Lemma attr_flat : forall E key name l,
  flat_map (fun e => map r_attribute (attr_lookup_all E true key name e)) l =
  flat_map (fun e => match map_get name (e_attrs e) with Some v => [r_attribute v] | None => [] end) l.
Proof.
  intros. apply flat_map_ext_all. intros e. rewrite attr_lookup_all_cs. now destruct (map_get name (e_attrs e)).
Qed.
Lemma field_children_cs : forall E key f l, field_children_opts E true key f l = field_children E key f l.
Proof.
  intros E key f l. induction l as [|e l IH]; auto. cbn [field_children_opts field_children].
  destruct (scan_res E (child_key site_field e key) (e_content e)); auto. cbn [bind]. now rewrite IH.
Qed.
Lemma field_extract_cs : forall E key l sg, field_extract_opts E true key l sg = field_extract E key l sg.
Proof.
  intros E key l sg. unfold field_extract_opts, field_extract. destruct (s_field sg) as [|c name] eqn:F; auto.
  rewrite field_children_cs. destruct (Ascii.eqb c "@"); auto. f_equal. f_equal.
  apply flat_map_ext_all. intros e. unfold attr_lookup, lower_if. now destruct (map_get name (e_attrs e)).
Qed.

Section Step.
  Variable E : env.
  Variable plain rec : qrec.
  Variable good : seg -> Prop.
  Hypothesis good_mods : forall sg, good sg -> s_mods sg = [].
  Hypothesis Hrec : forall key root s segs, Forall good segs -> rec key root s segs = plain key root s segs.

  Lemma query_each_eq : forall key l rest, Forall good rest -> query_each rec key l rest = query_each plain key l rest.
  Proof. intros key l rest H. induction l as [|e l IH]; auto. cbn [query_each]. now rewrite Hrec, IH. Qed.
  Lemma process_first_eq : forall key e sg rest, good sg -> Forall good rest ->
    process_first_opts E true rec key e sg rest = process_first E plain key e sg rest.
  Proof.
    intros key e sg rest Hg Hr. unfold process_first_opts, process_first. destruct rest as [|nx more]; auto.
    destruct (s_type nx); auto. apply field_extract_cs.
  Qed.
  Lemma process_all_eq : forall key l sg rest, good sg -> Forall good rest ->
    process_all_opts E true rec key l sg rest = process_all E plain key l sg rest.
  Proof.
    intros key l sg rest Hg Hr. unfold process_all_opts, process_all. destruct rest as [|nx more]; auto.
    rewrite query_each_eq by auto. rewrite attr_flat. destruct (s_type nx); auto. apply field_extract_cs.
  Qed.
  Lemma route_eq : forall key l sg rest, good sg -> Forall good rest ->
    route_matches_opts E true rec key l sg rest = route_matches E plain key l sg rest.
  Proof.
    intros key l sg rest Hg Hr. unfold route_matches_opts, route_matches. destruct l; auto.
    destruct (s_all sg); [apply process_all_eq|apply process_first_eq]; auto.
  Qed.
  Lemma first_loop_eq : forall key l sg rest, good sg -> Forall good rest ->
    first_loop_opts E true rec key l sg rest = first_loop E plain key l sg rest.
  Proof.
    intros key l sg rest Hg Hr. induction l as [|e l IH]; auto. cbn [first_loop_opts first_loop].
    destruct rest as [|nx more]; [now rewrite (good_mods sg Hg)|].
    assert (Hn : s_mods nx = []) by (apply good_mods; now inversion Hr).
    rewrite Hn, IH, Hrec by auto. destruct (s_type nx); auto.
  Qed.
  Lemma array_op_eq : forall key l nx more, good nx -> Forall good more ->
    array_op_opts E true rec key l nx more = array_op E plain key l nx more.
  Proof.
    intros key l nx more Hn Hm. unfold array_op_opts, array_op. destruct l; auto. rewrite (good_mods nx Hn).
    destruct (s_type nx); auto. destruct (nth_elem (e :: l) (s_index nx)); auto.
    destruct more as [|n2 more2]; auto. inversion Hm; subst. rewrite (good_mods n2 H1), Hrec by auto.
    destruct (s_type n2); auto. destruct more2; reflexivity.
  Qed.
  Lemma root_array_eq : forall key l nx more, good nx -> Forall good more ->
    root_array_opts E true rec key l nx more = root_array E plain key l nx more.
  Proof.
    intros key l nx more Hn Hm. unfold root_array_opts, root_array. destruct l; auto. rewrite field_extract_cs.
    destruct (s_type nx); auto. destruct (nth_elem (e :: l) (s_index nx)); auto.
    destruct more as [|n2 more2]; auto. now rewrite Hrec.
  Qed.
  Lemma exec_element_eq : forall key es sg rest, good sg -> Forall good rest ->
    exec_element_opts E true plain rec key es sg rest = exec_element E plain key es sg rest.
  Proof.
    intros key es sg rest Hg Hr. unfold exec_element_opts, exec_element. rewrite match_plain_opts.
    rewrite first_loop_eq by auto. destruct rest as [|nx more]; auto. inversion Hr; subst.
    rewrite field_extract_cs, array_op_eq by auto.
    destruct (s_type nx); auto. destruct (filter_elems E plain key (s_filter nx) _); auto. cbn [bind].
    now rewrite route_eq.
  Qed.
End Step.

Lemma exec_body_eq : forall E plain rec (good : seg -> Prop), (forall sg, good sg -> s_mods sg = []) ->
  (forall key root s segs, Forall good segs -> rec key root s segs = plain key root s segs) ->
  forall key root s sg rest, good sg -> Forall good rest -> s_type sg <> SWild ->
  exec_body_opts E true plain rec key root s (sg :: rest) = exec_body E plain key root s (sg :: rest).
Proof.
  intros E plain rec good Hm Hrec key root s sg rest Hg Hr Hw. unfold exec_body_opts, exec_body.
  destruct (scan_res E key s) as [es| |]; auto. cbn [bind].
  rewrite (exec_element_eq E plain rec good) by auto.
  destruct (s_type sg); auto; try easy.
  - rewrite andb_true_r. destruct root; auto. destruct rest as [|nx more]; auto. inversion Hr; subst.
    rewrite (root_array_eq E plain rec good) by auto. reflexivity.
  - destruct (filter_elems_upto MaxWildcardResults E plain key (s_filter sg) es); auto. cbn [bind].
    now rewrite (route_eq E plain rec good).
Qed.
Lemma exec_opts_bare : forall E fuel key root s segs, Forall bare segs ->
  exec_opts E true fuel key root s segs = exec E fuel key root s segs.
Proof.
  intros E. induction fuel as [|f IH]; intros key root s segs H; auto. cbn [exec_opts exec].
  destruct segs as [|sg rest]; auto. inversion H; subst.
  apply (exec_body_eq E (exec E f) (exec_opts E true f) bare); auto.
  - now intros x [X _].
  - exact (proj2 H2).
Qed.

(** ** With wildcards, without field extraction: no query result is an empty array *)
Definition flat_item (r : result) : Prop := r_type r <> RArray.
Definition flat_result (r : result) : Prop :=
  r_type r <> RArray \/ (r_type r = RArray /\ r_results r <> [] /\ Forall flat_item (r_results r)).
Lemma flat_package : forall l, l <> [] -> Forall flat_item l -> flat_result (package l).
Proof.
  intros [|x l] Hn H; [easy|]. inversion H; subst. destruct l; [now left|].
  right. split; [reflexivity|]. split; [easy|exact H].
Qed.
Lemma flatten1_flat : forall r, flat_result r -> Forall flat_item (flatten1 r).
Proof.
  intros r [H|[H [H1 H2]]]; unfold flatten1.
  - destruct (r_type r) eqn:T; repeat constructor; unfold flat_item; congruence.
  - now rewrite H.
Qed.
Lemma attr_items_flat : forall name l, Forall flat_item
  (flat_map (fun e => match map_get name (e_attrs e) with Some v => [r_attribute v] | None => [] end) l).
Proof.
  intros name l. induction l as [|e l IH]; simpl; auto. apply Forall_app. split; auto.
  destruct (map_get name (e_attrs e)); repeat constructor; discriminate.
Qed.
Lemma text_items_flat : forall l, Forall flat_item (map (fun e => r_text (e_content e)) l).
Proof. induction l; constructor; auto. discriminate. Qed.
Lemma elem_items_flat : forall l, Forall flat_item (map (fun e => r_element (e_content e)) l).
Proof. induction l; constructor; auto. discriminate. Qed.

Section Flat.
  Variable E : env.
  Variable rec : qrec.
  Hypothesis Hrec : forall key root s segs r, Forall bare2 segs -> rec key root s segs = Ok r -> flat_result r.

  Lemma flat_null : flat_result r_null. Proof. left. discriminate. Qed.
  Lemma query_each_flat : forall key l rest rs, Forall bare2 rest -> query_each rec key l rest = Ok rs -> Forall flat_item rs.
  Proof.
    intros key l rest rs Hb. revert rs. induction l as [|e l IH]; intros rs H; cbn [query_each] in H.
    - injection H as <-. constructor.
    - apply bind_ok in H. destruct H as [r [H1 H]]. apply bind_ok in H. destruct H as [rs' [H2 H]]. injection H as <-.
      apply Forall_app. split; [eapply flatten1_flat, Hrec; eauto|eauto].
  Qed.
  Lemma wild_each_flat : forall key l rest p, Forall bare2 rest -> wild_each rec key l rest = Ok p ->
    query_each rec key l rest = Ok (fst p) /\ snd p = false.
  Proof.
    intros key l rest p Hb. revert p. induction l as [|e l IH]; intros p H; cbn [wild_each query_each] in *.
    - injection H as <-. auto.
    - apply bind_ok in H. destruct H as [r [H1 H]]. apply bind_ok in H. destruct H as [rs' [H2 H]]. injection H as <-.
      destruct (IH _ H2) as [I1 I2]. rewrite H1, I1. cbn [bind fst snd]. split; auto. rewrite I2, orb_false_r.
      destruct (Hrec _ _ _ _ _ Hb H1) as [F|[F [F1 _]]]; destruct (r_type r); auto; try congruence.
      destruct (r_results r); congruence.
  Qed.
  Lemma wild_each_bind : forall key l rest (k : list result -> bool -> Res result), Forall bare2 rest ->
    (let* p := wild_each rec key l rest in k (fst p) (snd p)) = (let* all := query_each rec key l rest in k all false).
  Proof.
    intros key l rest k Hb. destruct (wild_each rec key l rest) as [p| |] eqn:W; cbn [bind].
    - destruct (wild_each_flat _ _ _ _ Hb W) as [-> ->]. reflexivity.
    - assert (Q : query_each rec key l rest = Panic).
      { clear -W. revert W. induction l as [|e l IH]; cbn [wild_each query_each]; [discriminate|].
        destruct (rec (child_key site_query e key) false (e_content e) rest); cbn [bind]; auto; try discriminate.
        destruct (wild_each rec key l rest); cbn [bind]; try discriminate. intros _. now rewrite IH. }
      now rewrite Q.
    - assert (Q : query_each rec key l rest = OutOfFuel).
      { clear -W. revert W. induction l as [|e l IH]; cbn [wild_each query_each]; [discriminate|].
        destruct (rec (child_key site_query e key) false (e_content e) rest); cbn [bind]; auto; try discriminate.
        destruct (wild_each rec key l rest); cbn [bind]; try discriminate. intros _. now rewrite IH. }
      now rewrite Q.
  Qed.
  Lemma finish_flat : forall all mods, mods = [] -> Forall flat_item all ->
    flat_result match all with [] => r_null | _ :: _ => apply_modifiers E (package all) mods end.
  Proof.
    intros all mods -> H. destruct all as [|a all]; [apply flat_null|]. rewrite apply_nil. now apply flat_package.
  Qed.
  Lemma process_first_flat : forall key e sg rest r, bare2 sg -> Forall bare2 rest ->
    process_first E rec key e sg rest = Ok r -> flat_result r.
  Proof.
    intros key e sg rest r Hg Hr H. unfold process_first in H. destruct rest as [|nx more].
    - rewrite (proj1 Hg) in H. injection H as <-. left; discriminate.
    - inversion Hr; subst. rewrite (proj1 H2) in H. pose proof (proj2 H2) as T. destruct (s_type nx) eqn:Ty; try congruence;
        try (eapply Hrec; [|exact H]; assumption); try (injection H as <-; left; discriminate).
      destruct (map_get (s_value nx) (e_attrs e)); injection H as <-; left; discriminate.
  Qed.
  Lemma process_all_flat : forall key l sg rest r, l <> [] -> bare2 sg -> Forall bare2 rest ->
    process_all E rec key l sg rest = Ok r -> flat_result r.
  Proof.
    intros key l sg rest r Hl Hg Hr H. unfold process_all in H. destruct rest as [|nx more].
    - rewrite (proj1 Hg), apply_nil in H. injection H as <-. right. cbn [r_array r_type r_results].
      split; auto. split; [destruct l; easy|apply elem_items_flat].
    - inversion Hr; subst. destruct H2 as [Hm T].
      assert (F : forall all, Forall flat_item all ->
        match all with [] => Ok r_null | _ :: _ => Ok (apply_modifiers E (package all) (s_mods nx)) end = Ok r ->
        flat_result r).
      { intros all Ha Hx. pose proof (finish_flat all _ Hm Ha) as FF. destruct all; injection Hx as <-; exact FF. }
      destruct (s_type nx) eqn:Ty; try congruence;
      try (apply bind_ok in H; destruct H as [all [Q H]]; eapply F; [|exact H]; eapply query_each_flat; [|exact Q]; assumption).
      + eapply F; [|exact H]. apply attr_items_flat.
      + eapply F; [|exact H]. apply text_items_flat.
  Qed.
  Lemma route_flat : forall key l sg rest r, bare2 sg -> Forall bare2 rest ->
    route_matches E rec key l sg rest = Ok r -> flat_result r.
  Proof.
    intros key l sg rest r Hg Hr H. unfold route_matches in H. destruct l; [injection H as <-; apply flat_null|].
    destruct (s_all sg); [eapply process_all_flat; eauto; discriminate|eapply process_first_flat; eauto].
  Qed.
  Lemma first_loop_flat : forall key l sg rest r, bare2 sg -> Forall bare2 rest ->
    first_loop E rec key l sg rest = Ok r -> flat_result r.
  Proof.
    intros key l sg rest r Hg Hr. induction l as [|e l IH]; intros H; cbn [first_loop] in H.
    - injection H as <-. apply flat_null.
    - destruct rest as [|nx more].
      + rewrite (proj1 Hg) in H. injection H as <-. left; discriminate.
      + inversion Hr; subst. destruct H2 as [Hm T]. rewrite Hm in H.
        assert (G : (let* r0 := rec (child_key site_query e key) false (e_content e) (nx :: more) in
          (if is_null r0 then first_loop E rec key l sg (nx :: more) else Ok r0)) = Ok r -> flat_result r).
        { intros K. apply bind_ok in K. destruct K as [r0 [K1 K2]]. destruct (is_null r0); auto.
          injection K2 as <-. eapply Hrec; [|exact K1]; assumption. }
        destruct (s_type nx); auto.
        * destruct (map_get (s_value nx) (e_attrs e)); [destruct more|]; injection H as <-; left; discriminate.
        * injection H as <-; left; discriminate.
  Qed.
  Lemma array_op_flat : forall key l nx more r, bare2 nx -> Forall bare2 more ->
    array_op E rec key l nx more = Ok r -> flat_result r.
  Proof.
    intros key l nx more r Hn Hm H. unfold array_op in H. destruct l; [injection H as <-; apply flat_null|].
    rewrite (proj1 Hn) in H. rewrite apply_nil in H.
    destruct (s_type nx); try (injection H as <-; left; discriminate).
    destruct (nth_elem (e :: l) (s_index nx)) as [e1|]; [|injection H as <-; apply flat_null].
    destruct more as [|n2 more2]; [injection H as <-; left; discriminate|].
    inversion Hm; subst. rewrite (proj1 H2) in H.
    destruct (s_type n2); try (eapply Hrec; [|exact H]; assumption).
    destruct (map_get (s_value n2) (e_attrs e1)); [destruct more2|]; injection H as <-; left; discriminate.
  Qed.
  Lemma root_array_flat : forall key l nx more r, bare2 nx -> Forall bare2 more ->
    root_array E rec key l nx more = Ok r -> flat_result r.
  Proof.
    intros key l nx more r Hn Hm H. unfold root_array in H. destruct l; [injection H as <-; apply flat_null|].
    destruct (s_type nx) eqn:Ty; try (injection H as <-; left; discriminate); [|destruct (proj2 Hn); auto].
    destruct (nth_elem (e :: l) (s_index nx)) as [e1|]; [|injection H as <-; apply flat_null].
    destruct more as [|n2 more2]; [injection H as <-; left; discriminate|].
    destruct (s_type n2); try (eapply Hrec; [|exact H]; assumption).
    - destruct (map_get (s_value n2) (e_attrs e1)); injection H as <-; left; discriminate.
    - injection H as <-; left; discriminate.
  Qed.
  Lemma exec_element_flat : forall key es sg rest r, bare2 sg -> Forall bare2 rest ->
    exec_element E rec key es sg rest = Ok r -> flat_result r.
  Proof.
    intros key es sg rest r Hg Hr H. unfold exec_element in H.
    destruct rest as [|nx more]; [eapply first_loop_flat; eauto|]. inversion Hr; subst.
    destruct (s_type nx) eqn:Ty; try (eapply first_loop_flat; [| |exact H]; assumption); try (eapply array_op_flat; [| |exact H]; assumption).
    - apply bind_ok in H. destruct H as [l [_ H]]. eapply route_flat; [| |exact H]; assumption.
    - destruct (proj2 H2); auto.
  Qed.
  Lemma search_add_flat : forall key e rest l, Forall bare2 rest -> search_add E rec key e rest = Ok l -> Forall flat_item l.
  Proof.
    intros key e rest l Hr H. unfold search_add in H. destruct rest as [|nx more].
    - injection H as <-. repeat constructor. discriminate.
    - inversion Hr; subst. destruct H2 as [Hm T]. destruct (s_type nx) eqn:Ty; try congruence;
      try (apply bind_ok in H; destruct H as [r [H1 H]]; injection H as <-; eapply flatten1_flat, Hrec; [|exact H1]; assumption).
      + destruct (map_get (s_value nx) (e_attrs e)); [destruct more|]; injection H as <-; repeat constructor; discriminate.
      + injection H as <-. repeat constructor. discriminate.
  Qed.
  Lemma rsearch_flat : forall n key target rest st s st', Forall bare2 rest -> Forall flat_item (snd st) ->
    rsearch E rec n key target rest st s = Ok st' -> Forall flat_item (snd st').
  Proof.
    intros n. induction n as [|n IH]; intros key target rest st s st' Hr Hs H; cbn [rsearch] in H.
    - injection H as <-. exact Hs.
    - destruct (Nat.leb MaxWildcardResults (List.length (snd st)) || _); [injection H as <-; exact Hs|].
      destruct (scan_res E key s) as [es| |]; cbn [bind] in H; try discriminate.
      assert (G : forall es st st', Forall flat_item (snd st) ->
        (fix go (es : list elem) (st : N * list result) : Res (N * list result) :=
             match es with
             | [] => Ok st
             | e :: es' =>
                 let* st1 :=
                   (match e_content e with
                    | [] => Ok st
                    | _ :: _ => rsearch E rec n (child_key site_search e key) target rest st (e_content e)
                    end) in
                 if (MaxRecursiveOperations <=? fst st1)%N then Ok st1
                 else if seg_matches target (e_name e) then
                   if Nat.leb MaxWildcardResults (List.length (snd st1)) then Ok st1
                   else
                     let* add := search_add E rec key e rest in
                     go es' (fst st1, snd st1 ++ add)
                 else go es' st1
             end) es st = Ok st' -> Forall flat_item (snd st')).
      { clear H Hs st st'. induction es0 as [|e es0 IHe]; intros st0 st0' Hs H; [injection H as <-; exact Hs|].
        apply bind_ok in H. destruct H as [st1 [H1 H]].
        assert (Hs1 : Forall flat_item (snd st1)).
        { destruct (e_content e); [injection H1 as <-; exact Hs|]. eapply IH; eauto. }
        destruct (MaxRecursiveOperations <=? fst st1)%N; [injection H as <-; exact Hs1|].
        destruct (seg_matches target (e_name e)); [|eapply IHe; eauto].
        destruct (Nat.leb MaxWildcardResults (List.length (snd st1))); [injection H as <-; exact Hs1|].
        apply bind_ok in H. destruct H as [add [H2 H]]. eapply IHe; [|exact H]. cbn [snd].
        apply Forall_app. split; auto. eapply search_add_flat; eauto. }
      eapply G; [|exact H]. exact Hs.
  Qed.
  Lemma exec_body_flat : forall key root s segs r, Forall bare2 segs ->
    exec_body E rec key root s segs = Ok r -> flat_result r.
  Proof.
    intros key root s segs r Hb H. unfold exec_body in H. destruct segs as [|sg rest]; [injection H as <-; apply flat_null|].
    inversion Hb; subst. apply bind_ok in H. destruct H as [es [_ H]]. destruct (s_type sg) eqn:Ty;
      try (injection H as <-; left; discriminate).
    - destruct root; [|eapply exec_element_flat; eauto]. destruct rest as [|nx more]; [eapply exec_element_flat; eauto|].
      inversion H3; subst.
      destruct (s_type nx); try (eapply exec_element_flat; [| |exact H]; assumption); (eapply root_array_flat; [| |exact H]; assumption).
    - destruct (s_wild sg).
      + unfold handle_recursive in H. destruct rest as [|tg rest]; [injection H as <-; apply flat_null|].
        inversion H3; subst. apply bind_ok in H. destruct H as [st [R H]].
        assert (F : Forall flat_item (snd st)) by (eapply rsearch_flat; [exact H5| |exact R]; constructor).
        destruct (snd st) as [|x0 l0]; injection H as <-; [apply flat_null|]. now apply (flat_package (x0 :: l0)).
      + destruct (firstn MaxWildcardResults es) as [|m0 ms] eqn:Em; [injection H as <-; apply flat_null|].
        apply bind_ok in H. destruct H as [r0 [W H]]. injection H as <-.
        assert (F0 : flat_result r0).
        { unfold handle_wildcard in W. destruct rest as [|nx more].
          - injection W as <-. apply (flat_package (map (fun e => r_element (e_content e)) (m0 :: ms))); [discriminate|]. apply elem_items_flat.
          - inversion H3 as [|? ? Hb1 Hb2]; subst. destruct Hb1 as [Hm T].
            assert (F : forall all, Forall flat_item all ->
              match all with [] => Ok r_null | _ :: _ => Ok (apply_modifiers E (package all) (s_mods nx)) end = Ok r0 ->
              flat_result r0).
            { intros all Ha Hx. pose proof (finish_flat all _ Hm Ha) as FF. destruct all; injection Hx as <-; exact FF. }
            destruct (s_type nx) eqn:Tn; try congruence;
            try (rewrite (wild_each_bind key (m0 :: ms) (nx :: more) (fun all empty =>
                match all with [] => Ok (if empty : bool then r_array [] else r_null)
                | _ :: _ => Ok (apply_modifiers E (package all) (s_mods nx)) end)) in W by auto;
              apply bind_ok in W; destruct W as [all [Q W]]; eapply F; [|exact W]; eapply query_each_flat; [|exact Q]; assumption).
            + eapply F; [|exact W]. destruct more; [apply attr_items_flat|constructor].
            + exact (F _ (text_items_flat (m0 :: ms)) W). }
        destruct rest; [|exact F0]. now rewrite (proj1 H2), apply_nil.
    - apply bind_ok in H. destruct H as [l [_ H]]. eapply route_flat; [| |exact H]; assumption.
    - destruct (proj2 H2); auto.
  Qed.
End Flat.
Lemma exec_flat : forall E fuel key root s segs r, Forall bare2 segs -> exec E fuel key root s segs = Ok r -> flat_result r.
Proof.
  intros E. induction fuel as [|f IH]; intros key root s segs r Hb H; [discriminate|]. cbn [exec] in H.
  eapply exec_body_flat; [|exact Hb|exact H]. exact IH.
Qed.

Lemma search_add_eq : forall E plain rec key e rest, 
  (forall key root s segs, Forall bare2 segs -> rec key root s segs = plain key root s segs) ->
  Forall bare2 rest -> search_add_opts E true rec key e rest = search_add E plain key e rest.
Proof.
  intros E plain rec key e rest Hrec Hr. unfold search_add_opts, search_add. destruct rest as [|nx more]; auto.
  inversion Hr; subst. rewrite attr_lookup_all_cs, Hrec by auto. destruct (s_type nx) eqn:T; auto.
  - destruct more; destruct (map_get (s_value nx) (e_attrs e)); auto.
  - destruct (proj2 H1); auto.
Qed.
Lemma rsearch_eq : forall E plain rec,
  (forall key root s segs, Forall bare2 segs -> rec key root s segs = plain key root s segs) ->
  forall n key target rest st s, Forall bare2 rest ->
  rsearch_opts E true rec n key target rest st s = rsearch E plain n key target rest st s.
Proof.
  intros E plain rec Hrec. induction n as [|n IH]; intros key target rest st s Hr; auto. cbn [rsearch_opts rsearch].
  destruct (Nat.leb MaxWildcardResults (List.length (snd st)) || _); auto.
  destruct (scan_res E key s) as [es| |]; cbn [bind]; auto.
  generalize ((fst st + 1)%N, snd st). induction es as [|e es IHe]; intros st0; auto.
  replace (match e_content e with [] => Ok st0 | _ :: _ => rsearch_opts E true rec n (child_key site_search e key) target rest st0 (e_content e) end)
    with (match e_content e with [] => Ok st0 | _ :: _ => rsearch E plain n (child_key site_search e key) target rest st0 (e_content e) end).
  2:{ destruct (e_content e); auto. symmetry. now apply IH. }
  destruct (match e_content e with [] => Ok st0 | _ :: _ => _ end) as [st1| |]; cbn [bind]; auto.
  destruct (MaxRecursiveOperations <=? fst st1)%N; auto. rewrite match_cs.
  destruct (seg_matches target (e_name e)); auto.
  destruct (Nat.leb MaxWildcardResults (List.length (snd st1))); auto.
  rewrite (search_add_eq E plain rec) by auto. destruct (search_add E plain key e rest); cbn [bind]; auto.
Qed.
Lemma exec_opts_bare2 : forall E fuel key root s segs, Forall bare2 segs ->
  exec_opts E true fuel key root s segs = exec E fuel key root s segs.
Proof.
  intros E. induction fuel as [|f IH]; intros key root s segs H; auto. cbn [exec_opts exec].
  destruct segs as [|sg rest]; auto. inversion H; subst.
  assert (W : s_type sg = SWild \/ s_type sg <> SWild) by (destruct (s_type sg); auto; right; discriminate).
  destruct W as [W|W].
  2:{ apply (exec_body_eq E (exec E f) (exec_opts E true f) bare2); auto. now intros x [X _]. }
  unfold exec_body_opts, exec_body. rewrite W. destruct (scan_res E key s) as [es| |]; auto. cbn [bind].
  destruct (s_wild sg).
  - unfold handle_recursive_opts, handle_recursive. destruct rest as [|tg rest]; auto. inversion H3; subst.
    rewrite (rsearch_eq E (exec E f) (exec_opts E true f)) by auto. reflexivity.
  - destruct (firstn MaxWildcardResults es) as [|m0 ms] eqn:Em; auto. rewrite (proj1 H2).
    assert (G : handle_wildcard_opts E true (exec_opts E true f) key (m0 :: ms) rest =
                handle_wildcard E (exec E f) key (m0 :: ms) rest).
    { unfold handle_wildcard_opts, handle_wildcard. destruct rest as [|nx more]; auto. inversion H3; subst.
      rewrite (query_each_eq (exec E f) (exec_opts E true f) bare2) by auto. rewrite attr_flat.
      rewrite (wild_each_bind (exec E f) (exec_flat E f) key (m0 :: ms) (nx :: more) (fun all empty =>
                match all with [] => Ok (if empty : bool then r_array [] else r_null)
                | _ :: _ => Ok (apply_modifiers E (package all) (s_mods nx)) end)) by auto.
      destruct (s_type nx); auto. }
    rewrite G. destruct (handle_wildcard E (exec E f) key (m0 :: ms) rest); auto. cbn [bind].
    now destruct rest.
Qed.

(** ** Which paths are meant *)
Lemma split_on_no : forall c s, ~ In c s -> split_on c s = (s, []).
Proof.
  intros c s. induction s as [|d s IH]; intros H; auto. cbn [split_on].
  rewrite IH by (intro K; apply H; now right).
  destruct (Ascii.eqb_spec d c); auto. subst. destruct H. now left.
Qed.
Lemma part_seg_facts : forall part sg, parse_part part = Ok (PSeg sg) -> ~ In "|"%char part ->
  s_mods sg = [] /\ s_type sg <> SField /\ (~ In "*"%char part -> s_type sg <> SWild) /\
  (~ In "#"%char part -> s_type sg <> SCount).
Proof.
  intros part sg H Hn. unfold parse_part in H. destruct part as [|c0 part0] eqn:Ep; [discriminate|]. rewrite <- Ep in *.
  assert (PM : parse_modifiers part = (part, [])) by (unfold parse_modifiers; now rewrite split_on_no).
  rewrite PM in H. clear PM. destruct (strip_prefix (bs "#(") part).
  - destruct (if has_suffix (bs ")#") part then _ else _) as [[all endidx]|]; [|discriminate].
    destruct (Nat.leb endidx 2); [discriminate|]. apply bind_ok in H. destruct H as [[f|] [_ H]]; [|discriminate].
    injection H as <-. cbn [s_mods s_type]. repeat split; first [discriminate | intros _; discriminate].
  - rewrite Ep in H at 1. destruct (Ascii.eqb c0 "@"); [injection H as <-; repeat split; first [discriminate | intros _; discriminate]|].
    destruct (bytes_eqb part (bs "%")); [injection H as <-; repeat split; first [discriminate | intros _; discriminate]|].
    destruct (bytes_eqb part (bs "#")) eqn:E1;
      [injection H as <-; repeat split; try discriminate; intros N; destruct N; apply bytes_eqb_eq in E1; rewrite E1; now left|].
    destruct (bytes_eqb part (bs "*")) eqn:E2;
      [injection H as <-; repeat split; try discriminate; intros N; destruct N; apply bytes_eqb_eq in E2; rewrite E2; now left|].
    destruct (bytes_eqb part (bs "**")) eqn:E3;
      [injection H as <-; repeat split; try discriminate; intros N; destruct N; apply bytes_eqb_eq in E3; rewrite E3; now left|].
    destruct (is_numeric part); injection H as <-; repeat split; first [discriminate | intros _; discriminate].
Qed.
Lemma parts_facts : forall l ss, (forall p, In p l -> ~ In "|"%char p) -> parse_parts l = Ok (Some ss) ->
  Forall (fun sg => s_mods sg = [] /\ s_type sg <> SField) ss /\
  ((forall p, In p l -> ~ In "*"%char p) -> Forall (fun sg => s_type sg <> SWild) ss) /\
  ((forall p, In p l -> ~ In "#"%char p) -> Forall (fun sg => s_type sg <> SCount) ss).
Proof.
  intros l. induction l as [|p l IH]; intros ss Hp H; cbn [parse_parts] in H.
  - injection H as <-. repeat split; constructor.
  - apply bind_ok in H. destruct H as [o [H1 H]].
    assert (Hl : forall q, In q l -> ~ In "|"%char q) by (intros; apply Hp; now right).
    destruct o; [|discriminate|].
    + destruct (IH _ Hl H) as [A [B C]]. split; auto. split; intros K.
      * apply B. intros; apply K; now right.
      * apply C. intros; apply K; now right.
    + apply bind_ok in H. destruct H as [[ss'|] [H2 H]]; [|discriminate]. injection H as <-.
      destruct (IH _ Hl H2) as [A [B C]].
      destruct (part_seg_facts _ _ H1 (Hp p (or_introl eq_refl))) as [F1 [F2 [F3 F4]]].
      split; [constructor; auto|]. split; intros K; constructor.
      * apply F3, K. now left.
      * apply B. intros; apply K; now right.
      * apply F4, K. now left.
      * apply C. intros; apply K; now right.
Qed.
Lemma merge_no_count : forall l, Forall (fun sg => s_type sg <> SCount) l -> merge_fields l = l.
Proof.
  induction l as [|x l IH]; intros H; auto. inversion H; subst. cbn [merge_fields]. rewrite IH by auto.
  destruct (s_type x); auto; try (destruct l; reflexivity). destruct H2; auto.
Qed.
Lemma merge_bare : forall n l, List.length l <= n -> Forall (fun sg => s_mods sg = [] /\ s_type sg <> SWild) l ->
  Forall bare (merge_fields l).
Proof.
  induction n as [|n IH]; intros l Hl H; destruct l as [|x l1]; try constructor; cbn [List.length] in Hl; try lia.
  inversion H; subst. cbn [merge_fields].
  assert (B : Forall bare (x :: merge_fields l1)) by (constructor; [exact H2|apply IH; auto; lia]).
  destruct (s_type x) eqn:T; auto; destruct l1 as [|nx l2]; auto.
  inversion H3; subst.
  assert (B2 : Forall bare (mkSeg SField [] 0 false None false (field_of nx) (s_mods nx) :: merge_fields l2)).
  { constructor; [|apply IH; auto; cbn [List.length] in Hl; lia]. split; [exact (proj1 H4)|discriminate]. }
  destruct (s_type nx); auto; destruct (is_valid_field_name (field_of nx) && _); auto.
Qed.
Lemma path_bare : forall path segs, ~ In "|"%char path -> ~ In "*"%char path -> parse_path path = Ok segs ->
  Forall bare segs.
Proof.
  intros path segs H1 H2 H. unfold parse_path in H. destruct path as [|c path]; [injection H as <-; constructor|].
  apply bind_ok in H. destruct H as [[ss|] [P H]]; injection H as <-; [|constructor].
  unfold parse_path_internal in P. destruct (Nat.ltb _ _); [discriminate|].
  apply bind_ok in P. destruct P as [[l|] [P1 P2]]; [|discriminate]. injection P2 as <-.
  destruct (parts_facts _ _ (fun p Hp Hin => H1 (split_path_in _ _ _ Hp Hin)) P1) as [A [B _]].
  specialize (B (fun p Hp Hin => H2 (split_path_in _ _ _ Hp Hin))).
  eapply merge_bare; [apply le_n|]. rewrite Forall_forall in *. intros x Hx. split; [now apply A|now apply B].
Qed.
Lemma path_bare2 : forall path segs, ~ In "|"%char path -> ~ In "#"%char path -> parse_path path = Ok segs ->
  Forall bare2 segs.
Proof.
  intros path segs H1 H2 H. unfold parse_path in H. destruct path as [|c path]; [injection H as <-; constructor|].
  apply bind_ok in H. destruct H as [[ss|] [P H]]; injection H as <-; [|constructor].
  unfold parse_path_internal in P. destruct (Nat.ltb _ _); [discriminate|].
  apply bind_ok in P. destruct P as [[l|] [P1 P2]]; [|discriminate]. injection P2 as <-.
  destruct (parts_facts _ _ (fun p Hp Hin => H1 (split_path_in _ _ _ Hp Hin)) P1) as [A [_ C]].
  specialize (C (fun p Hp Hin => H2 (split_path_in _ _ _ Hp Hin))).
  rewrite merge_no_count by auto. exact A.
Qed.
Lemma get_opts_plain : forall E o xml path, o_case o = true -> ~ In "|"%char path ->
  ~ In "*"%char path \/ ~ In "#"%char path -> get_opts E o xml path = get E xml path.
Proof.
  intros E o xml path Ho Hm Hc. unfold get_opts, get, parse_path_opts. rewrite Ho.
  destruct (MaxDocumentSize <? blen xml)%N; auto. destruct (is_default_options o); auto.
  destruct (parse_path path) as [segs| |] eqn:P; auto. cbn [bind]. destruct segs as [|s0 ss]; auto.
  destruct Hc as [Hc|Hc].
  - apply exec_opts_bare. eapply path_bare; eauto.
  - apply exec_opts_bare2. eapply path_bare2; eauto.
Qed.
