(** Bounds on the number of results. *)
From Coq Require Import List Ascii String NArith ZArith Bool Lia.
From Verif Require Import GoStr ModelParser ModelPath ModelResult ModelQuery SpecText SpecPath SpecTree SpecQuery SpecBound
  ProofBase ProofScan ProofPath ProofSyntax ProofFuel.
Import ListNotations.

Definition multi (sg : seg) : bool :=
  match s_type sg with SWild | SField | SCount => true | SFilter => s_all sg | _ => false end.
Fixpoint width (segs : list seg) : N :=
  match segs with [] => 1 | sg :: rest => (if multi sg then 1000 else 1) * width rest end%N.
Definition bare (segs : list seg) : Prop := Forall (fun sg => s_mods sg = []) segs.
Definition single (r : result) : Prop := r_type r <> RArray.
Definition fits (w : N) (r : result) : Prop := (N.of_nat (len (flatten1 r)) <= w)%N /\ Forall single (flatten1 r).
Definition few (w : N) (l : list result) : Prop := (N.of_nat (len l) <= w)%N /\ Forall single l.

Lemma width_pos : forall segs, (1 <= width segs)%N.
Proof. induction segs as [|sg segs IH]; cbn [width]; [lia|]. destruct (multi sg); lia. Qed.
Lemma fits_le : forall w w' r, fits w r -> (w <= w')%N -> fits w' r.
Proof. intros w w' r [H1 H2] L. split; auto. lia. Qed.
Lemma fits_one : forall w r, r_type r <> RArray -> (1 <= w)%N -> fits w r.
Proof. intros w r H L. unfold fits, flatten1. destruct (r_type r) eqn:T; try congruence; cbn [List.length]; (split; [lia|]); repeat constructor; unfold single; congruence. Qed.
Lemma fits_array : forall w l, few w l -> fits w (r_array l).
Proof. intros w l H. exact H. Qed.
Lemma fits_package : forall w l, few w l -> (1 <= w)%N -> fits w (package l).
Proof.
  intros w l [H1 H2] L. unfold package. destruct l as [|x [|y l]]; [apply fits_array; split; auto| |apply fits_array; split; auto].
  inversion H2; subst. now apply fits_one.
Qed.
Lemma fits_flat : forall w r, fits w r -> few w (flatten1 r). Proof. auto. Qed.
Lemma few_app : forall a b l l', few a l -> few b l' -> few (a + b) (l ++ l').
Proof. intros a b l l' [H1 H2] [H3 H4]. split; [rewrite app_length; lia|]. apply Forall_app. auto. Qed.
Lemma few_map : forall A (f : A -> result) l, (forall x, single (f x)) -> few (N.of_nat (len l)) (map f l).
Proof. intros A f l H. split; [rewrite map_length; lia|]. apply Forall_map. now apply Forall_forall. Qed.
Lemma few_flat : forall A (f : A -> list result) l, (forall x, few 1 (f x)) -> few (N.of_nat (len l)) (flat_map f l).
Proof.
  intros A f l H. induction l as [|x l IH]; [split; [cbn; lia|constructor]|]. cbn [flat_map List.length].
  replace (N.of_nat (S (len l))) with (1 + N.of_nat (len l))%N by lia. now apply few_app.
Qed.
Lemma few_firstn : forall n w l, few w l -> few (N.min w (N.of_nat n)) (firstn n l).
Proof.
  intros n w l [H1 H2]. split.
  - pose proof (firstn_le_length n l). pose proof (firstn_length n l). lia.
  - apply Forall_forall. intros x Hx. rewrite Forall_forall in H2. apply H2. rewrite <- (firstn_skipn n l). apply in_or_app. now left.
Qed.
Lemma few_le : forall w w' l, few w l -> (w <= w')%N -> few w' l. Proof. intros w w' l [H1 H2] L. split; auto. lia. Qed.

Section Bound.
  Variable E : env.
  Variable rec : qrec.
  Hypothesis Hrec : forall k root s segs r, bare segs -> rec k root s segs = Ok r -> fits (width segs) r.

  Lemma attr_few : forall name e, few 1 (match map_get name (e_attrs e) with Some v => [r_attribute v] | None => [] end).
  Proof. intros name e. destruct (map_get name (e_attrs e)); split; cbn; try lia; repeat constructor. discriminate. Qed.
  Lemma field_children_single : forall key f l rs, field_children E key f l = Ok rs -> Forall single rs.
  Proof.
    intros key f. induction l as [|e l IH]; intros rs H; cbn [field_children] in H; [injection H as <-; constructor|].
    apply bind_ok in H. destruct H as [cs [_ H]]. apply bind_ok in H. destruct H as [r [H1 H]]. injection H as <-.
    apply Forall_app. split; auto. apply Forall_map. apply Forall_forall. intros; discriminate.
  Qed.
  Lemma field_bound : forall key l sg r, s_mods sg = [] -> field_extract E key l sg = Ok r -> fits 1000 r.
  Proof.
    intros key l sg r Hm H. unfold field_extract in H. destruct (s_field sg) as [|c name] eqn:F.
    - injection H as <-. apply fits_one; [discriminate|lia].
    - apply bind_ok in H. destruct H as [all [H1 H2]].
      assert (S : Forall single all).
      { destruct (Ascii.eqb c "@"); [|destruct (bytes_eqb (c :: name) (bs "%"))].
        - injection H1 as <-. apply Forall_flat_map. apply Forall_forall. intros e _. apply attr_few.
        - injection H1 as <-. apply Forall_flat_map. apply Forall_forall. intros e _. destruct (extract_direct (e_content e)); repeat constructor. discriminate.
        - eapply field_children_single; eauto. }
      assert (FW : few 1000 (firstn MaxWildcardResults all)).
      { apply few_le with (N.min (N.of_nat (len all)) (N.of_nat MaxWildcardResults)); [apply few_firstn; split; auto; lia|]. unfold MaxWildcardResults. lia. }
      rewrite Hm in H2. change (apply_modifiers E (r_array (firstn MaxWildcardResults all)) []) with (r_array (firstn MaxWildcardResults all)) in H2.
      destruct (firstn MaxWildcardResults all); injection H2 as <-; now apply fits_array.
  Qed.
  Lemma finish_bound : forall w all mods r, mods = [] -> few w all -> (1 <= w)%N ->
    match all with [] => Ok r_null | _ :: _ => Ok (apply_modifiers E (package all) mods) end = Ok r -> fits w r.
  Proof.
    intros w all mods r -> F L H. change (apply_modifiers E (package all) []) with (package all) in H.
    pose proof (fits_package w all F L) as P. destruct all as [|x all]; injection H as <-; [apply fits_one; auto; discriminate|exact P].
  Qed.
  Lemma process_first_bound : forall key e sg rest r, bare (sg :: rest) -> process_first E rec key e sg rest = Ok r -> fits (width rest) r.
  Proof.
    intros key e sg rest r B H. inversion B as [|? ? B1 B2]; subst. unfold process_first in H. pose proof (width_pos rest) as L.
    destruct rest as [|nx more].
    - injection H as <-. rewrite B1. apply fits_one; auto. discriminate.
    - inversion B2 as [|? ? B3 B4]; subst. rewrite B3 in H. destruct (s_type nx) eqn:T; try (eapply Hrec; eauto; fail).
      + destruct (map_get (s_value nx) (e_attrs e)); injection H as <-; apply fits_one; auto; discriminate.
      + injection H as <-. apply fits_one; auto. discriminate.
      + apply field_bound in H; auto. eapply fits_le; eauto. cbn [width]. unfold multi. rewrite T. pose proof (width_pos more). lia.
  Qed.
  Lemma query_each_bound : forall key l rest rs, bare rest -> query_each rec key l rest = Ok rs -> few (N.of_nat (len l) * width rest) rs.
  Proof.
    intros key l rest rs B. revert rs. induction l as [|e l IH]; intros rs H; cbn [query_each] in H.
    - injection H as <-. split; [cbn; lia|constructor].
    - apply bind_ok in H. destruct H as [r [H1 H]]. apply bind_ok in H. destruct H as [rs' [H2 H]]. injection H as <-.
      apply few_le with (width rest + N.of_nat (len l) * width rest)%N; [|cbn [List.length]; lia]. apply few_app; auto. apply fits_flat. eapply Hrec; eauto.
  Qed.
  Lemma process_all_bound : forall key l sg rest r, bare (sg :: rest) -> len l <= 1000 -> process_all E rec key l sg rest = Ok r -> fits (1000 * width rest) r.
  Proof.
    intros key l sg rest r B Hl H. inversion B as [|? ? B1 B2]; subst. unfold process_all in H. pose proof (width_pos rest) as L.
    destruct rest as [|nx more].
    - injection H as <-. rewrite B1. change (apply_modifiers E ?x []) with x. apply fits_array.
      eapply few_le; [apply few_map; discriminate|]. cbn [width] in *. lia.
    - inversion B2 as [|? ? B3 B4]; subst. destruct (s_type nx) eqn:T;
        try (apply bind_ok in H; destruct H as [all [H1 H]]; refine (finish_bound _ _ _ _ B3 _ _ H);
             [eapply few_le; [exact (query_each_bound _ _ _ _ B2 H1)|]; nia|lia]; fail).
      + refine (finish_bound _ _ _ _ B3 _ _ H); [|lia]. eapply few_le; [apply few_flat; intros; apply attr_few|nia].
      + refine (finish_bound _ _ _ _ B3 _ _ H); [|lia]. eapply few_le; [apply few_map; discriminate|nia].
      + apply field_bound in H; auto. eapply fits_le; eauto. lia.
  Qed.
  Lemma route_bound : forall key l sg rest r, bare (sg :: rest) -> s_type sg = SFilter -> len l <= 1000 ->
    route_matches E rec key l sg rest = Ok r -> fits (width (sg :: rest)) r.
  Proof.
    intros key l sg rest r B T Hl H. unfold route_matches in H. cbn [width]. unfold multi. rewrite T. pose proof (width_pos rest) as L.
    destruct l as [|e l]; [injection H as <-; apply fits_one; [discriminate|destruct (s_all sg); lia]|].
    destruct (s_all sg).
    - eapply process_all_bound; eauto.
    - apply process_first_bound in H; auto. eapply fits_le; eauto. lia.
  Qed.
  Lemma wild_each_bound : forall key l rest p, bare rest -> wild_each rec key l rest = Ok p -> few (N.of_nat (len l) * width rest) (fst p).
  Proof.
    intros key l rest rs B. revert rs. induction l as [|e l IH]; intros rs H; cbn [wild_each] in H.
    - injection H as <-. split; [cbn; lia|constructor].
    - apply bind_ok in H. destruct H as [r [H1 H]]. apply bind_ok in H. destruct H as [rs' [H2 H]]. injection H as <-. cbn [fst].
      apply few_le with (width rest + N.of_nat (len l) * width rest)%N; [|cbn [List.length]; lia]. apply few_app; auto. apply fits_flat. eapply Hrec; eauto.
  Qed.
  Lemma wild_finish : forall w all (empty : bool) mods r, mods = [] -> few w all -> (1 <= w)%N ->
    match all with [] => Ok (if empty then r_array [] else r_null) | _ :: _ => Ok (apply_modifiers E (package all) mods) end = Ok r -> fits w r.
  Proof.
    intros w all empty mods r -> F L H. change (apply_modifiers E (package all) []) with (package all) in H.
    pose proof (fits_package w all F L) as P. destruct all as [|x all]; injection H as <-; [|exact P]. destruct empty; [apply fits_array; split; [cbn; lia|constructor]|apply fits_one; auto; discriminate].
  Qed.
  Lemma wildcard_bound : forall key l rest r, bare rest -> len l <= 1000 -> handle_wildcard E rec key l rest = Ok r -> fits (1000 * width rest) r.
  Proof.
    intros key l rest r B Hl H. unfold handle_wildcard in H. pose proof (width_pos rest) as L. destruct rest as [|nx more].
    - injection H as <-. apply fits_package; [|lia]. eapply few_le; [apply few_map; discriminate|]. cbn [width] in *. lia.
    - inversion B as [|? ? B3 B4]; subst. destruct (s_type nx) eqn:T;
        try (apply bind_ok in H; destruct H as [p [H1 H]]; refine (wild_finish _ _ _ _ _ B3 _ _ H);
             [eapply few_le; [exact (wild_each_bound _ _ _ _ B H1)|]; nia|lia]; fail).
      + refine (wild_finish _ _ false _ _ B3 _ _ H); [|lia]. destruct more; [eapply few_le; [apply few_flat; intros; apply attr_few|nia]|split; [cbn; lia|constructor]].
      + refine (wild_finish _ _ false _ _ B3 _ _ H); [|lia]. eapply few_le; [apply few_map; discriminate|nia].
  Qed.
  Lemma search_add_bound : forall key e rest add, bare rest -> search_add E rec key e rest = Ok add -> few (width rest) add.
  Proof.
    intros key e rest add B H. unfold search_add in H. pose proof (width_pos rest) as L. destruct rest as [|nx more].
    - injection H as <-. split; [cbn; lia|]. repeat constructor. discriminate.
    - inversion B as [|? ? B3 B4]; subst. destruct (s_type nx) eqn:T;
        try (apply bind_ok in H; destruct H as [r [H1 H]]; injection H as <-; apply fits_flat; eapply Hrec; eauto; fail).
      + injection H as <-. destruct (map_get (s_value nx) (e_attrs e)), more; (split; [cbn [List.length]; lia|]); repeat constructor. discriminate.
      + injection H as <-. split; [cbn [List.length]; lia|]. repeat constructor. discriminate.
      + apply bind_ok in H. destruct H as [r [H1 H]]. injection H as <-. apply field_bound in H1; auto.
        assert (W : (1000 <= width (nx :: more))%N) by (cbn [width]; unfold multi; rewrite T; pose proof (width_pos more); lia).
        destruct (r_type r) eqn:Q; try (split; [cbn [List.length]; lia|constructor]). destruct H1 as [H1 H2]. unfold flatten1 in *. rewrite Q in *. split; auto. lia.
  Qed.
  Lemma rsearch_bound : forall n key target rest st s st', bare rest -> few (999 + width rest) (snd st) ->
    rsearch E rec n key target rest st s = Ok st' -> few (999 + width rest) (snd st').
  Proof.
    induction n as [|n IH]; intros key target rest st s st' B F H; cbn [rsearch] in H.
    - injection H as <-. exact F.
    - match type of H with (if ?b then _ else _) = _ => destruct b; [injection H as <-; exact F|] end.
      apply bind_ok in H. destruct H as [es [_ H]].
      assert (F0 : few (999 + width rest) (snd ((fst st + 1)%N, snd st))) by exact F.
      revert F0 H. generalize ((fst st + 1)%N, snd st). clear F st. induction es as [|e es IHes]; intros st F H; [injection H as <-; exact F|].
      apply bind_ok in H. destruct H as [st1 [H1 H]].
      assert (F1 : few (999 + width rest) (snd st1)). { destruct (e_content e); [injection H1 as <-; exact F|]. eapply IH; eauto. }
      destruct (MaxRecursiveOperations <=? fst st1)%N; [injection H as <-; exact F1|].
      destruct (seg_matches target (e_name e)); [|eauto].
      destruct (Nat.leb MaxWildcardResults (len (snd st1))) eqn:Q; [injection H as <-; exact F1|].
      apply bind_ok in H. destruct H as [add [H2 H]]. apply search_add_bound in H2; auto. eapply IHes; [|exact H]. cbn [snd].
      apply Nat.leb_gt in Q. unfold MaxWildcardResults in Q. apply few_app; auto. destruct F1 as [_ F1]. split; auto. lia.
  Qed.
  Lemma recursive_bound : forall key rest s r, bare rest -> handle_recursive E rec key rest s = Ok r -> fits (1000 * width rest) r.
  Proof.
    intros key rest s r B H. unfold handle_recursive in H. pose proof (width_pos rest) as L. destruct rest as [|target rest].
    - injection H as <-. apply fits_one; [discriminate|lia].
    - inversion B as [|? ? B1 B2]; subst. apply bind_ok in H. destruct H as [st [H1 H]]. pose proof (width_pos rest) as L2.
      apply rsearch_bound in H1; auto; [|split; [cbn [List.length snd]; lia|constructor]].
      assert (W : (999 + width rest <= 1000 * width (target :: rest))%N) by (cbn [width]; destruct (multi target); lia).
      eapply few_le in H1; [|exact W]. apply fits_package in H1; [|lia]. destruct (snd st) as [|x l]; injection H as <-; [apply fits_one; [discriminate|lia]|exact H1].
  Qed.
  Lemma root_array_bound : forall key l nx more r, bare (nx :: more) -> In (s_type nx) [SIndex; SCount; SField] -> root_array E rec key l nx more = Ok r -> fits (width (nx :: more)) r.
  Proof.
    intros key l nx more r B T H. inversion B as [|? ? B1 B2]; subst. pose proof (width_pos (nx :: more)) as L. pose proof (width_pos more) as L2. unfold root_array in H.
    assert (LW : (width more <= width (nx :: more))%N) by (cbn [width]; destruct (multi nx); lia).
    destruct l as [|e l]; [injection H as <-; apply fits_one; auto; discriminate|].
    cbn [In] in T. destruct T as [T|[T|[T|[]]]]; rewrite <- T in H.
    - destruct (nth_elem (e :: l) (s_index nx)) as [e'|]; [|injection H as <-; apply fits_one; auto; discriminate].
      destruct more as [|n2 more]; [injection H as <-; apply fits_one; auto; discriminate|].
      destruct (s_type n2); try (eapply fits_le; [eapply Hrec; eauto|]; auto; fail).
      + destruct (map_get (s_value n2) (e_attrs e')); injection H as <-; apply fits_one; auto; discriminate.
      + injection H as <-; apply fits_one; auto; discriminate.
    - injection H as <-. apply fits_one; auto; discriminate.
    - apply field_bound in H; auto. eapply fits_le; eauto. cbn [width]. unfold multi. rewrite <- T. lia.
  Qed.
  Lemma array_op_bound : forall key l nx more r, bare (nx :: more) -> array_op E rec key l nx more = Ok r -> fits (width (nx :: more)) r.
  Proof.
    intros key l nx more r B H. inversion B as [|? ? B1 B2]; subst. pose proof (width_pos (nx :: more)) as L. pose proof (width_pos more) as L2. unfold array_op in H. rewrite B1 in H.
    assert (LW : (width more <= width (nx :: more))%N) by (cbn [width]; destruct (multi nx); lia).
    destruct l as [|e l]; [injection H as <-; apply fits_one; auto; discriminate|].
    destruct (s_type nx); try (injection H as <-; apply fits_one; auto; discriminate).
    destruct (nth_elem (e :: l) (s_index nx)) as [e'|]; [|injection H as <-; apply fits_one; auto; discriminate].
    destruct more as [|n2 more]; [injection H as <-; apply fits_one; auto; discriminate|].
    destruct (s_type n2); try (eapply fits_le; [eapply Hrec; eauto|]; auto; fail).
    inversion B2 as [|? ? B3 B4]; subst. rewrite B3 in H.
    destruct (map_get (s_value n2) (e_attrs e')); [destruct more|]; injection H as <-; apply fits_one; auto; discriminate.
  Qed.
  Lemma first_loop_bound : forall key l sg rest r, bare (sg :: rest) -> first_loop E rec key l sg rest = Ok r -> fits (width rest) r.
  Proof.
    intros key l sg rest r B. inversion B as [|? ? B1 B2]; subst. pose proof (width_pos rest) as L. induction l as [|e l IH]; intros H; cbn [first_loop] in H.
    - injection H as <-. apply fits_one; auto. discriminate.
    - destruct rest as [|nx more]; [injection H as <-; rewrite B1; apply fits_one; auto; discriminate|].
      inversion B2 as [|? ? B3 B4]; subst. rewrite B3 in H.
      destruct (s_type nx); try (apply bind_ok in H; destruct H as [r' [H1 H]]; destruct (is_null r'); [auto|injection H as <-; eapply Hrec; eauto; fail]).
      + destruct (map_get (s_value nx) (e_attrs e)), more; injection H as <-; apply fits_one; auto; discriminate.
      + injection H as <-. apply fits_one; auto. discriminate.
  Qed.
  Lemma filter_elems_len : forall key f l l', filter_elems E rec key f l = Ok l' -> len l' <= len l.
  Proof.
    intros key f. induction l as [|e l IH]; intros l' H; cbn [filter_elems] in H; [injection H as <-; auto|].
    apply bind_ok in H. destruct H as [b [_ H]]. apply bind_ok in H. destruct H as [l2 [H1 H]]. injection H as <-. apply IH in H1.
    destruct b; cbn [List.length]; lia.
  Qed.
  Lemma filter_upto_len : forall n key f l l', filter_elems_upto (S n) E rec key f l = Ok l' -> len l' <= S n.
  Proof.
    intros n key f l. revert n. induction l as [|e l IH]; intros n l' H; cbn [filter_elems_upto] in H; [injection H as <-; cbn; lia|].
    apply bind_ok in H. destruct H as [b [_ H]]. destruct b; [|auto]. destruct n as [|n].
    - injection H as <-. cbn. lia.
    - apply bind_ok in H. destruct H as [l2 [H1 H]]. injection H as <-. apply IH in H1. cbn [List.length]. lia.
  Qed.
  Lemma exec_element_bound : forall key es sg rest r, bare (sg :: rest) -> exec_element E rec key es sg rest = Ok r -> fits (width rest) r.
  Proof.
    intros key es sg rest r B H. inversion B as [|? ? B1 B2]; subst. unfold exec_element in H. destruct rest as [|nx more]; [eapply first_loop_bound; eauto|].
    inversion B2 as [|? ? B3 B4]; subst. pose proof (width_pos more) as L.
    destruct (s_type nx) eqn:T; try (eapply first_loop_bound; eauto; fail); try (eapply array_op_bound; eauto; fail).
    - apply bind_ok in H. destruct H as [l [H1 H]]. apply filter_elems_len in H1. eapply route_bound in H; eauto.
      pose proof (firstn_le_length MaxWildcardResults (matching sg es)). unfold MaxWildcardResults in *. lia.
    - apply field_bound in H; auto. eapply fits_le; eauto. cbn [width]. unfold multi. rewrite T. lia.
  Qed.
  Lemma exec_body_bound : forall key root s segs r, bare segs -> exec_body E rec key root s segs = Ok r -> fits (width segs) r.
  Proof.
    intros key root s segs r B H. unfold exec_body in H. destruct segs as [|sg rest]; [injection H as <-; apply fits_one; [discriminate|cbn; lia]|].
    inversion B as [|? ? B1 B2]; subst. apply bind_ok in H. destruct H as [es [_ H]]. pose proof (width_pos rest) as L. pose proof (width_pos (sg :: rest)) as L2.
    assert (LW : (width rest <= width (sg :: rest))%N) by (cbn [width]; destruct (multi sg); lia).
    destruct (s_type sg) eqn:T; try (injection H as <-; apply fits_one; auto; discriminate).
    - assert (X : forall r, exec_element E rec key es sg rest = Ok r -> fits (width (sg :: rest)) r).
      { intros r0 K. eapply fits_le; [eapply exec_element_bound; eauto|auto]. }
      destruct root; [|auto]. destruct rest as [|nx more]; [auto|].
      destruct (s_type nx) eqn:T2; auto; (eapply fits_le; [eapply root_array_bound; [exact B2| |exact H]|auto]); rewrite T2; cbn; auto.
    - assert (W : width (sg :: rest) = (1000 * width rest)%N) by (cbn [width]; unfold multi; now rewrite T). rewrite W in *.
      destruct (s_wild sg).
      + eapply recursive_bound; eauto.
      + pose proof (firstn_le_length MaxWildcardResults es) as FL. destruct (firstn MaxWildcardResults es) as [|e0 l]; [injection H as <-; apply fits_one; auto; discriminate|].
        apply bind_ok in H. destruct H as [r' [H1 H]]. apply wildcard_bound in H1; auto. rewrite B1 in H. change (apply_modifiers E r' []) with r' in H.
        destruct rest; injection H as <-; auto.
    - apply bind_ok in H. destruct H as [l [H1 H]]. unfold MaxWildcardResults in H1. apply filter_upto_len in H1. eapply route_bound in H; eauto.
    - injection H as <-. apply fits_array. split; [cbn; lia|constructor].
  Qed.
End Bound.
Lemma exec_bound : forall E fuel key root s segs r, bare segs -> exec E fuel key root s segs = Ok r -> fits (width segs) r.
Proof.
  intros E. induction fuel as [|f IH]; intros key root s segs r B H; [discriminate|]. cbn [exec] in H. eapply exec_body_bound; eauto.
Qed.
Lemma get_bound : forall E xml path segs r, parse_path path = Ok segs -> bare segs -> get E xml path = Ok r -> fits (width segs) r.
Proof.
  intros E xml path segs r P B H. unfold get in H. destruct (MaxDocumentSize <? blen xml)%N.
  - injection H as <-. apply fits_one; [discriminate|apply width_pos].
  - rewrite P in H. cbn [bind] in H. destruct segs; [injection H as <-; apply fits_one; [discriminate|cbn; lia]|]. eapply exec_bound; eauto.
Qed.

(** ** Which parts of a path can multiply the results. *)
Lemma multi_part : forall part sg, ~ In "|"%char part -> parse_part part = Ok (PSeg sg) ->
  s_mods sg = [] /\ (multi sg = true -> multiplies part = true).
Proof.
  intros part sg Hb H. unfold parse_part in H. destruct part as [|c0 part']; [discriminate|]. unfold parse_modifiers in H. rewrite split_on_none in H by auto.
  set (part := c0 :: part') in *. cbn [map List.filter] in H. destruct (strip_prefix (bs "#(") part) as [body|] eqn:SP.
  - destruct (has_suffix (bs ")#") part) eqn:S1; [|destruct (has_suffix (bs ")") part); [|discriminate]];
      match type of H with (if ?b then _ else _) = _ => destruct b; [discriminate|] end;
      apply bind_ok in H; destruct H as [f [_ H]]; destruct f as [f|]; try discriminate; injection H as <-; (split; [reflexivity|]).
    + intros _. unfold multiplies. rewrite S1. assert (P : has_prefix (bs "#(") part = true) by (unfold has_prefix; now rewrite SP). rewrite P. now rewrite !orb_true_r.
    + discriminate.
  - unfold part in H at 1. cbv iota in H. destruct (Ascii.eqb c0 "@"); [injection H as <-; split; [reflexivity|discriminate]|].
    unfold multiplies. fold part in H.
    destruct (bytes_eqb part (bs "%")); [injection H as <-; split; [reflexivity|discriminate]|].
    destruct (bytes_eqb part (bs "#")) eqn:E1; [injection H as <-; split; [reflexivity|intros _; now rewrite !orb_true_r]|].
    destruct (bytes_eqb part (bs "*")) eqn:E2; [injection H as <-; split; [reflexivity|intros _; reflexivity]|].
    destruct (bytes_eqb part (bs "**")) eqn:E3; [injection H as <-; split; [reflexivity|intros _; reflexivity]|].
    destruct (is_numeric part); injection H as <-; split; try reflexivity; discriminate.
Qed.
Definition power (parts : list bytes) : N := (1000 ^ N.of_nat (len (filter multiplies parts)))%N.
Lemma power_cons : forall p ps, power (p :: ps) = ((if multiplies p then 1000 else 1) * power ps)%N.
Proof. intros p ps. unfold power. cbn [filter]. destruct (multiplies p); [cbn [List.length]; rewrite Nnat.Nat2N.inj_succ, N.pow_succ_r'; reflexivity|lia]. Qed.
Lemma parts_bound : forall parts segs, Forall (fun p => ~ In "|"%char p) parts -> parse_parts parts = Ok (Some segs) ->
  bare segs /\ (width segs <= power parts)%N.
Proof.
  induction parts as [|p parts IH]; intros segs Hb H; cbn [parse_parts] in H.
  - injection H as <-. split; [constructor|]. cbn. lia.
  - inversion Hb as [|? ? B1 B2]; subst. apply bind_ok in H. destruct H as [o [H1 H]]. rewrite power_cons. destruct o as [| |sg].
    + destruct (IH _ B2 H) as [K1 K2]. split; auto. destruct (multiplies p); lia.
    + discriminate.
    + apply bind_ok in H. destruct H as [r [H2 H]]. destruct r as [ss|]; [|discriminate]. injection H as <-. destruct (IH _ B2 H2) as [K1 K2].
      destruct (multi_part _ _ B1 H1) as [M1 M2]. split; [now constructor|]. cbn [width]. destruct (multi sg); [rewrite M2 by auto; nia|]. destruct (multiplies p); nia.
Qed.
Lemma merge_bound : forall n segs, len segs <= n -> bare segs -> bare (merge_fields segs) /\ (width (merge_fields segs) <= width segs)%N.
Proof.
  induction n as [|n IH]; intros segs Hn B; [destruct segs; [split; [constructor|cbn; lia]|cbn in Hn; lia]|].
  destruct segs as [|x l1]; [split; [constructor|cbn; lia]|]. cbn [List.length] in Hn. inversion B as [|? ? B1 B2]; subst.
  destruct (IH l1 ltac:(lia) B2) as [K1 K2].
  assert (D : bare (x :: merge_fields l1) /\ (width (x :: merge_fields l1) <= width (x :: l1))%N).
  { split; [now constructor|]. cbn [width]. destruct (multi x); nia. }
  cbn [merge_fields]. destruct (s_type x) eqn:T; auto. destruct l1 as [|nx l2]; auto. inversion B2 as [|? ? B3 B4]; subst.
  cbn [List.length] in Hn. destruct (IH l2 ltac:(lia) B4) as [J1 J2].
  assert (F : forall f, bare (mkSeg SField [] 0 false None false f (s_mods nx) :: merge_fields l2) /\
     (width (mkSeg SField [] 0 false None false f (s_mods nx) :: merge_fields l2) <= width (x :: nx :: l2))%N).
  { intros f. split; [constructor; auto|]. cbn [width]. unfold multi at 1. cbn [s_type]. unfold multi at 1. rewrite T. destruct (multi nx); nia. }
  destruct (s_type nx); auto; match goal with |- context[if ?b then _ else _] => destruct b end; auto.
Qed.
Lemma path_bound : forall E xml parts r, Forall (fun p => ~ In "|"%char p) parts -> get E xml (path_text parts) = Ok r -> fits (power parts) r.
Proof.
  intros E xml parts r Hb H.
  assert (Hpos : (1 <= power parts)%N) by (clear; induction parts as [|p parts IH]; [cbn; lia|]; rewrite power_cons; destruct (multiplies p); lia).
  assert (X : fits (power parts) r \/ exists segs, parse_path (path_text parts) = Ok segs).
  { unfold get in H. destruct (MaxDocumentSize <? blen xml)%N; [left; injection H as <-; apply fits_one; auto; discriminate|right].
    apply bind_ok in H. destruct H as [segs [K _]]. eauto. }
  destruct X as [X|[segs P]]; auto. pose proof P as P0. unfold parse_path in P.
  assert (D : bare segs /\ (width segs <= power parts)%N).
  { assert (N0 : bare [] /\ (width [] <= power parts)%N) by (split; [constructor|cbn; lia]).
    destruct (path_text parts) eqn:Q; [injection P as <-; auto|]. rewrite <- Q in *.
    assert (R1 : parts <> []) by (intros ->; discriminate). assert (R2 : parts <> [[]]) by (intros ->; discriminate).
    apply bind_ok in P. destruct P as [o [P1 P]]. unfold parse_path_internal in P1. rewrite split_path_path_text in P1 by auto.
    match type of P1 with (if ?b then _ else _) = _ => destruct b end; [inversion P1; subst o; inversion P; subst segs; auto|].
    apply bind_ok in P1. destruct P1 as [ss [P1 P2]]. destruct ss as [ss|]; [|inversion P2; subst o; inversion P; subst segs; auto].
    inversion P2; subst o. inversion P; subst segs. destruct (parts_bound _ _ Hb P1) as [K1 K2]. destruct (merge_bound _ ss (le_n _) K1) as [K3 K4]. split; auto. lia. }
  destruct D as [D1 D2]. eapply fits_le; [eapply get_bound; eauto|auto].
Qed.
