(** [SpecOutcome] leaves no choice when attributes have a fixed order. *)
From Coq Require Import List Ascii String NArith ZArith Bool Lia Permutation.
From Verif Require Import GoStr ModelParser ModelPath ModelResult ModelQuery ModelBuilder SpecText SpecPath SpecTree SpecEdit SpecContent SpecCase SpecOptions
  SpecGrammar SpecScan SpecAnswer SpecError SpecOutcome ProofBase ProofScan ProofFuel ProofMod3 ProofOpt2 ProofAnswer2 ProofAnswer5 ProofOutcome.
Import ListNotations.

Lemma app_same : forall A (a a' b b' : list A), a ++ a' = b ++ b' -> List.length a = List.length b -> a = b /\ a' = b'.
Proof.
  induction a as [|x a IH]; intros a' [|y b] b' H L; try discriminate; auto. cbn [app] in H. injection H as -> H. cbn [List.length] in L.
  destruct (IH _ _ _ H) as [-> ->]; auto.
Qed.
Lemma app_longer : forall A (a b c d : list A), a ++ b = c ++ d -> (List.length a <= List.length c)%nat -> exists x, c = a ++ x /\ b = x ++ d.
Proof.
  induction a as [|x a IH]; intros b c d H L; [exists c; auto|]. destruct c as [|y c]; [cbn [List.length] in L; lia|]. cbn [app] in H. injection H as -> H.
  cbn [List.length] in L. destruct (IH b c d H) as (z & -> & ->); [lia|]. exists z. auto.
Qed.
Lemma spliced_det : forall d p q m out out', spliced d p q m out -> spliced d p q m out' -> out' = out.
Proof.
  intros d p q m out out' A B. inversion A as [a a1 b b1 X1 X2 X3 X4|X]; inversion B as [a' a1' b' b1' Y1 Y2 Y3 Y4|Y]; subst; auto; unfold size in *.
  - assert (S1 : List.length a = List.length a') by lia. assert (S2 : List.length b1 = List.length b1') by lia.
    destruct (app_same _ _ _ _ _ Y1 S1) as [-> _]. rewrite X3 in Y3. destruct (app_same _ _ _ _ _ Y3 S2) as [_ ->]. reflexivity.
  - exfalso. apply Y. rewrite X3 at 2. rewrite !app_length. lia.
  - exfalso. apply X. rewrite Y3 at 2. rewrite !app_length. lia.
Qed.
Lemma precedes_total : forall a b, ~ precedes a b -> ~ precedes b a -> a = b.
Proof.
  intros a b H K. rewrite precedes_ltb in *. destruct (bytes_ltb a b) eqn:Q1; [now elim H|]. destruct (bytes_ltb b a) eqn:Q2; [now elim K|].
  now apply bytes_ltb_total.
Qed.
Lemma sorted_unique : forall l l', sorted_by_name l -> sorted_by_name l' -> Permutation l l' -> NoDup (map fst l) -> l' = l.
Proof.
  induction l as [|p l IH]; intros l' S S' P N.
  { apply Permutation_nil in P. auto. }
  destruct l' as [|q l']; [symmetry in P; apply Permutation_nil in P; discriminate|].
  inversion S as [|x y F S1]; inversion S' as [|x' y' F' S1']; subst.
  assert (Q : fst q = fst p).
  { assert (I1 : In q (p :: l)) by (eapply Permutation_in; [symmetry; exact P|now left]). assert (I2 : In p (q :: l')) by (eapply Permutation_in; [exact P|now left]).
    destruct I1 as [->|I1]; auto. destruct I2 as [->|I2]; auto. apply precedes_total; [exact (proj1 (Forall_forall _ _) F q I1)|exact (proj1 (Forall_forall _ _) F' p I2)]. }
  assert (QP : q = p).
  { assert (I1 : In q (p :: l)) by (eapply Permutation_in; [symmetry; exact P|now left]). destruct I1 as [->|I1]; auto. exfalso.
    cbn [map] in N. inversion N as [|x y NI N1]; subst. apply NI. rewrite <- Q. now apply in_map. }
  subst q. f_equal. apply IH; auto; [eapply Permutation_cons_inv; exact P|now inversion N].
Qed.
Lemma put_nodup : forall cs x t a, NoDup (map fst a) -> NoDup (map fst (put_attrs cs x t (escaped a))).
Proof. intros. apply puts_nodup. now rewrite escaped_names. Qed.
Lemma drop_nodup : forall cs x a, NoDup (map fst a) -> NoDup (map fst (drop_attrs cs x (escaped a))).
Proof. intros. rewrite drops_names, escaped_names. now apply NoDup_filter. Qed.
Lemma retagged_det : forall p w m m', NoDup (map fst w) -> retagged p w m -> retagged p w m' -> m' = m.
Proof.
  intros p w m m' N [a P S] [a' P' S']. rewrite (sorted_unique a a'); auto; [now rewrite P'|]. eapply Permutation_NoDup; [|exact N]. apply Permutation_map. now symmetry.
Qed.

Section Det.
  Variable sight : bytes -> list elem -> Prop.
  Variable order : attrs -> attrs -> Prop.
  Variable cs : bool.
  Variable indent : bytes.
  Hypothesis sight_det : forall s l l', sight s l -> sight s l' -> l' = l.
  Hypothesis sight_keyed : forall s l, sight s l -> Forall keyed l.
  Hypothesis order_det : forall a b b', order a b -> order a b' -> b' = b.

  Lemma candidates_det : forall st es l l', candidates cs st es l -> candidates cs st es l' -> l' = l.
  Proof. intros st es l l' A B. destruct st; cbn [candidates] in *; subst; auto. eapply only_det; eauto. Qed.
  Lemma candidates_keyed : forall st es l, candidates cs st es l -> Forall keyed es -> Forall keyed l.
  Proof. intros st es l A K. destruct st; cbn [candidates] in *; subst; auto. eapply only_keyed; eauto. Qed.
  Lemma place_det : forall l i e e', at_place l i e -> at_place l i e' -> e' = e.
  Proof. intros l i e e' [_ A] [_ B]. congruence. Qed.
  Lemma place_no : forall l i e, at_place l i e -> no_place l i -> False.
  Proof. intros l i e [A B] N. assert (H : (Z.to_nat i < List.length l)%nat) by (apply nth_error_Some; congruence). unfold no_place in N. lia. Qed.
  Ltac join := repeat match goal with
    | A : sight ?s ?a, B : sight ?s ?b |- _ => first [constr_eq a b; clear B | pose proof (sight_det _ _ _ A B); subst b]
    | A : candidates cs ?s ?l ?a, B : candidates cs ?s ?l ?b |- _ =>
        first [constr_eq a b; clear B | let X := fresh in pose proof (candidates_det _ _ _ _ A B) as X; first [discriminate X | injection X; clear X; intros; subst | subst]]
    | A : at_place ?l ?i ?a, B : at_place ?l ?i ?b |- _ => first [constr_eq a b; clear B | pose proof (place_det _ _ _ _ A B); subst b]
    | A : at_place ?l ?i ?a, B : no_place ?l ?i |- _ => elim (place_no _ _ _ A B)
    end.
  Lemma lies_det : forall s base l p, lies sight cs s base l p -> forall p', lies sight cs s base l p' -> p' = p.
  Proof.
    induction 1; intros q Q; inversion Q; subst; auto; try lia; join; auto.
    all: try match goal with H : ~ is_nth (GNth _) |- _ => elim H; exact Logic.I end.
    all: try match goal with H : candidates cs _ _ ?a, K : candidates cs _ _ ?b |- _ => pose proof (candidates_det _ _ _ _ H K) as XX; discriminate XX end.
  Qed.
  Lemma at_keyed : forall l i e, at_place l i e -> Forall keyed l -> keyed e.
  Proof. intros l i e [_ A] K. apply nth_error_In in A. exact (proj1 (Forall_forall _ _) K e A). Qed.
  Lemma lies_keyed : forall s base l p, lies sight cs s base l p -> forall q, p = Some q -> NoDup (map fst (p_attrs q)).
  Proof.
    induction 1; intros q Q; try discriminate; auto; injection Q as <-; cbn [p_attrs place_of].
    - pose proof (candidates_keyed _ _ _ H1 (sight_keyed _ _ H0)) as K. now inversion K.
    - exact (at_keyed _ _ _ H2 (candidates_keyed _ _ _ H1 (sight_keyed _ _ H0))).
  Qed.
  Lemma built_det : forall t i l u, built cs indent t i l u -> forall u', built cs indent t i l u' -> u' = u.
  Proof.
    induction 1; intros v V; inversion V; subst; auto; try contradiction; try (now rewrite (IHbuilt _ ltac:(eassumption))).
  Qed.
  Lemma inserted_det : forall d p u out out', inserted order d p u out -> inserted order d p u out' -> out' = out.
  Proof.
    intros d p u out out' A B. inversion A; inversion B; subst; try congruence; try (eapply spliced_det; eassumption).
    match goal with X : order ?a ?b, Y : order ?a ?c |- _ => pose proof (order_det _ _ _ X Y); subst c end. eapply spliced_det; eassumption.
  Qed.
  Lemma under_det : forall e l a b, under_root cs e l a -> under_root cs e l b -> b = a.
  Proof. intros e l a b A B. inversion A; inversion B; subst; auto; try congruence; exfalso; match goal with H : forall n ms more, _ -> _ |- _ => eapply H; eauto end. Qed.
  Lemma created_det : forall d l t out out', created sight order cs indent d l t out -> created sight order cs indent d l t out' -> out' = out.
  Proof.
    assert (UI : forall d l l1 l2 p, unrooted sight cs d l -> l = l1 ++ l2 -> l1 <> [] -> l2 <> [] -> lies sight cs d 0 l1 (Some p) -> False).
    { intros d l l1 l2 p U Q N1 N2 L. pose proof (lies_det _ _ _ _ L _ (U _ _ Q N1 N2)). discriminate. }
    intros d l t out out' A B. inversion A; inversion B; subst; try contradiction; try (exfalso; eapply UI; eauto; fail);
      repeat match goal with
      | X : built cs indent ?t ?i ?l ?u, Y : built cs indent ?t ?i ?l ?v |- _ => first [constr_eq u v; clear Y | pose proof (built_det _ _ _ _ X _ Y); subst v]
      | X : sight ?s ?a, Y : sight ?s ?b |- _ => first [constr_eq a b; clear Y | let Z := fresh in pose proof (sight_det _ _ _ X Y) as Z; first [discriminate Z|injection Z as -> ->|subst b]]
      | X : under_root cs ?e ?l ?a, Y : under_root cs ?e ?l ?b |- _ => first [constr_eq a b; clear Y | let Z := fresh in pose proof (under_det _ _ _ _ X Y) as Z; first [discriminate Z|injection Z as -> ->|subst b]]
      end; auto; try contradiction; try (eapply inserted_det; eauto; fail).
    rename l1 into a1, l2 into a2, l0 into b1, l3 into b2.
    match goal with Q : a1 ++ a2 = b1 ++ b2 |- _ => rename Q into EQ | Q : b1 ++ b2 = a1 ++ a2 |- _ => symmetry in Q; rename Q into EQ end.
    assert (L : a1 = b1 /\ a2 = b2).
    { destruct (Nat.lt_trichotomy (List.length a1) (List.length b1)) as [L|[L|L]].
      - exfalso. destruct (app_longer _ _ _ _ _ EQ) as (x & -> & ->); [lia|].
        assert (NX : x <> []) by (intros ->; rewrite app_nil_r in L; lia).
        match goal with X : forall x y, _ ++ _ = x ++ y -> _, Y : lies sight cs d 0 (a1 ++ _) (Some _) |- _ => pose proof (lies_det _ _ _ _ Y _ (X _ _ eq_refl NX ltac:(assumption))); discriminate end.
      - now apply app_same.
      - exfalso. symmetry in EQ. destruct (app_longer _ _ _ _ _ EQ) as (x & -> & ->); [lia|].
        assert (NX : x <> []) by (intros ->; rewrite app_nil_r in L; lia).
        match goal with X : forall x y, _ ++ _ = x ++ y -> _, Y : lies sight cs d 0 (b1 ++ _) (Some _) |- _ => pose proof (lies_det _ _ _ _ Y _ (X _ _ eq_refl NX ltac:(assumption))); discriminate end. }
    destruct L as [-> ->].
    match goal with X : lies sight cs d 0 b1 (Some ?p), Y : lies sight cs d 0 b1 (Some ?q) |- _ => pose proof (lies_det _ _ _ _ X _ Y) as Z; injection Z as -> end.
    match goal with X : built cs indent ?t ?i ?l ?u, Y : built cs indent ?t ?i ?l ?v |- _ => pose proof (built_det _ _ _ _ X _ Y); subst v end.
    eapply inserted_det; eauto.
  Qed.
  Lemma after_det : forall n s dflt es z z', after_last cs n s dflt es z -> after_last cs n s dflt es z' -> z' = z.
  Proof.
    intros n s dflt es z z' A B. inversion A as [l1 e l2 X1 X2 X3|X]; inversion B as [m1 f m2 Y1 Y2 Y3|Y]; subst; auto.
    - destruct (Nat.lt_trichotomy (List.length l1) (List.length m1)) as [L|[L|L]].
      + exfalso. destruct (app_longer _ _ _ _ _ Y1) as (x & -> & Q); [lia|]. destruct x as [|y x]; [rewrite app_nil_r in L; lia|]. injection Q as -> ->.
        apply (X3 f); auto. apply in_or_app. right. now left.
      + destruct (app_same _ _ _ _ _ Y1 L) as [_ Q]. injection Q as -> _. auto.
      + exfalso. symmetry in Y1. destruct (app_longer _ _ _ _ _ Y1) as (x & -> & Q); [lia|]. destruct x as [|y x]; [rewrite app_nil_r in L; lia|]. injection Q as -> ->.
        apply (Y3 e); auto. apply in_or_app. right. now left.
    - exfalso. apply (Y e); auto. apply in_or_app. right. now left.
    - exfalso. apply (X f); auto. apply in_or_app. right. now left.
  Qed.
  Ltac meet := repeat match goal with
    | X : lies sight cs ?d ?b ?l ?p, Y : lies sight cs ?d ?b ?l ?q |- _ =>
        first [constr_eq p q; clear Y | let Z := fresh in pose proof (lies_det _ _ _ _ X _ Y) as Z; first [discriminate Z|injection Z as ->|injection Z; clear Z; intros; subst]]
    | X : sight ?s ?a, Y : sight ?s ?b |- _ => first [constr_eq a b; clear Y | pose proof (sight_det _ _ _ X Y); subst b]
    | X : after_last cs ?n ?s ?e ?es ?a, Y : after_last cs ?n ?s ?e ?es ?b |- _ => first [constr_eq a b; clear Y | pose proof (after_det _ _ _ _ _ _ X Y); subst b]
    | X : spliced ?d ?p ?q ?m ?a, Y : spliced ?d ?p ?q ?m ?b |- _ => first [constr_eq a b; clear Y | pose proof (spliced_det _ _ _ _ _ _ X Y); subst b]
    | X : created sight order cs indent ?d ?l ?t ?a, Y : created sight order cs indent ?d ?l ?t ?b |- _ =>
        first [constr_eq a b; clear Y | let Z := fresh in pose proof (created_det _ _ _ _ _ X Y) as Z; first [discriminate Z|injection Z as ->|subst b]]
    end.
  Lemma appended_det : forall d pre n ms t out out', appended sight order cs indent d pre n ms t out -> appended sight order cs indent d pre n ms t out' -> out' = out.
  Proof.
    intros d pre n ms t out out' A B. inversion A; inversion B; subst; try congruence; meet; auto; try congruence.
    - match goal with X : lies sight cs d 0 pre (Some ?p) |- _ => pose proof (lies_keyed _ _ _ _ X _ eq_refl) as K end.
      match goal with X : Permutation ?a (p_attrs ?p), Y : Permutation ?b (p_attrs ?p), S1 : sorted_by_name ?a, S2 : sorted_by_name ?b |- _ =>
        assert (Q : b = a) by (apply sorted_unique; auto; [now rewrite Y|eapply Permutation_NoDup; [|exact K]; apply Permutation_map; now symmetry]); subst b end.
      meet. auto.
    - exfalso. match goal with X : ~ (_ /\ _) |- _ => apply X end.
      match goal with X : size ?a = p_body _, Y : size (?a ++ ?c) = _ |- _ => rewrite <- X, <- Y; unfold size; rewrite ?app_length; lia end.
    - exfalso. match goal with X : ~ (_ /\ _) |- _ => apply X end.
      match goal with X : size ?a = p_body _, Y : size (?a ++ ?c) = _ |- _ => rewrite <- X, <- Y; unfold size; rewrite ?app_length; lia end.
    - match goal with Q : ?a ++ ?c ++ ?b = ?a' ++ ?c' ++ ?b', X : size ?a = p_body ?p, X' : size ?a' = p_body ?p, Y : size (?a ++ ?c) = _, Y' : size (?a' ++ ?c') = _ |- _ =>
        assert (C : c' = c) by (unfold size in *; destruct (app_same _ _ _ _ _ Q) as [-> Q2]; [lia|]; rewrite !app_length in *; destruct (app_same _ _ _ _ _ Q2) as [-> _]; [lia|auto]) end.
      subst. meet. auto.
  Qed.
  Lemma given_det : forall d pre x t out out', given sight cs d pre x t out -> given sight cs d pre x t out' -> out' = out.
  Proof.
    intros d pre x t out out' A B. inversion A; inversion B; subst. meet.
    match goal with X : lies sight cs d 0 pre (Some ?p) |- _ => pose proof (lies_keyed _ _ _ _ X _ eq_refl) as K end.
    match goal with X : retagged ?p ?w ?a, Y : retagged ?p ?w ?b |- _ => pose proof (retagged_det _ _ _ _ (put_nodup _ _ _ _ K) X Y); subst b end.
    meet. auto.
  Qed.
  Lemma given_lies : forall d pre x t out, given sight cs d pre x t out -> exists p, lies sight cs d 0 pre (Some p).
  Proof. intros d pre x t out []. eauto. Qed.
  Lemma attributed_det : forall d pre x t out out', attributed sight order cs indent d pre x t out -> attributed sight order cs indent d pre x t out' -> out' = out.
  Proof.
    intros d pre x t out out' A B. inversion A; inversion B; subst;
      repeat match goal with X : given sight cs ?d ?l ?x ?t ?a, Y : given sight cs ?d ?l ?x ?t ?b |- _ => first [constr_eq a b; clear Y | pose proof (given_det _ _ _ _ _ _ X Y); subst b] end;
      repeat match goal with X : given sight cs ?d ?l ?x ?t ?a |- _ => lazymatch goal with K : lies sight cs d 0 l (Some _) |- _ => fail | _ => destruct (given_lies _ _ _ _ _ X) end end;
      meet; auto; try lia; try (exfalso; match goal with H : forall d', ?o <> Done d' |- _ => eapply H; reflexivity end);
      try (pose proof (given_det _ _ _ _ _ _ ltac:(eassumption) ltac:(eassumption)); congruence).
    all: repeat match goal with X : given sight cs ?d ?l ?x ?t ?a, Y : given sight cs ?d ?l ?x ?t ?b |- _ => first [constr_eq a b; clear Y | pose proof (given_det _ _ _ _ _ _ X Y); subst b] end; auto.
  Qed.
  Lemma set_det : forall d l t out out', set_outcome sight order cs indent d l t out -> set_outcome sight order cs indent d l t out' -> out' = out.
  Proof.
    intros d l t out out' A B. inversion A; inversion B; subst; auto; try contradiction; meet; auto;
      try (exfalso; match goal with H : forall n, ~ appends_named _ n |- _ => eapply H; eexists _, _, _; reflexivity end);
      try (exfalso; match goal with H : ~ appends _ |- _ => apply H; eexists (_ ++ [(GName _, _)]), _; rewrite <- app_assoc; reflexivity end);
      try (exfalso; match goal with H : ~ at_attribute _ |- _ => apply H; eexists _, _, _; reflexivity end).
    all: try (exfalso; match goal with H : appends (_ ++ [(GAttr _, _)]) |- _ => destruct H as (? & ? & H); apply app_inj_tail in H; destruct H as [_ H]; discriminate end).
    all: repeat match goal with
      | H : ?a ++ [(GName ?n, ?m); ?y] = ?b ++ [(GName ?n', ?m'); ?y'] |- _ =>
          change (a ++ ([(GName n, m)] ++ [y]) = b ++ ([(GName n', m')] ++ [y'])) in H; rewrite !app_assoc in H; apply app_inj_tail in H; destruct H as [H ?]; apply app_inj_tail in H; destruct H as [-> H]; injection H as -> ->
      | H : ?a ++ [(GName ?n, ?m); ?y] = ?b ++ [?y'] |- _ =>
          change (a ++ ([(GName n, m)] ++ [y]) = b ++ [y']) in H; rewrite !app_assoc in H; apply app_inj_tail in H; destruct H as [H X]; discriminate X
      | H : ?b ++ [?y'] = ?a ++ [(GName ?n, ?m); ?y] |- _ =>
          change (b ++ [y'] = a ++ ([(GName n, m)] ++ [y])) in H; rewrite !app_assoc in H; apply app_inj_tail in H; destruct H as [H X]; discriminate X
      | H : ?a ++ [(GAttr ?n, ?m)] = ?b ++ [(GAttr ?n', ?m')] |- _ => apply app_inj_tail in H; destruct H as [-> H]; injection H as -> ->
      end.
    all: try (now rewrite (appended_det _ _ _ _ _ _ _ ltac:(eassumption) ltac:(eassumption))).
    all: try (eapply attributed_det; eassumption).
    all: match goal with X : appended _ _ _ _ ?d ?p ?n ?m ?t ?a, Y : appended _ _ _ _ ?d ?p ?n ?m ?t ?b |- _ => now rewrite (appended_det _ _ _ _ _ _ _ X Y) end.
  Qed.
  Lemma delete_det : forall d l out out', delete_outcome sight cs d l out -> delete_outcome sight cs d l out' -> out' = out.
  Proof.
    intros d l out out' A B. inversion A; inversion B; subst; auto; try contradiction;
      try (exfalso; match goal with H : ~ at_attribute _ |- _ => apply H; eexists [], _, _; reflexivity end);
      try (exfalso; match goal with H : ~ at_attribute _ |- _ => apply H; eexists _, _, _; reflexivity end).
    all: repeat match goal with
      | H : ?a ++ [(GAttr ?n, ?m)] = ?b ++ [(GAttr ?n', ?m')] |- _ => apply app_inj_tail in H; destruct H as [-> H]; injection H as -> ->
      | H : ?a ++ [(GAttr ?n, ?m)] = [(GAttr ?n', ?m')] |- _ => destruct a as [|? [|? ?]]; [contradiction|discriminate|discriminate]
      | H : [(GAttr ?n', ?m')] = ?a ++ [(GAttr ?n, ?m)] |- _ => destruct a as [|? [|? ?]]; [contradiction|discriminate|discriminate]
      end.
    all: meet; auto.
    all: try (exfalso; match goal with H : forall y v, In (y, v) _ -> _ |- _ => eapply H; eauto end).
    match goal with X : lies sight cs d 0 _ (Some ?p) |- _ => pose proof (lies_keyed _ _ _ _ X _ eq_refl) as K end.
    match goal with X : retagged ?p ?w ?a, Y : retagged ?p ?w ?b |- _ => pose proof (retagged_det _ _ _ _ (drop_nodup _ _ _ K) X Y); subst b end.
    meet. auto.
  Qed.
End Det.
