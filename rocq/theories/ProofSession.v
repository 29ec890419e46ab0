(** Sequences of edits under options: trees. *)
From Coq Require Import List Ascii String NArith ZArith Bool Lia Permutation.
From Verif Require Import GoStr ModelParser ModelPath ModelResult ModelQuery ModelValidate ModelBuilder SpecText SpecPath SpecTree SpecQuery SpecEdit SpecMod SpecContent SpecValid SpecHistory SpecFilter SpecLang SpecCase SpecOptions SpecSession
  ProofBase ProofEscape ProofPath ProofScan ProofSyntax ProofApi2 ProofTree ProofTree2 ProofTree3 ProofTree4 ProofTree5 ProofTree7 ProofEdit ProofEdit2 ProofEdit3 ProofEdit4 ProofEdit5 ProofEdit6 ProofEdit7 ProofEdit8 ProofEdit11 ProofEdit12 ProofRaw2 ProofValid2
  ProofOpt ProofOpt2 ProofOpt3 ProofOpt4.
Import ListNotations.
Notation called_cons := ProofEdit2.called_cons.
Notation alike := ProofEdit8.alike.

Inductive moved (x : bool) : list tstep -> list node -> node -> list node -> list node -> Prop :=
| mv_here : forall n idx F1 nd l F2, named (finds x n) nd = true -> len (called (finds x n) F1) = index_of idx ->
    moved x [(n, idx)] (F1 ++ nd :: F2) nd l (F1 ++ l ++ F2)
| mv_down : forall n idx rest F1 m a kids kids' F2 nd l, finds x n m = true -> len (called (finds x n) F1) = index_of idx ->
    moved x rest kids nd l kids' ->
    moved x ((n, idx) :: rest) (F1 ++ Elem m a false kids :: F2) nd l (F1 ++ Elem m a false kids' :: F2).
Section Names.
Variable x : bool.
Lemma des_moved : forall steps F A nd B l, designated x steps F A nd B -> exists F', moved x steps F nd l F' /\ forest_text F' = A ++ forest_text l ++ B.
Proof.
  induction 1 as [n idx F1 nd F2 H1 H2|n idx rest F1 m a kids F2 A nd B H1 H2 H3 [F' [I1 I2]]].
  - eexists. split; [now constructor|]. now rewrite !forest_app.
  - eexists. split; [constructor; eauto|]. rewrite forest_app, forest_cons, node_elem, I2, <- !app_assoc. reflexivity.
Qed.

Lemma moved_good : forall steps F nd l F', moved x steps F nd l F' -> Forall good F -> Forall good l -> Forall good F'.
Proof.
  induction 1 as [n idx F1 nd l F2 H1 H2|n idx rest F1 m a kids kids' F2 nd l H1 H2 H3 IH]; intros G Gl; apply Forall_app in G; destruct G as [G1 G2];
    inversion G2 as [|? ? G3 G4]; subst; apply Forall_app; split; auto.
  - apply Forall_app. auto.
  - constructor; auto. inversion G3; subst. constructor; auto; discriminate.
Qed.

Lemma alter_alike : forall g g' miss miss', (forall nd nd', good nd -> same nd nd' -> alike (g nd) (g' nd')) -> (forall s, alike (miss s) (miss' s)) ->
  forall steps F G, Forall good F -> Forall2 same F G -> alike (alter x g miss steps F) (alter x g' miss' steps G).
Proof.
  intros g g' miss miss' HG HM. induction steps as [|[n idx] rest IH]; intros F G Gd H; [exact I|]. cbn [alter].
  pose proof (same_called (finds x n) F G H) as C. assert (CL : len (called (finds x n) F) = len (called (finds x n) G)) by (clear -C; induction C; cbn [List.length]; auto).
  destruct (nth_error (called (finds x n) F) (index_of idx)) eqn:Q1, (nth_error (called (finds x n) G) (index_of idx)) eqn:Q2.
  - apply edit_nth_alike; auto. intros nd nd' Gn S. destruct rest as [|s rest]; auto. inversion S as [m a a' self kids kids' P K| |]; subst; try exact I.
    inversion Gn as [? ? ? ? N A Sf Gk| |]; subst. specialize (IH kids kids' Gk K). destruct (alter x g miss (s :: rest) kids), (alter x g' miss' (s :: rest) kids'); cbn [alike option_map] in *; auto.
    constructor; [|constructor]. now constructor.
  - apply nth_error_None in Q2. assert (nth_error (called (finds x n) F) (index_of idx) <> None) by congruence. apply nth_error_Some in H0. lia.
  - apply nth_error_None in Q1. assert (nth_error (called (finds x n) G) (index_of idx) <> None) by congruence. apply nth_error_Some in H0. lia.
  - match goal with |- alike (option_map _ ?x) (option_map _ ?y) => assert (HM2 : alike x y) by apply HM; destruct x, y end; cbn [alike option_map] in *; auto.
    now apply Forall2_app.
Qed.

Lemma moved_alter : forall steps F nd l F' g miss, moved x steps F nd l F' -> g nd = Some l -> alter x g miss steps F = Some F'.
Proof.
  intros steps F nd l F' g miss H Hg. induction H as [n idx F1 nd l F2 H1 H2|n idx rest F1 m a kids kids' F2 nd l H1 H2 H3 IH]; cbn [alter].
  - pose proof (called_nth (finds x n) F1 nd F2 H1) as CN. rewrite H2 in CN. rewrite CN. apply edit_nth_split. exists F1, nd, F2, l. auto.
  - pose proof (called_nth (finds x n) F1 (Elem m a false kids) F2 H1) as CN. rewrite H2 in CN. rewrite CN. apply edit_nth_split.
    exists F1, (Elem m a false kids), F2, [Elem m a false kids']. repeat split; auto. destruct rest; [inversion H3|]. now rewrite IH.
Qed.

Lemma moved_text : forall steps F nd l F', moved x steps F nd l F' -> forall A B, designated x steps F A nd B -> forest_text F' = A ++ forest_text l ++ B.
Proof.
  intros steps F nd l F' S A B L. destruct (des_moved _ _ _ _ _ l L) as [F2 [S2 T]].
  pose proof (moved_alter _ _ _ _ _ (fun _ => Some l) nothing S eq_refl) as Q1. pose proof (moved_alter _ _ _ _ _ (fun _ => Some l) nothing S2 eq_refl) as Q2. congruence.
Qed.

Lemma des_alter : forall steps F A nd B g miss, designated x steps F A nd B -> g nd <> None -> alter x g miss steps F <> None.
Proof.
  intros steps F A nd B g miss L NN. destruct (g nd) as [l|] eqn:Q; [|contradiction]. destruct (des_moved _ _ _ _ _ l L) as [F' [S _]].
  rewrite (moved_alter _ _ _ _ _ g miss S Q). discriminate.
Qed.

Lemma moved_same : forall steps F nd l l2 F' F2, Forall good F -> moved x steps F nd l F' -> moved x steps F nd l2 F2 -> Forall2 same l l2 -> Forall2 same F' F2.
Proof.
  intros steps F nd l l2 F' F2 G S1 S2 H.
  pose proof (alter_alike (fun _ => Some l) (fun _ => Some l2) nothing nothing (fun _ _ _ _ => H) (fun _ => I) steps F F G (same_all_refl F)) as C.
  rewrite (moved_alter _ _ _ _ _ (fun _ => Some l) nothing S1 eq_refl), (moved_alter _ _ _ _ _ (fun _ => Some l2) nothing S2 eq_refl) in C. exact C.
Qed.

Definition absent (steps : list tstep) (F : list node) : Prop :=
  match steps with [] => False | (n, idx) :: _ => nth_error (called (finds x n) F) (index_of idx) = None end.

Lemma alter_inv : forall g miss steps F F', Forall good F -> alter x g miss steps F = Some F' ->
  (exists A nd B l, designated x steps F A nd B /\ moved x steps F nd l F' /\ g nd = Some l) \/
  (exists pre post n a self kids A B l, steps = pre ++ post /\ designated x pre F A (Elem n a self kids) B /\
    moved x pre F (Elem n a self kids) [Elem n a false (kids ++ l)] F' /\ absent post kids /\ miss post = Some l) \/
  (exists l, F' = F ++ l /\ absent steps F /\ miss steps = Some l).
Proof.
  intros g miss. induction steps as [|[n idx] rest IH]; intros F F' G H; [discriminate|]. cbn [alter] in H.
  destruct (nth_error (called (finds x n) F) (index_of idx)) eqn:Q.
  - apply edit_nth_split in H. destruct H as [F1 [nd [F2 [l [-> [H2 [H3 [H4 ->]]]]]]]]. destruct rest as [|s rest].
    + left. exists (forest_text F1), nd, (forest_text F2), l. repeat split; auto; now constructor.
    + destruct nd as [m a self kids| |]; try discriminate. destruct (alter x g miss (s :: rest) kids) as [kids'|] eqn:QC; [|discriminate]. injection H4 as <-.
      apply Forall_app in G. destruct G as [_ G]. inversion G as [|? ? G1 _]; subst. inversion G1 as [? ? ? ? N A S K| |]; subst.
      destruct (IH kids kids' K QC) as [[A0 [nd [B [l [L [SW GN]]]]]]|[[pre [post [n2 [a2 [self2 [kids2 [A0 [B [l [E1 [L [SW [MS ML]]]]]]]]]]]]]|[l [-> [MS ML]]]]].
      * assert (self = false) by (destruct self; auto; rewrite (S eq_refl) in L; apply designated_text in L as LT; inversion L; destruct F0; discriminate). subst self.
        left. exists (forest_text F1 ++ start_tag m a false ++ A0), nd, (B ++ end_tag m ++ forest_text F2), l. split; [now constructor|]. split; auto.
        apply mv_down; auto.
      * assert (self = false) by (destruct self; auto; rewrite (S eq_refl) in L; inversion L; destruct F0; discriminate). subst self.
        right. left. exists ((n, idx) :: pre), post, n2, a2, self2, kids2, (forest_text F1 ++ start_tag m a false ++ A0), (B ++ end_tag m ++ forest_text F2), l.
        split; [cbn [app]; now rewrite E1|]. split; [now constructor|]. split; [apply mv_down; auto|]. auto.
      * right. left. exists [(n, idx)], (s :: rest), m, a, self, kids, (forest_text F1), (forest_text F2), l. split; auto. split; [now constructor|]. split; [now constructor|]. auto.
  - right. right. match type of H with option_map _ ?x = _ => destruct x as [l|] eqn:ML end; [|discriminate]. injection H as <-. exists l. auto.
Qed.

Lemma alter_top : forall g miss, (forall nd l, g nd = Some l -> Forall top_node l) -> (forall s l, s <> [] -> miss s = Some l -> Forall top_node l) ->
  forall steps F F', Forall top_node F -> alter x g miss steps F = Some F' -> Forall top_node F'.
Proof.
  intros g miss HG HM [|[n idx] rest] F F' T H; [discriminate|]. cbn [alter] in H. destruct (nth_error _ _).
  - apply edit_nth_split in H. destruct H as [F1 [nd [F2 [l [-> [H2 [H3 [H4 ->]]]]]]]]. apply Forall_app in T. destruct T as [T1 T2]. inversion T2; subst.
    apply Forall_app. split; auto. apply Forall_app. split; auto. destruct rest; [eauto|]. destruct nd; try discriminate. destruct (alter x _ _ _ _); [|discriminate]. injection H4 as <-. repeat constructor.
  - destruct (miss _) as [l|] eqn:Q; [|discriminate]. injection H as <-. apply Forall_app. split; auto. eapply HM; [|exact Q]. discriminate.
Qed.

Lemma alter_good : forall g miss, (forall nd l, good nd -> g nd = Some l -> Forall good l) -> forall steps, Forall xml_name (map fst steps) ->
  (forall s l, s <> [] -> Forall xml_name (map fst s) -> miss s = Some l -> Forall good l) ->
  forall F F', Forall good F -> alter x g miss steps F = Some F' -> Forall good F'.
Proof.
  intros g miss HG steps XN HM. induction steps as [|[n idx] rest IH]; intros F F' G H; [discriminate|]. cbn [alter] in H. destruct (nth_error _ _).
  - apply edit_nth_split in H. destruct H as [F1 [nd [F2 [l [-> [H2 [H3 [H4 ->]]]]]]]]. apply Forall_app in G. destruct G as [T1 T2]. inversion T2 as [|? ? T3 T4]; subst.
    apply Forall_app. split; auto. apply Forall_app. split; auto. destruct rest; [eauto|]. destruct nd as [m a self kids| |]; try discriminate.
    inversion T3 as [? ? ? ? N A S K| |]; subst. cbn [map fst] in XN. apply Forall_cons_iff in XN. destruct XN as [_ XN].
    destruct (alter x _ _ _ _) as [k'|] eqn:Q; [|discriminate]. injection H4 as <-. constructor; [|constructor]. constructor; auto; [discriminate|]. apply (IH XN kids k'); auto.
  - destruct (miss _) as [l|] eqn:Q; [|discriminate]. injection H as <-. apply Forall_app. split; auto. eapply HM; eauto. discriminate.
Qed.

Lemma alter_good_nothing : forall g, (forall nd l, good nd -> g nd = Some l -> Forall good l) -> forall steps F F', Forall good F -> alter x g nothing steps F = Some F' -> Forall good F'.
Proof.
  intros g HG steps F F' G H. destruct (alter_inv g nothing steps F F' G H) as [[A [nd [B [l [L [SW GN]]]]]]|[[? [? [? [? [? [? [? [? [? [_ [_ [_ [_ K]]]]]]]]]]]]]|[? [_ [_ K]]]]]; try discriminate.
  eapply moved_good; eauto. eapply HG; eauto. now destruct (designated_good _ _ _ _ _ _ L G).
Qed.

Lemma moved_id : forall steps F nd F', moved x steps F nd [nd] F' -> F' = F.
Proof. intros steps F nd F' H. remember [nd] as l eqn:Q. induction H; subst; auto. now rewrite IHmoved by reflexivity. Qed.

Lemma absent_names : forall post names kids, names_only post = Some names -> absent post kids -> exists m ms, names = m :: ms /\ post = by_name (m :: ms) /\ called (finds x m) kids = [].
Proof.
  intros post names kids H M. apply names_by in H. subst post. destruct names as [|m ms]; [destruct M|]. exists m, ms. split; auto. split; auto.
  cbn [by_name map absent index_of] in M. now destruct (called (finds x m) kids).
Qed.

Lemma alter_depth : forall c g miss,
  (forall k nd l, 1 + c <= k -> g nd = Some l -> levels nd <= k -> depth_le k l) ->
  (forall st l, st <> [] -> miss st = Some l -> depth_le (List.length st + c) l) ->
  forall steps F F' k, alter x g miss steps F = Some F' -> List.length steps + c <= k -> depth_le k F -> depth_le k F'.
Proof.
  intros c g miss HG HM. induction steps as [|[n idx] rest IH]; intros F F' k H L D; [discriminate|]. cbn [alter] in H. cbn [List.length] in L.
  destruct (nth_error _ _) eqn:N.
  - eapply edit_nth_depth; [exact H|exact D|]. intros nd l Q LV. destruct rest as [|st rest].
    + apply (HG k nd l); auto.
    + destruct nd as [m a s kids| |]; try discriminate. destruct (alter x g miss (st :: rest) kids) as [kids'|] eqn:Q2; [|discriminate]. injection Q as <-.
      destruct k as [|k]; [lia|]. constructor; [|constructor]. apply depth_elem. apply depth_elem in LV. apply (IH kids kids' k Q2); auto. cbn [List.length] in *. lia.
  - match type of H with option_map _ ?x = _ => destruct x as [l|] eqn:Q end; [|discriminate]. injection H as <-. apply depth_app; auto.
    apply HM in Q; [|discriminate]. eapply Forall_impl; [|exact Q]. cbn [List.length]. intros; lia.
Qed.

Lemma alter_has : forall g miss steps F F', alter x g miss steps F = Some F' -> has_element F ->
  (forall nd l, g nd = Some l -> is_elem nd = true -> has_element l) -> has_element F'.
Proof.
  intros g miss steps F F' H E G. destruct steps as [|[n idx] rest]; [discriminate|]. cbn [alter] in H. destruct (nth_error _ _).
  - eapply edit_nth_has; [exact H|]. intros nd l Q EL. destruct rest; [now apply (G nd)|]. destruct nd as [m a s k| |]; try discriminate.
    destruct (alter x g miss _ k); [|discriminate]. injection Q as <-. exists m, a, false, l0. now left.
  - match type of H with option_map _ ?x = _ => destruct x as [l|] eqn:Q end; [|discriminate]. injection H as <-. destruct E as [y [a [s [k I1]]]]. exists y, a, s, k. apply in_or_app. auto.
Qed.
End Names.
