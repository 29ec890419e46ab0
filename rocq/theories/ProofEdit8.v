(** Sequences of edits. *)
From Coq Require Import List Ascii String NArith ZArith Bool Lia Permutation.
From Verif Require Import GoStr ModelParser ModelPath ModelResult ModelQuery ModelValidate ModelBuilder SpecText SpecPath SpecTree SpecQuery SpecEdit SpecMod SpecContent SpecValid SpecHistory
  ProofBase ProofEscape ProofPath ProofScan ProofSyntax ProofApi2 ProofTree ProofTree2 ProofTree3 ProofTree4 ProofTree5 ProofTree7 ProofEdit ProofEdit2 ProofEdit3 ProofEdit4 ProofEdit5 ProofEdit6 ProofEdit7 ProofEdit12 ProofRaw2 ProofValid2.
Import ListNotations.

(** ** Trees up to the order of attributes *)
Lemma same_named : forall f nd nd', same nd nd' -> named f nd = named f nd'.
Proof. intros f nd nd' H. destruct H; reflexivity. Qed.
Lemma same_called : forall f F G, Forall2 same F G -> Forall2 same (called f F) (called f G).
Proof.
  intros f F G H. induction H as [|x y F G H1 H2 IH]; [constructor|]. rewrite !called_cons, (same_named f x y H1). destruct (named f y); auto.
Qed.
Lemma same_levels : forall nd nd', same nd nd' -> levels nd = levels nd'.
Proof.
  induction nd as [n a self kids IH|t|b] using node_ind'; intros nd' H; inversion H as [? ? a' ? ? kids' P K| |]; subst; try reflexivity.
  cbn [levels]. f_equal. clear - IH K. induction K as [|x y l l' H1 H2 IH2]; [reflexivity|]. inversion IH as [|? ? I1 I2]; subst. cbn [fold_right]. now rewrite (I1 y H1), IH2.
Qed.
Lemma same_shallow : forall F G, Forall2 same F G -> shallow F -> shallow G.
Proof. intros F G H. induction H as [|x y F G H1 H2 IH]; intros S; inversion S; subst; constructor; [now rewrite <- (same_levels x y H1)|now apply IH]. Qed.
Lemma same_top : forall F G, Forall2 same F G -> Forall top_node F -> Forall top_node G.
Proof. intros F G H. induction H as [|x y F G H1 H2 IH]; intros S; inversion S; subst; constructor; [|now apply IH]. destruct H1; auto. Qed.
Lemma same_element_has : forall F G, Forall2 same F G -> has_element F -> has_element G.
Proof.
  intros F G H [n [a [s [k I]]]]. induction H as [|x y F G H1 H2 IH]; [destruct I|]. destruct I as [->|I].
  - inversion H1; subst. eexists _, _, _, _. left. reflexivity.
  - destruct (IH I) as [n' [a' [s' [k' I']]]]. exists n', a', s', k'. now right.
Qed.
Lemma same_fits : forall p F G, Forall2 same F G -> fits p F -> fits p G.
Proof.
  intros p F G H [H1 [H2 H3]]. split; [eapply same_element_has; eauto|]. split; [eapply same_shallow; eauto|]. rewrite app_length in *. now rewrite <- (same_length_all F G H).
Qed.
Lemma same_refl_list : forall F, Forall2 same F F.
Proof. exact same_all_refl. Qed.

Definition alike (x y : option (list node)) : Prop :=
  match x, y with Some l, Some l' => Forall2 same l l' | None, None => True | _, _ => False end.
Lemma edit_nth_alike : forall f g g', (forall nd nd', good nd -> same nd nd' -> alike (g nd) (g' nd')) -> forall F G, Forall2 same F G -> Forall good F -> forall i,
  alike (edit_nth f i g F) (edit_nth f i g' G).
Proof.
  intros f g g' HG F G H. induction H as [|x y F G H1 H2 IH]; intros Gd i; [exact I|]. inversion Gd as [|? ? G1 G2]; subst. cbn [edit_nth].
  rewrite (same_named f x y H1).
  assert (M : forall i, alike (option_map (cons x) (edit_nth f i g F)) (option_map (cons y) (edit_nth f i g' G))).
  { intros j. specialize (IH G2 j). destruct (edit_nth f j g F), (edit_nth f j g' G); cbn [alike option_map] in *; auto. }
  destruct (named f y); auto. destruct i; auto. specialize (HG x y G1 H1). destruct (g x), (g' y); cbn [alike option_map] in *; auto. now apply Forall2_app.
Qed.
Lemma change_alike : forall g g' miss miss', (forall nd nd', good nd -> same nd nd' -> alike (g nd) (g' nd')) -> (forall s, alike (miss s) (miss' s)) ->
  forall steps F G, Forall good F -> Forall2 same F G -> alike (change g miss steps F) (change g' miss' steps G).
Proof.
  intros g g' miss miss' HG HM. induction steps as [|[n idx] rest IH]; intros F G Gd H; [exact I|]. cbn [change].
  pose proof (same_called (selects n) F G H) as C. assert (CL : len (called (selects n) F) = len (called (selects n) G)) by (clear -C; induction C; cbn [List.length]; auto).
  destruct (nth_error (called (selects n) F) (index_of idx)) eqn:Q1, (nth_error (called (selects n) G) (index_of idx)) eqn:Q2.
  - apply edit_nth_alike; auto. intros nd nd' Gn S. destruct rest as [|s rest]; auto. inversion S as [m a a' self kids kids' P K| |]; subst; try exact I.
    inversion Gn as [? ? ? ? N A Sf Gk| |]; subst. specialize (IH kids kids' Gk K). destruct (change g miss (s :: rest) kids), (change g' miss' (s :: rest) kids'); cbn [alike option_map] in *; auto.
    constructor; [|constructor]. now constructor.
  - apply nth_error_None in Q2. assert (nth_error (called (selects n) F) (index_of idx) <> None) by congruence. apply nth_error_Some in H0. lia.
  - apply nth_error_None in Q1. assert (nth_error (called (selects n) G) (index_of idx) <> None) by congruence. apply nth_error_Some in H0. lia.
  - match goal with |- alike (option_map _ ?x) (option_map _ ?y) => assert (HM2 : alike x y) by apply HM; destruct x, y end; cbn [alike option_map] in *; auto.
    now apply Forall2_app.
Qed.
Lemma swapped_change : forall steps F nd l F' g miss, swapped steps F nd l F' -> g nd = Some l -> change g miss steps F = Some F'.
Proof.
  intros steps F nd l F' g miss H Hg. induction H as [n idx F1 nd l F2 H1 H2|n idx rest F1 m a kids kids' F2 nd l H1 H2 H3 IH]; cbn [change].
  - pose proof (called_nth (selects n) F1 nd F2 H1) as CN. rewrite H2 in CN. rewrite CN. apply edit_nth_split. exists F1, nd, F2, l. auto.
  - pose proof (called_nth (selects n) F1 (Elem m a false kids) F2 H1) as CN. rewrite H2 in CN. rewrite CN. apply edit_nth_split.
    exists F1, (Elem m a false kids), F2, [Elem m a false kids']. repeat split; auto. destruct rest; [inversion H3|]. now rewrite IH.
Qed.
Lemma located_change : forall steps F A nd B g miss, located steps F A nd B -> g nd <> None -> change g miss steps F <> None.
Proof.
  intros steps F A nd B g miss L NN. destruct (g nd) as [l|] eqn:Q; [|contradiction]. destruct (located_swapped _ _ _ _ _ l L) as [F' [S _]].
  rewrite (swapped_change _ _ _ _ _ g miss S Q). discriminate.
Qed.
Lemma swapped_same : forall steps F nd l l2 F' F2, Forall good F -> swapped steps F nd l F' -> swapped steps F nd l2 F2 -> Forall2 same l l2 -> Forall2 same F' F2.
Proof.
  intros steps F nd l l2 F' F2 G S1 S2 H.
  pose proof (change_alike (fun _ => Some l) (fun _ => Some l2) nothing nothing (fun _ _ _ _ => H) (fun _ => I) steps F F G (same_all_refl F)) as C.
  rewrite (swapped_change _ _ _ _ _ (fun _ => Some l) nothing S1 eq_refl), (swapped_change _ _ _ _ _ (fun _ => Some l2) nothing S2 eq_refl) in C. exact C.
Qed.
Definition missing (steps : list tstep) (F : list node) : Prop :=
  match steps with [] => False | (n, idx) :: _ => nth_error (called (selects n) F) (index_of idx) = None end.
Lemma change_inv : forall g miss steps F F', Forall good F -> change g miss steps F = Some F' ->
  (exists A nd B l, located steps F A nd B /\ swapped steps F nd l F' /\ g nd = Some l) \/
  (exists pre post n a self kids A B l, steps = pre ++ post /\ located pre F A (Elem n a self kids) B /\
    swapped pre F (Elem n a self kids) [Elem n a false (kids ++ l)] F' /\ missing post kids /\ miss post = Some l) \/
  (exists l, F' = F ++ l /\ missing steps F /\ miss steps = Some l).
Proof.
  intros g miss. induction steps as [|[n idx] rest IH]; intros F F' G H; [discriminate|]. cbn [change] in H.
  destruct (nth_error (called (selects n) F) (index_of idx)) eqn:Q.
  - apply edit_nth_split in H. destruct H as [F1 [nd [F2 [l [-> [H2 [H3 [H4 ->]]]]]]]]. destruct rest as [|s rest].
    + left. exists (forest_text F1), nd, (forest_text F2), l. repeat split; auto; now constructor.
    + destruct nd as [m a self kids| |]; try discriminate. destruct (change g miss (s :: rest) kids) as [kids'|] eqn:QC; [|discriminate]. injection H4 as <-.
      apply Forall_app in G. destruct G as [_ G]. inversion G as [|? ? G1 _]; subst. inversion G1 as [? ? ? ? N A S K| |]; subst.
      destruct (IH kids kids' K QC) as [[A0 [nd [B [l [L [SW GN]]]]]]|[[pre [post [n2 [a2 [self2 [kids2 [A0 [B [l [E1 [L [SW [MS ML]]]]]]]]]]]]]|[l [-> [MS ML]]]]].
      * assert (self = false) by (destruct self; auto; rewrite (S eq_refl) in L; apply located_text in L as LT; inversion L; destruct F0; discriminate). subst self.
        left. exists (forest_text F1 ++ start_tag m a false ++ A0), nd, (B ++ end_tag m ++ forest_text F2), l. split; [now constructor|]. split; auto.
        apply sw_down; auto.
      * assert (self = false) by (destruct self; auto; rewrite (S eq_refl) in L; inversion L; destruct F0; discriminate). subst self.
        right. left. exists ((n, idx) :: pre), post, n2, a2, self2, kids2, (forest_text F1 ++ start_tag m a false ++ A0), (B ++ end_tag m ++ forest_text F2), l.
        split; [cbn [app]; now rewrite E1|]. split; [now constructor|]. split; [apply sw_down; auto|]. auto.
      * right. left. exists [(n, idx)], (s :: rest), m, a, self, kids, (forest_text F1), (forest_text F2), l. split; auto. split; [now constructor|]. split; [now constructor|]. auto.
  - right. right. match type of H with option_map _ ?x = _ => destruct x as [l|] eqn:ML end; [|discriminate]. injection H as <-. exists l. auto.
Qed.
Lemma change_top : forall g miss, (forall nd l, g nd = Some l -> Forall top_node l) -> (forall s l, s <> [] -> miss s = Some l -> Forall top_node l) ->
  forall steps F F', Forall top_node F -> change g miss steps F = Some F' -> Forall top_node F'.
Proof.
  intros g miss HG HM [|[n idx] rest] F F' T H; [discriminate|]. cbn [change] in H. destruct (nth_error _ _).
  - apply edit_nth_split in H. destruct H as [F1 [nd [F2 [l [-> [H2 [H3 [H4 ->]]]]]]]]. apply Forall_app in T. destruct T as [T1 T2]. inversion T2; subst.
    apply Forall_app. split; auto. apply Forall_app. split; auto. destruct rest; [eauto|]. destruct nd; try discriminate. destruct (change _ _ _ _); [|discriminate]. injection H4 as <-. repeat constructor.
  - destruct (miss _) as [l|] eqn:Q; [|discriminate]. injection H as <-. apply Forall_app. split; auto. eapply HM; [|exact Q]. discriminate.
Qed.
Lemma change_good : forall g miss, (forall nd l, good nd -> g nd = Some l -> Forall good l) -> forall steps, Forall xml_name (map fst steps) ->
  (forall s l, s <> [] -> Forall xml_name (map fst s) -> miss s = Some l -> Forall good l) ->
  forall F F', Forall good F -> change g miss steps F = Some F' -> Forall good F'.
Proof.
  intros g miss HG steps XN HM. induction steps as [|[n idx] rest IH]; intros F F' G H; [discriminate|]. cbn [change] in H. destruct (nth_error _ _).
  - apply edit_nth_split in H. destruct H as [F1 [nd [F2 [l [-> [H2 [H3 [H4 ->]]]]]]]]. apply Forall_app in G. destruct G as [T1 T2]. inversion T2 as [|? ? T3 T4]; subst.
    apply Forall_app. split; auto. apply Forall_app. split; auto. destruct rest; [eauto|]. destruct nd as [m a self kids| |]; try discriminate.
    inversion T3 as [? ? ? ? N A S K| |]; subst. cbn [map fst] in XN. apply Forall_cons_iff in XN. destruct XN as [_ XN].
    destruct (change _ _ _ _) as [k'|] eqn:Q; [|discriminate]. injection H4 as <-. constructor; [|constructor]. constructor; auto; [discriminate|]. apply (IH XN kids k'); auto.
  - destruct (miss _) as [l|] eqn:Q; [|discriminate]. injection H as <-. apply Forall_app. split; auto. eapply HM; eauto. discriminate.
Qed.
(** For changes that create nothing, no assumption on the names of the path is needed. *)
Lemma change_good_nothing : forall g, (forall nd l, good nd -> g nd = Some l -> Forall good l) -> forall steps F F', Forall good F -> change g nothing steps F = Some F' -> Forall good F'.
Proof.
  intros g HG steps F F' G H. destruct (change_inv g nothing steps F F' G H) as [[A [nd [B [l [L [SW GN]]]]]]|[[? [? [? [? [? [? [? [? [? [_ [_ [_ [_ K]]]]]]]]]]]]]|[? [_ [_ K]]]]]; try discriminate.
  eapply swapped_good; eauto. eapply HG; eauto. now destruct (located_good _ _ _ _ _ L G).
Qed.
Lemma swapped_id : forall steps F nd F', swapped steps F nd [nd] F' -> F' = F.
Proof. intros steps F nd F' H. remember [nd] as l eqn:Q. induction H; subst; auto. now rewrite IHswapped by reflexivity. Qed.
Lemma names_by : forall steps names, names_only steps = Some names -> steps = by_name names.
Proof.
  induction steps as [|[n [ds|]] rest IH]; intros names H; [injection H as <-; reflexivity|discriminate|]. cbn [names_only] in H.
  destruct (names_only rest) as [l|]; [|discriminate]. injection H as <-. unfold by_name in *. cbn [map]. now rewrite (IH l eq_refl) at 1.
Qed.
Lemma missing_names : forall post names kids, names_only post = Some names -> missing post kids -> exists m ms, names = m :: ms /\ post = by_name (m :: ms) /\ called (selects m) kids = [].
Proof.
  intros post names kids H M. apply names_by in H. subst post. destruct names as [|m ms]; [destruct M|]. exists m, ms. split; auto. split; auto.
  cbn [by_name map missing index_of] in M. now destruct (called (selects m) kids).
Qed.
Lemma last_cons : forall (ms : list bytes) m d, last (m :: ms) d = last ms m.
Proof.
  induction ms as [|x ms IH]; intros m d; [reflexivity|]. change (last (m :: x :: ms) d) with (last (x :: ms) d). rewrite (IH x d), (IH x m). reflexivity.
Qed.

(** ** Attributes *)
Lemma put_perm : forall x v a a', NoDup (map fst a) -> Permutation a a' -> Permutation (put_attr x v a) (put_attr x v a').
Proof.
  intros x v a a' N P. induction P as [|[n w] l l' P IH|[n1 w1] [n2 w2] l|l1 l2 l3 P1 IH1 P2 IH2].
  - apply Permutation_refl.
  - cbn [put_attr]. inversion N; subst. destruct (bytes_eqb x n); constructor; auto.
  - cbn [put_attr]. destruct (bytes_eqb x n2) eqn:Q2, (bytes_eqb x n1) eqn:Q1; try apply perm_swap.
    apply bytes_eqb_eq in Q1. apply bytes_eqb_eq in Q2. subst n1 n2. inversion N as [|? ? K _]. exfalso. apply K. now left.
  - etransitivity; [now apply IH1|]. apply IH2. eapply Permutation_NoDup; [apply Permutation_map; exact P1|exact N].
Qed.
Lemma drop_perm : forall x a a', Permutation a a' -> Permutation (drop_attr x a) (drop_attr x a').
Proof.
  intros x a a' P. unfold drop_attr. induction P as [|q l l' P IH|q1 q2 l|l1 l2 l3 P1 IH1 P2 IH2]; cbn [filter]; auto.
  - destruct (negb _); auto.
  - destruct (negb (bytes_eqb (fst q1) x)), (negb (bytes_eqb (fst q2) x)); auto. apply perm_swap.
  - now transitivity (filter (fun p => negb (bytes_eqb (fst p) x)) l2).
Qed.
Lemma drop_absent : forall x a, attr_value x a = None -> drop_attr x a = a.
Proof.
  intros x. induction a as [|[n w] a IH]; intros H; [reflexivity|]. cbn [attr_value] in H. unfold drop_attr. cbn [filter fst].
  destruct (bytes_eqb x n) eqn:Q; [discriminate|]. assert (Q2 : bytes_eqb n x = false) by (destruct (bytes_eqb n x) eqn:Q2; auto; apply bytes_eqb_eq in Q2; subst; now rewrite bytes_eqb_refl in Q).
  rewrite Q2. cbn [negb]. f_equal. now apply IH.
Qed.
Lemma put_in : forall x v a q, In q (put_attr x v a) -> q = (x, v) \/ In q a \/ snd q = v /\ In (fst q) (map fst a).
Proof.
  intros x v. induction a as [|[n w] a IH]; intros q H; [destruct H as [<-|[]]; now left|]. cbn [put_attr] in H. destruct (bytes_eqb x n) eqn:Q.
  - destruct H as [<-|H]; [|right; left; now right]. right. right. split; auto. now left.
  - destruct H as [<-|H]; [right; left; now left|]. destruct (IH q H) as [->|[K|[K1 K2]]]; [now left|right; left; now right|right; right; split; auto; now right].
Qed.
Lemma put_good : forall x v a, good_attrs a -> xml_name x -> small (esc v) -> len (put_attr x v a) <= 100 -> good_attrs (put_attr x v a).
Proof.
  intros x v a [G1 G2 G3 G4] X S L. constructor; auto; [now apply put_nodup| |].
  - rewrite put_names. destruct (existsb _ _); auto. apply Forall_app. split; auto.
  - apply Forall_forall. intros q I. destruct (put_in x v a q I) as [->|[K|[K _]]]; auto; [|now rewrite K]. rewrite Forall_forall in G4. now apply G4.
Qed.
Lemma drop_good : forall x a, good_attrs a -> good_attrs (drop_attr x a).
Proof.
  intros x a [G1 G2 G3 G4]. constructor.
  - assert (LE : len (drop_attr x a) <= len a); [|lia]. unfold drop_attr. clear. induction a as [|q a IH]; [apply le_n|]. cbn [filter]. destruct (negb _); cbn [List.length]; lia.
  - now apply drop_nodup.
  - rewrite drop_names. apply Forall_forall. intros q I. apply filter_In in I. rewrite Forall_forall in G3. now apply G3.
  - apply Forall_forall. intros q I. apply filter_In in I. rewrite Forall_forall in G4. now apply G4.
Qed.

(** ** Edits of trees *)
Lemma chain_good : forall names v, Forall xml_name names -> Forall good (chain_of names v).
Proof. intros. apply nest_good; auto. constructor; [apply text_good|constructor]. Qed.
Lemma chain_top : forall names v, names <> [] -> Forall top_node (chain_of names v).
Proof. intros [|n r] v H; [contradiction|]. repeat constructor. Qed.
Lemma by_name_fst : forall names, map fst (by_name names) = names.
Proof. intros. unfold by_name. rewrite map_map. apply map_id. Qed.
Lemma last_in : forall (ms : list bytes) m, In (last ms m) (m :: ms).
Proof. induction ms as [|x ms IH]; intros m; [now left|]. rewrite last_cons. right. apply IH. Qed.
Lemma removelast_in : forall (l : list bytes) x, In x (removelast l) -> In x l.
Proof. induction l as [|y l IH]; intros x H; [destruct H|]. cbn [removelast] in H. destruct l; [destruct H|]. destruct H as [->|H]; [now left|right; auto]. Qed.
Lemma new_attr_good : forall x v names, names <> [] -> Forall xml_name names -> xml_name x -> small (esc v) -> Forall good (nest (removelast names) [Elem (last names []) [(x, v)] false []]).
Proof.
  intros x v names NE XN X S. destruct names as [|m ms]; [contradiction|]. rewrite last_cons. rewrite Forall_forall in XN. apply nest_good.
  - apply Forall_forall. intros y I. apply XN. now apply removelast_in.
  - constructor; [|constructor]. constructor; [apply XN, last_in| |discriminate|constructor]. constructor; cbn [map fst List.length]; auto; [lia|].
    constructor; [intros []|constructor].
Qed.
Lemma nest_top : forall names nd, is_elem nd = true -> Forall top_node (nest names [nd]).
Proof. intros [|n r] nd H; constructor; try constructor. destruct nd; try discriminate. exact I. Qed.
Lemma with_kids_good : forall K nd l, Forall good K -> good nd -> with_kids K nd = Some l -> Forall good l.
Proof.
  intros K nd l GK Gn Q. destruct nd as [n a [|] kids| |]; try discriminate. injection Q as <-. inversion Gn; subst. constructor; [|constructor].
  constructor; auto. discriminate.
Qed.
Lemma plain_good : forall t, (forall c, In c t -> c <> "<"%char /\ c <> ">"%char) -> good (Text t).
Proof. intros t H. constructor. split; intros I; apply H in I; tauto. Qed.
Lemma content_good : forall c, good_content c -> Forall good (content_nodes c).
Proof.
  intros [t|z|b|K] [H _]; cbn [content_nodes]; auto; constructor; try constructor; [apply esc_no_angle| |].
  - split; intros I; apply decimal_plain in I; destruct I as [I|I]; try discriminate; unfold dig in I; vm_compute in I; intuition congruence.
  - split; intros I; destruct b; vm_compute in I; intuition discriminate.
Qed.
Lemma attr_of_good : forall x v nd l, xml_name x -> small (esc v) -> good nd -> attr_of x v nd = Some l -> Forall good l.
Proof.
  intros x v nd l X S Gn Q. destruct nd as [n a self kids| |]; try discriminate. cbn [attr_of] in Q. destruct (len (put_attr x v a) <=? 100) eqn:LE; [|discriminate].
  injection Q as <-. apply Nat.leb_le in LE. inversion Gn; subst. constructor; [|constructor]. constructor; auto. now apply put_good.
Qed.
Lemma without_attr_good : forall x nd l, good nd -> without_attr x nd = Some l -> Forall good l.
Proof.
  intros x nd l Gn Q. destruct nd as [n a self kids| |]; try discriminate. injection Q as <-. inversion Gn; subst. constructor; [|constructor]. constructor; auto. now apply drop_good.
Qed.
Lemma more_kids_good : forall m K nd l, xml_name m -> Forall good K -> good nd -> more_kids m K nd = Some l -> Forall good l.
Proof.
  intros m K nd l X GK Gn Q. destruct nd as [n a self kids| |]; try discriminate. injection Q as <-. inversion Gn; subst. constructor; [|constructor].
  constructor; auto; [discriminate|]. apply insert_good; auto. now apply child_good.
Qed.
Lemma insert_top : forall f c F, Forall top_node F -> top_node c -> Forall top_node (insert_last f c F).
Proof.
  intros f c F H G. destruct (insert_split f F) as [F1 [F2 [-> [H2 _]]]]. rewrite H2. apply Forall_app in H. destruct H. apply Forall_app. auto.
Qed.
Lemma apply_good : forall o F F', legal o -> Forall good F -> Forall top_node F -> apply_edit o F = Some F' -> Forall good F' /\ Forall top_node F'.
Proof.
  intros o F F' LG G T H. destruct o as [steps c|steps x v|steps|steps x|steps m c]; cbn [apply_edit legal] in *.
  - destruct LG as [GT [XN [GC _]]]. pose proof (content_good c GC) as GK. split.
    + eapply change_good; [| |  |exact G|exact H]; [intros nd l; now apply with_kids_good|exact XN|]. intros s l NE X Q. unfold new_kids in Q. destruct (names_only s) as [names|] eqn:QN; [|discriminate]. injection Q as <-.
      apply names_by in QN. subst s. rewrite by_name_fst in X. now apply nest_good.
    + eapply change_top; [| |exact T|exact H].
      * intros nd l Q. destruct nd as [n a [|] kids| |]; try discriminate. injection Q as <-. constructor; [exact I|constructor].
      * intros s1 l NE Q. unfold new_kids in Q. destruct (names_only s1) as [names|] eqn:QN; [|discriminate]. injection Q as <-.
        destruct names; [apply names_by in QN; now subst|]. cbn [nest]. constructor; [exact I|constructor].
  - destruct LG as [GT [XN [X [SZ SM]]]]. split.
    + eapply change_good; eauto using attr_of_good. intros s l NE XS Q. unfold new_attr in Q. destruct (names_only s) as [names|] eqn:QN; [|discriminate]. injection Q as <-.
      apply names_by in QN. subst s. rewrite by_name_fst in XS. apply new_attr_good; auto. now intros ->.
    + eapply change_top; [| |exact T|exact H].
      * intros nd l Q. destruct nd as [n a self kids| |]; try discriminate. cbn [attr_of] in Q. destruct (_ <=? _); [|discriminate]. injection Q as <-. constructor; [exact I|constructor].
      * intros s1 l NE Q. unfold new_attr in Q. destruct (names_only s1) as [names|] eqn:QN; [|discriminate]. injection Q as <-. now apply nest_top.
  - destruct (change _ _ _ _) as [F1|] eqn:Q; injection H as <-; [|auto]. split.
    + eapply change_good_nothing; eauto. intros nd l _ K. now injection K as <-.
    + eapply change_top; [| |exact T|exact Q]; [|discriminate]. intros nd l K. now injection K as <-.
  - destruct (change _ _ _ _) as [F1|] eqn:Q; injection H as <-; [|auto]. split.
    + eapply change_good_nothing; eauto using without_attr_good.
    + eapply change_top; [| |exact T|exact Q]; [|discriminate]. intros nd l K. destruct nd; try discriminate. injection K as <-. constructor; [exact I|constructor].
  - destruct LG as [GS [LN [XN [GC _]]]]. pose proof (content_good c GC) as GK. destruct steps as [|s steps].
    + injection H as <-. split; [apply insert_good; auto; now apply child_good|apply insert_top; auto; exact I].
    + split.
      * eapply change_good_nothing; [|exact G|exact H]. intros nd l. now apply more_kids_good.
      * eapply change_top; [| |exact T|exact H]; [|discriminate]. intros nd l K. destruct nd; try discriminate. injection K as <-. constructor; [exact I|constructor].
Qed.
Lemma insert_alike : forall f c F G, Forall2 same F G -> Forall2 same (insert_last f c F) (insert_last f c G).
Proof.
  intros f c F G H. induction H as [|x y F G H1 H2 IH]; cbn [insert_last]; [constructor; [apply same_refl|constructor]|].
  pose proof (same_called f F G H2) as C. rewrite (same_named f x y H1). destruct (called f F), (called f G); try solve [inversion C].
  - destruct (named f y); constructor; auto. constructor; auto using same_refl.
  - constructor; auto.
Qed.
Lemma apply_alike : forall o F G, Forall good F -> Forall2 same F G -> alike (apply_edit o F) (apply_edit o G).
Proof.
  intros o F G Gd H. destruct o as [steps c|steps x v|steps|steps x|steps m c]; cbn [apply_edit].
  - apply change_alike; auto.
    + intros nd nd' Gn S. inversion S as [n a a' self kids kids' P K| |]; subst; try exact I. destruct self; [exact I|]. constructor; [|constructor]. constructor; auto. apply same_all_refl.
    + intros s. destruct (new_kids (content_nodes c) s); [apply same_all_refl|exact I].
  - apply change_alike; auto.
    + intros nd nd' Gn S. inversion S as [n a a' self kids kids' P K| |]; subst; try exact I. cbn [attr_of]. inversion Gn as [? ? ? ? N A Sf Gk| |]; subst.
      pose proof (put_perm x v a a' (ga_distinct _ A) P) as PP. rewrite <- (Permutation_length PP). destruct (_ <=? _); [|exact I]. constructor; [|constructor]. now constructor.
    + intros s. destruct (new_attr x v s); [apply same_all_refl|exact I].
  - assert (C : alike (change (fun _ => Some []) nothing steps F) (change (fun _ => Some []) nothing steps G)).
    { apply change_alike; auto; [|intros; exact I]. intros. constructor. }
    destruct (change _ _ steps F), (change _ _ steps G); try contradiction; auto.
  - assert (C : alike (change (without_attr x) nothing steps F) (change (without_attr x) nothing steps G)).
    { apply change_alike; auto; [|intros; exact I]. intros nd nd' Gn S. inversion S as [n a a' self kids kids' P K| |]; subst; try exact I. constructor; [|constructor]. constructor; auto. now apply drop_perm. }
    destruct (change _ _ steps F), (change _ _ steps G); try contradiction; auto.
  - destruct steps as [|s steps]; [now apply insert_alike|]. apply change_alike; auto; [|intros; exact I].
    intros nd nd' Gn S. inversion S as [n a a' self kids kids' P K| |]; subst; try exact I. constructor; [|constructor]. constructor; auto. now apply insert_alike.
Qed.
