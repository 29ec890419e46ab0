(** Edits on documents with markup inside comments: calls and sequences. *)
From Coq Require Import List Ascii String NArith ZArith Bool Lia Permutation.
From Verif Require Import GoStr ModelParser ModelPath ModelResult ModelQuery ModelValidate ModelBuilder SpecText SpecPath SpecTree SpecQuery SpecEdit SpecMod SpecRaw SpecContent SpecValid SpecHistory SpecHidden
  ProofBase ProofEscape ProofPath ProofScan ProofSyntax ProofApi2 ProofTree ProofTree2 ProofTree3 ProofTree4 ProofTree5 ProofTree7 ProofEdit ProofEdit2 ProofEdit3 ProofEdit4 ProofEdit5 ProofEdit6 ProofEdit7 ProofEdit8 ProofEdit9 ProofEdit11 ProofEdit12 ProofRaw ProofRaw2 ProofValid ProofValid2 ProofHidden ProofHidden4.
Import ListNotations.

Lemma misc_no_arrow : forall c, no_angle c -> no_arrow (bs "--" ++ c ++ bs "--").
Proof.
  intros c [_ NG] x y Q. assert (I : In ">"%char (bs "--" ++ c ++ bs "--")).
  { rewrite Q. apply in_or_app. right. apply in_or_app. left. cbn. auto. }
  apply in_app_iff in I. destruct I as [I|I]; [cbn in I; intuition discriminate|]. apply in_app_iff in I. destruct I as [I|I]; auto. cbn in I. intuition discriminate.
Qed.
Lemma text_forest : forall c, forest_text [Text c] = c.
Proof. intros. rewrite forest_one. reflexivity. Qed.
Lemma good_clean : forall nd, good nd -> clean nd.
Proof.
  induction nd as [n a self kids IH|t|b] using node_ind'; intros G; inversion G as [? ? ? ? N A S K|? NA|? M]; subst.
  - constructor; auto. clear - IH K. induction K; auto. inversion IH; subst. constructor; auto.
  - constructor. apply NA.
  - destruct M as [[c [-> [NA D]]]|[c [-> NA]]].
    + change (clean (Misc (bs "--" ++ c ++ bs "--"))). rewrite <- (text_forest c) in *. apply (clean_comment [Text c]).
      * constructor; [|constructor]. constructor. rewrite text_forest in NA. apply NA.
      * apply misc_no_arrow. exact NA.
      * exact D.
    + constructor; [apply NA|]. intros x y Q. assert (I : In ">"%char (c ++ bs "]]")).
      { rewrite Q. apply in_or_app. right. apply in_or_app. left. cbn. auto. }
      apply in_app_iff in I. destruct I as [I|I]; [now apply NA in I|cbn in I; intuition discriminate].
Qed.
Lemma clean_fair : forall nd, clean nd -> fair nd.
Proof.
  induction nd as [n a self kids IH|t|b] using node_ind'; intros G; inversion G as [? ? ? ? N A S K|? NA|c NA D|K L A D]; subst; try now constructor.
  constructor; auto. clear - IH K. induction K; auto. inversion IH; subst. constructor; auto.
Qed.
Lemma clean_fair_all : forall F, Forall clean F -> Forall fair F.
Proof. intros F H. eapply Forall_impl; [|exact H]. apply clean_fair. Qed.
Lemma good_clean_all : forall F, Forall good F -> Forall clean F.
Proof. intros F H. eapply Forall_impl; [|exact H]. apply good_clean. Qed.
Lemma good_fair_all : forall F, Forall good F -> Forall fair F.
Proof. intros F H. apply clean_fair_all, good_clean_all, H. Qed.

Lemma same_fair : forall nd nd', same nd nd' -> fair nd -> fair nd'.
Proof.
  induction nd as [n a self kids IH|t|b] using node_ind'; intros nd' H G; inversion H; subst; auto.
  inversion G as [? ? ? ? G1 G2 G3 G4| | |]; subst. constructor; auto.
  - eapply good_attrs_perm; eauto.
  - intros K. rewrite (G3 K) in H6. now inversion H6.
  - clear - IH H6 G4. induction H6; auto. inversion IH; subst. inversion G4; subst. constructor; auto.
Qed.
Lemma same_fair_all : forall F F', Forall2 same F F' -> Forall fair F -> Forall fair F'.
Proof. intros F F' H G. induction H; auto. inversion G; subst. constructor; eauto using same_fair. Qed.

Lemma same_clean : forall nd nd', same nd nd' -> clean nd -> clean nd'.
Proof.
  induction nd as [n a self kids IH|t|b] using node_ind'; intros nd' H G; inversion H; subst; auto.
  inversion G as [? ? ? ? G1 G2 G3 G4| | |]; subst. constructor; auto.
  - eapply good_attrs_perm; eauto.
  - intros K. rewrite (G3 K) in H6. now inversion H6.
  - clear - IH H6 G4. induction H6; auto. inversion IH; subst. inversion G4; subst. constructor; auto.
Qed.
Lemma same_clean_all : forall F F', Forall2 same F F' -> Forall clean F -> Forall clean F'.
Proof. intros F F' H G. induction H; auto. inversion G; subst. constructor; eauto using same_clean. Qed.

Lemma located_clean : forall steps F A nd B, located steps F A nd B -> Forall clean F -> clean nd /\ is_elem nd = true.
Proof.
  induction 1 as [n idx F1 nd F2 H1 H2|n idx rest F1 m a kids F2 A nd B H1 H2 H3 IH]; intros G; apply Forall_app in G; destruct G as [_ G];
    inversion G as [|? ? G1 _]; subst.
  - split; auto. destruct nd; auto; discriminate.
  - apply IH. now inversion G1.
Qed.

Lemma swapped_fair : forall steps F nd l F', swapped steps F nd l F' -> Forall fair F -> Forall fair l -> Forall fair F'.
Proof.
  induction 1 as [n idx F1 nd l F2 H1 H2|n idx rest F1 m a kids kids' F2 nd l H1 H2 H3 IH]; intros G Gl; apply Forall_app in G; destruct G as [G1 G2];
    inversion G2 as [|? ? G3 G4]; subst; apply Forall_app; split; auto.
  - apply Forall_app. auto.
  - constructor; auto. inversion G3; subst. constructor; auto; discriminate.
Qed.

Lemma swapped_clean : forall steps F nd l F', swapped steps F nd l F' -> Forall clean F -> Forall clean l -> Forall clean F'.
Proof.
  induction 1 as [n idx F1 nd l F2 H1 H2|n idx rest F1 m a kids kids' F2 nd l H1 H2 H3 IH]; intros G Gl; apply Forall_app in G; destruct G as [G1 G2];
    inversion G2 as [|? ? G3 G4]; subst; apply Forall_app; split; auto.
  - apply Forall_app. auto.
  - constructor; auto. inversion G3; subst. constructor; auto; discriminate.
Qed.

Lemma nest_fair : forall names K, Forall xml_name names -> Forall fair K -> Forall fair (nest names K).
Proof.
  induction names as [|n names IH]; intros K H G; [exact G|]. inversion H; subst. cbn [nest]. constructor; [|constructor]. constructor; auto; [|discriminate].
  constructor; cbn [map List.length]; try constructor. lia.
Qed.

Lemma nest_clean : forall names K, Forall xml_name names -> Forall clean K -> Forall clean (nest names K).
Proof.
  induction names as [|n names IH]; intros K H G; [exact G|]. inversion H; subst. cbn [nest]. constructor; [|constructor]. constructor; auto; [|discriminate].
  constructor; cbn [map List.length]; try constructor. lia.
Qed.

Lemma replace_fair_located : forall steps F A nd B nd', located steps F A nd B -> Forall fair F -> fair nd' -> is_elem nd' = true -> name_of nd' = name_of nd ->
  exists F', swapped steps F nd [nd'] F' /\ forest_text F' = A ++ node_text nd' ++ B /\ Forall fair F' /\ located steps F' A nd' B /\ top_names F' = top_names F.
Proof.
  intros steps F A nd B nd' L G G' E N. destruct (located_swapped _ _ _ _ _ [nd'] L) as [F' [S T]]. exists F'. split; auto.
  split; [now rewrite forest_one in T|]. split; [eapply swapped_fair; eauto|]. split; [eapply swapped_located; eauto|].
  eapply swapped_names; eauto. left. destruct (located_good _ _ _ _ _ L G) as [_ EN]. split; auto. unfold top_names, elems. cbn [filter]. rewrite E. cbn [map]. now rewrite N.
Qed.

Lemma insert_fair : forall f c F, Forall fair F -> fair c -> Forall fair (insert_last f c F).
Proof.
  intros f c F H G. destruct (insert_split f F) as [F1 [F2 [-> [H2 _]]]]. rewrite H2. apply Forall_app in H. destruct H. apply Forall_app. auto.
Qed.

Lemma insert_clean : forall f c F, Forall clean F -> clean c -> Forall clean (insert_last f c F).
Proof.
  intros f c F H G. destruct (insert_split f F) as [F1 [F2 [-> [H2 _]]]]. rewrite H2. apply Forall_app in H. destruct H. apply Forall_app. auto.
Qed.

Lemma fair_edit_nth_alike : forall f g g', (forall nd nd', fair nd -> same nd nd' -> alike (g nd) (g' nd')) -> forall F G, Forall2 same F G -> Forall fair F -> forall i,
  alike (edit_nth f i g F) (edit_nth f i g' G).
Proof.
  intros f g g' HG F G H. induction H as [|x y F G H1 H2 IH]; intros Gd i; [exact I|]. inversion Gd as [|? ? G1 G2]; subst. cbn [edit_nth].
  rewrite (same_named f x y H1).
  assert (M : forall i, alike (option_map (cons x) (edit_nth f i g F)) (option_map (cons y) (edit_nth f i g' G))).
  { intros j. specialize (IH G2 j). destruct (edit_nth f j g F), (edit_nth f j g' G); cbn [alike option_map] in *; auto. }
  destruct (named f y); auto. destruct i; auto. specialize (HG x y G1 H1). destruct (g x), (g' y); cbn [alike option_map] in *; auto. now apply Forall2_app.
Qed.
Lemma fair_change_alike : forall g g' miss miss', (forall nd nd', fair nd -> same nd nd' -> alike (g nd) (g' nd')) -> (forall s, alike (miss s) (miss' s)) ->
  forall steps F G, Forall fair F -> Forall2 same F G -> alike (change g miss steps F) (change g' miss' steps G).
Proof.
  intros g g' miss miss' HG HM. induction steps as [|[n idx] rest IH]; intros F G Gd H; [exact I|]. cbn [change].
  pose proof (same_called (selects n) F G H) as C. assert (CL : len (called (selects n) F) = len (called (selects n) G)) by (clear -C; induction C; cbn [List.length]; auto).
  destruct (nth_error (called (selects n) F) (index_of idx)) eqn:Q1, (nth_error (called (selects n) G) (index_of idx)) eqn:Q2.
  - apply fair_edit_nth_alike; auto. intros nd nd' Gn S. destruct rest as [|s rest]; auto. inversion S as [m a a' self kids kids' P K| |]; subst; try exact I.
    inversion Gn as [? ? ? ? N A Sf Gk| | |]; subst. specialize (IH kids kids' Gk K). destruct (change g miss (s :: rest) kids), (change g' miss' (s :: rest) kids'); cbn [alike option_map] in *; auto.
    constructor; [|constructor]. now constructor.
  - apply nth_error_None in Q2. assert (nth_error (called (selects n) F) (index_of idx) <> None) by congruence. apply nth_error_Some in H0. lia.
  - apply nth_error_None in Q1. assert (nth_error (called (selects n) G) (index_of idx) <> None) by congruence. apply nth_error_Some in H0. lia.
  - match goal with |- alike (option_map _ ?x) (option_map _ ?y) => assert (HM2 : alike x y) by apply HM; destruct x, y end; cbn [alike option_map] in *; auto.
    now apply Forall2_app.
Qed.

Lemma clean_edit_nth_alike : forall f g g', (forall nd nd', clean nd -> same nd nd' -> alike (g nd) (g' nd')) -> forall F G, Forall2 same F G -> Forall clean F -> forall i,
  alike (edit_nth f i g F) (edit_nth f i g' G).
Proof.
  intros f g g' HG F G H. induction H as [|x y F G H1 H2 IH]; intros Gd i; [exact I|]. inversion Gd as [|? ? G1 G2]; subst. cbn [edit_nth].
  rewrite (same_named f x y H1).
  assert (M : forall i, alike (option_map (cons x) (edit_nth f i g F)) (option_map (cons y) (edit_nth f i g' G))).
  { intros j. specialize (IH G2 j). destruct (edit_nth f j g F), (edit_nth f j g' G); cbn [alike option_map] in *; auto. }
  destruct (named f y); auto. destruct i; auto. specialize (HG x y G1 H1). destruct (g x), (g' y); cbn [alike option_map] in *; auto. now apply Forall2_app.
Qed.
Lemma clean_change_alike : forall g g' miss miss', (forall nd nd', clean nd -> same nd nd' -> alike (g nd) (g' nd')) -> (forall s, alike (miss s) (miss' s)) ->
  forall steps F G, Forall clean F -> Forall2 same F G -> alike (change g miss steps F) (change g' miss' steps G).
Proof.
  intros g g' miss miss' HG HM. induction steps as [|[n idx] rest IH]; intros F G Gd H; [exact I|]. cbn [change].
  pose proof (same_called (selects n) F G H) as C. assert (CL : len (called (selects n) F) = len (called (selects n) G)) by (clear -C; induction C; cbn [List.length]; auto).
  destruct (nth_error (called (selects n) F) (index_of idx)) eqn:Q1, (nth_error (called (selects n) G) (index_of idx)) eqn:Q2.
  - apply clean_edit_nth_alike; auto. intros nd nd' Gn S. destruct rest as [|s rest]; auto. inversion S as [m a a' self kids kids' P K| |]; subst; try exact I.
    inversion Gn as [? ? ? ? N A Sf Gk| | |]; subst. specialize (IH kids kids' Gk K). destruct (change g miss (s :: rest) kids), (change g' miss' (s :: rest) kids'); cbn [alike option_map] in *; auto.
    constructor; [|constructor]. now constructor.
  - apply nth_error_None in Q2. assert (nth_error (called (selects n) F) (index_of idx) <> None) by congruence. apply nth_error_Some in H0. lia.
  - apply nth_error_None in Q1. assert (nth_error (called (selects n) G) (index_of idx) <> None) by congruence. apply nth_error_Some in H0. lia.
  - match goal with |- alike (option_map _ ?x) (option_map _ ?y) => assert (HM2 : alike x y) by apply HM; destruct x, y end; cbn [alike option_map] in *; auto.
    now apply Forall2_app.
Qed.

Lemma fair_swapped_same : forall steps F nd l l2 F' F2, Forall fair F -> swapped steps F nd l F' -> swapped steps F nd l2 F2 -> Forall2 same l l2 -> Forall2 same F' F2.
Proof.
  intros steps F nd l l2 F' F2 G S1 S2 H.
  pose proof (fair_change_alike (fun _ => Some l) (fun _ => Some l2) nothing nothing (fun _ _ _ _ => H) (fun _ => I) steps F F G (same_all_refl F)) as C.
  rewrite (swapped_change _ _ _ _ _ (fun _ => Some l) nothing S1 eq_refl), (swapped_change _ _ _ _ _ (fun _ => Some l2) nothing S2 eq_refl) in C. exact C.
Qed.

Lemma clean_swapped_same : forall steps F nd l l2 F' F2, Forall clean F -> swapped steps F nd l F' -> swapped steps F nd l2 F2 -> Forall2 same l l2 -> Forall2 same F' F2.
Proof.
  intros steps F nd l l2 F' F2 G S1 S2 H.
  pose proof (clean_change_alike (fun _ => Some l) (fun _ => Some l2) nothing nothing (fun _ _ _ _ => H) (fun _ => I) steps F F G (same_all_refl F)) as C.
  rewrite (swapped_change _ _ _ _ _ (fun _ => Some l) nothing S1 eq_refl), (swapped_change _ _ _ _ _ (fun _ => Some l2) nothing S2 eq_refl) in C. exact C.
Qed.

Lemma fair_change_inv : forall g miss steps F F', Forall fair F -> change g miss steps F = Some F' ->
  (exists A nd B l, located steps F A nd B /\ swapped steps F nd l F' /\ g nd = Some l) \/
  (exists pre post n a self kids A B l, steps = pre ++ post /\ located pre F A (Elem n a self kids) B /\
    swapped pre F (Elem n a self kids) [Elem n a false (kids ++ l)] F' /\ missing post kids /\ miss post = Some l) \/
  (exists l, F' = F ++ l /\ missing steps F /\ miss steps = Some l).
Proof.
  intros g miss. induction steps as [|[n idx] rest IH]; intros F F' G H; [discriminate|]. cbn [change] in H.
  destruct (nth_error (called (selects n) F) (index_of idx)) eqn:Q.
  - apply edit_nth_split in H. destruct H as [F1 [nd [F2 [l [-> [H2 [H3 [H4 ->]]]]]]]]. destruct rest as [|s rest].
    + left. exists (forest_text F1), nd, (forest_text F2), l. repeat split; auto; now constructor.
    + destruct nd as [m a self kids| |]; try discriminate. destruct (change g miss (s :: rest) kids) as [kids'|] eqn:QC; [|discriminate]. injection H4 as <-.
      apply Forall_app in G. destruct G as [_ G]. inversion G as [|? ? G1 _]; subst. inversion G1 as [? ? ? ? N A S K| | |]; subst.
      destruct (IH kids kids' K QC) as [[A0 [nd [B [l [L [SW GN]]]]]]|[[pre [post [n2 [a2 [self2 [kids2 [A0 [B [l [E1 [L [SW [MS ML]]]]]]]]]]]]]|[l [-> [MS ML]]]]].
      * assert (self = false) by (destruct self; auto; rewrite (S eq_refl) in L; apply located_text in L as LT; inversion L; destruct F0; discriminate). subst self.
        left. exists (forest_text F1 ++ start_tag m a false ++ A0), nd, (B ++ end_tag m ++ forest_text F2), l. split; [now constructor|]. split; auto.
        apply sw_down; auto.
      * assert (self = false) by (destruct self; auto; rewrite (S eq_refl) in L; inversion L; destruct F0; discriminate). subst self.
        right. left. exists ((n, idx) :: pre), post, n2, a2, self2, kids2, (forest_text F1 ++ start_tag m a false ++ A0), (B ++ end_tag m ++ forest_text F2), l.
        split; [cbn [app]; now rewrite E1|]. split; [now constructor|]. split; [apply sw_down; auto|]. auto.
      * right. left. exists [(n, idx)], (s :: rest), m, a, self, kids, (forest_text F1), (forest_text F2), l. split; auto. split; [now constructor|]. split; [now constructor|]. auto.
  - right. right. match type of H with option_map _ ?x = _ => destruct x as [l|] eqn:ML end; [|discriminate]. injection H as <-. exists l. auto.
Qed.

Lemma clean_change_inv : forall g miss steps F F', Forall clean F -> change g miss steps F = Some F' ->
  (exists A nd B l, located steps F A nd B /\ swapped steps F nd l F' /\ g nd = Some l) \/
  (exists pre post n a self kids A B l, steps = pre ++ post /\ located pre F A (Elem n a self kids) B /\
    swapped pre F (Elem n a self kids) [Elem n a false (kids ++ l)] F' /\ missing post kids /\ miss post = Some l) \/
  (exists l, F' = F ++ l /\ missing steps F /\ miss steps = Some l).
Proof.
  intros g miss. induction steps as [|[n idx] rest IH]; intros F F' G H; [discriminate|]. cbn [change] in H.
  destruct (nth_error (called (selects n) F) (index_of idx)) eqn:Q.
  - apply edit_nth_split in H. destruct H as [F1 [nd [F2 [l [-> [H2 [H3 [H4 ->]]]]]]]]. destruct rest as [|s rest].
    + left. exists (forest_text F1), nd, (forest_text F2), l. repeat split; auto; now constructor.
    + destruct nd as [m a self kids| |]; try discriminate. destruct (change g miss (s :: rest) kids) as [kids'|] eqn:QC; [|discriminate]. injection H4 as <-.
      apply Forall_app in G. destruct G as [_ G]. inversion G as [|? ? G1 _]; subst. inversion G1 as [? ? ? ? N A S K| | |]; subst.
      destruct (IH kids kids' K QC) as [[A0 [nd [B [l [L [SW GN]]]]]]|[[pre [post [n2 [a2 [self2 [kids2 [A0 [B [l [E1 [L [SW [MS ML]]]]]]]]]]]]]|[l [-> [MS ML]]]]].
      * assert (self = false) by (destruct self; auto; rewrite (S eq_refl) in L; apply located_text in L as LT; inversion L; destruct F0; discriminate). subst self.
        left. exists (forest_text F1 ++ start_tag m a false ++ A0), nd, (B ++ end_tag m ++ forest_text F2), l. split; [now constructor|]. split; auto.
        apply sw_down; auto.
      * assert (self = false) by (destruct self; auto; rewrite (S eq_refl) in L; inversion L; destruct F0; discriminate). subst self.
        right. left. exists ((n, idx) :: pre), post, n2, a2, self2, kids2, (forest_text F1 ++ start_tag m a false ++ A0), (B ++ end_tag m ++ forest_text F2), l.
        split; [cbn [app]; now rewrite E1|]. split; [now constructor|]. split; [apply sw_down; auto|]. auto.
      * right. left. exists [(n, idx)], (s :: rest), m, a, self, kids, (forest_text F1), (forest_text F2), l. split; auto. split; [now constructor|]. split; [now constructor|]. auto.
  - right. right. match type of H with option_map _ ?x = _ => destruct x as [l|] eqn:ML end; [|discriminate]. injection H as <-. exists l. auto.
Qed.

Lemma change_clean : forall g miss, (forall nd l, clean nd -> g nd = Some l -> Forall clean l) -> forall steps, Forall xml_name (map fst steps) ->
  (forall s l, s <> [] -> Forall xml_name (map fst s) -> miss s = Some l -> Forall clean l) ->
  forall F F', Forall clean F -> change g miss steps F = Some F' -> Forall clean F'.
Proof.
  intros g miss HG steps XN HM. induction steps as [|[n idx] rest IH]; intros F F' G H; [discriminate|]. cbn [change] in H. destruct (nth_error _ _).
  - apply edit_nth_split in H. destruct H as [F1 [nd [F2 [l [-> [H2 [H3 [H4 ->]]]]]]]]. apply Forall_app in G. destruct G as [T1 T2]. inversion T2 as [|? ? T3 T4]; subst.
    apply Forall_app. split; auto. apply Forall_app. split; auto. destruct rest; [eauto|]. destruct nd as [m a self kids| |]; try discriminate.
    inversion T3 as [? ? ? ? N A S K| | |]; subst. cbn [map fst] in XN. apply Forall_cons_iff in XN. destruct XN as [_ XN].
    destruct (change _ _ _ _) as [k'|] eqn:Q; [|discriminate]. injection H4 as <-. constructor; [|constructor]. constructor; auto; [discriminate|]. apply (IH XN kids k'); auto.
  - destruct (miss _) as [l|] eqn:Q; [|discriminate]. injection H as <-. apply Forall_app. split; auto. eapply HM; eauto. discriminate.
Qed.
(** For changes that create nothing, no assumption on the names of the path is needed. *)
Lemma change_clean_nothing : forall g, (forall nd l, clean nd -> g nd = Some l -> Forall clean l) -> forall steps F F', Forall clean F -> change g nothing steps F = Some F' -> Forall clean F'.
Proof.
  intros g HG steps F F' G H. destruct (clean_change_inv g nothing steps F F' G H) as [[A [nd [B [l [L [SW GN]]]]]]|[[? [? [? [? [? [? [? [? [? [_ [_ [_ [_ K]]]]]]]]]]]]]|[? [_ [_ K]]]]]; try discriminate.
  eapply swapped_clean; eauto. eapply HG; eauto. now destruct (located_clean _ _ _ _ _ L G).
Qed.

Lemma content_clean : forall c, good_content c -> Forall clean (content_nodes c).
Proof. intros c H. now apply good_clean_all, content_good. Qed.
Lemma new_attr_clean : forall x v names, names <> [] -> Forall xml_name names -> xml_name x -> small (esc v) -> Forall clean (nest (removelast names) [Elem (last names []) [(x, v)] false []]).
Proof. intros. now apply good_clean_all, new_attr_good. Qed.
Lemma child_clean : forall m K, xml_name m -> Forall clean K -> clean (child_of m K).
Proof. intros m K H GK. constructor; auto; [|discriminate]. constructor; cbn [map List.length]; try constructor. lia. Qed.

Lemma with_kids_clean : forall K nd l, Forall clean K -> clean nd -> with_kids K nd = Some l -> Forall clean l.
Proof.
  intros K nd l GK Gn Q. destruct nd as [n a [|] kids| |]; try discriminate. injection Q as <-. inversion Gn; subst. constructor; [|constructor].
  constructor; auto. discriminate.
Qed.

Lemma attr_of_clean : forall x v nd l, xml_name x -> small (esc v) -> clean nd -> attr_of x v nd = Some l -> Forall clean l.
Proof.
  intros x v nd l X S Gn Q. destruct nd as [n a self kids| |]; try discriminate. cbn [attr_of] in Q. destruct (len (put_attr x v a) <=? 100) eqn:LE; [|discriminate].
  injection Q as <-. apply Nat.leb_le in LE. inversion Gn; subst. constructor; [|constructor]. constructor; auto. now apply put_good.
Qed.
Lemma without_attr_clean : forall x nd l, clean nd -> without_attr x nd = Some l -> Forall clean l.
Proof.
  intros x nd l Gn Q. destruct nd as [n a self kids| |]; try discriminate. injection Q as <-. inversion Gn; subst. constructor; [|constructor]. constructor; auto. now apply drop_good.
Qed.
Lemma more_kids_clean : forall m K nd l, xml_name m -> Forall clean K -> clean nd -> more_kids m K nd = Some l -> Forall clean l.
Proof.
  intros m K nd l X GK Gn Q. destruct nd as [n a self kids| |]; try discriminate. injection Q as <-. inversion Gn; subst. constructor; [|constructor].
  constructor; auto; [discriminate|]. apply insert_clean; auto. now apply child_clean.
Qed.

Lemma apply_clean : forall o F F', legal o -> Forall clean F -> Forall top_node F -> apply_edit o F = Some F' -> Forall clean F' /\ Forall top_node F'.
Proof.
  intros o F F' LG G T H. destruct o as [steps c|steps x v|steps|steps x|steps m c]; cbn [apply_edit legal] in *.
  - destruct LG as [GT [XN [GC _]]]. pose proof (content_clean c GC) as GK. split.
    + eapply change_clean; [| |  |exact G|exact H]; [intros nd l; now apply with_kids_clean|exact XN|]. intros s l NE X Q. unfold new_kids in Q. destruct (names_only s) as [names|] eqn:QN; [|discriminate]. injection Q as <-.
      apply names_by in QN. subst s. rewrite by_name_fst in X. now apply nest_clean.
    + eapply change_top; [| |exact T|exact H].
      * intros nd l Q. destruct nd as [n a [|] kids| |]; try discriminate. injection Q as <-. constructor; [exact I|constructor].
      * intros s1 l NE Q. unfold new_kids in Q. destruct (names_only s1) as [names|] eqn:QN; [|discriminate]. injection Q as <-.
        destruct names; [apply names_by in QN; now subst|]. cbn [nest]. constructor; [exact I|constructor].
  - destruct LG as [GT [XN [X [SZ SM]]]]. split.
    + eapply change_clean; eauto using attr_of_clean. intros s l NE XS Q. unfold new_attr in Q. destruct (names_only s) as [names|] eqn:QN; [|discriminate]. injection Q as <-.
      apply names_by in QN. subst s. rewrite by_name_fst in XS. apply new_attr_clean; auto. now intros ->.
    + eapply change_top; [| |exact T|exact H].
      * intros nd l Q. destruct nd as [n a self kids| |]; try discriminate. cbn [attr_of] in Q. destruct (_ <=? _); [|discriminate]. injection Q as <-. constructor; [exact I|constructor].
      * intros s1 l NE Q. unfold new_attr in Q. destruct (names_only s1) as [names|] eqn:QN; [|discriminate]. injection Q as <-. now apply nest_top.
  - destruct (change _ _ _ _) as [F1|] eqn:Q; injection H as <-; [|auto]. split.
    + eapply change_clean_nothing; eauto. intros nd l _ K. now injection K as <-.
    + eapply change_top; [| |exact T|exact Q]; [|discriminate]. intros nd l K. now injection K as <-.
  - destruct (change _ _ _ _) as [F1|] eqn:Q; injection H as <-; [|auto]. split.
    + eapply change_clean_nothing; eauto using without_attr_clean.
    + eapply change_top; [| |exact T|exact Q]; [|discriminate]. intros nd l K. destruct nd; try discriminate. injection K as <-. constructor; [exact I|constructor].
  - destruct LG as [GS [LN [XN [GC _]]]]. pose proof (content_clean c GC) as GK. destruct steps as [|s steps].
    + injection H as <-. split; [apply insert_clean; auto; now apply child_clean|apply insert_top; auto; exact I].
    + split.
      * eapply change_clean_nothing; [|exact G|exact H]. intros nd l. now apply more_kids_clean.
      * eapply change_top; [| |exact T|exact H]; [|discriminate]. intros nd l K. destruct nd; try discriminate. injection K as <-. constructor; [exact I|constructor].
Qed.

Lemma clean_apply_alike : forall o F G, Forall clean F -> Forall2 same F G -> alike (apply_edit o F) (apply_edit o G).
Proof.
  intros o F G Gd H. destruct o as [steps c|steps x v|steps|steps x|steps m c]; cbn [apply_edit].
  - apply clean_change_alike; auto.
    + intros nd nd' Gn S. inversion S as [n a a' self kids kids' P K| |]; subst; try exact I. destruct self; [exact I|]. constructor; [|constructor]. constructor; auto. apply same_all_refl.
    + intros s. destruct (new_kids (content_nodes c) s); [apply same_all_refl|exact I].
  - apply clean_change_alike; auto.
    + intros nd nd' Gn S. inversion S as [n a a' self kids kids' P K| |]; subst; try exact I. cbn [attr_of]. inversion Gn as [? ? ? ? N A Sf Gk| | |]; subst.
      pose proof (put_perm x v a a' (ga_distinct _ A) P) as PP. rewrite <- (Permutation_length PP). destruct (_ <=? _); [|exact I]. constructor; [|constructor]. now constructor.
    + intros s. destruct (new_attr x v s); [apply same_all_refl|exact I].
  - assert (C : alike (change (fun _ => Some []) nothing steps F) (change (fun _ => Some []) nothing steps G)).
    { apply clean_change_alike; auto; [|intros; exact I]. intros. constructor. }
    destruct (change _ _ steps F), (change _ _ steps G); try contradiction; auto.
  - assert (C : alike (change (without_attr x) nothing steps F) (change (without_attr x) nothing steps G)).
    { apply clean_change_alike; auto; [|intros; exact I]. intros nd nd' Gn S. inversion S as [n a a' self kids kids' P K| |]; subst; try exact I. constructor; [|constructor]. constructor; auto. now apply drop_perm. }
    destruct (change _ _ steps F), (change _ _ steps G); try contradiction; auto.
  - destruct steps as [|s steps]; [now apply insert_alike|]. apply clean_change_alike; auto; [|intros; exact I].
    intros nd nd' Gn S. inversion S as [n a a' self kids kids' P K| |]; subst; try exact I. constructor; [|constructor]. constructor; auto. now apply insert_alike.
Qed.

Section After.
  Variable E : env.
  Variable fmt_g : f64 -> bytes.
  Hypothesis Hord : forall k l, Permutation l (e_ord E k l).
  Variable p : bytes.
  Variable F : list node.
  Hypothesis Hp : prolog p.
  Hypothesis Hg : Forall fair F.
  Let d := p ++ forest_text F.
  Hypothesis Hv : valid d = true.
  Let Hd : (blen d <= 10485760)%N := valid_size d Hv.
  Lemma set_attr_missing : forall pre m ms A n a self kids B x v, good_tpath (pre ++ by_name (m :: ms)) (TheAttribute x) -> located pre F A (Elem n a self kids) B ->
    called (selects m) kids = [] -> (blen (esc v) <= 5242880)%N -> Forall xml_name (m :: ms) -> exists a', Permutation a a' /\ (self = false -> a' = a) /\
    let new := p ++ A ++ node_text (Elem n a' false (kids ++ nest (removelast (m :: ms)) [Elem (last ms m) [(x, v)] false []])) ++ B in
    ((blen (p ++ A ++ node_text (Elem n a' false (kids ++ nest (m :: ms) [])) ++ B) <= 10485760)%N ->
    set E fmt_g d (tpath (pre ++ by_name (m :: ms)) (TheAttribute x)) (VStr v) = Ok (new, None)).
  Proof.
    intros pre m ms A n a self kids B x v GT L C SZ XN. pose proof (segs_parse _ _ GT) as P. pose proof GT as [GS _ _].
    destruct (create_below E Hord p F Hp Hg Hd Hv pre m ms [0; 2] [] A n a self kids B GS L C) as [a' [PA [SA CE]]]. exists a'. split; auto. split; auto. fold d in CE. intros new SN.
    destruct (located_good _ _ _ _ _ L Hg) as [GE _]. inversion GE as [? ? ? ? GN GA GSf GK| | |]; subst n0 a0 self0 kids0.
    set (nd2 := Elem n a' false (kids ++ nest (m :: ms) [])) in *.
    assert (T : (p ++ A) ++ start_tag n a' false ++ forest_text kids ++ fold_right (fun n0 t => start_tag n0 [] false ++ t ++ end_tag n0) [] (m :: ms) ++ end_tag n ++ B = p ++ A ++ node_text nd2 ++ B).
    { unfold nd2. rewrite node_elem, forest_app, nest_text. cbn [forest_text flat_map]. now rewrite <- !app_assoc. }
    rewrite T in CE.
    assert (GN2 : fair nd2).
    { constructor; auto; [eapply good_attrs_perm; eauto|discriminate|]. apply Forall_app. split; auto. apply nest_fair; auto. }
    destruct (replace_fair_located pre F A _ B nd2 L Hg GN2 eq_refl eq_refl) as [F2 [_ [TF [GF2 [L2 TN]]]]].
    pose proof (located_nest_at ms m kids [] C) as LN. pose proof (located_app pre F2 A n a' _ B L2 _ _ _ _ LN) as L3.
    rewrite <- TF in CE, SN.
    assert (NE : pre ++ by_name (m :: ms) <> []) by (intros K; now destruct pre).
    destruct (segs_nonempty _ NE) as [sg [rr Q]].
    unfold d. rewrite (set_start E fmt_g p F Hd Hv _ (VStr v) _ ltac:(discriminate) P (segs_attr_nonempty _ _)). fold d.
    unfold set_element. rewrite segs_attr. rewrite Q. cbn [app]. cbn [value_to_xml]. rewrite <- esc_escape.
    rewrite (proj2 (N.ltb_ge MaxValueSize (blen (esc v))) SZ), (size_ok _ Hd).
    change (sg :: rr ++ [step_seg (Attr x, [])]) with ((sg :: rr) ++ [step_seg (Attr x, [])]). rewrite <- Q.
    rewrite intents_steps by (intros ? [<-|[]]; discriminate). rewrite last_last, removelast_last. cbn [step_seg s_type segtype_eqb s_value].
    pose proof (find_none E Hord p F Hp Hg Hd (pre ++ by_name (m :: ms)) [1] GS NE) as FN. fold d in FN. rewrite FN by (intros; cbn [by_name map]; eapply absent_below; eauto).
    cbn [bind]. unfold create_element_for_attr. rewrite CE. cbn [bind].
    assert (D2 : get_result d (p ++ forest_text F2) = p ++ forest_text F2).
    { apply get_result_some. rewrite TF. unfold nd2. rewrite node_elem, <- !app_assoc, app_assoc. apply start_tag_nonempty. }
    rewrite D2, (size_ok _ SN). destruct (find_some E Hord p F2 Hp GF2 SN _ [1; 2] _ _ _ GS L3) as [l [R AT]]. rewrite R. cbn [bind].
    destruct (slices p F2 SN _ _ _ _ _ _ _ l L3 AT) as [S1 [S2 _]].
    inversion AT as [n1 a1 self1 kids1 l1 B1 B2 B3 B4 B5 B6 B7]; subst n1 a1 self1 kids1 l1.
    apply Permutation_nil in B6 as B6'. assert (PN : Permutation [] (l_attrs l)) by exact B6.
    destruct (replaced_attrs [] (l_attrs l) x v (NoDup_nil _) PN) as [a2 [PA2 TA]]. cbn [put_attr] in PA2. apply Permutation_sym, Permutation_length_1_inv in PA2. subst a2.
    unfold replace_attribute. rewrite S1. cbn [bind]. rewrite S2. cbn [bind edit_of]. rewrite TA, B5, B7.
    assert (T3 : new = (p ++ (A ++ start_tag n a' false ++ forest_text kids ++ flat_map (fun n0 => start_tag n0 [] false) (removelast (m :: ms)))) ++
      bs "<" ++ last ms m ++ attrs_text [(x, v)] ++ bs ">" ++ (forest_text [] ++ end_tag (last ms m)) ++ flat_map end_tag (rev (removelast (m :: ms))) ++ end_tag n ++ B).
    { unfold new. rewrite node_elem, forest_app.
      assert (NT : forall names X, forest_text (nest names [X]) = flat_map (fun n0 => start_tag n0 [] false) names ++ node_text X ++ flat_map end_tag (rev names)).
      { induction names as [|y names IH]; intros X; [cbn [nest flat_map rev app]; now rewrite forest_one, app_nil_r|]. cbn [nest flat_map rev].
        rewrite forest_one, node_elem, IH, flat_map_app. cbn [flat_map]. rewrite app_nil_r, <- !app_assoc. reflexivity. }
      rewrite NT, node_elem. unfold start_tag at 3. cbn [forest_text flat_map app]. rewrite <- !app_assoc. reflexivity. }
    rewrite get_result_some.
    - rewrite T3. do 2 f_equal.
    - intros K. apply (f_equal (@List.length ascii)) in K. rewrite !app_length in K. change (len (bs "<")) with 1 in K. cbn [List.length] in K. lia.
  Qed.
End After.

Section Kids.
  Variable E : env.
  Variable fmt_g : f64 -> bytes.
  Hypothesis Hord : forall k l, Permutation l (e_ord E k l).
  Variable p : bytes.
  Variable F : list node.
  Hypothesis Hp : prolog p.
  Hypothesis Hg : Forall fair F.
  Let d := p ++ forest_text F.
  Hypothesis Hv : valid d = true.
  Let Hd : (blen d <= 10485760)%N := valid_size d Hv.
  Variable v : value.
  Variable K : list node.
  Hypothesis NV : v <> VNil.
  Hypothesis VX : value_to_xml fmt_g v = inr (forest_text K).
  Hypothesis SZ : (blen (forest_text K) <= 5242880)%N.

  Lemma set_kids_ok : forall steps A n a kids B, good_tpath steps TheElement -> located steps F A (Elem n a false kids) B ->
    set E fmt_g d (tpath steps TheElement) v = Ok (p ++ A ++ node_text (Elem n a false K) ++ B, None).
  Proof.
    intros steps A n a kids B GT L. unfold d. rewrite (set_found E fmt_g Hord p F Hp Hg Hd Hv steps A n a false kids B v (forest_text K)); auto.
    rewrite node_elem. now rewrite <- !app_assoc.
  Qed.
  Lemma create_kids_ok : forall pre m ms A n a self kids B, good_tpath (pre ++ by_name (m :: ms)) TheElement -> located pre F A (Elem n a self kids) B ->
    called (selects m) kids = [] -> exists a', Permutation a a' /\ (self = false -> a' = a) /\
    set E fmt_g d (tpath (pre ++ by_name (m :: ms)) TheElement) v = Ok (p ++ A ++ node_text (Elem n a' false (kids ++ nest (m :: ms) K)) ++ B, None).
  Proof.
    intros pre m ms A n a self kids B GT L C. pose proof GT as [GS _ _].
    destruct (create_below E Hord p F Hp Hg Hd Hv pre m ms [4] (forest_text K) A n a self kids B GS L C) as [a' [PA [SA CE]]]. exists a'. split; auto. split; auto. fold d in CE.
    assert (T : p ++ A ++ node_text (Elem n a' false (kids ++ nest (m :: ms) K)) ++ B =
      (p ++ A) ++ start_tag n a' false ++ forest_text kids ++ fold_right (fun n0 t => start_tag n0 [] false ++ t ++ end_tag n0) (forest_text K) (m :: ms) ++ end_tag n ++ B).
    { rewrite node_elem, forest_app, nest_text. now rewrite <- !app_assoc. }
    rewrite T. unfold d. rewrite (set_missing_start E fmt_g Hord p F Hp Hg Hd Hv _ v (forest_text K) GT); auto.
    - fold d. rewrite CE. cbn [bind edit_of]. now rewrite get_result_some by apply start_tag_nonempty.
    - intros A' nd' B'. cbn [by_name map]. eapply absent_below; eauto.
  Qed.
  Lemma create_top_kids_ok : forall m ms, good_tpath (by_name (m :: ms)) TheElement -> called (selects m) F = [] ->
    set E fmt_g d (tpath (by_name (m :: ms)) TheElement) v = Ok (p ++ forest_text (F ++ nest (m :: ms) K), None).
  Proof.
    intros m ms GT C. pose proof GT as [GS _ _]. pose proof (create_root E Hord p F Hp Hg Hd Hv m ms [4] (forest_text K) GS C) as CE. fold d in CE.
    unfold d. rewrite (set_missing_start E fmt_g Hord p F Hp Hg Hd Hv _ v (forest_text K) GT); auto.
    - fold d. rewrite CE. cbn [bind edit_of]. rewrite get_result_some.
      + unfold d. rewrite forest_app, nest_text. now rewrite <- !app_assoc.
      + destruct (doc_nonempty p F Hd Hv) as [c [r Q]]. fold d in Q. rewrite Q. discriminate.
    - intros A nd B. cbn [by_name map]. now apply absent_here.
  Qed.
  Lemma append_kids_ok : forall steps A n a kids B m, Forall good_tstep (steps ++ [(m, None)]) -> len (flat_map tstep_steps (steps ++ [(m, None)])) < 100 ->
    located steps F A (Elem n a false kids) B ->
    let new := p ++ A ++ node_text (Elem n a false (insert_last (selects m) (child_of m K) kids)) ++ B in
    (blen new <= 10485760)%N -> set E fmt_g d (tpath (steps ++ [(m, None)]) TheElement ++ bs ".-1") v = Ok (new, None).
  Proof.
    intros steps A n a kids B m GS LN L new SN.
    destruct (append_found E fmt_g Hord p F Hp Hg Hv steps A n a kids B m v (forest_text K) GS LN L) as [K1 [K2 [EK [IL S]]]]; auto.
    cbv zeta in S.
    assert (T : new = p ++ A ++ start_tag n a false ++ forest_text K1 ++ (start_tag m [] false ++ forest_text K ++ end_tag m) ++ forest_text K2 ++ end_tag n ++ B).
    { unfold new. rewrite IL, node_elem, forest_app, forest_cons. unfold child_of. rewrite node_elem. now rewrite <- !app_assoc. }
    rewrite <- T in S. fold d in S. rewrite S. now rewrite (proj2 (N.ltb_ge _ _) SN).
  Qed.
  Lemma append_self_kids_ok : forall steps A n a kids B m, Forall good_tstep (steps ++ [(m, None)]) -> len (flat_map tstep_steps (steps ++ [(m, None)])) < 100 ->
    located steps F A (Elem n a true kids) B ->
    exists a', Permutation a a' /\ set E fmt_g d (tpath (steps ++ [(m, None)]) TheElement ++ bs ".-1") v =
      Ok (p ++ A ++ node_text (Elem n a' false (insert_last (selects m) (child_of m K) kids)) ++ B, None).
  Proof.
    intros steps A n a kids B m GS LN L.
    destruct (append_self E fmt_g Hord p F Hp Hg Hv steps A n a kids B m v (forest_text K) GS LN L) as [a' [PA S]]; auto.
    exists a'. split; [now symmetry|]. fold d in S. rewrite S. destruct (located_good _ _ _ _ _ L Hg) as [GE _]. inversion GE as [? ? ? ? GN GA GSf GK| | |]; subst n0 a0 self kids0.
    rewrite (GSf eq_refl). cbn [insert_last]. rewrite node_elem, forest_one. unfold child_of. rewrite node_elem. now rewrite <- !app_assoc.
  Qed.
  Lemma append_top_kids_ok : forall m, step_name m ->
    let F' := insert_last (selects m) (child_of m K) F in let new := p ++ forest_text F' in
    (blen new <= 10485760)%N -> set E fmt_g d (tpath [(m, None)] TheElement ++ bs ".-1") v = Ok (new, None).
  Proof.
    intros m SM F' new SN.
    destruct (append_top E fmt_g Hord p F Hp Hg Hv m v (forest_text K) SM) as [F1 [F2 [EF [IL S]]]]; auto.
    cbv zeta in S. assert (T : new = p ++ forest_text F1 ++ (start_tag m [] false ++ forest_text K ++ end_tag m) ++ forest_text F2).
    { unfold new, F'. rewrite IL, forest_app, forest_cons. unfold child_of. rewrite node_elem. now rewrite <- !app_assoc. }
    rewrite <- T in S. fold d in S. rewrite S. now rewrite (proj2 (N.ltb_ge _ _) SN).
  Qed.
End Kids.

Lemma clean_aside : forall b, clean (Misc b) -> aside (bs "<!" ++ b ++ bs ">").
Proof.
  intros b G. inversion G as [| |c NA D Q|K L A D Q]; subst.
  - change (aside (bs "<!" ++ (bs "[CDATA[" ++ c ++ bs "]]") ++ bs ">")). replace (bs "<!" ++ (bs "[CDATA[" ++ c ++ bs "]]") ++ bs ">") with (bs "<![CDATA[" ++ c ++ bs "]]>") by (rewrite <- !app_assoc; reflexivity). now apply as_cdata.
  - set (c := forest_text K) in *. change (aside (bs "<!" ++ (bs "--" ++ c ++ bs "--") ++ bs ">")).
    replace (bs "<!" ++ (bs "--" ++ c ++ bs "--") ++ bs ">") with (bs "<!--" ++ c ++ bs "-->") by (rewrite <- !app_assoc; reflexivity). now apply as_comment.
Qed.

Lemma clean_forest_yields : forall F, (forall nd, In nd F -> clean nd) ->
  (forall nd, In nd F -> forall s stack found, (stack <> [] -> found = true) -> (stack <> [] \/ top_node nd) -> len stack <= 100 -> verdict [nd] s stack found) ->
  forall s stack found, (stack <> [] -> found = true) -> (stack <> [] \/ Forall top_node F) -> len stack <= 100 -> verdict F s stack found.
Proof.
  induction F as [|nd F IH]; intros G H s stack found HF T L.
  - right. split; [cbn; lia|]. rewrite orb_false_r. intros x Y. exact Y.
  - assert (T1 : stack <> [] \/ top_node nd) by (destruct T as [T|T]; auto; inversion T; auto).
    assert (T2 : stack <> [] \/ Forall top_node F) by (destruct T as [T|T]; auto; inversion T; auto).
    assert (HF2 : stack <> [] -> found || is_elem nd = true) by (intros K; now rewrite (HF K)).
    unfold verdict. rewrite forest_cons, <- app_assoc. cbn [depth_of fold_right existsb]. fold (depth_of F).
    destruct (H nd (or_introl eq_refl) (forest_text F ++ s) stack found HF T1 L) as [[D X]|[D X]]; cbn [depth_of fold_right existsb] in D, X;
      unfold forest_text in X; cbn [flat_map] in X; rewrite app_nil_r in X; fold (forest_text F) in X.
    + left. split; [lia|auto].
    + rewrite orb_false_r in X. destruct (IH (fun x K => G x (or_intror K)) (fun x K => H x (or_intror K)) s stack (found || is_elem nd) HF2 T2 L) as [[D2 Y]|[D2 Y]].
      * left. split; [lia|]. eapply passes_fails; eauto.
      * right. split; [lia|]. intros x Z. apply X. apply Y. now rewrite <- orb_assoc.
Qed.
Lemma clean_node_yields : forall nd, clean nd -> forall s stack found, (stack <> [] -> found = true) -> (stack <> [] \/ top_node nd) -> len stack <= 100 ->
  verdict [nd] s stack found.
Proof.
  induction nd as [n a self kids IH|t|b] using node_ind'; intros G s stack found HF T L.
  - inversion G as [? ? ? ? N A S K| | |]; subst. unfold verdict. cbn [depth_of fold_right existsb is_elem levels]. fold (depth_of kids).
    unfold forest_text. cbn [flat_map node_text]. rewrite app_nil_r, <- app_assoc. fold (forest_text kids). rewrite !orb_true_r.
    destruct (tag_yields n a self ((if self then [] else forest_text kids ++ end_tag n) ++ s) stack found N A HF) as [[D X]|[D [t X]]].
    + left. split; [lia|auto].
    + destruct self.
      * rewrite (S eq_refl) in *. right. split; [cbn; lia|]. exact X.
      * rewrite <- app_assoc in *. destruct (clean_forest_yields kids (fun x Hx => proj1 (Forall_forall _ _) K x Hx)
          (fun x Hx => proj1 (Forall_forall _ _) IH x Hx (proj1 (Forall_forall _ _) K x Hx)) (end_tag n ++ s) ((n, t) :: stack) true) as [[D2 Y]|[D2 Y]]; auto.
        -- left. discriminate.
        -- left. split; [cbn [List.length] in D2; lia|]. eapply passes_fails; eauto.
        -- right. split; [cbn [List.length] in D2; lia|]. intros x Z. apply X, Y. cbn [orb]. now apply close_yields.
  - right. unfold verdict. cbn [depth_of fold_right existsb is_elem levels]. split; [lia|]. inversion G as [|? NA| |]; subst.
    unfold forest_text. cbn [flat_map node_text]. rewrite app_nil_r, !orb_false_r. intros x Y. destruct T as [T|T].
    + rewrite (HF T) in *. destruct stack; [contradiction|]. apply yields_text; auto.
    + apply yields_blanks; auto.
  - right. unfold verdict. cbn [depth_of fold_right existsb is_elem levels]. split; [lia|]. assert (M : aside (bs "<!" ++ b ++ bs ">")) by (now apply clean_aside).
    unfold forest_text. cbn [flat_map node_text]. rewrite app_nil_r, !orb_false_r. intros x Y. apply yields_aside; auto.
Qed.

Lemma clean_canonical_valid : forall p F, strict_prolog p -> Forall clean F -> Forall top_node F -> has_element F ->
  (N.of_nat (len (p ++ forest_text F)) <= 10485760)%N -> (valid (p ++ forest_text F) = true <-> shallow F).
Proof.
  intros p F P G T HE L.
  assert (V : verdict F [] [] false).
  { apply clean_forest_yields; auto; try (now rewrite <- Forall_forall); try discriminate; cbn; auto; [|lia].
    intros nd Hn. apply clean_node_yields. now apply (proj1 (Forall_forall _ _) G). }
  unfold verdict in V. rewrite app_nil_r in V. cbn [orb List.length] in V. rewrite (proj1 (has_element_exists F) HE) in V.
  pose proof (prolog_passes p P (forest_text F)) as PP.
  unfold valid, validate. change MaxDocumentSize with 10485760%N. rewrite (proj2 (N.ltb_ge 10485760 (blen _)) L).
  destruct (p ++ forest_text F) as [|c d0] eqn:E; [apply app_eq_nil in E; destruct E as [_ E]; now apply forest_nonempty in E|]. rewrite <- E in *. clear c d0 E.
  set (d := p ++ forest_text F) in *. clearbody d.
  destruct (v_loop_total (S (len d)) (mkV d [] false false)) as [x VL]; [cbn [v_rest]; lia|]. rewrite VL.
  destruct V as [[D [e X]]|[D X]].
  - apply PP in X. rewrite (yields_eq _ _ _ _ X VL). split; [discriminate|]. intros SH. apply depth_shallow in SH. lia.
  - assert (Y : yields (st_of [] [] true) (inr (mkV [] [] true true))) by (exists 1; reflexivity).
    apply X, PP in Y. rewrite (yields_eq _ _ _ _ Y VL). cbn. split; auto. intros _. now apply depth_shallow.
Qed.

Section Calls.
  Variable E : env.
  Variable fmt_g : f64 -> bytes.
  Hypothesis Hord : forall k l, Permutation l (e_ord E k l).
  Section Doc.
  Variable p : bytes.
  Variable F : list node.
  Hypothesis Hp : prolog p.
  Hypothesis Hg : Forall fair F.
  Let d := p ++ forest_text F.
  Hypothesis Hv : valid d = true.
  Let Hd : (blen d <= 10485760)%N := valid_size d Hv.

  Lemma set_attr_missing_top : forall m ms x v, good_tpath (by_name (m :: ms)) (TheAttribute x) ->
    called (selects m) F = [] -> (blen (esc v) <= 5242880)%N -> Forall xml_name (m :: ms) ->
    (blen (p ++ forest_text (F ++ nest (m :: ms) [])) <= 10485760)%N ->
    set E fmt_g d (tpath (by_name (m :: ms)) (TheAttribute x)) (VStr v) =
      Ok (p ++ forest_text (F ++ nest (removelast (m :: ms)) [Elem (last ms m) [(x, v)] false []]), None).
  Proof.
    intros m ms x v GT C SZ XN SN. pose proof (segs_parse _ _ GT) as P. pose proof GT as [GS _ _].
    pose proof (create_root E Hord p F Hp Hg Hd Hv m ms [0; 2] [] GS C) as CE. fold d in CE.
    assert (T : d ++ fold_right (fun n t => start_tag n [] false ++ t ++ end_tag n) [] (m :: ms) = p ++ forest_text (F ++ nest (m :: ms) [])).
    { unfold d. rewrite forest_app, nest_text. cbn [forest_text flat_map]. now rewrite <- !app_assoc. }
    rewrite T in CE.
    assert (GF2 : Forall fair (F ++ nest (m :: ms) [])) by (apply Forall_app; split; auto; apply nest_fair; auto).
    pose proof (located_nest_at ms m F [] C) as L3.
    assert (NE : by_name (m :: ms) <> []) by discriminate.
    destruct (segs_nonempty _ NE) as [sg [rr Q]].
    unfold d. rewrite (set_start E fmt_g p F Hd Hv _ (VStr v) _ ltac:(discriminate) P (segs_attr_nonempty _ _)). fold d.
    unfold set_element. rewrite segs_attr. rewrite Q. cbn [app]. cbn [value_to_xml]. rewrite <- esc_escape.
    rewrite (proj2 (N.ltb_ge MaxValueSize (blen (esc v))) SZ), (size_ok _ Hd).
    change (sg :: rr ++ [step_seg (Attr x, [])]) with ((sg :: rr) ++ [step_seg (Attr x, [])]). rewrite <- Q.
    rewrite intents_steps by (intros ? [<-|[]]; discriminate). rewrite last_last, removelast_last. cbn [step_seg s_type segtype_eqb s_value].
    pose proof (find_none E Hord p F Hp Hg Hd (by_name (m :: ms)) [1] GS NE) as FN. fold d in FN.
    rewrite FN by (intros; cbn [by_name map]; now apply absent_here).
    cbn [bind]. unfold create_element_for_attr. rewrite CE. cbn [bind].
    assert (D2 : get_result d (p ++ forest_text (F ++ nest (m :: ms) [])) = p ++ forest_text (F ++ nest (m :: ms) [])).
    { apply get_result_some. rewrite <- T. destruct (doc_nonempty p F Hd Hv) as [c [r0 Q0]]. fold d in Q0. rewrite Q0. discriminate. }
    rewrite D2, (size_ok _ SN). destruct (find_some E Hord p _ Hp GF2 SN _ [1; 2] _ _ _ GS L3) as [l [R AT]]. rewrite R. cbn [bind].
    destruct (slices p _ SN _ _ _ _ _ _ _ l L3 AT) as [S1 [S2 _]].
    inversion AT as [n1 a1 self1 kids1 l1 B1 B2 B3 B4 B5 B6 B7]; subst n1 a1 self1 kids1 l1.
    assert (PN : Permutation [] (l_attrs l)) by exact B6.
    destruct (replaced_attrs [] (l_attrs l) x v (NoDup_nil _) PN) as [a2 [PA2 TA]]. cbn [put_attr] in PA2. apply Permutation_sym, Permutation_length_1_inv in PA2. subst a2.
    unfold replace_attribute. rewrite S1. cbn [bind]. rewrite S2. cbn [bind edit_of]. rewrite TA, B5, B7.
    assert (T3 : p ++ forest_text (F ++ nest (removelast (m :: ms)) [Elem (last ms m) [(x, v)] false []]) =
      (p ++ forest_text F ++ flat_map (fun n0 => start_tag n0 [] false) (removelast (m :: ms))) ++
      bs "<" ++ last ms m ++ attrs_text [(x, v)] ++ bs ">" ++ (forest_text [] ++ end_tag (last ms m)) ++ flat_map end_tag (rev (removelast (m :: ms)))).
    { rewrite forest_app.
      assert (NT : forall names X, forest_text (nest names [X]) = flat_map (fun n0 => start_tag n0 [] false) names ++ node_text X ++ flat_map end_tag (rev names)).
      { induction names as [|y names IH]; intros X; [cbn [nest flat_map rev app]; now rewrite forest_one, app_nil_r|]. cbn [nest flat_map rev].
        rewrite forest_one, node_elem, IH, flat_map_app. cbn [flat_map]. rewrite app_nil_r, <- !app_assoc. reflexivity. }
      rewrite NT, node_elem. unfold start_tag at 2. cbn [forest_text flat_map app]. rewrite <- !app_assoc. reflexivity. }
    rewrite get_result_some.
    - rewrite T3. do 2 f_equal.
    - intros K. apply (f_equal (@List.length ascii)) in K. rewrite !app_length in K. change (len (bs "<")) with 1 in K. cbn [List.length] in K. lia.
  Qed.

  Lemma call_ok : forall o F', legal o -> apply_edit o F = Some F' -> fits p F' ->
    exists G, call E fmt_g o d = Ok (p ++ forest_text G, None) /\ Forall2 same F' G.
  Proof.
    intros o F' LG H [FE [_ FS]]. destruct o as [steps c|steps x v|steps|steps x|steps m c]; cbn [apply_edit legal call] in *.
    - destruct LG as [GT [XN [GC _]]]. destruct (content_call E fmt_g c d (tpath steps TheElement) GC) as [v [NV [VX [SZ CC]]]]. rewrite CC. set (K := content_nodes c) in *.
      destruct (fair_change_inv _ _ _ _ _ Hg H) as [[A [nd [B [l [L [SW GN]]]]]]|[[pre [post [n [a [self [kids [A [B [l [-> [L [SW [MS ML]]]]]]]]]]]]]|[l [-> [MS ML]]]]].
      + destruct nd as [n a [|] kids| |]; try discriminate. injection GN as <-. exists F'. split; [|apply same_all_refl].
        unfold d. rewrite (set_kids_ok E fmt_g Hord p F Hp Hg Hv v K NV VX SZ steps A n a kids B GT L).
        rewrite (swapped_text _ _ _ _ _ SW A B L), forest_one. reflexivity.
      + unfold new_kids in ML. destruct (names_only post) as [names|] eqn:QN; [|discriminate]. injection ML as <-.
        destruct (missing_names _ _ _ QN MS) as [m [ms [-> [-> CM]]]].
        destruct (create_kids_ok E fmt_g Hord p F Hp Hg Hv v K NV VX SZ pre m ms A n a self kids B GT L CM) as [a' [PA [SA S1]]]. fold d in S1.
        destruct (located_swapped _ _ _ _ _ [Elem n a' false (kids ++ nest (m :: ms) K)] L) as [G [SG TG]]. exists G. split.
        * rewrite S1, TG, forest_one. reflexivity.
        * eapply fair_swapped_same; eauto. constructor; [|constructor]. constructor; auto. apply same_all_refl.
      + unfold new_kids in ML. destruct (names_only steps) as [names|] eqn:QN; [|discriminate]. injection ML as <-.
        destruct (missing_names _ _ _ QN MS) as [m [ms [-> [-> CM]]]].
        pose proof (create_top_kids_ok E fmt_g Hord p F Hp Hg Hv v K NV VX SZ m ms GT CM) as S1. fold d in S1. exists (F ++ nest (m :: ms) K). split; [exact S1|apply same_all_refl].
    - destruct LG as [GT [XN [X [SZ SM]]]].
      destruct (fair_change_inv _ _ _ _ _ Hg H) as [[A [nd [B [l [L [SW GN]]]]]]|[[pre [post [n [a [self [kids [A [B [l [-> [L [SW [MS ML]]]]]]]]]]]]]|[l [-> [MS ML]]]]].
      + destruct nd as [n a self kids| |]; try discriminate. cbn [attr_of] in GN. destruct (_ <=? _); [|discriminate]. injection GN as <-.
        destruct (set_attr_found E fmt_g Hord p F Hp Hg Hd Hv steps A n a self kids B x v GT L SZ) as [a' [PA S1]]. fold d in S1.
        destruct (located_swapped _ _ _ _ _ [Elem n a' self kids] L) as [G [SG TG]]. exists G. split.
        * rewrite S1, TG, forest_one, node_parts, <- !app_assoc. reflexivity.
        * eapply fair_swapped_same; eauto. constructor; [|constructor]. constructor; [now symmetry|apply same_all_refl].
      + unfold new_attr in ML. destruct (names_only post) as [names|] eqn:QN; [|discriminate]. injection ML as <-.
        destruct (missing_names _ _ _ QN MS) as [m [ms [-> [-> CM]]]]. rewrite last_cons in SW.
        rewrite map_app in XN. apply Forall_app in XN. destruct XN as [_ XN]. rewrite by_name_fst in XN.
        destruct (set_attr_missing E fmt_g Hord p F Hp Hg Hv pre m ms A n a self kids B x v GT L CM SZ XN) as [a' [PA [SA S1]]]. fold d in S1. cbv zeta in S1.
        destruct (located_swapped _ _ _ _ _ [Elem n a' false (kids ++ nest (removelast (m :: ms)) [Elem (last ms m) [(x, v)] false []])] L) as [G [SG TG]].
        assert (SG2 : Forall2 same F' G).
        { eapply fair_swapped_same; eauto. constructor; [|constructor]. constructor; auto. apply same_all_refl. }
        exists G. split; auto. rewrite S1; [rewrite TG, forest_one; reflexivity|].
        rewrite app_length, (same_length_all F' G SG2), TG in FS. rewrite forest_one, !app_length in FS. unfold blen. rewrite !app_length.
        assert (LE : len (node_text (Elem n a' false (kids ++ nest (m :: ms) []))) <= len (node_text (Elem n a' false (kids ++ nest (removelast (m :: ms)) [Elem (last ms m) [(x, v)] false []])))).
        { rewrite nest_split, !node_elem, !forest_app, !app_length. pose proof (nest_length (removelast (m :: ms)) _ _ (attr_longer (last ms m) (x, v) [])). lia. }
        lia.
      + unfold new_attr in ML. destruct (names_only steps) as [names|] eqn:QN; [|discriminate]. injection ML as <-.
        destruct (missing_names _ _ _ QN MS) as [m [ms [-> [-> CM]]]]. rewrite last_cons in *. rewrite by_name_fst in XN.
        exists (F ++ nest (removelast (m :: ms)) [Elem (last ms m) [(x, v)] false []]). split; [|apply same_all_refl]. apply set_attr_missing_top; auto.
        unfold blen. rewrite app_length, forest_app, app_length in *. rewrite nest_split.
        pose proof (nest_length (removelast (m :: ms)) _ _ (attr_longer (last ms m) (x, v) [])). lia.
    - destruct (change _ nothing steps F) as [F1|] eqn:Q; injection H as <-.
      + destruct (fair_change_inv _ _ _ _ _ Hg Q) as [[A [nd [B [l [L [SW GN]]]]]]|[[? [? [? [? [? [? [? [? [? [_ [_ [_ [_ K]]]]]]]]]]]]]|[? [_ [_ K]]]]]; try discriminate.
        injection GN as <-. exists F1. split; [|apply same_all_refl]. pose proof (swapped_text _ _ _ _ _ SW A B L) as T. change (forest_text []) with (@nil ascii) in T. cbn [app] in T.
        pose proof (delete_found E Hord p F Hp Hg Hd Hv steps A nd B LG L) as D. fold d in D. rewrite D, T.
        destruct (p ++ A ++ B) eqn:K; [|reflexivity]. exfalso. apply app_eq_nil in K. destruct K as [_ K]. rewrite K in T. now apply (forest_nonempty F1 FE).
      + exists F. split; [|apply same_all_refl]. apply (delete_missing E Hord p F Hp Hg Hd Hv steps TheElement LG); auto. intros A nd B L.
        eapply located_change; eauto. discriminate.
    - destruct (change _ nothing steps F) as [F1|] eqn:Q; injection H as <-.
      + destruct (fair_change_inv _ _ _ _ _ Hg Q) as [[A [nd [B [l [L [SW GN]]]]]]|[[? [? [? [? [? [? [? [? [? [_ [_ [_ [_ K]]]]]]]]]]]]]|[? [_ [_ K]]]]]; try discriminate.
        destruct nd as [n a self kids| |]; try discriminate. injection GN as <-.
        pose proof (delete_attr_found E Hord p F Hp Hg Hd Hv steps A n a self kids B x LG L) as D. fold d in D. destruct (attr_value x a) as [w|] eqn:AV.
        * destruct D as [a' [PA D]]. destruct (located_swapped _ _ _ _ _ [Elem n a' self kids] L) as [G [SG TG]]. exists G. split.
          -- rewrite D, TG, forest_one, node_parts, <- !app_assoc. reflexivity.
          -- eapply fair_swapped_same; eauto. constructor; [|constructor]. constructor; [now symmetry|apply same_all_refl].
        * rewrite (drop_absent x a AV) in SW. apply swapped_id in SW. subst F1. exists F. split; [exact D|apply same_all_refl].
      + exists F. split; [|apply same_all_refl]. apply (delete_missing E Hord p F Hp Hg Hd Hv steps (TheAttribute x) LG); eauto. intros A nd B L.
        eapply located_change; [exact L| |exact Q]. destruct (located_good _ _ _ _ _ L Hg) as [_ EL]. destruct nd; discriminate.
    - destruct LG as [GS [LN [XN [GC _]]]]. destruct (content_call E fmt_g c d (tpath (steps ++ [(m, None)]) TheElement ++ bs ".-1") GC) as [v [NV [VX [SZ CC]]]]. rewrite CC. set (K0 := content_nodes c) in *. destruct steps as [|s steps].
      + injection H as <-. cbn [app] in *. exists (insert_last (selects m) (child_of m K0) F). split; [|apply same_all_refl].
        assert (SM : step_name m) by (inversion GS as [|? ? [K _] _]; exact K).
        exact (append_top_kids_ok E fmt_g Hord p F Hp Hg Hv v K0 NV VX SZ m SM FS).
      + destruct (fair_change_inv _ _ _ _ _ Hg H) as [[A [nd [B [l [L [SW GN]]]]]]|[[? [? [? [? [? [? [? [? [? [_ [_ [_ [_ K]]]]]]]]]]]]]|[? [_ [_ K]]]]]; try discriminate.
        destruct nd as [n a self kids| |]; try discriminate. injection GN as <-. pose proof (swapped_text _ _ _ _ _ SW A B L) as T. rewrite forest_one in T. destruct self.
        * destruct (append_self_kids_ok E fmt_g Hord p F Hp Hg Hv v K0 NV VX SZ (s :: steps) A n a kids B m GS LN L) as [a' [PA S1]]. fold d in S1.
          destruct (located_swapped _ _ _ _ _ [Elem n a' false (insert_last (selects m) (child_of m K0) kids)] L) as [G [SG TG]]. exists G. split.
          -- rewrite TG, forest_one. exact S1.
          -- eapply fair_swapped_same; eauto. constructor; [|constructor]. constructor; auto. apply same_all_refl.
        * exists F'. split; [|apply same_all_refl]. rewrite T. apply (append_kids_ok E fmt_g Hord p F Hp Hg Hv v K0 NV VX SZ (s :: steps) A n a kids B m GS LN L). rewrite T in FS. exact FS.
  Qed.
  End Doc.

  Lemma clean_state_valid : forall p F, strict_prolog p -> Forall clean F -> Forall top_node F -> fits p F -> valid (p ++ forest_text F) = true.
  Proof. intros p F SP G T [H1 [H2 H3]]. now apply clean_canonical_valid. Qed.
  Lemma clean_history_ok : forall p ops F F', prolog p -> strict_prolog p -> history p ops F F' -> forall G, Forall clean F -> Forall top_node F -> fits p F -> Forall2 same F G ->
    exists G', calls E fmt_g ops (p ++ forest_text G) = Ok (p ++ forest_text G', None) /\ Forall2 same F' G' /\ Forall clean F' /\ Forall top_node F' /\ fits p F'.
  Proof.
    intros p ops F F' Hp SP H. induction H as [F|o ops F F1 F2 LG AP FT H IH]; intros G Gd T Ft S; cbn [calls].
    - exists G. auto.
    - assert (FT2 : fits p F1) by (destruct FT as [FT1 FT3]; destruct Ft as [_ [Ft _]]; split; [exact FT1|]; split; [eapply apply_shallow; eauto|exact FT3]).
      pose proof (clean_apply_alike o F G Gd S) as AL. rewrite AP in AL. destruct (apply_edit o G) as [G1|] eqn:AG; [|destruct AL]. cbn [alike] in AL.
      pose proof (same_clean_all F G S Gd) as GG.
      destruct (call_ok p G Hp (clean_fair_all _ GG)) with (o := o) (F' := G1) as [G2 [CA SG]]; auto.
      + apply clean_state_valid; auto; [eapply same_top; eauto|eapply same_fits; eauto].
      + eapply same_fits; eauto.
      + rewrite CA. destruct (apply_clean o F F1 LG Gd T AP) as [G1' T1']. apply IH; auto. eapply same_all_trans; eauto.
  Qed.
End Calls.
