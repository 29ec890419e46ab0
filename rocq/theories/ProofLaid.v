(** Texts with start tags of canonical length. *)
From Coq Require Import List Ascii String NArith ZArith Bool Lia Permutation.
From Verif Require Import GoStr ModelParser ModelPath ModelResult ModelQuery ModelValidate ModelBuilder SpecText SpecPath SpecTree SpecQuery SpecEdit SpecContent SpecValid SpecNotation SpecLaid
  ProofBase ProofEscape ProofPath ProofScan ProofSyntax ProofApi2 ProofTree ProofTree2 ProofTree3 ProofTree4 ProofTree5 ProofTree7 ProofEdit ProofEdit2 ProofNotation.
Import ListNotations.

Scheme laid_min := Minimality for laid Sort Prop with laid_all_min := Minimality for laid_all Sort Prop.
Combined Scheme laid_mut from laid_min, laid_all_min.

Lemma opening_start : forall n a self, opening n (attrs_text a) self = start_tag n a self.
Proof. reflexivity. Qed.
Lemma opening_len : forall n t self, len (opening n t self) = len n + len t + (if self then 3 else 2).
Proof. intros n t self. unfold opening. rewrite !app_length. destruct self; cbn [bs list_ascii_of_string List.length]; lia. Qed.
Lemma opening_same : forall n t a self, len t = len (attrs_text a) -> len (opening n t self) = len (start_tag n a self).
Proof. intros n t a self H. rewrite <- opening_start, !opening_len. lia. Qed.
Lemma all_more : forall top s F x, laid_all top s F x -> forall s', s <= s' -> laid_all top s' F x.
Proof.
  induction 1 as [top s|top e s nd F x y H1 H2 IH]; intros s' L; [constructor|]. replace s' with (e + (s' - e)) by lia. constructor; auto. apply IH. lia.
Qed.
Lemma one_more : forall top e nd x, laid top e nd x -> forall e', e <= e' -> laid top e' nd x.
Proof. intros top e nd x H e' L. inversion H; subst; econstructor; eauto; lia. Qed.
Lemma one_zero : forall e nd x, laid false e nd x -> laid false 0 nd x.
Proof. intros e nd x H. inversion H; subst; constructor; auto; match goal with K : false = false -> _ |- _ => rewrite (K eq_refl) end; lia. Qed.
Lemma all_zero : forall s F x, laid_all false s F x -> laid_all false 0 F x.
Proof. intros s F x H. remember false as top eqn:Q. induction H; subst; [constructor|]. apply (ls_cons false 0 0); auto. eapply one_zero; eauto. Qed.
Lemma one_top : forall e nd x, laid false e nd x -> forall top e', laid top e' nd x.
Proof. intros e nd x H top e'. inversion H; subst; constructor; auto; match goal with K : false = false -> _ |- _ => rewrite (K eq_refl) end; auto; lia. Qed.
Lemma all_top : forall s F x, laid_all false s F x -> forall top s', laid_all top s' F x.
Proof. intros s F x H. remember false as t eqn:Q. induction H; subst; intros tp s'; [constructor|]. apply (ls_cons tp 0 s'); [eapply one_top; eauto|auto]. Qed.
Lemma all_app : forall top s1 F1 x1, laid_all top s1 F1 x1 -> forall s2 F2 x2, laid_all top s2 F2 x2 -> laid_all top (s1 + s2) (F1 ++ F2) (x1 ++ x2).
Proof.
  induction 1 as [top s|top e s nd F x y H1 H2 IH]; intros s2 F2 x2 K; cbn [app].
  - eapply all_more; eauto. lia.
  - rewrite <- app_assoc, <- Nat.add_assoc. constructor; auto.
Qed.
Lemma all_one : forall top e nd x, laid top e nd x -> laid_all top e [nd] x.
Proof. intros top e nd x H. rewrite <- (app_nil_r x). replace e with (e + 0) by lia. constructor; [exact H|constructor]. Qed.
Lemma all_split : forall F1 top s F2 x, laid_all top s (F1 ++ F2) x -> exists s1 s2 x1 x2, s1 + s2 <= s /\ x = x1 ++ x2 /\ laid_all top s1 F1 x1 /\ laid_all top s2 F2 x2.
Proof.
  induction F1 as [|nd F1 IH]; intros top s F2 x H.
  - exists 0, s, [], x. repeat split; auto. constructor.
  - cbn [app] in H. inversion H as [|? e s' ? ? z y H1 H2]; subst. destruct (IH _ _ _ _ H2) as [s1 [s2 [x1 [x2 [L [-> [A B]]]]]]].
    exists (e + s1), s2, (z ++ x1), x2. split; [lia|]. split; [now rewrite app_assoc|]. split; auto. now constructor.
Qed.
Lemma all_uncons : forall top s nd F x, laid_all top s (nd :: F) x -> exists e s' z y, e + s' = s /\ x = z ++ y /\ laid top e nd z /\ laid_all top s' F y.
Proof. intros top s nd F x H. inversion H as [|? e s' ? ? z y H1 H2]; subst. exists e, s', z, y. auto. Qed.
Lemma laid_len : (forall top e nd z, laid top e nd z -> top = false -> len z = len (node_text nd)) /\
  (forall top s F x, laid_all top s F x -> top = false -> len x = len (forest_text F)).
Proof.
  apply laid_mut.
  - intros top e n a kids t x HT HL HE _ IH Q. rewrite node_elem, !app_length, (opening_same n t a false (HE Q)), (IH eq_refl). reflexivity.
  - intros top e n a t HT HL HE Q. rewrite (opening_same n t a true (HE Q)). cbn [node_text]. now rewrite app_nil_r.
  - reflexivity.
  - reflexivity.
  - reflexivity.
  - intros top e s nd F x y _ I1 _ I2 Q. rewrite forest_cons, !app_length, (I1 Q), (I2 Q). reflexivity.
Qed.
Lemma inner_len : forall s F x, laid_all false s F x -> len x = len (forest_text F).
Proof. intros s F x H. apply (proj2 laid_len _ _ _ _ H eq_refl). Qed.
Lemma laid_one_le : forall top e nd z, laid top e nd z -> len z <= len (node_text nd) + e.
Proof.
  intros top e nd z H. inversion H; subst; try (cbn [node_text]; lia).
  - rewrite node_elem, !app_length. match goal with K : laid_all false 0 _ _ |- _ => rewrite (inner_len _ _ _ K) end. rewrite <- opening_start, !opening_len. lia.
  - cbn [node_text]. rewrite app_nil_r, <- opening_start, !opening_len. lia.
Qed.
Lemma laid_le : forall top s F x, laid_all top s F x -> len x <= len (forest_text F) + s.
Proof.
  induction 1 as [top s|top e s nd F x y H1 H2 IH]; [cbn [List.length]; lia|]. rewrite forest_cons, !app_length. pose proof (laid_one_le _ _ _ _ H1). lia.
Qed.
Lemma xml_small : forall n, xml_name n -> small (n ++ []).
Proof. intros n [_ [_ H]]. now rewrite app_nil_r. Qed.
Lemma laid_written : (forall top e nd z, laid top e nd z -> good nd -> written nd z) /\
  (forall top s F x, laid_all top s F x -> Forall good F -> written_all F x).
Proof.
  apply laid_mut.
  - intros top e n a kids t x HT HL HE _ IH G. inversion G as [? ? ? ? N A S K| |]; subst.
    replace (opening n t false ++ x ++ end_tag n) with (bs "<" ++ n ++ t ++ bs ">" ++ x ++ bs "</" ++ n ++ [] ++ bs ">") by (unfold opening, end_tag; now rewrite <- !app_assoc).
    constructor; auto; [constructor|now apply xml_small].
  - intros top e n a t HT HL HE G. unfold opening. now constructor.
  - constructor.
  - constructor.
  - constructor.
  - intros top e s nd F x y _ I1 _ I2 G. inversion G; subst. constructor; auto.
Qed.
Lemma all_written : forall top s F x, laid_all top s F x -> Forall good F -> written_all F x.
Proof. exact (proj2 laid_written). Qed.
Lemma node_laid : forall nd, good nd -> forall top e, laid top e nd (node_text nd).
Proof.
  induction nd as [n a self kids IH|x|b] using node_ind'; intros G top e; [|constructor|constructor].
  inversion G as [? ? ? ? N A S K| |]; subst. destruct self.
  - rewrite (S eq_refl). cbn [node_text]. rewrite app_nil_r. apply (la_self top e n a (attrs_text a)); auto using esc_small_as; lia.
  - rewrite node_elem. apply (la_elem top e n a kids (attrs_text a)); auto using esc_small_as; [lia|].
    clear - IH K. induction IH as [|k kids I1 I2 I3]; [constructor|]. inversion K; subst. rewrite forest_cons. apply (ls_cons false 0 0); auto.
Qed.
Lemma forest_laid : forall F, Forall good F -> forall top s, laid_all top s F (forest_text F).
Proof.
  induction 1 as [|nd F G1 G2 IH]; intros top s; [constructor|]. rewrite forest_cons. apply (ls_cons top 0 s); auto. now apply node_laid.
Qed.

(** ** Designated elements *)
Lemma standing_text : forall top s steps F A nd lv e z B, standing top s steps F A nd lv e z B ->
  laid lv e nd z /\ is_elem nd = true /\ exists s', laid_all top s' F (A ++ z ++ B) /\ s' <= s + e.
Proof.
  induction 1 as [top s1 s2 e n idx F1 nd F2 x1 z x2 H1 H2 H3 H4 H5|top s1 s2 e0 n idx rest F1 m a kids F2 x1 t A nd e z B x2 H1 H2 H3 H4 H5 H6 H7 H8 IH].
  - split; auto. split; [destruct nd; auto; discriminate|]. exists (s1 + (e + s2)). split; [|lia]. apply all_app; auto. now constructor.
  - destruct IH as [I1 [I2 [s' [I3 _]]]]. split; auto. split; auto. exists (s1 + (e0 + s2)). split; [|lia].
    replace ((x1 ++ opening m t false ++ A) ++ z ++ B ++ end_tag m ++ x2) with (x1 ++ (opening m t false ++ (A ++ z ++ B) ++ end_tag m) ++ x2)
      by (now rewrite <- !app_assoc).
    apply all_app; auto. constructor; auto. constructor; auto. eapply all_zero; eauto.
Qed.
Lemma standing_located : forall top s steps F A nd lv e z B, standing top s steps F A nd lv e z B ->
  exists A0 B0, located steps F A0 nd B0 /\ (top = false -> len A = len A0) /\ (top = false -> len B = len B0).
Proof.
  induction 1 as [top s1 s2 e n idx F1 nd F2 x1 z x2 H1 H2 H3 H4 H5|top s1 s2 e0 n idx rest F1 m a kids F2 x1 t A nd e z B x2 H1 H2 H3 H4 H5 H6 H7 H8 IH].
  - exists (forest_text F1), (forest_text F2). split; [now constructor|]. split; intros ->; eapply inner_len; eauto.
  - destruct IH as [A0 [B0 [L [L1 L2]]]]. eexists _, _. split; [now constructor; eauto|]. split; intros ->; rewrite !app_length.
    + rewrite (inner_len _ _ _ H3), (L1 eq_refl), (opening_same _ _ _ _ (H7 eq_refl)). reflexivity.
    + rewrite (inner_len _ _ _ H4), (L2 eq_refl). reflexivity.
Qed.
Lemma located_standing : forall steps F A0 nd B0, located steps F A0 nd B0 -> Forall good F -> forall top s x, laid_all top s F x ->
  exists s' A lv e z B, standing top s' steps F A nd lv e z B /\ x = A ++ z ++ B /\ s' + e <= s /\ (lv = true -> top = true).
Proof.
  induction 1 as [n idx F1 nd F2 H1 H2|n idx rest F1 m a kids F2 A nd B H1 H2 H3 IH]; intros G top s x L.
  - apply all_split in L. destruct L as [s1 [s2 [x1 [y [L1 [-> [L2 L3]]]]]]]. apply all_uncons in L3. destruct L3 as [e [s3 [z [x2 [L4 [-> [L5 L6]]]]]]].
    exists (s1 + s3), x1, top, e, z, x2. split; [now constructor|]. split; auto. split; [lia|]. auto.
  - apply Forall_app in G. destruct G as [_ G]. inversion G as [|? ? G1 _]; subst. inversion G1 as [? ? ? ? GN GA GS GK| |]; subst.
    apply all_split in L. destruct L as [s1 [s2 [x1 [y [L1 [-> [L2 L3]]]]]]]. apply all_uncons in L3. destruct L3 as [e [s3 [z [x2 [L4 [-> [L5 L6]]]]]]].
    inversion L5 as [? ? ? ? ? t y HT HL HE HK| | |]; subst.
    destruct (IH GK false 0 y HK) as [s' [A1 [lv [e1 [z1 [B1 [S1 [-> [S2 S3]]]]]]]]].
    assert (lv = false) by (destruct lv; auto; discriminate (S3 eq_refl)). subst lv. assert (s' = 0) by lia. assert (e1 = 0) by lia. subst s' e1.
    eexists _, _, _, _, _, _. split; [eapply st_down; eauto|]. split; [now rewrite <- !app_assoc|]. split; [lia|discriminate].
Qed.
(** Replacing the text of the designated element. *)
Lemma standing_swapped : forall top s steps F A nd lv e z B, standing top s steps F A nd lv e z B ->
  forall l e' z', laid_all lv e' l z' -> exists F', swapped steps F nd l F' /\ laid_all top (s + e') F' (A ++ z' ++ B).
Proof.
  induction 1 as [top s1 s2 e n idx F1 nd F2 x1 z x2 H1 H2 H3 H4 H5|top s1 s2 e0 n idx rest F1 m a kids F2 x1 t A nd e z B x2 H1 H2 H3 H4 H5 H6 H7 H8 IH];
    intros l e' z' L.
  - eexists. split; [now constructor|]. replace (s1 + s2 + e') with (s1 + (e' + s2)) by lia. apply all_app; auto. now apply all_app.
  - destruct (IH l e' z' L) as [kids' [I1 I2]]. eexists. split; [eapply sw_down; eauto|].
    replace ((x1 ++ opening m t false ++ A) ++ z' ++ B ++ end_tag m ++ x2) with (x1 ++ (opening m t false ++ (A ++ z' ++ B) ++ end_tag m) ++ x2)
      by (now rewrite <- !app_assoc).
    apply all_more with (s := s1 + (e0 + s2)); [|lia]. apply all_app; auto. constructor; auto. constructor; auto. eapply all_zero; eauto.
Qed.
Lemma swapped_fun : forall steps F nd l F1 F2, swapped steps F nd l F1 -> swapped steps F nd l F2 -> F1 = F2.
Proof.
  intros steps F nd l F1 F2 S1 S2. pose proof (swapped_edit _ _ _ _ _ (fun _ => l) S1 eq_refl) as Q1. pose proof (swapped_edit _ _ _ _ _ (fun _ => l) S2 eq_refl) as Q2. congruence.
Qed.
Lemma replace_laid : forall top s steps F A nd lv e z B l e' z' F', standing top s steps F A nd lv e z B -> laid_all lv e' l z' ->
  swapped steps F nd l F' -> laid_all top (s + e') F' (A ++ z' ++ B).
Proof.
  intros top s steps F A nd lv e z B l e' z' F' S L W. destruct (standing_swapped _ _ _ _ _ _ _ _ _ _ S _ _ _ L) as [F2 [W2 H]].
  now rewrite (swapped_fun _ _ _ _ _ _ W W2).
Qed.
