(** Escaping and unescaping. *)
From Coq Require Import List Ascii String NArith ZArith Bool Lia.
From Verif Require Import GoStr ModelParser ProofBase SpecText.
Import ListNotations.

Lemma escape_char_cases : forall c,
  (exists n, In (n, c) predefined /\ escape_char c = n) \/
  (escape_char c = [c] /\ c <> "&"%char /\ c <> "<"%char /\ c <> ">"%char /\ c <> dquote /\ c <> squote).
Proof.
  intros c. unfold escape_char.
  destruct (Ascii.eqb c "&") eqn:E1; [apply Ascii.eqb_eq in E1; subst; left; eexists; split; [|reflexivity]; simpl; auto|].
  destruct (Ascii.eqb c "<") eqn:E2; [apply Ascii.eqb_eq in E2; subst; left; eexists; split; [|reflexivity]; simpl; auto|].
  destruct (Ascii.eqb c ">") eqn:E3; [apply Ascii.eqb_eq in E3; subst; left; eexists; split; [|reflexivity]; simpl; auto|].
  destruct (Ascii.eqb c dquote) eqn:E4; [apply Ascii.eqb_eq in E4; subst; left; eexists; split; [|reflexivity]; simpl; auto|].
  destruct (Ascii.eqb c squote) eqn:E5; [apply Ascii.eqb_eq in E5; subst; left; eexists; split; [|reflexivity]; simpl; auto 6|].
  right. repeat split; try (apply Ascii.eqb_neq; assumption).
Qed.

Lemma predefined_amp : forall n c, In (n, c) predefined -> exists r, n = "&"%char :: r /\
  forall a, In a r -> a <> "&"%char /\ a <> "<"%char /\ a <> ">"%char /\ a <> dquote /\ a <> squote.
Proof.
  intros n c H. simpl in H.
  repeat (destruct H as [H|H]; [injection H; intros; subst; eexists; split; [reflexivity|];
    simpl; intros a Ha; repeat (destruct Ha as [Ha|Ha]; [subst; repeat split; discriminate|]); easy|]).
  easy.
Qed.

Lemma lookup_predefined : forall n c t, In (n, c) predefined ->
  lookup_ref unescape_table (n ++ t) = Some (c, t).
Proof.
  intros n c t H. simpl in H.
  repeat (destruct H as [H|H]; [injection H; intros; subst; reflexivity|]). easy.
Qed.

Lemma lookup_ref_In : forall tbl s v r, lookup_ref tbl s = Some (v, r) ->
  exists n, In (n, v) tbl /\ s = n ++ r.
Proof.
  induction tbl as [|[k v'] tbl IH]; simpl; intros s v r H; [discriminate|].
  destruct (strip_prefix k s) eqn:E.
  - injection H; intros; subst. apply strip_prefix_spec in E. exists k; auto.
  - destruct (IH _ _ _ H) as [n [H1 H2]]. exists n; auto.
Qed.

Lemma table_predefined : forall n c, In (n, c) unescape_table <-> In (n, c) predefined.
Proof. intros; simpl; intuition. Qed.

Lemma predefined_length : forall n c, In (n, c) predefined -> n <> [] .
Proof. intros n c H. destruct (predefined_amp _ _ H) as [r [-> _]]. discriminate. Qed.

Lemma lookup_none_raw : forall c t, lookup_ref unescape_table (c :: t) = None ->
  forall n x r, In (n, x) predefined -> c :: t <> n ++ r.
Proof.
  intros c t H n x r Hin Heq. rewrite Heq in H. erewrite lookup_predefined in H; eauto. discriminate.
Qed.

Lemma unescape_fuel_decodes : forall fuel t, List.length t <= fuel -> Decodes t (unescape_fuel fuel t).
Proof.
  induction fuel as [|f IH]; intros t H.
  - destruct t; [constructor|simpl in H; lia].
  - destruct t as [|c t]; [constructor|]. cbn [unescape_fuel].
    destruct (lookup_ref unescape_table (c :: t)) as [[v r]|] eqn:E.
    + destruct (lookup_ref_In _ _ _ _ E) as [n [H1 H2]].
      rewrite H2. apply D_ref.
      * now apply table_predefined.
      * apply IH. assert (L := f_equal (@List.length _) H2).
        rewrite app_length in L. simpl in L, H.
        assert (n <> []) by (eapply predefined_length; apply table_predefined; eauto).
        destruct n; [congruence|]. simpl in L. lia.
    + apply D_raw; [now apply lookup_none_raw|]. apply IH. simpl in H; lia.
Qed.

Lemma unescape_decodes : forall t, Decodes t (unescape_xml t).
Proof. intros; apply unescape_fuel_decodes; auto. Qed.

Lemma predefined_unique : forall n c n' c' r r', In (n, c) predefined -> In (n', c') predefined ->
  n ++ r = n' ++ r' -> n = n' /\ c = c' /\ r = r'.
Proof.
  intros n c n' c' r r' H H' E.
  pose proof (lookup_predefined _ _ r H) as L. rewrite E in L.
  rewrite (lookup_predefined _ _ r' H') in L. injection L; intros; subst.
  split; auto. now apply app_inv_tail in E.
Qed.

Lemma decodes_fun : forall t s1, Decodes t s1 -> forall s2, Decodes t s2 -> s1 = s2.
Proof.
  induction 1 as [|n c t s Hin HD IH|c t s Hraw HD IH]; intros s2 H2.
  - inversion H2 as [|n c t s Hin HD E|]; auto. apply predefined_length in Hin. destruct n; [congruence|discriminate].
  - inversion H2 as [E|n' c' t' s' Hin' HD' E|c' t' s' Hraw' HD' E].
    + apply predefined_length in Hin. destruct n; [congruence|discriminate].
    + destruct (predefined_unique _ _ _ _ _ _ Hin Hin' (eq_sym E)) as [-> [-> ->]]. f_equal; auto.
    + subst. exfalso. eapply Hraw'; eauto.
  - inversion H2 as [E|n' c' t' s' Hin' HD' E|c' t' s' Hraw' HD' E].
    + exfalso. eapply Hraw; eauto.
    + subst. f_equal; auto.
Qed.

Lemma escape_decodes : forall s, Decodes (escape_xml s) s.
Proof.
  induction s as [|c s IH]; simpl; [constructor|].
  destruct (escape_char_cases c) as [[n [H1 H2]]|[H1 H2]]; rewrite ?H2, ?H1.
  - now apply D_ref.
  - apply D_raw; auto. intros n x r Hin. destruct (predefined_amp _ _ Hin) as [r' [-> _]].
    simpl. intros Heq. injection Heq; intros; subst. tauto.
Qed.

Lemma unescape_escape : forall s, unescape_xml (escape_xml s) = s.
Proof. intros. eapply decodes_fun; [apply unescape_decodes|apply escape_decodes]. Qed.

Lemma escape_inj : forall a b, escape_xml a = escape_xml b -> a = b.
Proof. intros a b H. rewrite <- (unescape_escape a), H. apply unescape_escape. Qed.

Lemma app_cons_split : forall (A : Type) (a b pre post : list A) c,
  a ++ b = pre ++ c :: post ->
  (exists post1, a = pre ++ c :: post1 /\ post = post1 ++ b) \/
  (exists pre1, pre = a ++ pre1 /\ b = pre1 ++ c :: post).
Proof.
  induction a as [|x a IH]; intros b pre post c H.
  - right. exists pre; auto.
  - destruct pre as [|y pre].
    + injection H; intros; subst. left. exists a; auto.
    + simpl in H. injection H; intros H1 H2; subst. destruct (IH _ _ _ _ H1) as [[p1 [E1 E2]]|[p1 [E1 E2]]]; subst.
      * left. exists p1. auto.
      * right. exists p1. auto.
Qed.

Lemma escape_inert : forall s, Inert (escape_xml s).
Proof.
  induction s as [|c s IH].
  - intros pre c post H. destruct pre; discriminate.
  - intros pre d post H. simpl in H.
    destruct (app_cons_split _ _ _ _ _ _ H) as [[p1 [E1 E2]]|[p1 [E1 E2]]].
    + destruct (escape_char_cases c) as [[n [H1 H2]]|[H1 H2]].
      * rewrite H2 in E1. destruct (predefined_amp _ _ H1) as [r [Hn Hr]].
        rewrite Hn in E1. destruct pre as [|y pre].
        -- injection E1; intros; subst d. repeat split; try discriminate.
           intros _. exists n, c, (escape_xml s). split; auto. subst. now rewrite Hn.
        -- injection E1; intros E3 E4. assert (In d r) by (rewrite E3; apply in_or_app; simpl; auto).
           destruct (Hr _ H0) as [A1 [A2 [A3 [A4 A5]]]]. repeat split; auto. intros; congruence.
      * rewrite H1 in E1. destruct pre as [|y pre]; [|destruct pre; discriminate].
        injection E1; intros; subst. destruct H2 as [A1 [A2 [A3 [A4 A5]]]]. repeat split; auto. intros; congruence.
    + eapply IH; eauto.
Qed.
