(** Proofs about [@pretty]. *)
From Coq Require Import List Ascii String Bool Lia.
From Verif Require Import GoStr ModelPretty ModelResult SpecPretty ProofBase.
Import ListNotations.

Lemma says_det : forall a m m', says_of a m -> says_of a m' -> m' = m.
Proof.
  intros a m m' A B. destruct A as [v|p v|s n v H K]; inversion B; subst; auto; try contradiction; try discriminate.
  all: try (exfalso; match goal with X : [] = [] -> _ |- _ => now elim (X eq_refl) end).
Qed.
Lemma says_ex : forall a, exists m, says_of a m.
Proof.
  intros [[s n] v]. destruct (list_eq_dec ascii_dec s (bs "xmlns")) as [->|H]; [eexists; constructor|].
  destruct s as [|c s].
  - destruct (list_eq_dec ascii_dec n (bs "xmlns")) as [->|K]; [eexists; constructor|]. eexists. apply says_named; auto.
  - eexists. apply says_named; auto. discriminate.
Qed.
Definition key_of (m : meant) : bytes :=
  match m with
  | Default v => bs "xmlns=" ++ v
  | Prefix p v => bs "xmlns:" ++ p ++ bs "=" ++ v
  | Named [] n => n
  | Named s n => s ++ bs ":" ++ n
  end.
Lemma key_says : forall a m, says_of a m -> attr_key a = key_of m.
Proof.
  intros a m H. destruct H as [v|p v|s n v H K]; unfold attr_key; cbn [a_name n_local n_space a_value key_of].
  - reflexivity.
  - rewrite (bytes_eqb_refl (bs "xmlns")). rewrite andb_false_r. reflexivity.
  - assert (X : bytes_eqb n (bs "xmlns") && bytes_eqb s [] = false).
    { destruct (bytes_eqb n (bs "xmlns")) eqn:Q; auto. cbn [andb]. destruct s; [|reflexivity]. apply bytes_eqb_eq in Q. now elim K. }
    rewrite X. destruct (bytes_eqb s (bs "xmlns")) eqn:Q; [apply bytes_eqb_eq in Q; contradiction|]. destruct s; reflexivity.
Qed.
Definition decent_m (m : meant) : Prop :=
  match m with
  | Default _ => True
  | Prefix p _ => ~ In "="%char p
  | Named s n => ~ In ":"%char n /\ ~ In "="%char n /\ forall r, s <> bs "xmlns" ++ r
  end.
Lemma decent_says : forall a m, says_of a m -> decent a -> decent_m m.
Proof.
  intros a m H (D1 & D2 & D3). destruct H as [v|p v|s n v H K]; cbn [decent_m a_name n_local n_space] in *; auto.
  repeat split; auto. intros r Q. pose proof (D3 r Q) as ->. rewrite app_nil_r in Q. contradiction.
Qed.
Lemma split_at : forall (c : ascii) a b a' b', ~ In c a -> ~ In c a' -> a ++ c :: b = a' ++ c :: b' -> a = a' /\ b = b'.
Proof.
  intros c. induction a as [|x a IH]; intros b [|y a'] b' N N' H; cbn [app] in H.
  - injection H; auto.
  - injection H as <- H. elim N'. now left.
  - injection H as -> H. elim N. now left.
  - injection H as -> H. destruct (IH _ _ _ (fun K => N (or_intror K)) (fun K => N' (or_intror K)) H) as [-> ->]. auto.
Qed.
Lemma split_last : forall (c : ascii) a b a' b', ~ In c b -> ~ In c b' -> a ++ c :: b = a' ++ c :: b' -> a = a' /\ b = b'.
Proof.
  intros c a b a' b' N N' H. assert (R : rev b ++ c :: rev a = rev b' ++ c :: rev a').
  { apply (f_equal (@rev _)) in H. rewrite !rev_app_distr in H. cbn [rev] in H. rewrite <- !app_assoc in H. exact H. }
  apply split_at in R; [|now rewrite <- in_rev|now rewrite <- in_rev]. destruct R as [R1 R2].
  apply (f_equal (@rev _)) in R1. apply (f_equal (@rev _)) in R2. rewrite !rev_involutive in *. auto.
Qed.
Lemma key_inj : forall m m', decent_m m -> decent_m m' -> key_of m = key_of m' -> m = m'.
Proof.
  assert (NS : forall s n, decent_m (Named s n) -> (s = [] /\ key_of (Named s n) = n) \/ (s <> [] /\ key_of (Named s n) = s ++ ":"%char :: n)).
  { intros [|c s] n _; [left|right]; split; auto; discriminate. }
  assert (DN : forall v s n, decent_m (Named s n) -> key_of (Default v) <> key_of (Named s n)).
  { intros v s n D H. destruct (NS _ _ D) as [[-> Q]|[S Q]]; rewrite Q in H; cbn [key_of] in H; destruct D as (D1 & D2 & D3).
    - apply D2. rewrite <- H. apply in_or_app. left. vm_compute. auto 10.
    - change (bs "xmlns=" ++ v) with (bs "xmlns" ++ ("="%char :: v)) in H.
      destruct s as [|a [|b [|c [|d [|e s]]]]]; cbn in H; try discriminate H. injection H as <- <- <- <- <- H. apply (D3 s). reflexivity. }
  assert (PN : forall p v s n, decent_m (Named s n) -> key_of (Prefix p v) <> key_of (Named s n)).
  { intros p v s n D H. destruct (NS _ _ D) as [[-> Q]|[S Q]]; rewrite Q in H; cbn [key_of] in H; destruct D as (D1 & D2 & D3).
    - apply D1. rewrite <- H. apply in_or_app. left. vm_compute. auto 10.
    - change (bs "xmlns:" ++ p ++ bs "=" ++ v) with (bs "xmlns" ++ (":"%char :: p ++ bs "=" ++ v)) in H.
      destruct s as [|a [|b [|c [|d [|e s]]]]]; cbn in H; try discriminate H. injection H as <- <- <- <- <- H. apply (D3 s). reflexivity. }
  intros [v|p v|s n] [v'|p' v'|s' n'] D D' H; try (exfalso; eapply DN; eauto; fail); try (exfalso; eapply PN; eauto; fail).
  - cbn [key_of] in H. apply app_inv_head in H. congruence.
  - cbn in H. discriminate.
  - cbn in H. discriminate.
  - cbn [key_of] in H. apply app_inv_head in H. cbn [decent_m] in *. apply split_at in H; auto. destruct H as [-> H]. cbn [bs] in H. congruence.
  - destruct (NS _ _ D) as [[-> Q]|[S Q]], (NS _ _ D') as [[-> Q']|[S' Q']]; rewrite Q, Q' in H; destruct D as (D1 & D2 & D3), D' as (D1' & D2' & D3').
    + now subst.
    + exfalso. apply D1. rewrite H. apply in_or_app. right. now left.
    + exfalso. apply D1'. rewrite <- H. apply in_or_app. right. now left.
    + apply split_last in H; auto. now destruct H as [-> ->].
Qed.
Lemma duplicate_key : forall a b, decent a -> decent b -> (duplicate a b <-> attr_key a = attr_key b).
Proof.
  intros a b Da Db. destruct (says_ex a) as [m M], (says_ex b) as [m' M']. rewrite (key_says _ _ M), (key_says _ _ M'). split.
  - intros (x & X & Y). pose proof (says_det _ _ _ M X). pose proof (says_det _ _ _ M' Y). subst. reflexivity.
  - intros K. assert (Q : m = m') by (apply key_inj; auto; eapply decent_says; eauto). subst m'. exists m. auto.
Qed.

(** ** The loop *)
Lemma loop_app : forall l l' seen, dedup_loop seen (l ++ l') = dedup_loop seen l ++ dedup_loop (rev (map attr_key l) ++ seen) l'.
Proof.
  assert (EX : forall l s s', (forall k, In k s <-> In k s') -> dedup_loop s l = dedup_loop s' l).
  { induction l as [|a l IH]; intros s s' Q; auto. cbn [dedup_loop].
    assert (X : existsb (bytes_eqb (attr_key a)) s = existsb (bytes_eqb (attr_key a)) s').
    { apply eq_true_iff_eq. rewrite !existsb_exists. split; intros (k & K & L); exists k; split; auto; now apply Q. }
    rewrite X. destruct (existsb _ s'); [now apply IH|]. f_equal. apply IH. intros k. cbn [In]. rewrite Q. tauto. }
  induction l as [|a l IH]; intros l' seen; auto. cbn [app dedup_loop map rev].
  destruct (existsb (bytes_eqb (attr_key a)) seen) eqn:Q.
  - rewrite IH. f_equal. apply EX. intros k. rewrite !in_app_iff. cbn [In]. split; [tauto|]. intros [[H|[<-|[]]]|H]; auto. right.
    apply existsb_exists in Q. destruct Q as (k & K & L). apply bytes_eqb_eq in L. now rewrite L.
  - rewrite IH. cbn [app]. do 2 f_equal. rewrite <- app_assoc. reflexivity.
Qed.
Lemma loop_firsts : forall l, Forall decent l -> firsts l (dedup_loop [] l).
Proof.
  intros l. pattern l. apply rev_ind; [constructor|]. clear l. intros a l IH D. apply Forall_app in D. destruct D as [D Da]. inversion Da as [|x y Dx _]; subst.
  rewrite loop_app. cbn [dedup_loop]. rewrite app_nil_r. destruct (existsb (bytes_eqb (attr_key a)) (rev (map attr_key l))) eqn:Q.
  - rewrite app_nil_r. apply existsb_exists in Q. destruct Q as (k & K & L). apply bytes_eqb_eq in L. subst k. rewrite <- in_rev, in_map_iff in K.
    destruct K as (b & E & I). eapply firsts_old; eauto. apply duplicate_key; auto. rewrite Forall_forall in D. auto.
  - apply firsts_new; auto. intros b I H. apply duplicate_key in H; auto; [|rewrite Forall_forall in D; auto].
    assert (X : existsb (bytes_eqb (attr_key a)) (rev (map attr_key l)) = true); [|congruence].
    apply existsb_exists. exists (attr_key a). split; [|apply bytes_eqb_refl]. rewrite <- in_rev, <- H. now apply in_map.
Qed.
Lemma dedup_firsts : forall l, Forall decent l -> firsts l (dedup_attrs l).
Proof.
  intros l D. assert (X : dedup_attrs l = dedup_loop [] l) by (destruct l as [|a [|b l]]; reflexivity). rewrite X. now apply loop_firsts.
Qed.
Lemma firsts_det : forall l k, firsts l k -> forall k', firsts l k' -> k' = k.
Proof.
  induction 1 as [|l k a H IH N|l k a b H IH I Dp]; intros k' K; inversion K as [Q|l2 k2 a2 H2 N2 Q|l2 k2 a2 b2 H2 I2 D2 Q]; subst; auto;
    try (destruct l; discriminate); try (destruct l2; discriminate); apply app_inj_tail in Q; destruct Q as [-> ->].
  - now rewrite (IH _ H2).
  - exfalso. eapply N; eauto.
  - exfalso. eapply N2; eauto.
  - now apply IH.
Qed.
Lemma pretty_retold : forall t, decent_token t -> retold t (pretty_token t).
Proof. intros [n l|n|s|s|t s|s] D; constructor. now apply dedup_firsts. Qed.
Lemma retold_det : forall t u u', retold t u -> retold t u' -> u' = u.
Proof. intros t u u' A B. destruct A; inversion B; subst; auto. now rewrite (firsts_det _ _ H k0). Qed.
