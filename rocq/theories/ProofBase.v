(** Basic facts about byte strings. *)
From Coq Require Import List Ascii String NArith ZArith Bool Lia Permutation.
From Verif Require Import GoStr.
Import ListNotations.

Ltac bytecases c := destruct c as [[] [] [] [] [] [] [] []].

Lemma ascii_eqb_true : forall a b, Ascii.eqb a b = true <-> a = b.
Proof. intros; apply Ascii.eqb_eq. Qed.
Lemma ascii_eqb_false : forall a b, Ascii.eqb a b = false <-> a <> b.
Proof. intros; apply Ascii.eqb_neq. Qed.
Lemma ascii_eqb_sym : forall a b, Ascii.eqb a b = Ascii.eqb b a.
Proof. intros; apply Ascii.eqb_sym. Qed.

Lemma code_lt : forall c, (code c < 256)%N.
Proof. intro c; apply N_ascii_bounded. Qed.
Lemma code_inj : forall a b, code a = code b -> a = b.
Proof.
  intros a b H. rewrite <- (ascii_N_embedding a), <- (ascii_N_embedding b).
  unfold code in H; now rewrite H.
Qed.

Lemma bytes_eqb_refl : forall a, bytes_eqb a a = true.
Proof. induction a; simpl; auto. now rewrite Ascii.eqb_refl. Qed.
Lemma bytes_eqb_eq : forall a b, bytes_eqb a b = true <-> a = b.
Proof.
  split.
  - revert b; induction a; destruct b; simpl; intros; try discriminate; auto.
    apply andb_true_iff in H; destruct H as [H1 H2].
    apply Ascii.eqb_eq in H1; subst. f_equal; auto.
  - intros ->; apply bytes_eqb_refl.
Qed.
Lemma bytes_eqb_neq : forall a b, bytes_eqb a b = false <-> a <> b.
Proof.
  intros. rewrite <- bytes_eqb_eq. destruct (bytes_eqb a b); split; congruence.
Qed.
Lemma bytes_eqb_sym : forall a b, bytes_eqb a b = bytes_eqb b a.
Proof.
  intros. destruct (bytes_eqb a b) eqn:E.
  - apply bytes_eqb_eq in E; subst; now rewrite bytes_eqb_refl.
  - symmetry. apply bytes_eqb_neq. apply bytes_eqb_neq in E. congruence.
Qed.
Lemma bytes_eq_dec : forall a b : bytes, {a = b} + {a <> b}.
Proof. intros; apply list_eq_dec, ascii_dec. Qed.

Lemma strip_prefix_spec : forall p s r, strip_prefix p s = Some r <-> s = p ++ r.
Proof.
  induction p as [|x p IH]; intros s r; simpl.
  - split; congruence.
  - destruct s as [|y s]; [split; discriminate|].
    destruct (Ascii.eqb x y) eqn:E.
    + apply Ascii.eqb_eq in E; subst. rewrite IH. split; intros H; [congruence|now inversion H].
    + split; [discriminate|]. intros H; inversion H; subst. now rewrite Ascii.eqb_refl in E.
Qed.
Lemma strip_prefix_app : forall p r, strip_prefix p (p ++ r) = Some r.
Proof. intros; now apply strip_prefix_spec. Qed.
Lemma strip_prefix_none : forall p s, strip_prefix p s = None <-> forall r, s <> p ++ r.
Proof.
  intros p s. split.
  - intros H r ->. rewrite strip_prefix_app in H; discriminate.
  - intros H. destruct (strip_prefix p s) eqn:E; auto. apply strip_prefix_spec in E.
    now apply H in E.
Qed.
Lemma has_prefix_spec : forall p s, has_prefix p s = true <-> exists r, s = p ++ r.
Proof.
  intros; unfold has_prefix. destruct (strip_prefix p s) eqn:E.
  - apply strip_prefix_spec in E. split; eauto.
  - rewrite strip_prefix_none in E. split; [discriminate|]. intros [r H]; now apply E in H.
Qed.
Lemma has_suffix_spec : forall p s, has_suffix p s = true <-> exists r, s = r ++ p.
Proof.
  intros; unfold has_suffix. rewrite has_prefix_spec. split; intros [r H].
  - exists (rev r). rewrite <- (rev_involutive s), H, rev_app_distr, rev_involutive. reflexivity.
  - exists (rev r). now rewrite H, rev_app_distr.
Qed.

Lemma mem_In : forall c set, mem c set = true <-> In c set.
Proof.
  intros; unfold mem. rewrite existsb_exists. split.
  - intros [x [H1 H2]]. apply Ascii.eqb_eq in H2; now subst.
  - intros H; exists c; split; auto. apply Ascii.eqb_refl.
Qed.
Lemma contains_any_false : forall set s,
  contains_any set s = false <-> forall c, In c s -> mem c set = false.
Proof.
  intros; unfold contains_any. induction s; simpl.
  - split; auto; now intros.
  - rewrite orb_false_iff, IHs. split.
    + intros [H1 H2] c [->|H]; auto.
    + intros H; split; auto.
Qed.

(** Association lists as maps. *)
Section Maps.
  Context {A : Type}.
  Implicit Types m : smap A.
  Lemma map_get_set_same : forall k v m, map_get k (map_set k v m) = Some v.
  Proof.
    induction m as [|[k' v'] m IH]; simpl.
    - now rewrite bytes_eqb_refl.
    - destruct (bytes_eqb k k') eqn:E; simpl; rewrite E; auto.
  Qed.
  Lemma map_get_set_other : forall k k' v m, k <> k' -> map_get k (map_set k' v m) = map_get k m.
  Proof.
    intros k k' v m H. induction m as [|[k2 v2] m IH]; simpl.
    - apply bytes_eqb_neq in H. now rewrite H.
    - destruct (bytes_eqb k' k2) eqn:E; simpl.
      + apply bytes_eqb_eq in E; subst. apply bytes_eqb_neq in H. now rewrite H.
      + now rewrite IH.
  Qed.
  Lemma map_get_In : forall k m v, map_get k m = Some v -> In (k, v) m.
  Proof.
    induction m as [|[k' v'] m IH]; simpl; intros v H; [discriminate|].
    destruct (bytes_eqb k k') eqn:E.
    - apply bytes_eqb_eq in E; subst; injection H; intros; subst; now left.
    - right; auto.
  Qed.
  Lemma map_get_None : forall k m, map_get k m = None <-> ~ In k (map fst m).
  Proof.
    induction m as [|[k' v'] m IH]; simpl.
    - split; auto.
    - destruct (bytes_eqb k k') eqn:E.
      + apply bytes_eqb_eq in E; subst. split; [discriminate|]. intros H; exfalso; auto.
      + apply bytes_eqb_neq in E. rewrite IH. split; intros H; [intros [H1|H1]; auto|auto].
  Qed.
  Lemma map_get_nodup : forall k v m, NoDup (map fst m) -> In (k, v) m -> map_get k m = Some v.
  Proof.
    induction m as [|[k' v'] m IH]; simpl; intros ND H; [easy|].
    inversion ND; subst. destruct H as [H|H].
    - injection H; intros; subst. now rewrite bytes_eqb_refl.
    - destruct (bytes_eqb k k') eqn:E; auto.
      apply bytes_eqb_eq in E; subst. exfalso. apply H2. now apply (in_map fst) in H.
  Qed.
  Lemma map_get_perm : forall k m m',
    NoDup (map fst m) -> Permutation m m' -> map_get k m = map_get k m'.
  Proof.
    intros k m m' ND P.
    assert (ND' : NoDup (map fst m')) by (eapply Permutation_NoDup; [apply Permutation_map, P|auto]).
    destruct (map_get k m) eqn:E.
    - symmetry. apply map_get_nodup; auto. eapply Permutation_in; eauto. now apply map_get_In.
    - symmetry. apply map_get_None. apply map_get_None in E. intros H; apply E.
      eapply Permutation_in; [|eauto]. symmetry. now apply Permutation_map.
  Qed.
  Lemma map_set_keys : forall k v m k', In k' (map fst (map_set k v m)) <-> k' = k \/ In k' (map fst m).
  Proof.
    induction m as [|[k2 v2] m IH]; intros k'; simpl.
    - intuition.
    - destruct (bytes_eqb k k2) eqn:E; simpl.
      + apply bytes_eqb_eq in E; subst. intuition.
      + rewrite IH. intuition.
  Qed.
  Lemma map_set_nodup : forall k v m, NoDup (map fst m) -> NoDup (map fst (map_set k v m)).
  Proof.
    induction m as [|[k2 v2] m IH]; simpl; intros H.
    - repeat constructor; auto.
    - inversion H; subst. destruct (bytes_eqb k k2) eqn:E; simpl; constructor; auto.
      rewrite map_set_keys. intros [->|H']; auto. now rewrite bytes_eqb_refl in E.
  Qed.
  Lemma map_set_new : forall k v m, ~ In k (map fst m) -> map_set k v m = m ++ [(k, v)].
  Proof.
    induction m as [|[k2 v2] m IH]; simpl; intros H; auto.
    destruct (bytes_eqb k k2) eqn:E.
    - apply bytes_eqb_eq in E; subst. exfalso; auto.
    - rewrite IH; auto.
  Qed.
  Lemma map_set_length : forall k v m, List.length (map_set k v m) <= S (List.length m).
  Proof.
    induction m as [|[k2 v2] m IH]; simpl; auto.
    destruct (bytes_eqb k k2); simpl; lia.
  Qed.
  Lemma map_get_del_other : forall k k' m, k <> k' -> map_get k (map_del k' m) = map_get k m.
  Proof.
    intros k k' m H. induction m as [|[k2 v2] m IH]; simpl; auto.
    destruct (bytes_eqb k' k2) eqn:E; simpl.
    - apply bytes_eqb_eq in E; subst. apply bytes_eqb_neq in H. now rewrite H.
    - now rewrite IH.
  Qed.
  Lemma map_del_keys : forall k m k', In k' (map fst (map_del k m)) -> In k' (map fst m).
  Proof.
    induction m as [|[k2 v2] m IH]; simpl; intros k' H; auto.
    destruct (bytes_eqb k k2); simpl in *; intuition.
  Qed.
  Lemma map_del_nodup : forall k m, NoDup (map fst m) -> NoDup (map fst (map_del k m)).
  Proof.
    induction m as [|[k2 v2] m IH]; simpl; intros H; auto.
    inversion H; subst. destruct (bytes_eqb k k2); simpl; auto. constructor; auto.
    intros H'. now apply map_del_keys in H'.
  Qed.
  Lemma map_get_del_same : forall k m, NoDup (map fst m) -> map_get k (map_del k m) = None.
  Proof.
    induction m as [|[k2 v2] m IH]; simpl; intros H; auto.
    inversion H; subst. destruct (bytes_eqb k k2) eqn:E; simpl.
    - apply bytes_eqb_eq in E; subst. now apply map_get_None.
    - rewrite E; auto.
  Qed.
End Maps.

Lemma bind_ok : forall A B (m : Res A) (f : A -> Res B) b,
  bind m f = Ok b <-> exists a, m = Ok a /\ f a = Ok b.
Proof.
  intros. destruct m; simpl; split; intros H; try discriminate; eauto.
  - destruct H as [a' [H1 H2]]. now inversion H1; subst.
  - now destruct H as [a' [H1 H2]].
  - now destruct H as [a' [H1 H2]].
Qed.
