(** Building blocks of queries against [SpecAnswer]. *)
From Coq Require Import List Ascii String NArith ZArith Bool Lia SpecFloat Permutation.
From Verif Require Import GoStr ModelParser ModelPath ModelResult ModelQuery ModelBuilder ModelQueryOpts SpecText SpecPath SpecTree SpecContent
  SpecFilter SpecGrammar SpecScan SpecAnswer ProofBase ProofScan ProofEscape ProofPath ProofFilter ProofFuel ProofSight ProofSight2 ProofSight3.
From Verif Require ProofLang2.
Import ListNotations.

(** ** Text *)
Lemma outside_nil : outside [].
Proof. intros a b H. destruct a; discriminate. Qed.
Lemma outside_lt : forall p, ~ outside (p ++ bs "<").
Proof. intros p H. specialize (H p [] eq_refl). contradiction. Qed.
Lemma outside_gt : forall p, outside (p ++ bs ">").
Proof.
  intros p a b H. destruct b as [|x b] using rev_ind; [apply app_inj_tail in H as [_ H]; discriminate|].
  change (a ++ "<"%char :: b ++ [x]) with (a ++ ("<"%char :: b) ++ [x]) in H. rewrite app_assoc in H.
  apply app_inj_tail in H as [_ <-]. apply in_or_app; right; left; reflexivity.
Qed.
Lemma outside_other : forall p c, c <> "<"%char -> c <> ">"%char -> (outside (p ++ [c]) <-> outside p).
Proof.
  intros p c N1 N2. split; intros H a b E.
  - subst p. specialize (H a (b ++ [c])). rewrite <- app_assoc in H. cbn [app] in H. specialize (H eq_refl).
    apply in_app_or in H as [H|[H|[]]]; [exact H|congruence].
  - destruct b as [|x b] using rev_ind; [apply app_inj_tail in E as [_ E]; congruence|].
    change (a ++ "<"%char :: b ++ [x]) with (a ++ ("<"%char :: b) ++ [x]) in E. rewrite app_assoc in E.
    apply app_inj_tail in E as [-> ->]. apply in_or_app; left. exact (H a b eq_refl).
Qed.
Lemma all_chars_of : forall s p b, (b = false <-> outside p) -> chars (fun _ => True) p s (text_loop b s).
Proof.
  induction s as [|c s IH]; intros p b B; cbn [text_loop]; [constructor|].
  destruct (Ascii.eqb_spec c "<") as [->|N1]; [|destruct (Ascii.eqb_spec c ">") as [->|N2]].
  - apply chars_drop; [left; left; reflexivity|]. apply IH. split; [discriminate|]. intros H. now apply outside_lt in H.
  - apply chars_drop; [left; right; reflexivity|]. apply IH. split; [intros _; apply outside_gt|auto].
  - destruct b.
    + apply chars_drop; [right; left; rewrite <- B; discriminate|]. apply IH. rewrite outside_other; auto.
    + apply chars_keep; auto; [intros [->| ->]; auto|now apply B|]. apply IH. rewrite outside_other; auto.
Qed.
Definition pair_value (x : ascii * ascii) : Z :=
  ((if opening_pair x then 1 else 0) - (if closing_pair x then 1 else 0) - (if empty_pair x then 1 else 0))%Z.
Lemma neighbours_snoc : forall q x c, neighbours (q ++ [x; c]) = neighbours (q ++ [x]) ++ [(x, c)].
Proof.
  induction q as [|y q IH]; intros x c; [reflexivity|]. unfold neighbours in *. cbn [app tl].
  specialize (IH x c). destruct q as [|z q]; [reflexivity|]. cbn [app tl combine] in *. now rewrite IH.
Qed.
Lemma tally_snoc : forall f q x c, tally f (q ++ [x; c]) = (tally f (q ++ [x]) + (if f (x, c) then 1 else 0))%Z.
Proof.
  intros f q x c. unfold tally. rewrite neighbours_snoc, filter_app, app_length. cbn [filter].
  destruct (f (x, c)); cbn [List.length]; lia.
Qed.
Lemma depth_snoc : forall q x c, depth (q ++ [x; c]) = (depth (q ++ [x]) + pair_value (x, c))%Z.
Proof. intros q x c. unfold depth, pair_value. rewrite !tally_snoc. lia. Qed.
Definition ahead (p s : bytes) : Z :=
  match rev p, s with
  | x :: _, n :: _ => if Ascii.eqb x "<" then pair_value (x, n) else 0%Z
  | _, _ => 0%Z
  end.
Lemma ahead_other : forall p c s, c <> "<"%char -> ahead (p ++ [c]) s = 0%Z.
Proof. intros p c s N. unfold ahead. rewrite rev_app_distr. cbn [rev app]. destruct s; auto. destruct (Ascii.eqb_spec c "<"); congruence. Qed.
Lemma ahead_lt : forall p n s, ahead (p ++ ["<"%char]) (n :: s) = pair_value ("<"%char, n).
Proof. intros p n s. unfold ahead. rewrite rev_app_distr. reflexivity. Qed.
Lemma depth_step : forall p c, depth (p ++ [c]) = (depth p + match rev p with x :: _ => pair_value (x, c) | [] => 0 end)%Z.
Proof.
  intros p c. destruct p as [|x q] using rev_ind; [reflexivity|]. rewrite <- app_assoc. cbn [app]. rewrite depth_snoc, rev_app_distr. reflexivity.
Qed.
Definition last_of (p : bytes) : option ascii := match rev p with x :: _ => Some x | [] => None end.
Lemma own_chars_of : forall s p b d, (b = false <-> outside p) -> d = (depth p + ahead p s)%Z ->
  chars (fun p => depth p = 0%Z) p s (direct_loop (last_of p) b d s).
Proof.
  assert (LS : forall p c, last_of (p ++ [c]) = Some c) by (intros; unfold last_of; now rewrite rev_app_distr).
  assert (PV : forall x c, x <> "<"%char -> c <> ">"%char -> pair_value (x, c) = 0%Z).
  { intros x c A B. unfold pair_value, opening_pair, closing_pair, empty_pair. cbn [fst snd].
    destruct (Ascii.eqb_spec x "<"); [congruence|]. destruct (Ascii.eqb_spec c ">"); [congruence|]. rewrite andb_false_r. reflexivity. }
  assert (PL : forall c, c <> ">"%char -> pair_value ("<"%char, c) = ahead (bs "<") [c]) by (intros; reflexivity).
  assert (NX : forall p s c, c <> "<"%char -> c <> ">"%char -> (depth p + ahead p (c :: s) = depth (p ++ [c]))%Z).
  { intros p s c A B. rewrite depth_step. unfold ahead. destruct (rev p) as [|x q]; [reflexivity|].
    destruct (Ascii.eqb_spec x "<") as [->|N]; [reflexivity|]. now rewrite PV. }
  induction s as [|c s IH]; intros p b d B E; cbn [direct_loop]; [constructor|].
  destruct (Ascii.eqb_spec c "<") as [->|N1]; [|destruct (Ascii.eqb_spec c ">") as [->|N2]].
  - apply chars_drop; [left; left; reflexivity|]. rewrite <- (LS p "<"%char). apply IH.
    + split; [discriminate|]. intros H. now apply outside_lt in H.
    + assert (X : (depth p + ahead p ("<"%char :: s) = depth (p ++ ["<"%char]))%Z).
      { rewrite depth_step. unfold ahead. destruct (rev p) as [|x q]; [reflexivity|].
        destruct (Ascii.eqb_spec x "<") as [->|N]; [reflexivity|]. rewrite PV; auto; discriminate. }
      rewrite <- X, <- E. destruct s as [|n s].
      * unfold ahead. rewrite rev_app_distr. cbn [rev app]. lia.
      * rewrite ahead_lt. unfold pair_value, opening_pair, closing_pair, empty_pair. cbn [fst snd].
        change (Ascii.eqb "<" "<") with true. change (Ascii.eqb "<" "/") with false. cbn [andb existsb bs list_ascii_of_string].
        destruct (Ascii.eqb n "/") eqn:E1, (Ascii.eqb n "!") eqn:E2, (Ascii.eqb n "?") eqn:E3; cbn [negb andb orb]; try lia;
          apply Ascii.eqb_eq in E1; apply Ascii.eqb_eq in E2 || apply Ascii.eqb_eq in E3; subst; discriminate.
  - apply chars_drop; [left; right; reflexivity|]. rewrite <- (LS p ">"%char). apply IH.
    + split; [intros _; apply outside_gt|auto].
    + rewrite ahead_other by discriminate. rewrite depth_step, E. unfold last_of, ahead. destruct (rev p) as [|x q]; [lia|].
      unfold pair_value, opening_pair, closing_pair, empty_pair. cbn [fst snd].
      destruct (Ascii.eqb_spec x "<") as [->|N]; [cbn; lia|]. destruct (Ascii.eqb x "/"); cbn; lia.
  - rewrite <- (LS p c). destruct (negb b && (d =? 0)%Z) eqn:K.
    + apply andb_prop in K as [K1 K2]. apply negb_true_iff in K1. apply Z.eqb_eq in K2.
      assert (O : outside p) by (now apply B).
      assert (A : ahead p (c :: s) = 0%Z).
      { unfold ahead. destruct (rev p) as [|x q] eqn:R; [reflexivity|]. destruct (Ascii.eqb_spec x "<") as [->|N]; [|reflexivity].
        exfalso. apply (f_equal (@rev ascii)) in R. rewrite rev_involutive in R. cbn [rev] in R. rewrite R in O. now apply outside_lt in O. }
      apply chars_keep; auto; [intros [->| ->]; auto|lia|]. apply IH; [rewrite outside_other; auto|].
      rewrite ahead_other by auto. rewrite E, NX; auto. lia.
    + apply chars_drop; [|apply IH; [rewrite outside_other; auto|rewrite ahead_other by auto; rewrite E, NX; auto; lia]].
      right. destruct b; [left; rewrite <- B; discriminate|]. right. cbn [negb andb] in K. apply Z.eqb_neq in K.
      intros A. apply K. subst d. rewrite A.
      assert (O : outside p) by (now apply B). unfold ahead. destruct (rev p) as [|x q] eqn:R; [reflexivity|].
      destruct (Ascii.eqb_spec x "<") as [->|N]; [|reflexivity].
      exfalso. apply (f_equal (@rev ascii)) in R. rewrite rev_involutive in R. cbn [rev] in R. rewrite R in O. now apply outside_lt in O.
Qed.
Lemma all_chars_text : forall s, all_chars s (text_loop false s).
Proof. intros s. apply all_chars_of. split; [intros _; apply outside_nil|auto]. Qed.
Lemma own_chars_direct : forall s, own_chars s (direct_loop None false 0 s).
Proof. intros s. apply (own_chars_of s [] false 0%Z); [split; [intros _; apply outside_nil|auto]|reflexivity]. Qed.

Lemma element_is : forall e, element_of e (r_element (e_content e)).
Proof. intros e. exists (text_loop false (e_content e)), (unescape_xml (extract_text (e_content e))).
  split; [apply all_chars_text|]. split; [apply unescape_decodes|reflexivity]. Qed.
Lemma text_is : forall e, text_of e (r_text (e_content e)).
Proof. intros e. exists (direct_loop None false 0 (e_content e)), (unescape_xml (extract_direct (e_content e))).
  split; [apply own_chars_direct|]. split; [apply unescape_decodes|reflexivity]. Qed.
Lemma count_is : forall n, r_count n = number n.
Proof. intros n. unfold r_count, number. now rewrite ProofLang2.itoa_decimal. Qed.
(** Uniqueness. *)
Lemma chars_det : forall P p s t, chars P p s t -> forall t', chars P p s t' -> t' = t.
Proof.
  induction 1 as [p|p c s t A O Q H IH|p c s t A H IH]; intros t' H'; inversion H'; subst; auto.
  - f_equal; auto.
  - exfalso; tauto.
  - exfalso; tauto.
Qed.
Lemma element_det : forall e r r', element_of e r -> element_of e r' -> r' = r.
Proof.
  intros e r r' (t & u & A & B & ->) (t' & u' & A' & B' & ->). rewrite (chars_det _ _ _ _ A _ A') in B'.
  now rewrite (decodes_fun _ _ B _ B').
Qed.
Lemma text_det : forall e r r', text_of e r -> text_of e r' -> r' = r.
Proof.
  intros e r r' (t & u & A & B & ->) (t' & u' & A' & B' & ->). rewrite (chars_det _ _ _ _ A _ A') in B'.
  now rewrite (decodes_fun _ _ B _ B').
Qed.
