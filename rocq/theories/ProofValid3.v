(** Positions of validation errors. *)
From Coq Require Import List Ascii String NArith ZArith Bool Lia.
From Verif Require Import GoStr ModelParser ModelValidate SpecText SpecPath SpecTree SpecValid
  ProofBase ProofScan ProofTree ProofValid.
Import ListNotations.

Definition suffix (r s : bytes) : Prop := exists p, s = p ++ r.
Lemma suffix_refl : forall s, suffix s s. Proof. intros s. now exists []. Qed.
Lemma suffix_nil : forall s, suffix [] s. Proof. intros s. exists s. now rewrite app_nil_r. Qed.
Lemma suffix_trans : forall a b c, suffix a b -> suffix b c -> suffix a c.
Proof. intros a b c [p ->] [q ->]. exists (q ++ p). now rewrite app_assoc. Qed.
Lemma suffix_cons : forall c a b, suffix a b -> suffix a (c :: b).
Proof. intros c a b [p ->]. now exists (c :: p). Qed.
Lemma suffix_app : forall p a b, suffix a b -> suffix a (p ++ b).
Proof. intros p a b [q ->]. exists (p ++ q). now rewrite app_assoc. Qed.
Lemma suffix_skip : forall s, suffix (skip_ws s) s.
Proof. intros s. destruct (skip_ws_split s) as [w [E _]]. now exists w. Qed.
Lemma suffix_next : forall s, suffix (next s) s.
Proof. intros [|c s]; [apply suffix_nil|]. now exists [c]. Qed.
Lemma suffix_name : forall s n r, v_read_name s = (n, r) -> suffix r s.
Proof.
  intros s n r H. unfold v_read_name, read_stop in H. destruct (read_loop _ 0 s) as [[t r0] o] eqn:R. destruct (read_loop_split _ _ _ _ _ _ R) as [-> _].
  destruct o; injection H as _ <-; now exists t.
Qed.
#[local] Hint Resolve suffix_refl suffix_nil suffix_skip suffix_next : core.
Definition errs (s : bytes) {A} (r : verr + A) : Prop := match r with inl e => suffix (ve_at e) s | inr _ => True end.
Lemma errs_trans : forall A s s' (r : verr + A), errs s' r -> suffix s' s -> errs s r.
Proof. intros A s s' [e|x] H L; cbn in *; auto. eapply suffix_trans; eauto. Qed.
Lemma skip_until_errs : forall d s, errs s (v_skip_until d s).
Proof.
  intros d s. unfold v_skip_until. destruct (read_loop (Ascii.eqb d) 0 s) as [[t r] o] eqn:R. destruct (read_loop_split _ _ _ _ _ _ R) as [-> _].
  destruct o; cbn; [now exists t|]. destruct r; cbn; auto.
Qed.
Lemma comment_errs : forall s, errs s (v_comment s).
Proof.
  induction s as [|a s IH]; [cbn; auto|]. destruct s as [|b [|c s]]; try (cbn; auto; fail).
  assert (ST : v_comment (a :: b :: c :: s) = if Ascii.eqb a "-" && Ascii.eqb b "-" then
        (if Ascii.eqb c ">" then inr s else inl (mkVerr VDashDash (c :: s))) else v_comment (b :: c :: s)) by reflexivity.
  rewrite ST. destruct (Ascii.eqb a "-" && Ascii.eqb b "-"); [|eapply errs_trans; [exact IH|now exists [a]]].
  destruct (Ascii.eqb c ">"); cbn; auto. now exists [a; b].
Qed.
Lemma cdata_errs : forall s, errs s (v_cdata s).
Proof.
  induction s as [|a s IH]; [cbn; auto|]. destruct s as [|b [|c s]]; try (cbn; auto; fail).
  assert (ST : v_cdata (a :: b :: c :: s) = if Ascii.eqb a "]" && Ascii.eqb b "]" && Ascii.eqb c ">" then inr s else v_cdata (b :: c :: s)) by reflexivity.
  rewrite ST. destruct (Ascii.eqb a "]" && Ascii.eqb b "]" && Ascii.eqb c ">"); [cbn; auto|eapply errs_trans; [exact IH|now exists [a]]].
Qed.
Lemma doctype_errs : forall s d, errs s (v_doctype d s).
Proof.
  induction s as [|c s IH]; intros d; cbn [v_doctype]; [cbn; auto|].
  destruct (Ascii.eqb c "["); [eapply errs_trans; [apply IH|now exists [c]]|].
  destruct (Ascii.eqb c "]"); [eapply errs_trans; [apply IH|now exists [c]]|].
  destruct (Ascii.eqb c ">" && (d =? 0)%Z); [exact I|]. eapply errs_trans; [apply IH|now exists [c]].
Qed.
Lemma attributes_errs : forall n s, errs s (v_attributes n s).
Proof.
  induction n as [|n IH]; intros s; cbn [v_attributes]; pose proof (suffix_skip s) as SK; destruct (skip_ws s) as [|c r]; try (cbn; auto; fail);
    destruct (Ascii.eqb c ">" || Ascii.eqb c "/"); try (cbn; auto; fail).
  destruct (v_read_name (c :: r)) as [name s1] eqn:R. pose proof (suffix_trans _ _ _ (suffix_name _ _ _ R) SK) as S1.
  destruct name as [|n0 name]; [exact SK|]. destruct (negb (validate_name (n0 :: name))); [exact SK|].
  pose proof (suffix_trans _ _ _ (suffix_skip s1) S1) as S2.
  destruct (negb (Ascii.eqb (peek (skip_ws s1)) "=")); [exact S2|].
  pose proof (suffix_trans _ _ _ (suffix_skip (next (skip_ws s1))) (suffix_trans _ _ _ (suffix_next _) S2)) as S3.
  destruct (negb (Ascii.eqb (peek (skip_ws (next (skip_ws s1)))) dquote) && negb (Ascii.eqb (peek (skip_ws (next (skip_ws s1)))) squote)); [exact S3|].
  remember (skip_ws (next (skip_ws s1))) as s3. pose proof (suffix_trans _ _ _ (suffix_next s3) S3) as S4.
  destruct (v_skip_until (peek s3) (next s3)) as [e|s4] eqn:SU.
  - pose proof (skip_until_errs (peek s3) (next s3)) as X. rewrite SU in X. cbn in *. eapply suffix_trans; eauto.
  - apply v_skip_until_spec in SU. destruct SU as [v [E _]]. eapply errs_trans; [apply IH|]. eapply suffix_trans; [|exact S4]. rewrite E. now exists (v ++ [peek s3]); rewrite <- app_assoc.
Qed.
Lemma open_errs : forall st t s, suffix s t -> errs t (v_open st t s).
Proof.
  intros st t s H. unfold v_open. destruct (v_read_name s) as [name s1] eqn:R. pose proof (suffix_trans _ _ _ (suffix_name _ _ _ R) H) as S1.
  destruct name as [|n0 name]; [exact H|]. destruct (negb (validate_name (n0 :: name))); [exact H|].
  destruct (Nat.leb MaxNestingDepth (len (v_stack st))); [cbn; auto|]. pose proof (attributes_errs MaxAttributes s1) as A.
  destruct (v_attributes MaxAttributes s1) as [e|s2] eqn:V; [cbn in *; eapply suffix_trans; eauto|].
  destruct (v_attributes_sound _ _ _ V) as [k [a [_ [_ [E _]]]]]. assert (S2 : suffix s2 t) by (eapply suffix_trans; [|exact S1]; now exists a).
  pose proof (suffix_trans _ _ _ (suffix_skip s2) S2) as S3. remember (skip_ws s2) as s3.
  destruct (Ascii.eqb (peek s3) "/").
  - destruct (negb (Ascii.eqb (peek (next s3)) ">")); [|exact I]. cbn. eapply suffix_trans; eauto.
  - destruct (negb (Ascii.eqb (peek s3) ">")); [|exact I]. exact S3.
Qed.
Lemma close_errs : forall st t s, suffix s t -> errs t (v_close st t s).
Proof.
  intros st t s H. unfold v_close. destruct (v_read_name s) as [name s1] eqn:R. pose proof (suffix_trans _ _ _ (suffix_name _ _ _ R) H) as S1.
  destruct name as [|n0 name]; [exact H|]. pose proof (suffix_trans _ _ _ (suffix_skip s1) S1) as S2.
  destruct (negb (Ascii.eqb (peek (skip_ws s1)) ">")); [exact S2|]. destruct (v_stack st) as [|[o t0] stack']; [cbn; auto|].
  destruct (negb (bytes_eqb o (n0 :: name))); cbn; auto.
Qed.
Lemma with_rest_errs : forall st t s r, suffix s t -> errs s r -> errs t (v_with_rest st r).
Proof. intros st t s [e|x] H E; cbn in *; auto. eapply suffix_trans; eauto. Qed.
Lemma tag_errs : forall st c s, errs (c :: s) (v_tag st (c :: s) s).
Proof.
  intros st c s. unfold v_tag. destruct s as [|n s1]; [cbn; auto|].
  assert (S1 : suffix s1 (c :: n :: s1)) by (now exists [c; n]). assert (S0 : suffix (n :: s1) (c :: n :: s1)) by (now exists [c]).
  destruct (Ascii.eqb n "?"); [eapply with_rest_errs; [exact S1|apply skip_until_errs]|].
  destruct (Ascii.eqb n "!").
  - destruct (has_prefix (bs "DOCTYPE") s1 || has_prefix (bs "doctype") s1); [eapply with_rest_errs; [exact S1|apply doctype_errs]|].
    destruct (strip_prefix (bs "--") s1) as [s2|] eqn:P1.
    + apply strip_prefix_spec in P1. eapply with_rest_errs; [|apply comment_errs]. eapply suffix_trans; [|exact S1]. now exists (bs "--").
    + destruct (strip_prefix (bs "[CDATA[") s1) as [s2|] eqn:P2; [|eapply with_rest_errs; [exact S1|apply skip_until_errs]].
      apply strip_prefix_spec in P2. eapply with_rest_errs; [|apply cdata_errs]. eapply suffix_trans; [|exact S1]. now exists (bs "[CDATA[").
  - destruct (Ascii.eqb n "/"); [now apply close_errs|now apply open_errs].
Qed.
(** Positions of open tags are positions of the document. *)
Definition stack_in (d : bytes) (st : vstate) : Prop := suffix (v_rest st) d /\ Forall (fun p => suffix (snd p) d) (v_stack st).
Lemma with_rest_stack : forall st r st', v_with_rest st r = inr st' -> v_stack st' = v_stack st.
Proof. intros st [e|s] st' H; [discriminate|]. now injection H as <-. Qed.
Lemma tag_stack : forall st t s st', v_tag st t s = inr st' -> v_stack st' = v_stack st \/ (exists n, v_stack st' = (n, t) :: v_stack st) \/ exists p, v_stack st = p :: v_stack st'.
Proof.
  intros st t s st' H. unfold v_tag in H. destruct s as [|n s1]; [discriminate|].
  assert (W : forall r, v_with_rest st r = inr st' -> v_stack st' = v_stack st \/ (exists n, v_stack st' = (n, t) :: v_stack st) \/ exists p, v_stack st = p :: v_stack st')
    by (intros r K; left; eapply with_rest_stack; eauto).
  destruct (Ascii.eqb n "?"); eauto. destruct (Ascii.eqb n "!").
  - destruct (has_prefix (bs "DOCTYPE") s1 || has_prefix (bs "doctype") s1); eauto.
    destruct (strip_prefix (bs "--") s1); eauto. destruct (strip_prefix (bs "[CDATA[") s1); eauto.
  - clear W. destruct (Ascii.eqb n "/").
    + unfold v_close in H. destruct (v_read_name s1) as [name s2]. destruct name as [|n0 name]; [discriminate|].
      destruct (negb (Ascii.eqb (peek (skip_ws s2)) ">")); [discriminate|]. destruct (v_stack st) as [|[o t0] stack']; [discriminate|].
      destruct (negb (bytes_eqb o (n0 :: name))); [discriminate|]. injection H as <-. cbn [v_stack]. right. right. eauto.
    + unfold v_open in H. destruct (v_read_name (n :: s1)) as [name s2]. destruct name as [|n0 name]; [discriminate|].
      destruct (negb (validate_name (n0 :: name))); [discriminate|]. destruct (Nat.leb MaxNestingDepth (len (v_stack st))); [discriminate|].
      destruct (v_attributes MaxAttributes s2) as [e|s3]; [discriminate|].
      destruct (if Ascii.eqb (peek (skip_ws s3)) "/" then (true, next (skip_ws s3)) else (false, skip_ws s3)) as [self s4].
      destruct (negb (Ascii.eqb (peek s4) ">")); [discriminate|]. injection H as <-. destruct self; cbn [v_stack]; eauto.
Qed.
Lemma loop_errs : forall f d st x, v_loop f st = Some x -> stack_in d st ->
  match x with inl e => suffix (ve_at e) d | inr st' => Forall (fun p => suffix (snd p) d) (v_stack st') end.
Proof.
  induction f as [|f IH]; intros d st x H [I1 I2]; [discriminate|]. cbn [v_loop] in H. pose proof (suffix_trans _ _ _ (suffix_skip (v_rest st)) I1) as S0.
  destruct (skip_ws (v_rest st)) as [|c s1]; [injection H as <-; exact I2|]. destruct (Ascii.eqb_spec c "<") as [->|N].
  - pose proof (tag_errs st "<" s1) as TE. destruct (v_tag st ("<"%char :: s1) s1) as [e|st1] eqn:T.
    + injection H as <-. cbn in TE. eapply suffix_trans; eauto.
    + apply (IH d st1 x H). split.
      * destruct (v_tag_sound _ _ _ _ T) as [y [E _]]. eapply suffix_trans; [|exact S0]. now exists y.
      * destruct (tag_stack _ _ _ _ T) as [E|[[n E]|[p E]]].
        -- now rewrite E.
        -- rewrite E. constructor; auto.
        -- rewrite E in I2. now inversion I2.
  - destruct (negb (v_root_found st) || v_root_closed st); [injection H as <-; exact S0|].
    apply (IH d _ x H). split; cbn [v_rest v_stack]; auto. eapply suffix_trans; [|exact S0]. now exists [c].
Qed.
Lemma validate_total : forall d, exists r, validate d = Some r.
Proof.
  intros d. unfold validate. destruct (MaxDocumentSize <? blen d)%N; eauto. destruct d as [|c d]; eauto.
  destruct (v_loop_total (S (len (c :: d))) (mkV (c :: d) [] false false)) as [x ->]; [cbn [v_rest]; lia|]. destruct x; eauto.
Qed.
Lemma error_position : forall d e, validate d = Some (Some e) -> suffix (ve_at e) d.
Proof.
  intros d e H. unfold validate in H. destruct (MaxDocumentSize <? blen d)%N; [injection H as <-; cbn; auto|].
  destruct d as [|c d]; [injection H as <-; cbn; auto|]. remember (c :: d) as dd. clear Heqdd.
  destruct (v_loop (S (len dd)) (mkV dd [] false false)) as [x|] eqn:V; [|discriminate].
  pose proof (loop_errs _ dd _ _ V) as K. assert (SI : stack_in dd (mkV dd [] false false)) by (split; cbn; auto). specialize (K SI).
  destruct x as [e0|st]; [injection H as <-; exact K|]. injection H as H. unfold v_finish in H. destruct (v_stack st) as [|[n t] r].
  - destruct (v_root_found st); [discriminate|]. injection H as <-. cbn. auto.
  - injection H as <-. inversion K; auto.
Qed.
Lemma line_col_prefix : forall p r, line_col (p ++ r) r = fold_left advance_lc p (1, 0).
Proof.
  intros p r. unfold line_col. rewrite app_length. replace (len p + len r - len r) with (len p + 0) by lia. rewrite firstn_app_2. cbn. now rewrite app_nil_r.
Qed.
Lemma line_col_spec : forall p, fst (fold_left advance_lc p (1, 0)) = 1 + newlines p /\ last_line p (snd (fold_left advance_lc p (1, 0))).
Proof.
  induction p as [|c p IH] using rev_ind.
  - split; [reflexivity|]. exists [], []. cbn. auto.
  - rewrite fold_left_app. cbn [fold_left]. destruct IH as [I1 [a [b [E [L [N S]]]]]]. unfold advance_lc at 1 3.
    assert (NA : newlines (p ++ [c]) = newlines p + (if Ascii.eqb c lf then 1 else 0)).
    { clear. induction p as [|x p IH]; cbn [app newlines]; [lia|]. rewrite IH. lia. }
    destruct (Ascii.eqb_spec c lf) as [->|NL]; cbn [fst snd].
    + split; [rewrite I1, NA; lia|]. exists (p ++ [lf]), []. rewrite app_nil_r. repeat split; auto. right. now exists p.
    + split; [rewrite I1, NA; lia|]. exists a, (b ++ [c]). rewrite app_assoc, <- E. repeat split; auto.
      * rewrite app_length, L. cbn. lia.
      * intros K. apply in_app_iff in K. destruct K as [K|[K|[]]]; auto.
Qed.
