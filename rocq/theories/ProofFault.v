(** The reports of the validator: reading names and values, comments and declarations. *)
From Coq Require Import List Ascii String NArith ZArith Bool Lia.
From Verif Require Import GoStr ModelParser ModelValidate SpecText SpecPath SpecTree SpecValid SpecFault ProofBase ProofScan ProofTree2 ProofTree3 ProofValid ProofValid2.
Import ListNotations.

Lemma tok : MaxTokenSize = 1048576%N. Proof. reflexivity. Qed.
Lemma rl_run : forall stop t n s, Forall (fun c => stop c = false) t -> (n + N.of_nat (len t) <= MaxTokenSize + 1)%N ->
  read_loop stop n (t ++ s) = let '(t', r, o) := read_loop stop (n + N.of_nat (len t)) s in (t ++ t', r, o).
Proof.
  intros stop. induction t as [|c t IH]; intros n s H L.
  - cbn [app List.length]. replace (n + N.of_nat 0)%N with n by lia. destruct (read_loop stop n s) as [[a b] o]. reflexivity.
  - inversion H as [|? ? H1 H2]; subst. cbn [app read_loop]. cbn [List.length] in *.
    destruct (N.ltb_spec MaxTokenSize n) as [K|K]; [lia|]. rewrite H1, IH by (auto; lia).
    replace (n + 1 + N.of_nat (len t))%N with (n + N.of_nat (S (len t)))%N by lia.
    destruct (read_loop stop (n + N.of_nat (S (len t))) s) as [[a b] o]. reflexivity.
Qed.
(** The three ways the loop can end. *)
Lemma rl_cases : forall stop s n t r o, read_loop stop n s = (t, r, o) -> (n <= MaxTokenSize + 1)%N ->
  s = t ++ r /\ Forall (fun c => stop c = false) t /\
  ((o = true /\ r <> [] /\ (n + N.of_nat (len t) = MaxTokenSize + 1)%N) \/
   (o = false /\ r = [] /\ (n + N.of_nat (len t) <= MaxTokenSize + 1)%N) \/
   (o = false /\ exists c r', r = c :: r' /\ stop c = true /\ (n + N.of_nat (len t) <= MaxTokenSize)%N)).
Proof.
  intros stop. induction s as [|c s IH]; intros n t r o H L; cbn [read_loop] in H.
  - injection H as <- <- <-. split; [reflexivity|]. split; [constructor|]. right. left. cbn [List.length]. repeat split; auto; lia.
  - destruct (N.ltb_spec MaxTokenSize n) as [K|K].
    + injection H as <- <- <-. split; [reflexivity|]. split; [constructor|]. left. cbn [List.length]. repeat split; auto; [discriminate|lia].
    + destruct (stop c) eqn:Q.
      * injection H as <- <- <-. split; [reflexivity|]. split; [constructor|]. right. right. cbn [List.length]. split; auto. exists c, s. repeat split; auto; lia.
      * destruct (read_loop stop (n + 1) s) as [[t0 r0] o0] eqn:R. injection H as <- <- <-. destruct (IH _ _ _ _ R) as [-> [H2 H3]]; [lia|].
        split; [reflexivity|]. split; [constructor; auto|]. cbn [List.length].
        destruct H3 as [[A [B C]]|[[A [B C]]|[A [c' [r' [B [C D]]]]]]]; [left|right; left|right; right]; repeat split; auto; try lia.
        exists c', r'. repeat split; auto; lia.
Qed.
Lemma rl_end : forall stop t, Forall (fun c => stop c = false) t -> (N.of_nat (len t) <= 1048577)%N -> read_loop stop 0 t = (t, [], false).
Proof.
  intros stop t H L. pose proof (rl_run stop t 0 [] H) as R. rewrite app_nil_r in R. rewrite R by (rewrite tok; lia). cbn [read_loop]. now rewrite app_nil_r.
Qed.
Lemma rl_stop : forall stop t c r, Forall (fun c => stop c = false) t -> (N.of_nat (len t) <= 1048576)%N -> stop c = true ->
  read_loop stop 0 (t ++ c :: r) = (t, c :: r, false).
Proof.
  intros stop t c r H L S. rewrite rl_run by (auto; rewrite tok; lia). cbn [read_loop].
  destruct (N.ltb_spec MaxTokenSize (0 + N.of_nat (len t))) as [K|K]; [rewrite tok in K; lia|]. rewrite S, app_nil_r. reflexivity.
Qed.
Lemma rl_long : forall stop t r, Forall (fun c => stop c = false) t -> N.of_nat (len t) = 1048577%N -> r <> [] ->
  read_loop stop 0 (t ++ r) = (t, r, true).
Proof.
  intros stop t r H L N. rewrite rl_run by (auto; rewrite tok; lia). destruct r as [|c r]; [contradiction|]. cbn [read_loop].
  destruct (N.ltb_spec MaxTokenSize (0 + N.of_nat (len t))) as [K|K]; [|rewrite tok in K; lia]. rewrite app_nil_r. reflexivity.
Qed.

(** ** Names *)
Lemma name_stop : forall c, negb (name_char c) = false <-> name_letter c.
Proof. intros c. rewrite negb_false_iff. apply name_char_byte. Qed.
Lemma name_stop_true : forall c, negb (name_char c) = true <-> ~ name_letter c.
Proof. intros c. rewrite <- name_stop. destruct (negb (name_char c)); split; auto; congruence. Qed.
Lemma Forall_stop : forall t, Forall (fun c => negb (name_char c) = false) t <-> Forall name_letter t.
Proof. intros t. split; apply Forall_impl; intros c; apply name_stop. Qed.
Lemma read_leading : forall s n r, leading_name s n r -> v_read_name s = (n, r).
Proof.
  intros s n r [-> [NE [A [B L]]]]. apply Forall_stop in A. unfold v_read_name, read_stop. destruct B as [->|[c [r' [-> C]]]].
  - rewrite app_nil_r, rl_end; auto. lia.
  - apply name_stop_true in C. rewrite rl_stop; auto. destruct L as [L|[L _]]; [exact L|discriminate].
Qed.
Lemma read_avoids : forall s, avoids name_letter s -> v_read_name s = ([], s).
Proof.
  intros s [->|[c [r [-> C]]]]; [reflexivity|]. apply name_stop_true in C. unfold v_read_name, read_stop.
  change (c :: r) with ([] ++ c :: r) at 1. rewrite rl_stop; auto. cbn; lia.
Qed.
Lemma read_overlong : forall s r, overlong name_letter s r -> v_read_name s = ([], r).
Proof. intros s r [v [-> [A [L N]]]]. apply Forall_stop in A. unfold v_read_name, read_stop. now rewrite rl_long. Qed.
Lemma read_cases : forall s n r, v_read_name s = (n, r) ->
  leading_name s n r \/ (n = [] /\ r = s /\ avoids name_letter s) \/ (n = [] /\ overlong name_letter s r).
Proof.
  intros s n r H. unfold v_read_name, read_stop in H. destruct (read_loop _ 0 s) as [[t r0] o] eqn:R.
  destruct (rl_cases _ _ _ _ _ _ R) as [E [A B]]; [lia|]. apply Forall_stop in A. rewrite tok in B.
  destruct B as [[-> [B C]]|[[-> [B C]]|[-> [c [r' [B [C D]]]]]]]; injection H as <- <-.
  - right. right. split; auto. exists t. repeat split; auto; lia.
  - subst r0. destruct t as [|c t].
    + right. left. cbn [app] in E. subst s. repeat split; auto. now left.
    + left. split; auto. split; [discriminate|]. split; auto. split; [now left|]. right. split; auto; lia.
  - apply name_stop_true in C. assert (AV : avoids name_letter r0) by (right; exists c, r'; auto). destruct t as [|d t].
    + right. left. cbn [app] in E. subst s. auto.
    + left. split; auto. split; [discriminate|]. split; auto; split; auto; left; lia.
Qed.
Lemma head_cases : forall (n : bytes), starts name_head n \/ avoids name_head n.
Proof.
  intros [|c n]; [right; now left|]. destruct (name_start c) eqn:Q.
  - left. exists c, n. split; auto. now apply name_start_byte.
  - right. right. exists c, n. split; auto. intros K. apply name_start_byte in K. congruence.
Qed.
Lemma validate_head : forall s n r, leading_name s n r -> (validate_name n = true <-> starts name_head n).
Proof.
  intros s n r [_ [NE [A _]]]. destruct n as [|c n]; [contradiction|]. cbn [validate_name]. rewrite andb_true_iff, forallb_forall. split.
  - intros [H _]. exists c, n. split; auto. now apply name_start_byte.
  - intros [d [x [E H]]]. injection E as <- <-. split; [now apply name_start_byte|]. intros y Hy. inversion A as [|? ? A1 A2]; subst. rewrite Forall_forall in A2.
    apply name_char_byte. now apply A2.
Qed.
Lemma starts_not : forall P (s : bytes), starts P s -> ~ avoids P s.
Proof. intros P s [c [r [-> H]]] [K|[d [x [E K]]]]; [discriminate|]. injection E as <- <-. contradiction. Qed.
Lemma leading_xml : forall s n r, leading_name s n r -> starts name_head n -> r <> [] -> xml_name n.
Proof.
  intros s n r [_ [NE [A [_ L]]]] [c [x [E H]]] R. split; [exists c, x; auto|]. split; [intros y Hy; rewrite Forall_forall in A; now apply A|].
  destruct L as [L|[L _]]; [exact L|contradiction].
Qed.
Lemma xml_leading : forall n r, xml_name n -> avoids name_letter r -> leading_name (n ++ r) n r.
Proof.
  intros n r [[c [x [E H]]] [A L]] B. repeat split; auto; [subst; discriminate|now apply Forall_forall].
Qed.
Lemma xml_starts : forall n, xml_name n -> starts name_head n.
Proof. intros n [[c [x [E H]]] _]. exists c, x. auto. Qed.

(** ** Values and processing instructions *)
Lemma until_stop : forall d t, Forall (fun c => Ascii.eqb d c = false) t <-> ~ In d t.
Proof.
  intros d t. rewrite Forall_forall. split.
  - intros H I. specialize (H _ I). rewrite Ascii.eqb_refl in H. discriminate.
  - intros H x Hx. apply ascii_eqb_false. intros <-. auto.
Qed.
Lemma until_other : forall d t, Forall (fun c => Ascii.eqb d c = false) t <-> Forall (fun c => c <> d) t.
Proof. intros d t. split; apply Forall_impl; intros c; rewrite <- ascii_eqb_false; rewrite Ascii.eqb_sym; auto. Qed.
Lemma skip_until_fault : forall d s e, v_skip_until d s = inl e <-> unended d s (ve_msg e) (ve_at e).
Proof.
  intros d s e. unfold v_skip_until. split.
  - destruct (read_loop (Ascii.eqb d) 0 s) as [[t r] o] eqn:R. destruct (rl_cases _ _ _ _ _ _ R) as [E [A B]]; [lia|]. rewrite tok in B.
    destruct B as [[-> [B C]]|[[-> [B C]]|[-> [c [r' [-> [C D]]]]]]]; intros H; [| |discriminate].
    + injection H as <-. cbn [ve_msg ve_at]. apply ue_long. exists t. apply until_other in A. repeat split; auto; lia.
    + subst r. injection H as <-. rewrite app_nil_r in E. subst t. apply until_stop in A. cbn [ve_msg ve_at]. apply ue_end; auto; lia.
  - destruct e as [m at_]. cbn [ve_msg ve_at]. intros H. inversion H as [A L|r [v [-> [A [L N]]]]]; subst.
    + apply until_stop in A. now rewrite rl_end.
    + apply until_other in A. now rewrite rl_long.
Qed.

(** ** Comments *)
Lemma comment_step : forall a b c s, v_comment (a :: b :: c :: s) = if Ascii.eqb a "-" && Ascii.eqb b "-" then
        (if Ascii.eqb c ">" then inr s else inl (mkVerr VDashDash (c :: s))) else v_comment (b :: c :: s).
Proof. reflexivity. Qed.
Lemma last_two_cons : forall a s r, 2 <= len s -> last_two s r -> last_two (a :: s) r.
Proof.
  intros a s r L [p [-> H]]. exists (a :: p). split; [reflexivity|]. left. destruct H as [H|[-> H]]; auto. cbn [app] in L. lia.
Qed.
Lemma last_two_fun : forall s r r', last_two s r -> last_two s r' -> r = r'.
Proof.
  intros s r r' [p [-> H]] [q [E H']]. assert (L : len (p ++ r) = len (q ++ r')) by now rewrite E. rewrite !app_length in L.
  assert (len r = len r') as K.
  { destruct H as [H|[-> H]], H' as [H'|[-> H']]; cbn [List.length] in L; lia. }
  assert (len p = len q) by lia. clear H H' L. revert q E H0. induction p as [|a p IH]; intros [|b q] E L2; try discriminate; auto.
  cbn [app List.length] in *. injection E as _ E. apply (IH q); auto; lia.
Qed.
Definition comment_fault (s : bytes) (m : vmsg) (r : bytes) : Prop :=
  (m = VDashDash /\ exists c, s = c ++ bs "--" ++ r /\ (forall x y, c ++ bs "-" <> x ++ bs "--" ++ y) /\ starts (fun d => d <> ">"%char) r) \/
  (m = VUnclosedComment /\ (forall x d y, s <> x ++ bs "--" ++ d :: y) /\ last_two s r).
Lemma comment_fault_sound : forall s e, v_comment s = inl e -> comment_fault s (ve_msg e) (ve_at e).
Proof.
  assert (SH : forall s, len s < 3 -> forall e, v_comment s = inl e -> comment_fault s (ve_msg e) (ve_at e)).
  { intros s L e H. right. assert (E : e = mkVerr VUnclosedComment s) by (destruct s as [|a [|b [|c s]]]; try (injection H as <-; reflexivity); cbn [List.length] in L; lia).
    subst e. split; [reflexivity|]. split.
    - intros x d y K. apply (f_equal (@List.length ascii)) in K. rewrite !app_length in K. cbn in K. lia.
    - exists []. split; [reflexivity|]. cbn [ve_at]. destruct (Nat.eq_dec (len s) 2); [now left|right; split; [reflexivity|lia]]. }
  induction s as [|a s IH]; intros e H; [apply SH; auto; cbn; lia|]. destruct s as [|b [|c s]]; try (apply SH; auto; cbn; lia).
  rewrite comment_step in H. destruct (Ascii.eqb a "-" && Ascii.eqb b "-") eqn:Q.
  - apply andb_true_iff in Q. destruct Q as [Qa Qb]. apply Ascii.eqb_eq in Qa, Qb. subst a b. destruct (Ascii.eqb_spec c ">") as [->|N]; [discriminate|].
    injection H as <-. left. split; [reflexivity|]. exists []. split; [reflexivity|]. split.
    + intros x y K. apply (f_equal (@List.length ascii)) in K. rewrite !app_length in K. cbn in K. lia.
    + exists c, s. auto.
  - specialize (IH e H). destruct IH as [[E [d [E1 [E2 E3]]]]|[E [E2 E3]]].
    + left. split; auto. exists (a :: d). split; [cbn [app]; now rewrite E1|]. split; auto. intros x y K. destruct x as [|x0 x].
      * cbn in K. injection K as Ka K. subst a. destruct d as [|d0 d].
        -- injection E1 as Hb _. subst b. discriminate.
        -- injection E1 as <- _. cbn in K. injection K as -> _. discriminate.
      * injection K as _ K. exact (E2 _ _ K).
    + right. split; auto. split.
      * intros x d y K. destruct x as [|x0 x]; [cbn in K; injection K as -> -> _; discriminate|]. injection K as _ K. exact (E2 _ _ _ K).
      * apply last_two_cons; auto. cbn; lia.
Qed.
Lemma comment_hyphens : forall c s, (forall x y, c ++ bs "-" <> x ++ bs "--" ++ y) -> starts (fun d => d <> ">"%char) s ->
  v_comment (c ++ bs "--" ++ s) = inl (mkVerr VDashDash s).
Proof.
  intros c s H [d [r [-> N]]]. revert H. induction c as [|a c IH]; intros H.
  - cbn [app bs list_ascii_of_string]. rewrite comment_step. change (Ascii.eqb "-" "-" && Ascii.eqb "-" "-") with true. cbn iota. apply ascii_eqb_false in N. now rewrite N.
  - assert (IH' := IH ltac:(intros x y K; apply (H (a :: x) y); cbn [app]; now rewrite K)). clear IH. cbn [app].
    assert (X : exists b z y, c ++ bs "--" ++ d :: r = b :: z :: y /\ (c = [] /\ b = "-"%char \/ exists c', c = b :: c')).
    { destruct c as [|b [|b' c]]; cbn; eexists _, _, _; split; try reflexivity; eauto. }
    destruct X as [b [z [y [E Hb]]]]. rewrite E in *. rewrite comment_step. destruct (Ascii.eqb a "-" && Ascii.eqb b "-") eqn:Q; auto.
    apply andb_true_iff in Q. destruct Q as [Qa Qb]. apply Ascii.eqb_eq in Qa, Qb. subst a b. exfalso.
    destruct Hb as [[-> _]|[c' ->]]; [now apply (H [] [])|now apply (H [] (c' ++ bs "-"))].
Qed.
Lemma comment_fault_complete : forall s m r, comment_fault s m r -> v_comment s = inl (mkVerr m r).
Proof.
  intros s m r [[-> [c [-> [H1 H2]]]]|[-> [H1 H2]]]; [now apply comment_hyphens|]. destruct (v_comment s) as [e|x] eqn:Q.
  - destruct e as [m' r']. destruct (comment_fault_sound _ _ Q) as [[E [c [K [_ [d [y [E2 _]]]]]]]|[E [_ L]]]; cbn [ve_msg ve_at] in *.
    + exfalso. subst r'. exact (H1 _ _ _ K).
    + subst m'. now rewrite (last_two_fun _ _ _ L H2).
  - exfalso. apply v_comment_spec in Q. destruct Q as [c [K _]]. exact (H1 c ">"%char x K).
Qed.

(** ** CDATA *)
Lemma cdata_step : forall a b c s, v_cdata (a :: b :: c :: s) = if Ascii.eqb a "]" && Ascii.eqb b "]" && Ascii.eqb c ">" then inr s else v_cdata (b :: c :: s).
Proof. reflexivity. Qed.
Lemma cdata_fault_sound : forall s e, v_cdata s = inl e -> ve_msg e = VUnclosedCDATA /\ (forall x y, s <> x ++ bs "]]>" ++ y) /\ last_two s (ve_at e).
Proof.
  assert (SH : forall s, len s < 3 -> forall e, v_cdata s = inl e -> ve_msg e = VUnclosedCDATA /\ (forall x y, s <> x ++ bs "]]>" ++ y) /\ last_two s (ve_at e)).
  { intros s L e H. assert (E : e = mkVerr VUnclosedCDATA s) by (destruct s as [|a [|b [|c s]]]; try (injection H as <-; reflexivity); cbn [List.length] in L; lia).
    subst e. split; [reflexivity|]. split.
    - intros x y K. apply (f_equal (@List.length ascii)) in K. rewrite !app_length in K. cbn in K. lia.
    - exists []. split; [reflexivity|]. cbn [ve_at]. destruct (Nat.eq_dec (len s) 2); [now left|right; split; [reflexivity|lia]]. }
  induction s as [|a s IH]; intros e H; [apply SH; auto; cbn; lia|]. destruct s as [|b [|c s]]; try (apply SH; auto; cbn; lia).
  rewrite cdata_step in H. destruct (Ascii.eqb a "]" && Ascii.eqb b "]" && Ascii.eqb c ">") eqn:Q; [discriminate|].
  destruct (IH e H) as [E [E2 E3]]. split; auto. split; [|apply last_two_cons; auto; cbn; lia].
  intros x y K. destruct x as [|x0 x]; [cbn in K; injection K as -> -> -> _; discriminate|]. injection K as _ K. exact (E2 _ _ K).
Qed.
Lemma cdata_fault_complete : forall s r, (forall x y, s <> x ++ bs "]]>" ++ y) -> last_two s r -> v_cdata s = inl (mkVerr VUnclosedCDATA r).
Proof.
  intros s r H1 H2. destruct (v_cdata s) as [e|x] eqn:Q.
  - destruct e as [m' r']. destruct (cdata_fault_sound _ _ Q) as [E [_ L]]. cbn [ve_msg ve_at] in *. subst m'. now rewrite (last_two_fun _ _ _ L H2).
  - exfalso. apply v_cdata_spec in Q. destruct Q as [c [K _]]. exact (H1 c x K).
Qed.

(** ** DOCTYPE *)
Lemma doctype_error : forall s d e, v_doctype d s = inl e -> e = mkVerr VUnclosedDoctype [].
Proof.
  induction s as [|c s IH]; intros d e H; cbn [v_doctype] in H; [now injection H|].
  destruct (Ascii.eqb c "["); [eauto|]. destruct (Ascii.eqb c "]"); [eauto|]. destruct (Ascii.eqb c ">" && (d =? 0)%Z); [discriminate|eauto].
Qed.
Lemma doctype_fault : forall s e, v_doctype 0 s = inl e <-> e = mkVerr VUnclosedDoctype [] /\ forall x y, s = x ++ ">"%char :: y -> brackets x <> 0%Z.
Proof.
  intros s e. split.
  - intros H. split; [eapply doctype_error; eauto|]. intros x y E B.
    assert (X : forall n x y, len x <= n -> s = x ++ ">"%char :: y -> brackets x = 0%Z -> exists r, v_doctype 0 s = inr r).
    { clear x y E B H. induction n as [|n IH]; intros x y L E B.
      - destruct x; [|cbn in L; lia]. exists y. apply v_doctype_spec. exists []. split; auto. split; [reflexivity|]. intros x y0 K. destruct x; discriminate.
      - destruct (Nat.eq_dec (len x) (S n)) as [Q|Q]; [|apply (IH x y); auto; lia].
        destruct (v_doctype 0 s) as [e'|r] eqn:V; [|eauto]. exfalso.
        assert (IN : forall x1 y1, x = x1 ++ ">"%char :: y1 -> (0 + brackets x1)%Z <> 0%Z).
        { intros x1 y1 Ex Bx. destruct (IH x1 (y1 ++ ">"%char :: y)) as [r K]; [|rewrite E, Ex, <- app_assoc; reflexivity|lia|discriminate].
          apply (f_equal (@List.length ascii)) in Ex. rewrite app_length in Ex. cbn [List.length] in Ex. lia. }
        assert (K : v_doctype 0 s = inr y) by (apply v_doctype_spec; exists x; auto). congruence. }
    destruct (X (len x) x y (le_n _) E B) as [r K]. congruence.
  - intros [-> H]. destruct (v_doctype 0 s) as [e|r] eqn:V; [now rewrite (doctype_error _ _ _ V)|]. exfalso.
    apply v_doctype_spec in V. destruct V as [b [E [B _]]]. apply (H b r E). lia.
Qed.
