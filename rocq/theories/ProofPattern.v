(** The dynamic programme of the pattern matcher decides glob matching. *)
From Coq Require Import List Ascii String NArith ZArith Bool Lia.
From Verif Require Import GoStr ModelPattern SpecGlob.
Import ListNotations.
Local Open Scope N_scope.

Definition atom := (N * bool)%type.
Inductive AM : list atom -> list N -> Prop :=
| A_nil : AM [] []
| A_star0 : forall x p s, is_star x = true -> AM p s -> AM (x :: p) s
| A_star1 : forall x p c s, is_star x = true -> AM (x :: p) s -> AM (x :: p) (c :: s)
| A_quest : forall x p c s, is_quest x = true -> AM p s -> AM (x :: p) (c :: s)
| A_lit : forall x p c s, is_star x = false -> is_quest x = false -> fst x = c ->
    AM p s -> AM (x :: p) (c :: s).

Lemma star_not_quest : forall x, is_star x = true -> is_quest x = false.
Proof.
  intros [c b] H. unfold is_star, is_quest in *; simpl in *.
  apply andb_true_iff in H; destruct H as [H1 H2]. apply N.eqb_eq in H1; subst. reflexivity.
Qed.

Lemma AM_app : forall p q s, AM (p ++ q) s <-> exists s1 s2, s = s1 ++ s2 /\ AM p s1 /\ AM q s2.
Proof.
  split.
  - remember (p ++ q) as pq. intros H. revert p q Heqpq. induction H; intros p0 q0 Heq.
    + destruct p0; [|discriminate]. simpl in Heq; subst. exists [], []. repeat split; constructor.
    + destruct p0 as [|y p0]; simpl in Heq.
      * subst. exists [], s. repeat split; [constructor|]; simpl; eauto using AM.
      * injection Heq; intros; subst. destruct (IHAM _ _ eq_refl) as [s1 [s2 [E [H1 H2]]]].
        exists s1, s2. repeat split; auto. now constructor.
    + destruct p0 as [|y p0]; simpl in Heq.
      * subst. exists [], (c :: s). repeat split; [constructor|]; simpl; eauto using AM.
      * injection Heq; intros; subst.
        destruct (IHAM (y :: p0) q0 eq_refl) as [s1 [s2 [E [H1 H2]]]].
        exists (c :: s1), s2. repeat split; auto. simpl; congruence. now apply A_star1.
    + destruct p0 as [|y p0]; simpl in Heq.
      * subst. exists [], (c :: s). repeat split; [constructor|]; simpl; eauto using AM.
      * injection Heq; intros; subst.
        destruct (IHAM _ _ eq_refl) as [s1 [s2 [E [H1 H2]]]].
        exists (c :: s1), s2. repeat split; auto. simpl; congruence. now apply A_quest.
    + destruct p0 as [|y p0]; simpl in Heq.
      * subst. exists [], (fst x :: s). repeat split; [constructor|]; simpl; eauto using AM.
      * injection Heq; intros; subst.
        destruct (IHAM _ _ eq_refl) as [s1 [s2 [E [H4 H5]]]].
        exists (fst y :: s1), s2. repeat split; auto. simpl; congruence. now apply A_lit.
  - intros [s1 [s2 [-> [H1 H2]]]]. induction H1; simpl; auto.
    + now apply A_star0.
    + now apply A_star1.
    + now apply A_quest.
    + now apply A_lit.
Qed.

Lemma AM_one_star : forall x s, is_star x = true -> AM [x] s.
Proof.
  intros x s H; induction s.
  - apply A_star0; auto; constructor.
  - now apply A_star1.
Qed.

Lemma AM_snoc_star : forall p x s, is_star x = true ->
  (AM (p ++ [x]) s <-> exists s1 s2, s = s1 ++ s2 /\ AM p s1).
Proof.
  intros p x s Hx. rewrite AM_app. split.
  - intros [s1 [s2 [E [H1 H2]]]]. eauto.
  - intros [s1 [s2 [E H1]]]. exists s1, s2. repeat split; auto. now apply AM_one_star.
Qed.

Lemma app_snoc_cases : forall (A : Type) (s s1 s2 : list A) c, s ++ [c] = s1 ++ s2 ->
  (s2 = [] /\ s1 = s ++ [c]) \/ exists s2', s2 = s2' ++ [c] /\ s = s1 ++ s2'.
Proof.
  intros A s s1 s2 c H.
  destruct s2 as [|a s2] using rev_ind.
  - left. rewrite app_nil_r in H. auto.
  - right. rewrite app_assoc in H. apply app_inj_tail in H. destruct H; subst. eauto.
Qed.

Lemma AM_star_step : forall p x s c, is_star x = true ->
  (AM (p ++ [x]) (s ++ [c]) <-> AM p (s ++ [c]) \/ AM (p ++ [x]) s).
Proof.
  intros p x s c Hx. rewrite !AM_snoc_star by auto. split.
  - intros [s1 [s2 [E H]]]. destruct (app_snoc_cases _ _ _ _ _ E) as [[-> ->]|[s2' [-> ->]]]; auto.
    right. eauto.
  - intros [H|[s1 [s2 [-> H]]]].
    + exists (s ++ [c]), []. rewrite app_nil_r. auto.
    + exists s1, (s2 ++ [c]). rewrite app_assoc; auto.
Qed.

Lemma AM_single : forall x s, is_star x = false -> AM [x] s ->
  exists c, s = [c] /\ (is_quest x = true \/ fst x = c).
Proof.
  intros x s Hx H. inversion H; subst; try congruence.
  - match goal with K : AM [] _ |- _ => inversion K; subst end. eauto.
  - match goal with K : AM [] _ |- _ => inversion K; subst end. eauto.
Qed.

Lemma AM_nostar_step : forall p x s c, is_star x = false ->
  (AM (p ++ [x]) (s ++ [c]) <-> AM p s /\ (is_quest x = true \/ fst x = c)).
Proof.
  intros p x s c Hx. rewrite AM_app. split.
  - intros [s1 [s2 [E [H1 H2]]]]. destruct (AM_single _ _ Hx H2) as [d [-> Hd]].
    apply app_inj_tail in E; destruct E; subst. auto.
  - intros [H1 H2]. exists s, [c]. repeat split; auto.
    destruct (is_quest x) eqn:Q.
    + apply A_quest; auto; constructor.
    + destruct H2; [discriminate|]. apply A_lit; auto; constructor.
Qed.

Lemma AM_nostar_nil : forall p x, is_star x = false -> ~ AM (p ++ [x]) [].
Proof.
  intros p x Hx H. apply AM_app in H. destruct H as [s1 [s2 [E [H1 H2]]]].
  destruct (AM_single _ _ Hx H2) as [d [-> Hd]]. destruct s1; discriminate.
Qed.

(** A row of the table from column [length q] on. *)
Fixpoint RowOK (q p : list atom) (s : list N) (row : list bool) {struct row} : Prop :=
  match row with
  | [] => False
  | b :: row' =>
      (b = true <-> AM q s) /\
      match p with
      | [] => row' = []
      | x :: p' => RowOK (q ++ [x]) p' s row'
      end
  end.

Lemma row0_ok : forall p q left, (left = true <-> AM q []) -> RowOK q p [] (left :: dp_row0 p left).
Proof.
  induction p as [|x p IH]; intros q left H; simpl; split; auto.
  apply IH. destruct (is_star x) eqn:Hx.
  - rewrite AM_snoc_star by auto. rewrite H. split.
    + intros H1. exists [], []. auto.
    + intros [s1 [s2 [E H1]]]. destruct s1; [auto|discriminate].
  - split; [discriminate|]. intros H1. now apply AM_nostar_nil in H1.
Qed.

Lemma dp_row_ok : forall max c p q s prev it left row it',
  RowOK q p s prev -> (left = true <-> AM q (s ++ [c])) ->
  dp_row max it c p prev left = Some (row, it') ->
  RowOK q p (s ++ [c]) (left :: row) /\ it' = it + N.of_nat (List.length p).
Proof.
  induction p as [|x p IH]; intros q s prev it left row it' Hprev Hleft H.
  - simpl in H. injection H; intros; subst. simpl. split; [split; auto|lia].
  - destruct prev as [|d prev]; [destruct Hprev|]. destruct Hprev as [Hd Hprev].
    destruct prev as [|u prev]; [destruct Hprev|]. cbn [dp_row] in H.
    destruct (max <? it + 1); [discriminate|].
    set (v := if is_star x then left || u else if is_quest x then d else if fst x =? c then d else false) in H.
    destruct (dp_row max (it + 1) c p (u :: prev) v) as [[row2 it2]|] eqn:E; [|discriminate].
    injection H; intros; subst. 
    assert (Hv : v = true <-> AM (q ++ [x]) (s ++ [c])).
    { unfold v. destruct (is_star x) eqn:Hx.
      - rewrite AM_star_step by auto. rewrite orb_true_iff, Hleft.
        destruct Hprev as [Hu _]. now rewrite Hu.
      - rewrite AM_nostar_step by auto. destruct (is_quest x) eqn:Q.
        + rewrite Hd. intuition.
        + destruct (N.eqb_spec (fst x) c).
          * rewrite Hd. intuition.
          * split; [discriminate|]. intros [_ [H'|H']]; [discriminate|congruence]. }
    destruct (IH _ _ _ _ _ _ _ Hprev Hv E) as [H1 H2].
    split; [|simpl List.length; lia]. simpl. split; auto.
Qed.

Lemma dp_row_none : forall max c p q s prev it left,
  RowOK q p s prev ->
  (dp_row max it c p prev left = None <-> p <> [] /\ max < it + N.of_nat (List.length p)).
Proof.
  induction p as [|x p IH]; intros q s prev it left Hprev.
  - simpl. destruct prev as [|? []]; split; try discriminate; intros [H _]; congruence.
  - destruct prev as [|d prev]; [destruct Hprev|]. destruct Hprev as [Hd Hprev].
    destruct prev as [|u prev]; [destruct Hprev|]. cbn [dp_row].
    destruct (N.ltb_spec max (it + 1)).
    + split; auto. intros _. split; [discriminate|]. simpl List.length. lia.
    + set (v := if is_star x then left || u else if is_quest x then d else if fst x =? c then d else false).
      specialize (IH _ _ _ (it + 1) v Hprev).
      destruct (dp_row max (it + 1) c p (u :: prev) v) as [[row2 it2]|] eqn:E.
      * split; [discriminate|]. intros [_ H1]. exfalso. destruct IH as [_ IH].
        assert (p <> []) by (intros ->; simpl in H1; lia).
        discriminate IH. split; auto. simpl List.length in H1. lia.
      * split; auto. intros _. destruct IH as [IH _]. destruct (IH eq_refl). split; [discriminate|].
        simpl List.length. lia.
Qed.

Lemma dp_rows_ok : forall max p s pre prev it row,
  RowOK [] p pre prev -> dp_rows max it s p prev = Some row -> RowOK [] p (pre ++ s) row.
Proof.
  induction s as [|c s IH]; intros pre prev it row Hprev H; simpl in H.
  - injection H; intros; subst. now rewrite app_nil_r.
  - destruct (dp_row max it c p prev false) as [[row1 it1]|] eqn:E; [|discriminate].
    replace (pre ++ c :: s) with ((pre ++ [c]) ++ s) by (now rewrite <- app_assoc).
    eapply IH; [|eauto]. eapply dp_row_ok; eauto.
    split; [discriminate|]. intros H1. inversion H1. destruct pre; discriminate.
Qed.

Lemma dp_rows_none : forall max p s pre prev it,
  RowOK [] p pre prev -> it <= max ->
  (dp_rows max it s p prev = None <->
   max < it + N.of_nat (List.length s) * N.of_nat (List.length p)).
Proof.
  induction s as [|c s IH]; intros pre prev it Hprev Hit; simpl dp_rows.
  - split; [discriminate|]. simpl. lia.
  - pose proof (dp_row_none max c p [] pre prev it false Hprev) as Hn.
    destruct (dp_row max it c p prev false) as [[row1 it1]|] eqn:E.
    + assert (HR : RowOK [] p (pre ++ [c]) (false :: row1) /\ it1 = it + N.of_nat (List.length p)).
      { eapply dp_row_ok; eauto. split; [discriminate|]. intros H1. inversion H1. destruct pre; discriminate. }
      destruct HR as [HR ->].
      assert (it + N.of_nat (List.length p) <= max).
      { destruct p as [|x p]; [simpl; lia|]. destruct Hn as [_ Hn].
        destruct (N.le_gt_cases (it + N.of_nat (List.length (x :: p))) max); auto.
        discriminate Hn. split; [discriminate|lia]. }
      rewrite (IH _ _ _ HR H). simpl List.length. lia.
    + destruct Hn as [Hn _]. destruct (Hn eq_refl) as [_ Hn']. split; auto. intros _.
      simpl List.length. nia.
Qed.

Lemma RowOK_last : forall p q s row, RowOK q p s row -> (last row false = true <-> AM (q ++ p) s).
Proof.
  induction p as [|x p IH]; intros q s row H; destruct row as [|b row]; try easy.
  - destruct H as [H ->]. simpl. now rewrite app_nil_r.
  - destruct H as [H1 H2]. destruct row as [|b2 row]; [destruct H2|].
    change (last (b :: b2 :: row) false) with (last (b2 :: row) false).
    rewrite (IH _ _ _ H2). now rewrite <- app_assoc.
Qed.

(** Processed patterns versus the specification. *)
Lemma glob_AM : forall p s, Glob p s -> AM (process_escapes p) s.
Proof.
  induction 1; simpl.
  - constructor.
  - now apply A_star0.
  - apply A_star1; auto.
  - now apply A_quest.
  - apply A_lit; auto; unfold is_star, is_quest; simpl; apply andb_false_r.
  - apply A_lit; auto; constructor.
  - apply N.eqb_neq in H1. unfold r_bslash. rewrite H1. apply A_lit; auto; unfold is_star, is_quest, r_star, r_quest; simpl.
    + apply N.eqb_neq in H; now rewrite H.
    + apply N.eqb_neq in H0; now rewrite H0.
Qed.

Lemma AM_glob : forall n p s, (List.length p <= n)%nat -> AM (process_escapes p) s -> Glob p s.
Proof.
  induction n as [|n IH]; intros p s Hn H.
  - destruct p; [|simpl in Hn; lia]. simpl in H; inversion H; constructor.
  - destruct p as [|c p]; [simpl in H; inversion H; constructor|]. simpl in H, Hn.
    unfold r_bslash in H. destruct (N.eqb_spec c 92).
    + subst. destruct p as [|d p].
      * inversion H; subst; try (cbv in H2; discriminate); try (cbv in H3; discriminate).
        simpl. match goal with K : AM [] _ |- _ => inversion K; subst end. constructor.
      * assert (S1 : is_star (d, true) = false) by (unfold is_star; apply andb_false_r).
        assert (S2 : is_quest (d, true) = false) by (unfold is_quest; apply andb_false_r).
        inversion H; subst; try congruence. simpl. apply G_quoted. apply IH; auto. simpl in Hn; lia.
    + remember (process_escapes p) as pp eqn:Epp.
      destruct (N.eqb_spec c 42); [|destruct (N.eqb_spec c 63)].
      * subst c. assert (K : forall s, AM ((42, false) :: pp) s -> Glob (42 :: p) s).
        { clear H s. intros s H. remember ((42, false) :: pp) as q. induction H; try discriminate.
          - injection Heqq; intros; subst. apply G_star_none. apply IH; [lia|auto].
          - apply G_star_one; auto.
          - injection Heqq; intros; subst. cbv in H; discriminate.
          - injection Heqq; intros; subst. cbv in H; discriminate. }
        auto.
      * subst c. subst pp. inversion H; subst; try (cbv in H2; discriminate); try (cbv in H3; discriminate);
        try (cbv in H4; discriminate).
        apply G_quest. apply IH; auto; lia.
      * assert (S1 : is_star (c, false) = false) by (unfold is_star; simpl; apply N.eqb_neq in n1; unfold r_star; now rewrite n1).
        assert (S2 : is_quest (c, false) = false) by (unfold is_quest; simpl; apply N.eqb_neq in n2; unfold r_quest; now rewrite n2).
        inversion H; subst; try congruence. simpl. apply G_lit; auto. apply IH; auto; lia.
Qed.

Lemma process_escapes_width : forall n p, (List.length p <= n)%nat -> List.length (process_escapes p) = glob_width p.
Proof.
  induction n as [|n IH]; intros p Hn; destruct p as [|c p]; simpl in *; try lia.
  unfold r_bslash. destruct (c =? 92).
  - destruct p; simpl in *; auto. rewrite IH; auto; lia.
  - simpl. rewrite IH; auto; lia.
Qed.

Lemma match_runes_decides : forall s p max m,
  match_runes s p max = (m, false) -> (m = true <-> Glob p s).
Proof.
  intros s p max m H. unfold match_runes in H.
  destruct (dp_rows max 0 s (process_escapes p) (true :: dp_row0 (process_escapes p) true)) eqn:E; [|discriminate].
  injection H; intros; subst.
  apply (dp_rows_ok _ _ _ []) in E.
  - rewrite (RowOK_last _ _ _ _ E). simpl. split; [eapply AM_glob; eauto|apply glob_AM].
  - apply row0_ok. split; auto. constructor.
Qed.

Lemma match_runes_stopped : forall s p max,
  snd (match_runes s p max) = true <->
  max < N.of_nat (List.length s) * N.of_nat (glob_width p).
Proof.
  intros s p max. unfold match_runes.
  rewrite <- (process_escapes_width _ p (le_n _)).
  assert (R : RowOK [] (process_escapes p) [] (true :: dp_row0 (process_escapes p) true)).
  { apply row0_ok. split; auto. constructor. }
  pose proof (dp_rows_none max (process_escapes p) s [] _ 0 R (N.le_0_l _)) as Hn.
  rewrite N.add_0_l in Hn.
  destruct (dp_rows max 0 s (process_escapes p) (true :: dp_row0 (process_escapes p) true)) eqn:E; simpl.
  - rewrite <- Hn. split; discriminate.
  - rewrite <- Hn. tauto.
Qed.

Lemma match_runes_stopped_unmatched : forall s p max,
  snd (match_runes s p max) = true -> fst (match_runes s p max) = false.
Proof.
  intros s p max. unfold match_runes.
  destruct (dp_rows max 0 s (process_escapes p) (true :: dp_row0 (process_escapes p) true)); simpl; congruence.
Qed.

Lemma glob_width_le : forall n p, (List.length p <= n)%nat -> (glob_width p <= List.length p)%nat.
Proof.
  induction n as [|n IH]; intros p Hn; destruct p as [|c p]; simpl in *; try lia.
  destruct (c =? 92).
  - destruct p; simpl in *; [lia|]. specialize (IH p). lia.
  - specialize (IH p). lia.
Qed.
