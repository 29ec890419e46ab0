(** The path parser accepts exactly the language of SpecGrammar. *)
From Coq Require Import List Ascii String NArith ZArith Bool Lia.
From Verif Require Import GoStr ModelParser ModelPath SpecPath SpecGrammar ProofBase ProofPath ProofFuel ProofFuel2 ProofSyntax.
Import ListNotations.

(** ** Pieces *)
Lemma cuts_split : forall n s, (List.length s <= n)%nat ->
  cuts s (fst (split_loop false s) :: snd (split_loop false s)).
Proof.
  induction n as [|n IH]; intros [|c s] L; cbn [List.length] in L; try lia; cbn [split_loop fst snd]; try constructor.
  destruct (Ascii.eqb_spec c backslash) as [->|N1].
  - destruct s as [|d s]; cbn [split_loop fst snd]; [constructor|].
    specialize (IH s ltac:(cbn [List.length] in L; lia)). destruct (split_loop false s) as [h t]. cbn [fst snd] in *. now constructor.
  - specialize (IH s ltac:(lia)). destruct (Ascii.eqb_spec c ".") as [->|N2]; destruct (split_loop false s) as [h t]; cbn [fst snd] in *; now constructor.
Qed.
Lemma cuts_fun : forall s l, cuts s l -> l = fst (split_loop false s) :: snd (split_loop false s).
Proof.
  intros s l H. induction H as [| |s l H IH|c s h t H IH|c s h t N1 N2 H IH]; cbn [split_loop fst snd]; auto.
  - cbn. destruct (split_loop false s) as [h t]. cbn [fst snd] in *. now subst.
  - change (Ascii.eqb backslash backslash) with true. cbv iota. cbn [split_loop]. destruct (split_loop false s) as [h' t']. cbn [fst snd] in *. injection IH as <- <-. reflexivity.
  - rewrite (proj2 (Ascii.eqb_neq _ _) N2), (proj2 (Ascii.eqb_neq _ _) N1). destruct (split_loop false s) as [h' t']. cbn [fst snd] in *. injection IH as <- <-. reflexivity.
Qed.
Lemma cuts_path : forall s l, s <> [] -> cuts s l -> split_path s = l.
Proof.
  intros s l N H. rewrite (cuts_fun _ _ H). unfold split_path. destruct s; [easy|]. now destruct (split_loop false (a :: s)).
Qed.

(** ** Modifiers *)
Lemma barred_split : forall s, barred (fst (split_on "|" s)) (snd (split_on "|" s)) = s /\
  Forall (fun x => ~ In "|"%char x) (fst (split_on "|" s) :: snd (split_on "|" s)).
Proof.
  induction s as [|c s [IH1 IH2]]; cbn [split_on fst snd barred]; [split; auto|].
  destruct (split_on "|" s) as [h t]. cbn [fst snd] in *. inversion IH2 as [|? ? A B]; subst.
  destruct (Ascii.eqb_spec c "|") as [->|N]; cbn [fst snd barred].
  - split; [cbn [app]; f_equal; exact (eq_refl _)|]. constructor; auto.
  - split; [destruct t; cbn [barred app]; reflexivity|]. constructor; auto. intros [->|K]; auto.
Qed.
Lemma barred_fun : forall l h, Forall (fun x => ~ In "|"%char x) (h :: l) -> split_on "|" (barred h l) = (h, l).
Proof.
  induction l as [|x l IH]; intros h F; inversion F as [|? ? A B]; subst; cbn [barred].
  - now apply split_on_none.
  - rewrite (split_on_app "|" h _ A). rewrite (IH x B). reflexivity.
Qed.
Lemma named_fun : forall l ms, named l ms -> mods_of l = ms.
Proof.
  intros l ms H. induction H as [|x m l ms T H IH|x l ms T H IH]; cbn [mods_of]; auto.
  - rewrite T. change (Ascii.eqb "@" "@") with true. cbv iota. now rewrite IH.
  - destruct (trim_space x) as [|c r]; auto. destruct (Ascii.eqb_spec c "@") as [->|]; auto. now elim (T r).
Qed.
Lemma named_ex : forall l, named l (mods_of l).
Proof.
  induction l as [|x l IH]; cbn [mods_of]; [constructor|].
  destruct (trim_space x) as [|c r] eqn:T; [apply named_none; auto; intros m; rewrite T; discriminate|].
  destruct (Ascii.eqb_spec c "@") as [->|N]; [now apply named_one|].
  apply named_none; auto. intros m. rewrite T. congruence.
Qed.

(** ** Division of conditions *)
Lemma two_sign_op : forall op sign, two_sign op = Some sign <-> exists a b, sign = [a; b] /\ two_op a b = Some op.
Proof.
  intros op sign. split.
  - destruct op; cbn [two_sign]; intros H; try discriminate; injection H as <-; eexists; eexists; split; reflexivity.
  - intros (a & b & -> & T). pose proof (two_op_text _ _ _ T) as X.
    destruct op; cbn [two_sign op_text] in *; try (rewrite <- X; reflexivity); exfalso; revert X; cbv; discriminate.
Qed.
Lemma one_sign_op : forall op sign, one_sign op = Some sign <-> exists a, sign = [a] /\ one_op a = Some op.
Proof.
  intros op sign. split.
  - destruct op; cbn [one_sign]; intros H; try discriminate; injection H as <-; eexists; split; reflexivity.
  - intros (a & -> & T). pose proof (one_op_text _ _ T) as X.
    destruct op; cbn [one_sign op_text] in *; try (rewrite <- X; reflexivity); exfalso; revert X; cbv; discriminate.
Qed.
Lemma find_two_some : forall s p op q, find_two s = Some (p, op, q) ->
  exists sign, two_sign op = Some sign /\ s = p ++ sign ++ q /\
    forall p' op' sign' q', two_sign op' = Some sign' -> s = p' ++ sign' ++ q' -> (List.length p <= List.length p')%nat.
Proof.
  induction s as [|a s IH]; intros p op q H; [discriminate|].
  cbn [find_two] in H. destruct s as [|b r]; [discriminate|]. destruct (two_op a b) eqn:T.
  - injection H; intros; subst. exists [a; b]. split; [apply two_sign_op; eauto|]. split; [reflexivity|]. intros; cbn; lia.
  - destruct (find_two (b :: r)) as [[[p1 op1] q1]|]; [|discriminate]. injection H; intros; subst.
    destruct (IH _ _ _ eq_refl) as (sign & S1 & S2 & S3). exists sign. split; auto. split; [cbn [app]; now rewrite S2|].
    intros p' op' sign' q' S' E. destruct p' as [|x p'].
    + apply two_sign_op in S'. destruct S' as (x & y & -> & T'). cbn [app] in E. injection E as -> -> ->. congruence.
    + cbn [app] in E. injection E as -> E. cbn [List.length]. specialize (S3 _ _ _ _ S' E). lia.
Qed.
Lemma find_two_none_spec : forall s, find_two s = None -> forall p op sign q, two_sign op = Some sign -> s <> p ++ sign ++ q.
Proof.
  induction s as [|a s IH]; intros H p op sign q S E.
  - apply two_sign_op in S. destruct S as (x & y & -> & T). destruct p; discriminate.
  - apply two_sign_op in S as S'. destruct S' as (x & y & -> & T).
    cbn [find_two] in H. destruct s as [|b r]; [destruct p as [|? [|? ?]]; discriminate|].
    destruct p as [|z p].
    + cbn [app] in E. injection E as -> -> ->. now rewrite T in H.
    + cbn [app] in E. injection E as -> E. destruct (two_op z b); [discriminate|].
      destruct (find_two (b :: r)) as [[[p1 op1] q1]|]; [discriminate|]. exact (IH eq_refl _ _ _ _ S E).
Qed.
Lemma find_one_some : forall s p op q, find_one s = Some (p, op, q) ->
  exists sign, one_sign op = Some sign /\ s = p ++ sign ++ q /\
    forall p' op' sign' q', one_sign op' = Some sign' -> s = p' ++ sign' ++ q' -> (List.length p <= List.length p')%nat.
Proof.
  induction s as [|a s IH]; intros p op q H; [discriminate|].
  cbn [find_one] in H. destruct (one_op a) eqn:T.
  - injection H; intros; subst. exists [a]. split; [apply one_sign_op; eauto|]. split; [reflexivity|]. intros; cbn; lia.
  - destruct (find_one s) as [[[p1 op1] q1]|]; [|discriminate]. injection H; intros; subst.
    destruct (IH _ _ _ eq_refl) as (sign & S1 & S2 & S3). exists sign. split; auto. split; [cbn [app]; now rewrite S2|].
    intros p' op' sign' q' S' E. destruct p' as [|x p'].
    + apply one_sign_op in S'. destruct S' as (x & -> & T'). cbn [app] in E. injection E as -> ->. congruence.
    + cbn [app] in E. injection E as -> E. cbn [List.length]. specialize (S3 _ _ _ _ S' E). lia.
Qed.
Lemma find_one_none_spec : forall s, find_one s = None -> forall p op sign q, one_sign op = Some sign -> s <> p ++ sign ++ q.
Proof.
  induction s as [|a s IH]; intros H p op sign q S E; apply one_sign_op in S as S'; destruct S' as (x & -> & T).
  - destruct p; discriminate.
  - cbn [find_one] in H. destruct p as [|z p].
    + cbn [app] in E. injection E as -> ->. now rewrite T in H.
    + cbn [app] in E. injection E as -> E. destruct (one_op z); [discriminate|].
      destruct (find_one s) as [[[p1 op1] q1]|]; [discriminate|]. exact (IH eq_refl _ _ _ _ S E).
Qed.
Lemma divided_ex : forall s p op q, find_op s = Some (p, op, q) -> divided s p op q.
Proof.
  intros s p op q H. unfold find_op in H. destruct (find_two s) as [[[p1 op1] q1]|] eqn:F.
  - injection H as -> -> ->. destruct (find_two_some _ _ _ _ F) as (sign & S1 & S2 & S3). rewrite S2. apply divided_two; auto.
    intros p' op' sign' q' X Y; apply (S3 p' op' sign' q' X); congruence.
  - destruct (find_one_some _ _ _ _ H) as (sign & S1 & S2 & S3). rewrite S2. apply divided_one; auto.
    + intros p' op' sign' q' X. rewrite <- S2. exact (find_two_none_spec _ F _ _ _ _ X).
    + intros p' op' sign' q' X Y; apply (S3 p' op' sign' q' X); congruence.
Qed.
Lemma same_split : forall (p p' a b : bytes), p ++ a = p' ++ b -> List.length p = List.length p' -> p = p' /\ a = b.
Proof. induction p as [|x p IH]; intros [|y p'] a b E L; cbn [app List.length] in *; try lia; auto. injection E as -> E. destruct (IH p' a b E ltac:(lia)); subst; auto. Qed.
Lemma divided_fun : forall s p op q, divided s p op q -> find_op s = Some (p, op, q).
Proof.
  intros s p op q H. destruct H as [p op sign q S L|p op sign q S N L]; unfold find_op.
  - destruct (find_two (p ++ sign ++ q)) as [[[p1 op1] q1]|] eqn:F.
    + destruct (find_two_some _ _ _ _ F) as (sign1 & S1 & S2 & S3).
      assert (K : List.length p = List.length p1) by (specialize (S3 _ _ _ _ S eq_refl); specialize (L _ _ _ _ S1 S2); lia).
      destruct (same_split _ _ _ _ S2 K) as [-> E].
      apply two_sign_op in S. destruct S as (a & b & -> & T). apply two_sign_op in S1. destruct S1 as (a1 & b1 & -> & T1).
      cbn [app] in E. injection E as -> -> ->. congruence.
    + exfalso. exact (find_two_none_spec _ F _ _ _ _ S eq_refl).
  - destruct (find_two (p ++ sign ++ q)) as [[[p1 op1] q1]|] eqn:F.
    + destruct (find_two_some _ _ _ _ F) as (sign1 & S1 & S2 & S3). now elim (N _ _ _ q1 S1 S2).
    + destruct (find_one (p ++ sign ++ q)) as [[[p1 op1] q1]|] eqn:F1.
      * destruct (find_one_some _ _ _ _ F1) as (sign1 & S1 & S2 & S3).
        assert (K : List.length p = List.length p1) by (specialize (S3 _ _ _ _ S eq_refl); specialize (L _ _ _ _ S1 S2); lia).
        destruct (same_split _ _ _ _ S2 K) as [-> E].
        apply one_sign_op in S. destruct S as (a & -> & T). apply one_sign_op in S1. destruct S1 as (a1 & -> & T1).
        cbn [app] in E. injection E as -> ->. congruence.
      * exfalso. exact (find_one_none_spec _ F1 _ _ _ _ S eq_refl).
Qed.
Lemma undivided_fun : forall s, undivided s <-> find_op s = None.
Proof.
  intros s. split.
  - intros U. destruct (find_op s) as [[[p op] q]|] eqn:F; auto. elim (U _ _ _ (divided_ex _ _ _ _ F)).
  - intros F p op q D. apply divided_fun in D. congruence.
Qed.
Lemma divided_ops : forall s p op q, divided s p op q -> ~ op_free s.
Proof.
  intros s p op q H F. apply divided_fun in H. pose proof (find_op_text _ _ _ _ H) as E.
  assert (O : op <> OpExists).
  { unfold find_op in H. destruct (find_two s) as [[[? ?] ?]|] eqn:T; [injection H as -> -> ->; eapply find_two_ops; eauto|eapply find_one_ops; eauto]. }
  destruct (op_text_has_op op O) as (c & r & E2 & OC). apply (F c); [rewrite E, E2; apply in_or_app; right; now left|exact OC].
Qed.

(** ** Literals and conditions *)
Lemma controlled_b : forall s, controlled s <-> contains_any ctl_chars s = true.
Proof.
  intros s. unfold controlled, contains_any. rewrite existsb_exists. unfold mem. split; intros (c & I & H); exists c; split; auto.
  - apply existsb_exists. exists c. split; [|apply Ascii.eqb_refl]. cbn [In] in H.
    assert (X : c = ascii_of_N (N_of_ascii c)) by (symmetry; apply ascii_N_embedding).
    destruct H as [H|[H|[H|[H|[]]]]]; rewrite <- H in X; rewrite X; unfold ctl_chars; [left|right; right; right; left|right; left|right; right; left]; reflexivity.
  - apply existsb_exists in H. destruct H as (d & D & E). apply Ascii.eqb_eq in E. subst d. unfold ctl_chars in D.
    destruct D as [<-|[<-|[<-|[<-|[]]]]]; cbn; auto.
Qed.
Lemma nul_b : forall s, In (ascii_of_N 0) s <-> mem nul s = true.
Proof.
  intros s. unfold mem. rewrite existsb_exists. split.
  - intros H. exists (ascii_of_N 0). split; auto.
  - intros (c & I & E). apply Ascii.eqb_eq in E. now subst c.
Qed.
Lemma literal_unquote : forall t v, literal t v -> unquote t = Ok v.
Proof.
  intros t v H. destruct H as [c v Q|v N Q].
  - apply unquote_quoted. exact Q.
  - unfold unquote. destruct (quoted_with squote v || quoted_with dquote v) eqn:E; auto.
    exfalso. assert (K : exists c, a_quote c /\ quoted_with c v = true).
    { apply orb_true_iff in E. destruct E; [exists squote|exists dquote]; split; auto; [now left|now right]. }
    destruct K as (c & A & K). apply quoted_with_spec in K. destruct K as [[m K1] [k K2]].
    destruct (Q c m A K1) as (r' & d & E' & D). rewrite K2 in E'. apply app_inj_tail in E'. destruct E'; congruence.
Qed.
Lemma literal_ex : forall t, t <> [] -> (exists c, a_quote c /\ t = [c]) \/ exists v, literal t v.
Proof.
  intros t N. destruct t as [|c m]; [easy|].
  destruct (Ascii.eqb c squote || Ascii.eqb c dquote) eqn:Q.
  - assert (A : a_quote c) by (apply orb_true_iff in Q; destruct Q as [Q|Q]; apply Ascii.eqb_eq in Q; [left|right]; auto).
    destruct m as [|x m] using rev_ind; [left; eauto|]. clear IHm. right.
    destruct (Ascii.eqb_spec x c) as [->|D]; [exists m; now constructor|].
    exists (c :: m ++ [x]). apply literal_bare; [discriminate|]. intros c' r A' E. injection E as <- _. exists (c :: m), x. split; auto.
  - right. exists (c :: m). apply literal_bare; [discriminate|]. intros c' r [->| ->] E; injection E as -> _; discriminate Q.
Qed.
Lemma op_free_dec : forall s, {op_free s} + {~ op_free s}.
Proof. intros s. destruct (contains_any op_chars s) eqn:C; [right|left]; rewrite op_free_no_ops; congruence. Qed.
Definition told_res (t : told) : Res (option filt) :=
  match t with Test p op v => Ok (Some (mkFilt p op v)) | Refused => Ok None | Down => Panic end.
Lemma unquote_lone : forall c, a_quote c -> unquote [c] = Panic.
Proof. intros c [->| ->]; reflexivity. Qed.
Lemma condition_fun : forall e t, condition e t -> parse_filter_condition e = told_res t.
Proof.
  intros e t H. unfold parse_filter_condition.
  assert (LT : forall n, (n <= 256)%nat -> (MaxFilterExpressionLength <? N.of_nat n)%N = false) by (intros; apply N.ltb_ge; unfold MaxFilterExpressionLength; lia).
  assert (NN : forall e, ~ In (ascii_of_N 0) e -> mem nul e = false).
  { intros x X. destruct (mem nul x) eqn:M; auto. now apply nul_b in M. }
  assert (CC : forall s, ~ controlled s -> contains_any ctl_chars s = false).
  { intros s X. destruct (contains_any ctl_chars s) eqn:M; auto. now apply controlled_b in M. }
  assert (OF : forall s, ~ op_free s -> contains_any op_chars s = true).
  { intros s X. destruct (contains_any op_chars s) eqn:M; auto. elim X. now apply op_free_no_ops. }
  assert (ON : forall s p op q, divided s p op q -> s <> []).
  { intros s p op q D ->. apply divided_ops in D. apply D. intros c []. }
  unfold blen.
  destruct H as [e L|e L Z|e L Z B|e L Z B F|e L Z F U|e p op q L Z D W|e p op q c L Z D Cp P F A Q|e p op q v L Z D Cp P F Li Cv|e p op q v L Z D Cp P F Li Cv]; cbn [told_res].
  - rewrite (proj2 (N.ltb_lt _ _)); auto. unfold MaxFilterExpressionLength. lia.
  - rewrite (LT _ L). now rewrite (proj1 (nul_b _) Z).
  - rewrite (LT _ L), (NN _ Z). now rewrite B.
  - rewrite (LT _ L), (NN _ Z). cbv zeta. destruct (trim_space e); [easy|]. now rewrite (proj1 (op_free_no_ops _) F).
  - rewrite (LT _ L), (NN _ Z). cbv zeta. rewrite (OF _ F). cbn [negb]. apply undivided_fun in U. rewrite U. now destruct (trim_space e).
  - rewrite (LT _ L), (NN _ Z). cbv zeta. rewrite (OF _ (divided_ops _ _ _ _ D)). cbn [negb]. rewrite (divided_fun _ _ _ _ D).
    destruct (trim_space e); [reflexivity|]. destruct W as [W|[W|[W|W]]].
    + apply controlled_b in W. now rewrite W.
    + destruct (contains_any ctl_chars p); auto. now rewrite W.
    + destruct (contains_any ctl_chars p); auto. rewrite W. now destruct (trim_space p).
    + destruct (contains_any ctl_chars p); auto. rewrite (OF _ W). destruct (trim_space p); auto. now destruct (trim_space q).
  - rewrite (LT _ L), (NN _ Z). cbv zeta. rewrite (OF _ (divided_ops _ _ _ _ D)). cbn [negb]. rewrite (divided_fun _ _ _ _ D).
    pose proof (ON _ _ _ _ D). destruct (trim_space e); [easy|]. rewrite (CC _ Cp), Q. rewrite (proj1 (op_free_no_ops _) F).
    destruct (trim_space p); [easy|]. now rewrite (unquote_lone _ A).
  - rewrite (LT _ L), (NN _ Z). cbv zeta. rewrite (OF _ (divided_ops _ _ _ _ D)). cbn [negb]. rewrite (divided_fun _ _ _ _ D).
    pose proof (ON _ _ _ _ D). destruct (trim_space e); [easy|]. rewrite (CC _ Cp). rewrite (proj1 (op_free_no_ops _) F).
    destruct (trim_space p); [easy|]. rewrite (literal_unquote _ _ Li). cbn [bind]. rewrite (proj1 (controlled_b _) Cv). now destruct (trim_space q).
  - rewrite (LT _ L), (NN _ Z). cbv zeta. rewrite (OF _ (divided_ops _ _ _ _ D)). cbn [negb]. rewrite (divided_fun _ _ _ _ D).
    pose proof (ON _ _ _ _ D). destruct (trim_space e); [easy|]. rewrite (CC _ Cp). rewrite (proj1 (op_free_no_ops _) F).
    destruct (trim_space p); [easy|]. rewrite (literal_unquote _ _ Li). cbn [bind]. rewrite (CC _ Cv).
    destruct (trim_space q) eqn:TQ; auto. exfalso. inversion Li; easy.
Qed.
Lemma condition_ex : forall e, exists t, condition e t.
Proof.
  intros e. destruct (le_gt_dec (List.length e) 256) as [L|L]; [|exists Refused; now apply condition_long].
  destruct (in_dec ascii_dec (ascii_of_N 0) e) as [Z|Z]; [exists Refused; now apply condition_nul|].
  destruct (list_eq_dec ascii_dec (trim_space e) []) as [B|B]; [exists Refused; now apply condition_blank|].
  destruct (op_free_dec (trim_space e)) as [F|F]; [eexists; now apply condition_exists|].
  destruct (find_op (trim_space e)) as [[[p op] q]|] eqn:D; [|exists Refused; apply condition_odd; auto; now apply undivided_fun].
  apply divided_ex in D.
  destruct (contains_any ctl_chars p) eqn:Cp; [exists Refused; eapply condition_faulty; eauto; left; now apply controlled_b|].
  assert (Cp' : ~ controlled p) by (rewrite controlled_b; congruence).
  destruct (list_eq_dec ascii_dec (trim_space p) []) as [P|P]; [exists Refused; eapply condition_faulty; eauto|].
  destruct (list_eq_dec ascii_dec (trim_space q) []) as [Q|Q]; [exists Refused; eapply condition_faulty; eauto|].
  destruct (op_free_dec (trim_space p)) as [F2|F2]; [|exists Refused; eapply condition_faulty; eauto].
  destruct (literal_ex _ Q) as [(c & A & E)|(v & Li)]; [exists Down; eapply condition_down; eauto|].
  destruct (contains_any ctl_chars v) eqn:Cv.
  - exists Refused. eapply condition_value; eauto. now apply controlled_b.
  - eexists. eapply condition_test; eauto. rewrite controlled_b. congruence.
Qed.
