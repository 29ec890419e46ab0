(** The reports of the validator about documents. *)
From Coq Require Import List Ascii String NArith ZArith Bool Lia.
From Verif Require Import GoStr ModelParser ModelValidate SpecText SpecPath SpecTree SpecQuery SpecValid SpecFault
  ProofBase ProofScan ProofTree ProofTree2 ProofTree3 ProofEdit ProofValid ProofValid2 ProofValid3 ProofFault ProofFault2.
Import ListNotations.

Section Reports.
Variable data : bytes.
Definition reported (x : verr + vstate) (e : verr) : Prop := x = inl e \/ exists st, x = inr st /\ v_finish data st = Some e.
Lemma fault_blanks : forall w found open s m r, blanks w -> fault data found open s m r -> fault data found open (w ++ s) m r.
Proof. intros w found open s m r H F. induction H; cbn [app]; auto using fa_blank. Qed.
Lemma tag_fault_fault : forall found open s m r, tag_fault open s m r -> fault data found open s m r.
Proof.
  intros found open s m r [[-> [-> ->]]|[H|[[x [-> H]]|[x [-> [SS H]]]]]]; [apply fa_bare|now apply fa_aside_bad|now apply fa_end_bad|now apply fa_start_bad].
Qed.
(** The position remembered for an open element is that of its start tag. *)
Lemma v_tag_stack : forall st t s st', v_tag st t s = inr st' -> forall n t' l, v_stack st' = (n, t') :: l -> len (v_stack st) < len (v_stack st') -> t' = t.
Proof.
  intros st t s st' H n t' l E L. unfold v_tag in H. destruct s as [|c s1]; [discriminate|].
  assert (WR : forall x, v_with_rest st x = inr st' -> t' = t).
  { intros x K. apply with_rest_inv in K. destruct K as [y [_ [_ [K _]]]]. rewrite K in L. lia. }
  destruct (Ascii.eqb c "?"); [eauto|]. destruct (Ascii.eqb c "!").
  { destruct (has_prefix (bs "DOCTYPE") s1 || has_prefix (bs "doctype") s1); [eauto|]. destruct (strip_prefix (bs "--") s1); [eauto|]. destruct (strip_prefix (bs "[CDATA[") s1); eauto. }
  destruct (Ascii.eqb c "/").
  - unfold v_close in H. destruct (v_read_name s1) as [nm s2]. destruct nm; [discriminate|]. destruct (negb (Ascii.eqb (peek (skip_ws s2)) ">")); [discriminate|].
    destruct (v_stack st) as [|[o t0] stack'] eqn:ST; [discriminate|]. destruct (negb (bytes_eqb o (a :: nm))); [discriminate|]. injection H as <-. cbn [v_stack] in *.
    cbn [List.length] in L. lia.
  - unfold v_open in H. destruct (v_read_name (c :: s1)) as [nm s2]. destruct nm; [discriminate|]. destruct (negb (validate_name (a :: nm))); [discriminate|].
    destruct (Nat.leb MaxNestingDepth (len (v_stack st))); [discriminate|]. destruct (v_attributes MaxAttributes s2) as [e|s3]; [discriminate|].
    destruct (Ascii.eqb (peek (skip_ws s3)) "/").
    + destruct (negb (Ascii.eqb (peek (next (skip_ws s3))) ">")); [discriminate|]. injection H as <-. cbn [v_stack] in L. lia.
    + destruct (negb (Ascii.eqb (peek (skip_ws s3)) ">")); [discriminate|]. injection H as <-. cbn [v_stack] in E. now injection E.
Qed.
Lemma loop_fault_sound : forall f st x e, v_loop f st = Some x -> reported x e -> inv st ->
  fault data (v_root_found st) (v_stack st) (v_rest st) (ve_msg e) (ve_at e).
Proof.
  induction f as [|f IH]; intros st x e H R I; [discriminate|]. cbn [v_loop] in H.
  destruct (skip_ws_split (v_rest st)) as [w [E W]]. rewrite E. apply fault_blanks; auto. pose proof (skip_avoids (v_rest st)) as B. remember (skip_ws (v_rest st)) as s. clear Heqs E w W.
  destruct s as [|c s1].
  - injection H as <-. destruct R as [R|[st' [R F]]]; [discriminate|]. injection R as <-. unfold v_finish in F. cbn [v_stack v_root_found] in F.
    destruct (v_stack st) as [|[n t] l]; [destruct (v_root_found st); [discriminate|]|]; injection F as <-; cbn [ve_msg ve_at]; constructor.
  - destruct (Ascii.eqb_spec c "<") as [->|N].
    + destruct (v_tag st ("<"%char :: s1) s1) as [e'|st1] eqn:T.
      * injection H as <-. destruct R as [R|[st' [R _]]]; [|discriminate]. injection R as <-. apply tag_fault_fault. now apply v_tag_fault_sound.
      * destruct (v_tag_sound _ _ _ _ T) as [y [Ey P]]. pose proof (IH _ _ _ H R (piece_inv _ _ _ P I)) as F. pose proof (v_tag_stack _ _ _ _ T) as TS. rewrite Ey in *.
        destruct P as [A E1 E2 E3|n k a t Ex Hn K L A E1 E2 E3|n k a Ex Hn K L A E1 E2 E3|n t w Ex W E1 E2 E3].
        -- apply fa_aside; auto. now rewrite <- E1, <- E2.
        -- rewrite E1 in TS. specialize (TS n t _ eq_refl ltac:(cbn; lia)). rewrite E1, E2 in F. subst t. subst y. cbn [app] in F |- *. rewrite <- !app_assoc in F |- *. cbn [app] in F |- *.
           apply (fa_open data _ _ n k a); auto.
        -- subst y. cbn [app]. rewrite <- !app_assoc. cbn [app]. rewrite E1, E2 in F. apply (fa_self data _ _ n k a); auto.
        -- subst y. cbn [app]. rewrite <- !app_assoc. cbn [app]. rewrite E1. rewrite E2 in F. now apply fa_close.
    + destruct (negb (v_root_found st) || v_root_closed st) eqn:Q.
      * injection H as <-. destruct R as [R|[st' [R _]]]; [|discriminate]. injection R as <-. cbn [ve_msg ve_at].
        assert (ST : v_stack st = []).
        { destruct (v_stack st) as [|p l] eqn:ST; auto. destruct (inv_open st I) as [Q1 Q2]; [rewrite ST; discriminate|]. rewrite Q1, Q2 in Q. discriminate. }
        rewrite ST. apply fa_outside; auto. destruct B as [B|[d [y [Ed B]]]]; [discriminate|]. now injection Ed as <- <-.
      * apply orb_false_iff in Q. destruct Q as [Q1 Q2]. apply negb_false_iff in Q1. apply fa_text; auto.
        -- intros K. destruct I as [_ I2 _ _]. rewrite I2 in Q2; auto. discriminate.
        -- apply (IH _ _ _ H R). destruct I as [I1 I2 I3 I4]. constructor; auto.
Qed.
Definition reports (st : vstate) (e : verr) : Prop := exists x, yields st x /\ reported x e.
Lemma passes_reports : forall st st' e, passes st st' -> reports st' e -> reports st e.
Proof. intros st st' e P [x [Y R]]. exists x. split; auto. Qed.
Lemma loop_fault_complete : forall found open s m r, fault data found open s m r -> forall closed, inv (mkV s open found closed) ->
  reports (mkV s open found closed) (mkVerr m r).
Proof.
  assert (BAD : forall found open s m r closed, tag_fault open s m r -> reports (mkV s open found closed) (mkVerr m r)).
  { intros found open s m r closed T. destruct (v_tag_fault_complete (mkV s open found closed) s m r T) as [x [-> V]].
    exists (inl (mkVerr m r)). split; [|now left]. now apply yields_error. }
  induction 1 as [found open c s m r B F IH|found open c s m r NE NA F IH|found open x s m r A F IH|found open n k a s m r N K L T F IH|found open n k a s m r N K L T F IH|found open n t w s m r W F IH
    |found c s NB NA|found n t open| |found open|found open s m r H|found open s m r H|found open s m r SS H];
    intros closed I; assert (I' := I); destruct I' as [I1 I2 I0 I3]; cbn [v_stack v_root_found v_root_closed] in *.
  - destruct (IH closed) as [x [Y R]]; [constructor; auto|]. exists x. split; auto. now apply yields_blank.
  - destruct I1 as [-> ->]; [auto|]. destruct (IH false) as [x [Y R]]; [constructor; auto|]. exists x. split; auto. now apply yields_char.
  - destruct (IH closed) as [y [Y R]]; [constructor; auto|]. exists y. split; auto. now apply yields_aside.
  - assert (TG : v_tag (mkV ("<"%char :: n ++ a ++ ">"%char :: s) open found closed) ("<"%char :: n ++ a ++ ">"%char :: s) (n ++ a ++ ">"%char :: s) =
      inr (mkV s ((n, "<"%char :: n ++ a ++ ">"%char :: s) :: open) true (if found && (match open with [] => true | _ => false end) && closed then false else closed))).
    { rewrite tag_char by auto. change (">"%char :: s) with (bs ">" ++ s) at 3. pose proof (v_open_complete (mkV ("<"%char :: n ++ a ++ ">"%char :: s) open found closed)
        ("<"%char :: n ++ a ++ ">"%char :: s) n k a false s N K T) as V. cbn iota in V. rewrite V. cbn [v_stack v_root_found v_root_closed].
      match goal with |- context [Nat.leb ?x ?y] => replace (Nat.leb x y) with false by (symmetry; apply Nat.leb_gt; exact L) end; reflexivity. }
    destruct (v_tag_sound _ _ _ _ TG) as [x [_ P]].
    destruct (IH _ (piece_inv _ _ _ P I)) as [y [Y R]]. exists y. split; auto. eapply yields_tag; eauto.
  - assert (TG : v_tag (mkV ("<"%char :: n ++ a ++ "/"%char :: ">"%char :: s) open found closed) ("<"%char :: n ++ a ++ "/"%char :: ">"%char :: s) (n ++ a ++ "/"%char :: ">"%char :: s) =
      inr (mkV s open true (match open with [] => true | _ => closed end))).
    { rewrite tag_char by auto. change ("/"%char :: ">"%char :: s) with (bs "/>" ++ s) at 3. pose proof (v_open_complete (mkV ("<"%char :: n ++ a ++ "/"%char :: ">"%char :: s) open found closed)
        ("<"%char :: n ++ a ++ "/"%char :: ">"%char :: s) n k a true s N K T) as V. cbn iota in V. rewrite V. cbn [v_stack v_root_found v_root_closed].
      match goal with |- context [Nat.leb ?x ?y] => replace (Nat.leb x y) with false by (symmetry; apply Nat.leb_gt; exact L) end; reflexivity. }
    destruct (v_tag_sound _ _ _ _ TG) as [x [_ P]].
    destruct (IH _ (piece_inv _ _ _ P I)) as [y [Y R]]. exists y. split; auto. eapply yields_tag; eauto.
  - cbn [map fst] in I3. inversion I3 as [|? ? N N3]; subst.
    assert (TG : v_tag (mkV ("<"%char :: "/"%char :: n ++ w ++ ">"%char :: s) ((n, t) :: open) found closed) ("<"%char :: "/"%char :: n ++ w ++ ">"%char :: s) ("/"%char :: n ++ w ++ ">"%char :: s) =
      inr (mkV s open found (match open with [] => true | _ => closed end))).
    { cbn [v_tag]. change (Ascii.eqb "/" "?") with false. change (Ascii.eqb "/" "!") with false. change (Ascii.eqb "/" "/") with true. cbn iota.
      now apply v_close_complete with (t0 := t). }
    destruct (v_tag_sound _ _ _ _ TG) as [x [_ P]].
    destruct (IH _ (piece_inv _ _ _ P I)) as [y [Y R]]. exists y. split; auto. eapply yields_tag; eauto.
  - exists (inl (mkVerr VOutsideRoot (c :: s))). split; [|now left]. exists 1. cbn [v_loop v_rest v_root_found v_root_closed]. rewrite skip_ws_none by auto.
    apply ascii_eqb_false in NA. rewrite NA. destruct found; cbn [negb orb]; [now rewrite I2|reflexivity].
  - eexists. split; [exists 1; reflexivity|]. right. eexists. split; reflexivity.
  - eexists. split; [exists 1; reflexivity|]. right. eexists. split; reflexivity.
  - apply BAD. now left.
  - apply BAD. right. now left.
  - apply BAD. right. right. left. eauto.
  - apply BAD. right. right. right. eauto.
Qed.
End Reports.

Lemma validate_fault : forall s e, validate s = Some (Some e) <-> first_fault s (ve_msg e) (ve_at e).
Proof.
  intros s e. unfold validate. change MaxDocumentSize with 10485760%N. destruct (N.ltb_spec 10485760 (blen s)) as [L|L]; unfold blen in L.
  { split.
    - intros H. injection H as <-. now apply ff_size.
    - intros H. destruct e as [m r]. cbn [ve_msg ve_at] in H. inversion H; subst; [reflexivity|cbn in L; lia|lia]. }
  destruct s as [|c s].
  { split.
    - intros H. injection H as <-. now apply ff_empty.
    - intros H. destruct e as [m r]. cbn [ve_msg ve_at] in H. inversion H; subst; [cbn in *; lia|reflexivity|contradiction]. }
  remember (c :: s) as d. assert (NE : d <> []) by (subst; discriminate). clear Heqd c s.
  destruct (v_loop_total (S (len d)) (mkV d [] false false)) as [x V]; [cbn [v_rest]; lia|]. rewrite V.
  assert (RE : reported d x e -> match x with inl e => Some (Some e) | inr st => Some (v_finish d st) end = Some (Some e)).
  { intros [->|[st [-> F]]]; [reflexivity|now rewrite F]. }
  assert (RF : match x with inl e => Some (Some e) | inr st => Some (v_finish d st) end = Some (Some e) -> reported d x e).
  { destruct x as [e'|st]; intros H; [left; congruence|]. right. exists st. split; auto. congruence. }
  split.
  - intros H. apply ff_fault; auto. apply (loop_fault_sound d _ _ _ _ V (RF H) (inv_init d)).
  - intros H. destruct e as [m r]. cbn [ve_msg ve_at] in H. apply RE. inversion H; subst; [lia|contradiction|].
    match goal with K : fault _ _ _ _ _ _ |- _ => destruct (loop_fault_complete d _ _ _ _ _ K false (inv_init d)) as [y [Y R]] end.
    now rewrite (yields_eq _ _ _ _ Y V).
Qed.
Lemma first_fault_suffix : forall s m r, first_fault s m r -> exists p, s = p ++ r.
Proof. intros s m r H. apply (validate_fault s (mkVerr m r)) in H. destruct (error_position _ _ H) as [p E]. eauto. Qed.
Lemma last_line_fun : forall p n m, last_line p n -> last_line p m -> n = m.
Proof.
  intros p n m [a [b [E [L [N H]]]]] [a' [b' [E' [L' [N' H']]]]].
  assert (X : forall a b a' b' : bytes, a ++ b = a' ++ b' -> ~ In lf b -> (a' = [] \/ exists x, a' = x ++ [lf]) -> len b <= len b').
  { clear. intros a b a' b' E N [->|[x ->]].
    - cbn [app] in E. subst b'. rewrite app_length. lia.
    - destruct (Nat.le_gt_cases (len b) (len b')) as [L|L]; auto. exfalso.
      assert (K : exists z, b = z ++ b' /\ z <> []).
      { revert a E. clear N. remember (x ++ [lf]) as a'. clear Heqa' x. intros a. revert a'. induction a as [|c a IH]; intros a' E.
        - cbn [app] in E. exists a'. split; auto. intros ->. cbn [app] in E. subst. lia.
        - destruct a' as [|c' a']; [cbn [app] in E; subst b'; cbn [List.length] in L; rewrite app_length in L; lia|]. injection E as _ E. eauto. }
      destruct K as [z [-> NZ]]. apply N. destruct (exists_last NZ) as [z' [c ->]].
      rewrite app_assoc in E. apply app_inv_tail in E. rewrite app_assoc in E. apply app_inj_tail in E. destruct E as [_ ->]. apply in_or_app. left. apply in_or_app. right. now left. }
  rewrite E in E'. pose proof (X _ _ _ _ E' N H'). pose proof (X _ _ _ _ (eq_sym E') N' H). lia.
Qed.
Lemma with_error_fault : forall xml line col m, validate_with_error xml = Some (line, col, m) <->
  exists p r, xml = p ++ r /\ first_fault xml m r /\ line = 1 + newlines p /\ last_line p col.
Proof.
  intros xml line col m. unfold validate_with_error. split.
  - destruct (validate xml) as [[e|]|] eqn:V; try discriminate. destruct (error_position _ _ V) as [p E]. intros H. exists p, (ve_at e). split; auto.
    rewrite E, line_col_prefix in H. destruct (line_col_spec p) as [L1 L2]. injection H as H Hm. apply validate_fault in V. rewrite Hm in V. rewrite H in L1, L2. auto.
  - intros [p [r [E [F [L1 L2]]]]]. apply (validate_fault xml (mkVerr m r)) in F. rewrite F. cbn [ve_at ve_msg]. rewrite E, line_col_prefix.
    destruct (line_col_spec p) as [K1 K2]. destruct (fold_left advance_lc p (1, 0)) as [l c] eqn:Q. cbn [fst snd] in *.
    f_equal. f_equal. f_equal; [lia|]. eapply last_line_fun; eauto.
Qed.
