(** The modifier registry, step by step. *)
From Coq Require Import List Ascii String NArith ZArith Bool Lia.
From Verif Require Import GoStr ModelParser ModelPath ModelResult ModelConc ModelRace SpecRace ProofBase ProofConc ProofRace ProofRace2.
Import ListNotations.
Local Open Scope nat_scope.

Section Reg.
  Variable M : Type.
  Implicit Types (t : list (moment M)) (b : binding M).

  (** ** Mutual exclusion *)
  Definition k_reading (p : kpc M) : bool := match p with KRead _ _ | KRUnlock _ _ => true | _ => false end.
  Definition k_writing (p : kpc M) : bool :=
    match p with KCheck _ _ _ | KPut _ _ _ | KNames _ _ | KDel _ _ | KUnlock _ _ => true | _ => false end.
  Definition k_excl (sys : ksys M) : Prop := lock_ok (k_lock M sys) (count k_reading (k_gos M sys)) (count k_writing (k_gos M sys)).
  (** What is true at each program point. *)
  Definition k_fact (g : registry M) (p : kpc M) : Prop :=
    match p with
    | KLock _ (RGet _ _) => False
    | KLock _ (RRegister _ n _) | KCheck _ n _ => n <> []
    | KPut _ n _ => n <> [] /\ map_get n g = None
    | KDel _ n => is_builtin_name n = false
    | _ => True
    end.
  (** The registry inside its own call: which calls touch it. *)
  Record k_ok (sys : ksys M) : Prop := {
    ko_excl : k_excl sys;
    ko_fact : forall i p, nth_error (k_gos M sys) i = Some p -> k_fact (k_reg M sys) p;
    ko_nodup : NoDup (map fst (k_reg M sys)) }.
  Lemma k_one : forall sys i j pi pj, k_excl sys -> nth_error (k_gos M sys) i = Some pi -> nth_error (k_gos M sys) j = Some pj ->
    k_writing pi = true -> k_reading pj = true \/ k_writing pj = true -> i = j.
  Proof.
    intros sys i j gi gj [R W X] Ni Nj Wi Wj. destruct (Nat.eq_dec i j) as [|D]; auto. exfalso.
    pose proof (count_pos _ k_writing i gi _ Ni Wi) as P. destruct Wj as [Rj|Wj].
    - pose proof (count_pos _ k_reading j gj _ Nj Rj). destruct (w_held (k_lock M sys)); cbn [b2n] in W; [rewrite X in R by auto|]; lia.
    - pose proof (count_two _ k_writing _ i j _ _ Ni Nj Wi Wj D). destruct (w_held (k_lock M sys)); cbn [b2n] in W; lia.
  Qed.
  Lemma k_excl_put : forall sys i p g p', k_excl sys -> nth_error (k_gos M sys) i = Some p ->
    k_reading p' = k_reading p -> k_writing p' = k_writing p -> k_excl (mkK M g (k_lock M sys) (set_nth i p' (k_gos M sys))).
  Proof.
    intros sys i p g p' X N R W. unfold k_excl in *. cbn [k_lock k_gos].
    pose proof (count_set _ k_reading i p' p _ N) as A. pose proof (count_set _ k_writing i p' p _ N) as B. rewrite R in A. rewrite W in B.
    replace (count k_reading (set_nth i p' (k_gos M sys))) with (count k_reading (k_gos M sys)) by lia.
    replace (count k_writing (set_nth i p' (k_gos M sys))) with (count k_writing (k_gos M sys)) by lia. exact X.
  Qed.
  (** The binding of another goroutine's pending registration stays free: it holds the lock. *)
  Lemma k_ok_put : forall sys i p l g p', k_ok sys -> nth_error (k_gos M sys) i = Some p ->
    k_excl (mkK M g l (set_nth i p' (k_gos M sys))) -> k_fact g p' -> NoDup (map fst g) -> g = k_reg M sys \/ k_writing p = true ->
    k_ok (mkK M g l (set_nth i p' (k_gos M sys))).
  Proof.
    intros sys i p l g p' [X F D] N X' F' D' G. split; cbn [k_reg k_gos]; auto.
    intros j q Nj. apply set_get in Nj. destruct Nj as [[-> ->]|[Dj Nj]]; auto. pose proof (F _ _ Nj) as Fq.
    destruct G as [->|W]; auto. destruct q as [|c|n m|n m|n|n|r|n|n|r|r]; auto. exfalso. apply Dj. apply (k_one sys i j p _ X N Nj W). auto.
  Qed.
  Ltac kcounts N :=
    match goal with |- lock_ok _ (count k_reading (set_nth ?i ?x ?l)) _ =>
      let A := fresh "A" in let B := fresh "B" in
      pose proof (count_set _ k_reading i x _ _ N) as A; pose proof (count_set _ k_writing i x _ _ N) as B;
      cbn [k_reading k_writing b2n] in A, B end.
  Lemma k_ok_step : forall sys i p, k_ok sys -> nth_error (k_gos M sys) i = Some p -> k_ok (fst (k_step M sys i p)).
  Proof.
    intros sys i p K N. pose proof K as [X F D]. pose proof (F _ _ N) as Fp.
    unfold k_step. destruct p as [|c|n m|n m|n|n|r|n|n|r|r]; cbn [fst].
    - exact K.
    - destruct (lock (k_lock M sys)) as [l'|] eqn:L; cbn [fst]; [|exact K]. eapply lock_lock in L; [|exact X].
      destruct c as [n m|n|n]; [|destruct Fp|]; (eapply k_ok_put; [exact K|exact N| |cbn in *; auto|exact D|left; reflexivity]);
        unfold k_excl; cbn [k_lock k_gos]; kcounts N;
        match goal with |- lock_ok _ ?a ?b => replace a with (count k_reading (k_gos M sys)) by lia; replace b with (S (count k_writing (k_gos M sys))) by lia end; exact L.
    - destruct (map_get n (k_reg M sys)) eqn:G; cbn [fst]; (eapply k_ok_put; [exact K|exact N| |cbn in *; auto|exact D|left; reflexivity]); eapply k_excl_put; eauto.
    - eapply k_ok_put; [exact K|exact N| |cbn in *; auto|now apply map_set_nodup|right; reflexivity]. eapply k_excl_put; eauto.
    - destruct (is_builtin_name n) eqn:G; cbn [fst]; (eapply k_ok_put; [exact K|exact N| |cbn in *; auto|exact D|left; reflexivity]); eapply k_excl_put; eauto.
    - eapply k_ok_put; [exact K|exact N| |cbn in *; auto|now apply map_del_nodup|right; reflexivity]. eapply k_excl_put; eauto.
    - eapply k_ok_put; [exact K|exact N| |cbn in *; auto|exact D|left; reflexivity]. unfold k_excl; cbn [k_lock k_gos]; kcounts N. apply lock_unlock.
      match goal with |- lock_ok _ ?a (S ?b) => replace a with (count k_reading (k_gos M sys)) by lia; replace (S b) with (count k_writing (k_gos M sys)) by lia end; exact X.
    - destruct (rlock (k_lock M sys)) as [l'|] eqn:L; cbn [fst]; [|exact K]. eapply lock_rlock in L; [|exact X].
      eapply k_ok_put; [exact K|exact N| |cbn in *; auto|exact D|left; reflexivity]. unfold k_excl; cbn [k_lock k_gos]; kcounts N.
      match goal with |- lock_ok _ ?a ?b => replace a with (S (count k_reading (k_gos M sys))) by lia; replace b with (count k_writing (k_gos M sys)) by lia end; exact L.
    - eapply k_ok_put; [exact K|exact N| |cbn in *; auto|exact D|left; reflexivity]. eapply k_excl_put; eauto.
    - eapply k_ok_put; [exact K|exact N| |cbn in *; auto|exact D|left; reflexivity]. unfold k_excl; cbn [k_lock k_gos]; kcounts N. apply lock_runlock.
      match goal with |- lock_ok _ (S ?a) ?b => replace (S a) with (count k_reading (k_gos M sys)) by lia; replace b with (count k_writing (k_gos M sys)) by lia end; exact X.
    - eapply k_ok_put; [exact K|exact N| |cbn in *; auto|exact D|left; reflexivity]. eapply k_excl_put; eauto.
  Qed.
  Lemma enter_fact : forall c g, k_fact g (k_enter M c) /\ k_reading (k_enter M c) = false /\ k_writing (k_enter M c) = false.
  Proof. intros [[|a n] m|n|n] g; cbn; repeat split; discriminate. Qed.
  Lemma k_ok_act : forall sys a, k_ok sys -> k_ok (fst (k_act M sys a)).
  Proof.
    intros sys a K. destruct a as [i c|i]; cbn [k_act]; destruct (nth_error (k_gos M sys) i) as [p|] eqn:N; try exact K.
    - destruct p; try exact K. destruct (enter_fact c (k_reg M sys)) as [E1 [E2 E3]]. cbn [fst]. eapply k_ok_put; [exact K|exact N| |exact E1|apply (ko_nodup _ K)|left; reflexivity].
      eapply k_excl_put; [apply (ko_excl _ K)|exact N|exact E2|exact E3].
    - now apply k_ok_step.
  Qed.
  Lemma k_ok_init : forall builtin_of n, k_ok (k_init M builtin_of n).
  Proof.
    intros b n. assert (R : forall i p, nth_error (repeat (KIdle M) n) i = Some p -> p = KIdle M).
    { intros i p H. apply nth_error_In in H. now apply repeat_spec in H. }
    split; cbn [k_init k_lock k_gos k_reg].
    - unfold k_excl. cbn [k_init k_lock k_gos]. rewrite !count_repeat by reflexivity. split; cbn; auto.
    - intros i p H. apply R in H. subst. exact I.
    - apply r_init_nodup.
  Qed.
  Lemma k_no_race : forall sys, k_ok sys -> ~ registry_race M sys.
  Proof.
    intros sys K [i [j [p [q [w [D [Ni [Nj [A B]]]]]]]]]. apply D. apply (k_one sys i j p q (ko_excl _ K) Ni Nj).
    - inversion A; reflexivity.
    - inversion B; cbn; auto.
  Qed.
  Lemma k_stuck : forall sys, k_ok sys -> (forall i, fst (k_act M sys (KAStep M i)) = sys) ->
    k_lock M sys = rw_free /\ forall i p, nth_error (k_gos M sys) i = Some p -> p = KIdle M.
  Proof.
    intros sys K H. pose proof (ko_excl _ K) as X.
    assert (St : forall i p, nth_error (k_gos M sys) i = Some p -> match p with
       | KIdle _ => True | KLock _ _ => lock (k_lock M sys) = None | KRLock _ _ => rlock (k_lock M sys) = None | _ => False end).
    { intros i p N. specialize (H i). cbn [k_act] in H. rewrite N in H.
      assert (Same : forall g l p', mkK M g l (set_nth i p' (k_gos M sys)) = sys -> p' = p).
      { intros g l p' E. apply (f_equal (k_gos M)) in E. cbn [k_gos] in E. pose proof (set_there _ i p' p _ N) as Q. rewrite E in Q. congruence. }
      destruct p as [|c|n m|n m|n|n|r|n|n|r|r]; cbn [k_step] in H; auto;
        repeat match type of H with
          | context [match rlock ?z with _ => _ end] => destruct (rlock z); auto
          | context [match lock ?z with _ => _ end] => destruct (lock z); auto
          | context [match map_get ?y ?z with _ => _ end] => destruct (map_get y z)
          | context [if is_builtin_name ?z then _ else _] => destruct (is_builtin_name z)
          end; cbn [fst] in H; apply Same in H; try discriminate. destruct c; discriminate. }
    assert (L : k_lock M sys = rw_free).
    { destruct X as [R W X].
      assert (R0 : count k_reading (k_gos M sys) = 0).
      { destruct (count k_reading (k_gos M sys)) eqn:C; auto. destruct (count_some _ k_reading (k_gos M sys)) as [i [g [A B]]]; [lia|]. apply St in A. destruct g; cbn in *; discriminate || contradiction. }
      assert (W0 : count k_writing (k_gos M sys) = 0).
      { destruct (count k_writing (k_gos M sys)) eqn:C; auto. destruct (count_some _ k_writing (k_gos M sys)) as [i [g [A B]]]; [lia|]. apply St in A. destruct g; cbn in *; discriminate || contradiction. }
      destruct (k_lock M sys) as [w r]. cbn in *. unfold rw_free. destruct w; cbn in W; f_equal; lia. }
    split; auto. intros i p N. apply St in N. rewrite L in N. destruct p; cbn in N; try contradiction; try discriminate; auto.
  Qed.

  (** ** Taking effect *)
  Inductive status := Free | Busy (c : rcall M) | Ready (r : rret M).
  Definition status_of (p : kpc M) : status :=
    match p with
    | KIdle _ => Free
    | KLock _ c => Busy c
    | KCheck _ n m | KPut _ n m => Busy (RRegister M n m)
    | KNames _ n | KDel _ n => Busy (RUnregister M n)
    | KRLock _ n | KRead _ n => Busy (RGet M n)
    | KUnlock _ r | KRUnlock _ r | KEnd _ r => Ready r
    end.
  Inductive turn (i : nat) : list (moment M) -> status -> Prop :=
  | tu_none : turn i [] Free
  | tu_call : forall t c, turn i t Free -> turn i (t ++ [Calls M i c]) (Busy c)
  | tu_act : forall t c r, turn i t (Busy c) -> turn i (t ++ [Acts M i c r]) (Ready r)
  | tu_return : forall t r, turn i t (Ready r) -> turn i (t ++ [Returns M i r]) Free.
  Inductive whole (i : nat) : list (moment M) -> Prop :=
  | wh_none : whole i []
  | wh_call : forall t c r, whole i t -> whole i (t ++ [Calls M i c; Acts M i c r; Returns M i r]).
  Lemma turn_whole : forall i t s, turn i t s -> exists u, whole i u /\
    match s with
    | Free => t = u
    | Busy c => t = u ++ [Calls M i c]
    | Ready r => exists c, t = u ++ [Calls M i c; Acts M i c r]
    end.
  Proof.
    induction 1 as [|t c T [u [W E]]|t c r T [u [W E]]|t r T [u [W E]]].
    - exists []. split; constructor.
    - exists u. subst. auto.
    - exists u. split; auto. exists c. subst. now rewrite <- app_assoc.
    - destruct E as [c E]. exists (u ++ [Calls M i c; Acts M i c r; Returns M i r]). split; [now constructor|]. subst. now rewrite <- app_assoc.
  Qed.
  Lemma whole_orderly : forall i u, whole i u -> forall v, orderly M i v -> orderly M i (u ++ v).
  Proof. induction 1 as [|u c r W IH]; intros v O; auto. rewrite <- app_assoc. apply IH. cbn. now constructor. Qed.
  Lemma turn_orderly : forall i t s, turn i t s -> orderly M i t.
  Proof.
    intros i t s T. destruct (turn_whole _ _ _ T) as [u [W E]]. destruct s; [|subst|destruct E as [c ->]].
    - subst. rewrite <- (app_nil_r u). apply (whole_orderly i u W). constructor.
    - apply (whole_orderly i u W). constructor.
    - apply (whole_orderly i u W). constructor.
  Qed.
  Lemma serial_ext : forall b t b', serial M b t b' -> forall b2, (forall x, b2 x = b' x) -> serial M b t b2.
  Proof.
    induction 1; intros b2 E; econstructor; eauto. intros x. now rewrite E.
  Qed.
  Lemma serial_app : forall b t b1, serial M b t b1 -> forall u b2, serial M b1 u b2 -> serial M b (t ++ u) b2.
  Proof.
    induction 1 as [b b1 E|b i c t b1 H IH|b i r t b1 H IH|b b0 i c r t b1 A H IH]; intros u b2 U; cbn [app]; try (econstructor; eauto; fail).
    revert b E. induction U as [b0 b2 E0|b0 i c t b2 H IH|b0 i r t b2 H IH|b0 b3 i c r t b2 A H IH]; intros b E; try (econstructor; eauto; fail).
    - constructor. intros x. now rewrite E0, E.
    - econstructor; [|exact H]. destruct A; try rewrite E; econstructor; eauto; try (intros; rewrite <- E; auto; fail).
  Qed.
  Definition bound_in (g : registry M) : binding M := fun n => map_get n g.
  Lemma mine_app : forall i t u, mine M i (t ++ u) = mine M i t ++ mine M i u.
  Proof. intros. unfold mine. apply filter_app. Qed.
  Lemma seen_app : forall t u, seen M (t ++ u) = seen M t ++ seen M u.
  Proof. induction t as [|[] t IH]; intros u; cbn [app seen]; rewrite ?IH; auto. Qed.

  Record tells (b0 : binding M) (sys : ksys M) (ev : list (kevent M)) (t : list (moment M)) : Prop := {
    te_seen : seen M t = ev;
    te_serial : serial M b0 t (bound_in (k_reg M sys));
    te_turn : forall i p, nth_error (k_gos M sys) i = Some p -> turn i (mine M i t) (status_of p);
    te_none : forall i, nth_error (k_gos M sys) i = None -> mine M i t = [] }.
  (** A step that is not seen to take effect. *)
  Lemma tells_quiet : forall b0 sys ev t i p p' l, tells b0 sys ev t -> nth_error (k_gos M sys) i = Some p ->
    status_of p' = status_of p -> tells b0 (mkK M (k_reg M sys) l (set_nth i p' (k_gos M sys))) ev t.
  Proof.
    intros b0 sys ev t i p p' l [A B C D] N E. split; cbn [k_reg k_gos]; auto.
    - intros j q Nj. apply set_get in Nj. destruct Nj as [[<- ->]|[_ Nj]]; [rewrite E|]; auto.
    - intros j Nj. apply D. rewrite nth_error_set_nth in Nj. destruct (Nat.eqb_spec i j); auto. subst. rewrite N in Nj. discriminate.
  Qed.
  (** A step with a moment of goroutine [i]. *)
  Lemma tells_moment : forall b0 sys ev t i p p' g l x, tells b0 sys ev t -> nth_error (k_gos M sys) i = Some p ->
    (forall u, turn i u (status_of p) -> turn i (u ++ [x]) (status_of p')) ->
    serial M (bound_in (k_reg M sys)) [x] (bound_in g) -> mine M i [x] = [x] -> (forall j, j <> i -> mine M j [x] = []) ->
    tells b0 (mkK M g l (set_nth i p' (k_gos M sys))) (ev ++ seen M [x]) (t ++ [x]).
  Proof.
    intros b0 sys ev t i p p' g l x [A B C D] N T Se M1 M2. split; cbn [k_reg k_gos].
    - now rewrite seen_app, A.
    - eapply serial_app; eauto.
    - intros j q Nj. rewrite mine_app. apply set_get in Nj. destruct Nj as [[<- ->]|[Dj Nj]].
      + rewrite M1. auto.
      + rewrite M2, app_nil_r by auto. auto.
    - intros j Nj. rewrite mine_app, M2, app_nil_r.
      + apply D. rewrite nth_error_set_nth in Nj. destruct (Nat.eqb_spec i j); auto. subst. rewrite N in Nj. discriminate.
      + intros ->. rewrite nth_error_set_nth, Nat.eqb_refl, N in Nj. discriminate.
  Qed.
  Lemma serial_here : forall g i c, serial M (bound_in g) [Calls M i c] (bound_in g).
  Proof. intros. constructor. constructor. auto. Qed.
  Lemma serial_return : forall g i r, serial M (bound_in g) [Returns M i r] (bound_in g).
  Proof. intros. constructor. constructor. auto. Qed.
  Lemma serial_act : forall g g' i c r, alone M (bound_in g) (bound_in g') c r -> serial M (bound_in g) [Acts M i c r] (bound_in g').
  Proof. intros. econstructor; eauto. constructor. auto. Qed.
  Lemma mine_one : forall i x, match x with Calls _ j _ | Acts _ j _ _ | Returns _ j _ => j end = i -> mine M i [x] = [x].
  Proof. intros i x H. unfold mine. cbn [filter]. rewrite H, Nat.eqb_refl. reflexivity. Qed.
  Lemma mine_other : forall i x, match x with Calls _ j _ | Acts _ j _ _ | Returns _ j _ => j end <> i -> mine M i [x] = [].
  Proof. intros i x H. unfold mine. cbn [filter]. destruct (Nat.eqb_spec (match x with Calls _ j _ | Acts _ j _ _ | Returns _ j _ => j end) i); congruence. Qed.
  Lemma builtin_in : forall n, is_builtin_name n = true <-> In n [bs "reverse"; bs "sort"; bs "first"; bs "last"; bs "flatten"; bs "pretty"; bs "ugly"].
  Proof.
    intros n. unfold is_builtin_name, builtin_names. rewrite existsb_exists. split.
    - intros [x [A B]]. apply bytes_eqb_eq in B. now subst.
    - intros H. exists n. split; auto. apply bytes_eqb_refl.
  Qed.
  Ltac acting := try (apply mine_one; reflexivity); try (intros; apply mine_other; auto; fail).
  Lemma tells_act : forall b0 sys ev t a, k_ok sys -> tells b0 sys ev t ->
    exists t', tells b0 (fst (k_act M sys a)) (ev ++ snd (k_act M sys a)) t'.
  Proof.
    intros b0 sys ev t a K T.
    assert (Stay : exists t', tells b0 sys (ev ++ []) t') by (rewrite app_nil_r; eauto).
    destruct a as [i c|i]; cbn [k_act]; destruct (nth_error (k_gos M sys) i) as [p|] eqn:N; cbn [fst snd]; try exact Stay.
    - destruct p; try exact Stay. cbn [fst snd].
      assert (T1 : tells b0 (mkK M (k_reg M sys) (k_lock M sys) (set_nth i (KLock M c) (k_gos M sys))) (ev ++ [EvCall M i c]) (t ++ [Calls M i c])).
      { apply (tells_moment b0 sys ev t i (KIdle M) (KLock M c) (k_reg M sys) _ (Calls M i c) T N); acting; [|apply serial_here]. intros u U. now constructor. }
      destruct c as [[|y n] m|n|n]; cbn [k_enter].
      + (* the empty name *)
        eexists. rewrite <- (app_nil_r (ev ++ _)).
        assert (N1 : nth_error (k_gos M (mkK M (k_reg M sys) (k_lock M sys) (set_nth i (KLock M (RRegister M [] m)) (k_gos M sys)))) i = Some (KLock M (RRegister M [] m)))
          by (cbn [k_gos]; eapply set_there; exact N).
        pose proof (tells_moment _ _ _ _ i _ (KEnd M (RetErr M)) (k_reg M sys) (k_lock M sys) (Acts M i (RRegister M [] m) (RetErr M)) T1 N1) as Q.
        cbn [k_gos k_reg] in Q.
        assert (SS : forall (x y : kpc M) l, set_nth i x (set_nth i y l) = set_nth i x l).
        { clear. intros x y. induction i as [|i IH]; destruct l; cbn; auto. f_equal. auto. }
        rewrite SS in Q. apply Q; acting.
        * intros u U. now constructor.
        * apply serial_act. apply al_refused; auto.
      + eexists. exact T1.
      + eexists. eapply tells_quiet with (p' := KRLock M n) in T1; [|cbn [k_gos]; eapply set_there; exact N|reflexivity]. cbn [k_reg k_gos] in T1.
        assert (SS : forall (x y : kpc M) l, set_nth i x (set_nth i y l) = set_nth i x l).
        { clear. intros x y. induction i as [|i IH]; destruct l; cbn; auto. f_equal. auto. }
        rewrite SS in T1. exact T1.
      + eexists. exact T1.
    - pose proof (ko_fact _ K _ _ N) as Fp. pose proof (ko_nodup _ K) as ND. unfold k_step.
      destruct p as [|c|n m|n m|n|n|r|n|n|r|r]; cbn [fst snd].
      + exact Stay.
      + destruct (lock (k_lock M sys)); cbn [fst snd]; [|exact Stay]. rewrite app_nil_r. exists t. eapply tells_quiet; eauto. destruct c; cbn in *; auto.
      + destruct (map_get n (k_reg M sys)) eqn:G; cbn [fst snd].
        * eexists. apply (tells_moment b0 sys ev t i _ (KUnlock M (RetErr M)) (k_reg M sys) _ (Acts M i (RRegister M n m) (RetErr M)) T N); acting.
          -- intros u U. now constructor.
          -- apply serial_act. apply al_refused; auto. right. unfold bound_in. congruence.
        * rewrite app_nil_r. exists t. eapply tells_quiet; eauto.
      + destruct Fp as [F1 F2]. eexists.
        apply (tells_moment b0 sys ev t i _ (KUnlock M (RetOk M)) (map_set n m (k_reg M sys)) _ (Acts M i (RRegister M n m) (RetOk M)) T N); acting.
        -- intros u U. now constructor.
        -- apply serial_act. apply al_registered; unfold bound_in; auto.
           ++ now rewrite map_get_set, bytes_eqb_refl.
           ++ intros x D. rewrite map_get_set. destruct (bytes_eqb x n) eqn:E; auto. apply bytes_eqb_eq in E. congruence.
      + destruct (is_builtin_name n) eqn:G; cbn [fst snd].
        * eexists. apply (tells_moment b0 sys ev t i _ (KUnlock M (RetErr M)) (k_reg M sys) _ (Acts M i (RUnregister M n) (RetErr M)) T N); acting.
          -- intros u U. now constructor.
          -- apply serial_act. apply al_kept; auto. now apply builtin_in.
        * rewrite app_nil_r. exists t. eapply tells_quiet; eauto.
      + cbn [k_fact] in Fp. eexists.
        apply (tells_moment b0 sys ev t i _ (KUnlock M (RetOk M)) (map_del n (k_reg M sys)) _ (Acts M i (RUnregister M n) (RetOk M)) T N); acting.
        -- intros u U. now constructor.
        -- apply serial_act. apply al_removed; unfold bound_in; auto.
           ++ intros Q. apply builtin_in in Q. congruence.
           ++ now rewrite map_get_del, bytes_eqb_refl.
           ++ intros x D. rewrite map_get_del by auto. destruct (bytes_eqb x n) eqn:E; auto. apply bytes_eqb_eq in E. congruence.
      + rewrite app_nil_r. exists t. eapply tells_quiet; eauto.
      + destruct (rlock (k_lock M sys)); cbn [fst snd]; [|exact Stay]. rewrite app_nil_r. exists t. eapply tells_quiet; eauto.
      + eexists. apply (tells_moment b0 sys ev t i _ (KRUnlock M _) (k_reg M sys) _ (Acts M i (RGet M n) (RetMod M (match map_get n (k_reg M sys) with Some m => m | None => None end))) T N); acting.
        -- intros u U. now constructor.
        -- apply serial_act. exact (al_got M (bound_in (k_reg M sys)) (bound_in (k_reg M sys)) n (fun x => eq_refl)).
      + rewrite app_nil_r. exists t. eapply tells_quiet; eauto.
      + eexists. apply (tells_moment b0 sys ev t i _ (KIdle M) (k_reg M sys) _ (Returns M i r) T N); acting; [|apply serial_return]. intros u U. now constructor.
  Qed.
  Lemma k_run_app : forall sys l a, k_run M sys (l ++ [a]) =
    (fst (k_act M (fst (k_run M sys l)) a), snd (k_run M sys l) ++ snd (k_act M (fst (k_run M sys l)) a)).
  Proof.
    intros sys l a. unfold k_run. rewrite fold_left_app. cbn [fold_left].
    destruct (k_act M (fst (fold_left _ l (sys, []))) a) as [s t]. reflexivity.
  Qed.
  Lemma k_ok_run : forall builtin_of n l, k_ok (fst (k_run M (k_init M builtin_of n) l)).
  Proof.
    intros bo n l. induction l as [|a l IH] using rev_ind; [apply k_ok_init|]. rewrite k_run_app. cbn [fst]. now apply k_ok_act.
  Qed.
  Lemma tells_run : forall builtin_of n l, exists t,
    tells (bound_in (r_init M builtin_of)) (fst (k_run M (k_init M builtin_of n) l)) (snd (k_run M (k_init M builtin_of n) l)) t.
  Proof.
    intros bo n l. induction l as [|a l [t IH]] using rev_ind.
    - exists []. split; cbn; auto.
      + constructor. auto.
      + intros i p H. apply nth_error_In in H. apply repeat_spec in H. subst. constructor.
    - rewrite k_run_app. cbn [fst snd]. apply (tells_act _ _ _ t); auto. apply k_ok_run.
  Qed.
  Lemma tells_orderly : forall b0 sys ev t, tells b0 sys ev t -> forall i, orderly M i (mine M i t).
  Proof.
    intros b0 sys ev t T i. destruct (nth_error (k_gos M sys) i) as [p|] eqn:N.
    - eapply turn_orderly. eapply te_turn; eauto.
    - rewrite (te_none _ _ _ _ T i N). constructor.
  Qed.
  Lemma serial_start : forall b t b', serial M b t b' -> forall b0, (forall x, b x = b0 x) -> serial M b0 t b'.
  Proof.
    induction 1 as [b b' Q|b i c t b' S IH|b i r t b' S IH|b b1 i c r t b' A S IH]; intros b0 E.
    - constructor. intros x. rewrite Q. auto.
    - constructor. auto.
    - constructor. auto.
    - eapply se_act; [|exact S]. destruct A.
      + apply al_refused; [rewrite <- E; auto|intros x; rewrite H0; auto].
      + apply al_registered; auto; [rewrite <- E; auto|intros x Hx; rewrite H2; auto].
      + rewrite E. apply al_got. intros x. rewrite H. auto.
      + apply al_kept; auto. intros x. rewrite H0. auto.
      + apply al_removed; auto. intros x Hx. rewrite H1; auto.
  Qed.
End Reg.

(** ** Two registrations of one name cannot both succeed *)
Section Winners.
  Variable M : Type.
  Lemma mine_in : forall i t x, In x (mine M i t) <-> In x t /\ match x with Calls _ j _ | Acts _ j _ _ | Returns _ j _ => j end = i.
  Proof. intros i t x. unfold mine. rewrite filter_In, Nat.eqb_eq. reflexivity. Qed.
  Lemma seen_call : forall t i c, In (Calls M i c) t -> In (EvCall M i c) (seen M t).
  Proof. induction t as [|x t IH]; intros i c H; [destruct H|]. destruct H as [->|H]; [now left|]. destruct x; cbn [seen]; auto; right; auto. Qed.
  Lemma seen_return : forall t i r, In (EvReturn M i r) (seen M t) -> In (Returns M i r) t.
  Proof.
    induction t as [|x t IH]; intros i r H; [destruct H|]. destruct x; cbn [seen] in H.
    - destruct H as [H|H]; [discriminate|]. right. auto.
    - right. auto.
    - destruct H as [H|H]; [injection H as -> ->; now left|]. right. auto.
  Qed.
  Lemma orderly_act : forall i t, orderly M i t -> forall j c r, In (Acts M j c r) t -> In (Calls M j c) t.
  Proof.
    induction 1 as [|c|c r|c r t O IH]; intros j d q K; cbn in K.
    - destruct K.
    - destruct K as [K|[]]; discriminate.
    - destruct K as [K|[K|[]]]; try discriminate. injection K as <- <- <-. now left.
    - destruct K as [K|[K|[K|K]]]; try discriminate. + injection K as <- <- <-. now left. + right. right. right. eapply IH; eauto.
  Qed.
  Lemma orderly_return : forall i t, orderly M i t -> forall j r, In (Returns M j r) t -> exists c, In (Acts M j c r) t.
  Proof.
    induction 1 as [|c|c r|c r t O IH]; intros j q K; cbn in K.
    - destruct K.
    - destruct K as [K|[]]; discriminate.
    - destruct K as [K|[K|[]]]; discriminate.
    - destruct K as [K|[K|[K|K]]]; try discriminate. + injection K as <- <-. exists c. right. now left. + destruct (IH _ _ K) as [d D]. exists d. right. right. now right.
  Qed.
  Lemma bound_stays : forall n b t b', serial M b t b' -> (forall i c r, In (Acts M i c r) t -> exists m, c = RRegister M n m) ->
    b n <> None -> forall i c, ~ In (Acts M i c (RetOk M)) t.
  Proof.
    induction 1 as [b b' Q|b i c t b' S IH|b i r t b' S IH|b b1 i c r t b' A S IH]; intros All B j d K; cbn in K; auto.
    - destruct K as [K|K]; [discriminate|]. eapply IH; eauto. intros; eapply All; right; eauto.
    - destruct K as [K|K]; [discriminate|]. eapply IH; eauto. intros; eapply All; right; eauto.
    - destruct (All i c r (or_introl eq_refl)) as [m ->]. destruct K as [K|K].
      + injection K as <- <- ->. inversion A; subst. contradiction.
      + eapply IH; eauto. { intros; eapply All; right; eauto. } inversion A; subst; [|contradiction]. match goal with Q : forall x, b1 x = b x |- _ => now rewrite Q end.
  Qed.
  Lemma one_winner : forall n b t b', serial M b t b' -> (forall i c r, In (Acts M i c r) t -> exists m, c = RRegister M n m) ->
    forall i j c d, i <> j -> In (Acts M i c (RetOk M)) t -> In (Acts M j d (RetOk M)) t -> False.
  Proof.
    induction 1 as [b b' Q|b i c t b' S IH|b i r t b' S IH|b b1 i c r t b' A S IH]; intros All j k d e N K L; cbn in K, L; auto.
    - destruct K as [K|K]; [discriminate|]. destruct L as [L|L]; [discriminate|]. eapply (IH ltac:(intros; eapply All; right; eauto)); eauto.
    - destruct K as [K|K]; [discriminate|]. destruct L as [L|L]; [discriminate|]. eapply (IH ltac:(intros; eapply All; right; eauto)); eauto.
    - destruct (All i c r (or_introl eq_refl)) as [m ->].
      assert (B : r = RetOk M -> b1 n <> None). { intros ->. inversion A; subst. congruence. }
      assert (All' : forall i c r, In (Acts M i c r) t -> exists m, c = RRegister M n m) by (intros; eapply All; right; eauto).
      destruct K as [K|K]; destruct L as [L|L].
      + congruence.
      + injection K as <- <- ->. eapply bound_stays; eauto.
      + injection L as <- <- ->. eapply bound_stays; eauto.
      + eapply IH; eauto.
  Qed.
End Winners.
Lemma two_winners : forall (b0 b1 : binding nat) t n,
  seen nat t = [EvCall nat 0 (RRegister nat n (Some 7)); EvCall nat 1 (RRegister nat n (Some 8)); EvReturn nat 0 (RetOk nat); EvReturn nat 1 (RetOk nat)] ->
  serial nat b0 t b1 -> ~ forall i, orderly nat i (mine nat i t).
Proof.
  intros b0 b1 t n E S O.
  assert (W : forall i, In (EvReturn nat i (RetOk nat)) (seen nat t) -> exists c, In (Acts nat i c (RetOk nat)) t).
  { intros i K. apply seen_return in K. assert (K' : In (Returns nat i (RetOk nat)) (mine nat i t)) by (apply mine_in; auto).
    destruct (orderly_return nat i _ (O i) _ _ K') as [c C]. exists c. apply mine_in in C. tauto. }
  destruct (W 0%nat) as [c C]; [rewrite E; cbn; auto|]. destruct (W 1%nat) as [d D]; [rewrite E; cbn; auto|].
  refine (one_winner nat n _ _ _ S _ 0%nat 1%nat c d _ C D); [|discriminate].
  intros i e r K. assert (K' : In (Acts nat i e r) (mine nat i t)) by (apply mine_in; auto). apply (orderly_act nat i _ (O i)) in K'.
  apply mine_in in K'. destruct K' as [K' _]. apply seen_call in K'. rewrite E in K'. cbn in K'.
  destruct K' as [Q|[Q|[Q|[Q|[]]]]]; try discriminate; injection Q as _ <-; eauto.
Qed.
