(** The path cache, step by step: reads, bound, progress. *)
From Coq Require Import List Ascii String NArith ZArith Bool Lia.
From Verif Require Import GoStr ModelParser ModelPath ModelResult ModelConc ModelRace SpecRace ProofBase ProofFuel ProofFuel2 ProofConc ProofRace.
Import ListNotations.
Local Open Scope nat_scope.

(** ** Reads *)
Lemma deref_len : forall h h' id, map (@List.length seg) h = map (@List.length seg) h' -> List.length (deref h id) = List.length (deref h' id).
Proof.
  intros h h' id H. unfold deref. rewrite <- !(map_nth (@List.length seg)). now rewrite H.
Qed.
Lemma heap_len : forall h h', map (@List.length seg) h = map (@List.length seg) h' -> List.length h = List.length h'.
Proof. intros h h' H. rewrite <- (map_length (@List.length seg) h), H. apply map_length. Qed.
Lemma load_same : forall h h' id k, nth_error (deref h id) k = nth_error (deref h' id) k -> load h id k = load h' id k.
Proof.
  intros h h' id k H. unfold load.
  destruct (nth_error (deref h id) k) eqn:A; symmetry in H.
  - rewrite (nth_error_nth _ _ _ A), (nth_error_nth _ _ _ H). reflexivity.
  - apply nth_error_None in A, H. rewrite !nth_overflow by auto. reflexivity.
Qed.
Lemma store_lens : forall h id k x, map (@List.length seg) (store h id k x) = map (@List.length seg) h.
Proof.
  intros h id k x. unfold store.
  assert (G : forall a, List.length a = List.length (deref h id) -> map (@List.length seg) (set_nth id a h) = map (@List.length seg) h).
  { revert id. induction h as [|y h IH]; intros id a H; destruct id; cbn in *; auto; [now rewrite H|]. f_equal. apply IH. exact H. }
  apply G. apply set_nth_length.
Qed.
Lemma store_same : forall h h' id k x, map (@List.length seg) h = map (@List.length seg) h' ->
  nth_error (deref (store h id k x) id) k = nth_error (deref (store h' id k x) id) k.
Proof.
  intros h h' id k x H. pose proof (deref_len h h' id H) as L. pose proof (heap_len h h' H) as HL.
  destruct (Nat.lt_ge_cases id (List.length h)) as [Lt|Ge].
  - rewrite !deref_store by lia. rewrite !nth_error_set_nth, Nat.eqb_refl.
    destruct (nth_error (deref h id) k) eqn:A, (nth_error (deref h' id) k) eqn:B; auto; exfalso.
    + apply nth_error_None in B. assert (k < List.length (deref h id)) by (apply nth_error_Some; congruence). lia.
    + apply nth_error_None in A. assert (k < List.length (deref h' id)) by (apply nth_error_Some; congruence). lia.
  - assert (E : deref (store h id k x) id = []) by (unfold deref; apply nth_overflow; rewrite store_length; lia).
    assert (E' : deref (store h' id k x) id = []) by (unfold deref; apply nth_overflow; rewrite store_length; lia).
    now rewrite E, E'.
Qed.

Ltac putsame N := eexists _, _; split; [cbn [f_gos]; eapply set_there; exact N|]; split; [cbn [f_gos]; eapply set_there; exact N|];
  split; [cbn [g_pc point]; reflexivity|]; split; [reflexivity|]; split; [reflexivity|]; split; [cbn [f_heap]; auto|].
Lemma reads_accessed : forall i sys sys', looks_same i sys sys' -> forall g, nth_error (f_gos sys) i = Some g ->
  exists g1 g2, nth_error (f_gos (f_act sys (FStep i))) i = Some g1 /\ nth_error (f_gos (f_act sys' (FStep i))) i = Some g2 /\
    point (g_pc g1) = point (g_pc g2) /\ g_own g1 = g_own g2 /\
    f_lock (f_act sys (FStep i)) = f_lock (f_act sys' (FStep i)) /\
    map (@List.length seg) (f_heap (f_act sys (FStep i))) = map (@List.length seg) (f_heap (f_act sys' (FStep i))) /\
    forall x w, may_access (f_heap sys) g x w -> holds_at (f_act sys (FStep i)) x = holds_at (f_act sys' (FStep i)) x.
Proof.
  intros i [h c l gs] [h' c' l' gs'] [HL [HG [HH HX]]] g N. cbn [f_lock f_gos f_heap] in *. subst l' gs'.
  specialize (HX g). pose proof (HX) as HX'.
  cbn [f_act f_gos]. rewrite N. destruct g as [p own].
  assert (NX : forall x w, may_access h (mkGo p own) x w -> holds_at (mkF h c l gs) x = holds_at (mkF h' c' l gs) x) by (intros; eapply HX; eauto).
  clear HX HX'. unfold f_step. cbn [g_pc g_own f_lock f_heap f_cache f_gos].
  assert (Stay : exists g1 g2, nth_error gs i = Some g1 /\ nth_error gs i = Some g2 /\ point (g_pc g1) = point (g_pc g2) /\ g_own g1 = g_own g2 /\
     l = l /\ map (@List.length seg) h = map (@List.length seg) h' /\
     forall x w, may_access h (mkGo p own) x w -> holds_at (mkF h c l gs) x = holds_at (mkF h' c' l gs) x).
  { exists (mkGo p own), (mkGo p own). repeat split; auto. }
  assert (Al : forall a : list seg, map (@List.length seg) (h ++ [a]) = map (@List.length seg) (h' ++ [a])) by (intros a; rewrite !map_app; congruence).
  destruct p.
  - exact Stay.
  - destruct (rlock l) eqn:R; [|exact Stay]. putsame N. intros x w A. inversion A; subst; discriminate.
  - assert (C : c = c') by (pose proof (NX _ _ (ma_look h path own)) as Q; cbn in Q; congruence). subst c'.
    destruct (map_get path c); putsame N; intros x w A; inversion A; subst; reflexivity || discriminate.
  - putsame N. intros x w A. inversion A; subst; discriminate.
  - rewrite (deref_len h h' cid HH). cbn [alloc]. rewrite (heap_len h h' HH). putsame N. intros x w A. inversion A; subst; discriminate.
  - rewrite (deref_len h h' cid HH).
    destruct (Nat.ltb_spec k (List.length (deref h' cid))) as [Lt|Ge].
    + assert (Lt' : k < List.length (deref h cid)) by (rewrite (deref_len h h' cid HH); exact Lt).
      pose proof (NX _ _ (ma_copy_from h path cid id k own Lt')) as Q1. pose proof (NX _ _ (ma_copy_to h path cid id k own Lt')) as Q2.
      cbn [holds_at f_heap] in Q1, Q2. assert (E : load h cid k = load h' cid k) by (apply load_same; congruence). rewrite E. putsame N.
      * now rewrite !store_lens.
      * intros x w A. inversion A; subst; cbn [holds_at f_heap]; f_equal; try discriminate.
        -- destruct (Nat.eq_dec cid id) as [->|D]; [now apply store_same|]. rewrite !deref_store_other by auto. congruence.
        -- now apply store_same.
    + putsame N. intros x w A. inversion A; subst; try discriminate; rewrite (deref_len h h' cid HH) in *; lia.
  - putsame N. intros x w A. inversion A; subst; discriminate.
  - destruct (parse_path_internal path) as [[segs|]| |]; cbn [alloc]; rewrite ?(heap_len h h' HH); putsame N; intros x w A; inversion A; subst; discriminate.
  - destruct (lock l) eqn:R; [|exact Stay]. putsame N. intros x w A. inversion A; subst; discriminate.
  - assert (C : c = c') by (pose proof (NX _ _ (ma_evict h path id own Reads)) as Q; cbn in Q; congruence). subst c'.
    putsame N. intros x w A. inversion A; subst; reflexivity || discriminate.
  - rewrite (deref_len h h' id HH). cbn [alloc]. rewrite (heap_len h h' HH). putsame N. intros x w A. inversion A; subst; discriminate.
  - rewrite (deref_len h h' id HH).
    destruct (Nat.ltb_spec k (List.length (deref h' id))) as [Lt|Ge].
    + assert (Lt' : k < List.length (deref h id)) by (rewrite (deref_len h h' id HH); exact Lt).
      pose proof (NX _ _ (ma_cache_from h path id cid k own Lt')) as Q1. pose proof (NX _ _ (ma_cache_to h path id cid k own Lt')) as Q2.
      cbn [holds_at f_heap] in Q1, Q2. assert (E : load h id k = load h' id k) by (apply load_same; congruence). rewrite E. putsame N.
      * now rewrite !store_lens.
      * intros x w A. inversion A; subst; cbn [holds_at f_heap]; f_equal; try discriminate.
        -- destruct (Nat.eq_dec id cid) as [->|D]; [now apply store_same|]. rewrite !deref_store_other by auto. congruence.
        -- now apply store_same.
    + putsame N. intros x w A. inversion A; subst; try discriminate; rewrite (deref_len h h' id HH) in *; lia.
  - assert (C : c = c') by (pose proof (NX _ _ (ma_put h path id cid own Reads)) as Q; cbn in Q; congruence). subst c'.
    putsame N. intros x w A. inversion A; subst; reflexivity || discriminate.
  - putsame N. intros x w A. inversion A; subst; discriminate.
  - exact Stay.
  - exact Stay.
Qed.

(** ** The bound *)
Definition late (p : pc) : bool := match p with QMakeC _ _ | QCopyC _ _ _ _ | QPut _ _ _ => true | _ => false end.
Definition bounded (sys : fsys) : Prop := List.length (f_cache sys) <= pathCacheLimit /\
  forall i g, nth_error (f_gos sys) i = Some g -> late (g_pc g) = true -> List.length (f_cache sys) < pathCacheLimit.
Lemma bounded_put : forall sys i g h l p own, bounded sys -> nth_error (f_gos sys) i = Some g -> (late p = true -> late (g_pc g) = true) ->
  bounded (mkF h (f_cache sys) l (set_nth i (mkGo p own) (f_gos sys))).
Proof.
  intros sys i g h l p own [B1 B2] N P. split; cbn [f_cache f_gos]; auto. intros j gj Nj L. apply set_get in Nj.
  destruct Nj as [[-> ->]|[D Nj]]; eauto.
Qed.
Lemma bounded_step : forall sys i g, excl sys -> bounded sys -> nth_error (f_gos sys) i = Some g -> bounded (f_step sys i g).
Proof.
  intros sys i g X B N. unfold f_step.
  assert (Alone : forall j gj, writing g = true -> i <> j -> nth_error (f_gos sys) j = Some gj -> late (g_pc gj) = false).
  { intros j gj W D Nj. destruct (late (g_pc gj)) eqn:L; auto. exfalso. apply D.
    apply (excl_one sys i j g gj X N Nj W). right. unfold writing. destruct (g_pc gj); cbn in *; auto; discriminate. }
  destruct g as [p own]. cbn [g_pc g_own] in *. destruct p; try exact B;
    repeat match goal with
      | |- context [match rlock ?z with _ => _ end] => destruct (rlock z)
      | |- context [match lock ?z with _ => _ end] => destruct (lock z)
      | |- context [match map_get ?y ?z with _ => _ end] => destruct (map_get y z)
      | |- context [match parse_path_internal ?z with _ => _ end] => destruct (parse_path_internal z) as [[|]| |]
      | |- context [if Nat.ltb ?y ?z then _ else _] => destruct (Nat.ltb_spec y z)
      end; cbn [alloc]; try exact B; try (eapply bounded_put; eauto; cbn; auto; fail).
  - destruct B as [B1 B2]. assert (Lt : List.length (if Nat.leb pathCacheLimit (List.length (f_cache sys)) then [] else f_cache sys) < pathCacheLimit).
    { destruct (Nat.leb_spec pathCacheLimit (List.length (f_cache sys))); auto. cbn [List.length]. unfold pathCacheLimit. lia. }
    split; cbn [f_cache f_gos]; [apply Nat.lt_le_incl; exact Lt|]. intros; exact Lt.
  - destruct B as [B1 B2]. pose proof (B2 _ _ N eq_refl) as Lt. pose proof (map_set_length _ path cid (f_cache sys)).
    split; cbn [f_cache f_gos]; [lia|]. intros j gj Nj L. apply set_get in Nj. destruct Nj as [[-> ->]|[D Nj]]; [discriminate|].
    rewrite (Alone j gj eq_refl D Nj) in L. discriminate.
Qed.
Lemma bounded_act : forall sys a, excl sys -> bounded sys -> bounded (f_act sys a).
Proof.
  intros sys a X B. destruct a as [i path|i|i id k x]; cbn [f_act]; destruct (nth_error (f_gos sys) i) as [g|] eqn:N; try exact B.
  - destruct (outside (g_pc g)) eqn:O; [|exact B]. eapply bounded_put; eauto. destruct path; discriminate.
  - now apply bounded_step.
  - destruct (outside (g_pc g) && existsb (Nat.eqb id) (g_own g)); exact B.
Qed.
Lemma bounded_run : forall l n, bounded (f_run (f_init n) l).
Proof.
  intros l n. assert (G : forall sys, excl sys -> bounded sys -> bounded (f_run sys l)).
  { induction l as [|a l IH]; intros sys X B; [exact B|]. cbn [f_run fold_left]. apply IH; [now apply excl_act|now apply bounded_act]. }
  apply G; [apply excl_init|]. split; cbn [f_init f_cache f_gos]; [cbn [List.length]; unfold pathCacheLimit; lia|].
  intros i g H. apply nth_error_In in H. apply repeat_spec in H. subst. discriminate.
Qed.

(** ** Progress *)
Lemma count_some : forall A (f : A -> bool) l, 0 < count f l -> exists i x, nth_error l i = Some x /\ f x = true.
Proof.
  unfold count. induction l as [|x l IH]; cbn [filter List.length]; intros H; [lia|]. destruct (f x) eqn:F.
  - exists 0, x. auto.
  - destruct (IH H) as [i [y [Q1 Q2]]]. exists (S i), y. auto.
Qed.
Lemma stuck_same : forall sys i g h c l g', nth_error (f_gos sys) i = Some g -> mkF h c l (set_nth i g' (f_gos sys)) = sys -> g' = g.
Proof.
  intros sys i g h c l g' N H. apply (f_equal f_gos) in H. cbn [f_gos] in H. pose proof (set_there _ i g' g _ N) as K. rewrite H in K. congruence.
Qed.
Lemma idle_lock : forall sys, excl sys -> (forall i g, nth_error (f_gos sys) i = Some g -> reading g = false /\ writing g = false) -> f_lock sys = rw_free.
Proof.
  intros sys [R W X] H.
  assert (R0 : count reading (f_gos sys) = 0).
  { destruct (count reading (f_gos sys)) eqn:C; auto. destruct (count_some _ reading (f_gos sys)) as [i [g [A B]]]; [lia|]. apply H in A. destruct A. congruence. }
  assert (W0 : count writing (f_gos sys) = 0).
  { destruct (count writing (f_gos sys)) eqn:C; auto. destruct (count_some _ writing (f_gos sys)) as [i [g [A B]]]; [lia|]. apply H in A. destruct A. congruence. }
  destruct (f_lock sys) as [w r]. cbn in *. unfold rw_free. destruct w; cbn in W; f_equal; lia.
Qed.
Lemma step_stuck : forall sys i g, nth_error (f_gos sys) i = Some g -> f_step sys i g = sys ->
  match g_pc g with
  | QIdle | QDone _ _ | QPanic _ => True
  | QRLock _ => rlock (f_lock sys) = None
  | QLock _ _ => lock (f_lock sys) = None
  | _ => False
  end.
Proof.
  intros sys i [p own] N H. unfold f_step in H. cbn [g_pc g_own] in *. destruct p; auto; cbn [alloc] in H;
    repeat match type of H with
      | context [match rlock ?z with _ => _ end] => destruct (rlock z); auto
      | context [match lock ?z with _ => _ end] => destruct (lock z); auto
      | context [match map_get ?y ?z with _ => _ end] => destruct (map_get y z)
      | context [match parse_path_internal ?z with _ => _ end] => destruct (parse_path_internal z) as [[|]| |]
      | context [if Nat.ltb ?y ?z then _ else _] => destruct (Nat.ltb_spec y z)
      end; cbn [alloc] in H; apply (stuck_same sys i _ _ _ _ _ N) in H; try discriminate.
  - injection H. lia.
  - injection H. lia.
Qed.
Lemma stuck_over : forall sys, excl sys -> (forall i, f_act sys (FStep i) = sys) ->
  f_lock sys = rw_free /\ forall i g, nth_error (f_gos sys) i = Some g -> outside (g_pc g) = true \/ exists path, g_pc g = QPanic path.
Proof.
  intros sys X H.
  assert (St : forall i g, nth_error (f_gos sys) i = Some g -> match g_pc g with
    | QIdle | QDone _ _ | QPanic _ => True | QRLock _ => rlock (f_lock sys) = None | QLock _ _ => lock (f_lock sys) = None | _ => False end).
  { intros i g N. apply (step_stuck sys i g N). specialize (H i). cbn [f_act] in H. rewrite N in H. exact H. }
  assert (L : f_lock sys = rw_free).
  { apply idle_lock; auto. intros i g N. apply St in N. unfold reading, writing. destruct (g_pc g); cbn; auto; destruct N. }
  split; auto. intros i g N. apply St in N. rewrite L in N. destruct (g_pc g); cbn in N |- *; try contradiction; try discriminate; auto. right. eauto.
Qed.

(** ** An end to every call *)
Definition plen (path : bytes) : nat := match parse_path_internal path with Ok (Some s) => List.length s | _ => 0 end.
Definition rank (p : pc) : nat :=
  match p with
  | QIdle | QDone _ _ | QPanic _ => 0
  | QUnlock _ _ => 1
  | QPut _ _ _ => 2
  | QCopyC path _ _ k => 3 + (plen path - k)
  | QMakeC path _ => 4 + plen path
  | QEvict path _ => 5 + plen path
  | QLock path _ => 6 + plen path
  | QParse path => 7 + plen path
  | QMiss path => 8 + plen path
  | QCopy path _ _ k => 1 + (plen path - k)
  | QMake path _ => 2 + plen path
  | QHit path _ => 3 + plen path
  | QLook path => 9 + plen path
  | QRLock path => 10 + plen path
  end.
Lemma fresh_len : forall path a, fresh_parse path a -> List.length a = plen path.
Proof. intros path a H. unfold plen. now rewrite H. Qed.
Definition total (sys : fsys) : nat := fold_right (fun g n => rank (g_pc g) + n) 0 (f_gos sys).
Lemma total_set : forall i g g' l, nth_error l i = Some g -> rank (g_pc g') < rank (g_pc g) ->
  fold_right (fun g n => rank (g_pc g) + n) 0 (set_nth i g' l) < fold_right (fun g n => rank (g_pc g) + n) 0 l.
Proof.
  induction i as [|i IH]; intros g g' l N L; destruct l as [|x l]; try discriminate; cbn [set_nth fold_right].
  - injection N as ->. lia.
  - specialize (IH g g' l N L). lia.
Qed.
Lemma rank_step : forall sys i g, finv sys -> nth_error (f_gos sys) i = Some g -> f_step sys i g = sys \/ total (f_step sys i g) < total sys.
Proof.
  intros sys i [p own] I N. pose proof (v_fact _ I _ _ N) as F. unfold f_step. cbn [g_pc g_own] in *.
  assert (P : forall h c l p' own', rank p' < rank p -> total (mkF h c l (set_nth i (mkGo p' own') (f_gos sys))) < total sys).
  { intros h c l p' own' L. unfold total. cbn [f_gos]. eapply total_set; [exact N|exact L]. }
  destruct p; auto;
    repeat match goal with
      | |- context [match rlock ?z with _ => _ end] => destruct (rlock z); auto
      | |- context [match lock ?z with _ => _ end] => destruct (lock z); auto
      | |- context [match map_get ?y ?z with _ => _ end] => destruct (map_get y z)
      | |- context [match parse_path_internal ?z with _ => _ end] => destruct (parse_path_internal z) as [[|]| |]
      | |- context [if Nat.ltb ?y ?z then _ else _] => destruct (Nat.ltb_spec y z)
      end; cbn [alloc]; right; apply P; cbn [rank]; try lia.
  - assert (Sh : In (path, cid) (f_cache sys) \/ (exists j gj, nth_error (f_gos sys) j = Some gj /\ In (path, cid) (views (g_pc gj)))).
    { right. exists i. eexists. split; [exact N|]. cbn. auto. }
    destruct (v_shared _ I _ _ Sh) as [_ [_ [C _]]]. apply fresh_len in C. lia.
  - destruct F as [_ [F _]]. apply fresh_len in F. lia.
Qed.
Lemma moves_bound : forall sys n sys', moves sys n sys' -> finv sys -> n <= total sys.
Proof.
  induction 1 as [sys|sys i n sys' D M IH]; intros I; [lia|].
  specialize (IH (finv_act _ _ I)). cbn [f_act] in *. destruct (nth_error (f_gos sys) i) as [g|] eqn:N; [|congruence].
  destruct (rank_step sys i g I N); [congruence|lia].
Qed.
