(** The path cache, step by step. *)
From Coq Require Import List Ascii String NArith ZArith Bool Lia.
From Verif Require Import GoStr ModelParser ModelPath ModelResult ModelConc ModelRace SpecRace ProofBase ProofFuel ProofFuel2 ProofConc.
Import ListNotations.
Local Open Scope nat_scope.

(** ** Counting *)
Definition b2n (b : bool) : nat := if b then 1 else 0.
Definition count {A} (f : A -> bool) (l : list A) : nat := List.length (filter f l).
Lemma count_set : forall A (f : A -> bool) i x y l, nth_error l i = Some y ->
  count f (set_nth i x l) + b2n (f y) = count f l + b2n (f x).
Proof.
  unfold count. induction i as [|i IH]; intros x y l H; destruct l as [|z l]; try discriminate; cbn [set_nth filter].
  - injection H as ->. destruct (f x), (f y); cbn [List.length b2n]; lia.
  - specialize (IH x y l H). destruct (f z); cbn [List.length]; lia.
Qed.
Lemma count_pos : forall A (f : A -> bool) i x l, nth_error l i = Some x -> f x = true -> 0 < count f l.
Proof.
  unfold count. induction i as [|i IH]; intros x l H F; destruct l as [|z l]; try discriminate; cbn [filter].
  - injection H as ->. rewrite F. cbn. lia.
  - specialize (IH x l H F). destruct (f z); cbn [List.length]; lia.
Qed.
Lemma count_two : forall A (f : A -> bool) l i j x y, nth_error l i = Some x -> nth_error l j = Some y ->
  f x = true -> f y = true -> i <> j -> 2 <= count f l.
Proof.
  unfold count. induction l as [|z l IH]; intros i j x y Hi Hj Fx Fy N; [destruct i; discriminate|].
  cbn [filter]. destruct i as [|i], j as [|j]; cbn [nth_error] in *; [congruence| | |].
  - injection Hi as ->. rewrite Fx. cbn [List.length]. pose proof (count_pos _ f j y l Hj Fy). unfold count in *. lia.
  - injection Hj as ->. rewrite Fy. cbn [List.length]. pose proof (count_pos _ f i x l Hi Fx). unfold count in *. lia.
  - assert (2 <= List.length (filter f l)) by (eapply (IH i j); eauto; congruence). destruct (f z); cbn [List.length]; lia.
Qed.
Lemma count_repeat : forall A (f : A -> bool) x n, f x = false -> count f (repeat x n) = 0.
Proof. unfold count. induction n; intros H; cbn [repeat filter]; auto. rewrite H. auto. Qed.
Lemma set_get : forall A i j (x y : A) l, nth_error (set_nth i x l) j = Some y ->
  (i = j /\ y = x) \/ (i <> j /\ nth_error l j = Some y).
Proof.
  intros A i j x y l H. rewrite nth_error_set_nth in H. destruct (Nat.eqb_spec i j); [|auto].
  destruct (nth_error l j); [|discriminate]. injection H as <-. auto.
Qed.
Lemma set_there : forall A i (x y : A) l, nth_error l i = Some y -> nth_error (set_nth i x l) i = Some x.
Proof. intros. rewrite nth_error_set_nth, Nat.eqb_refl, H. auto. Qed.
Lemma set_elsewhere : forall A i j (x : A) l, i <> j -> nth_error (set_nth i x l) j = nth_error l j.
Proof. intros. rewrite nth_error_set_nth. destruct (Nat.eqb_spec i j); congruence. Qed.
Lemma set_same : forall A i (x : A) l, nth_error l i = Some x -> set_nth i x l = l.
Proof. induction i; destruct l; cbn; intros H; try discriminate; [injection H as ->; auto|]. f_equal; auto. Qed.

(** ** Mutual exclusion *)
Definition p_reading (p : pc) : bool := match p with QLook _ | QHit _ _ | QMiss _ => true | _ => false end.
Definition p_writing (p : pc) : bool :=
  match p with QEvict _ _ | QMakeC _ _ | QCopyC _ _ _ _ | QPut _ _ _ | QUnlock _ _ => true | _ => false end.
Definition reading (g : go) : bool := p_reading (g_pc g).
Definition writing (g : go) : bool := p_writing (g_pc g).
Record lock_ok (l : rwmutex) (nr nw : nat) : Prop := {
  lo_r : nr = r_held l;
  lo_w : nw = b2n (w_held l);
  lo_x : w_held l = true -> r_held l = 0 }.
Lemma lock_rlock : forall l l' nr nw, lock_ok l nr nw -> rlock l = Some l' -> lock_ok l' (S nr) nw.
Proof.
  intros [w r] l' nr nw [R W X] H. unfold rlock in H. cbn in *. destruct w; [discriminate|]. injection H as <-.
  subst. split; cbn; auto. discriminate.
Qed.
Lemma lock_runlock : forall l nr nw, lock_ok l (S nr) nw -> lock_ok (runlock l) nr nw.
Proof. intros [w r] nr nw [R W X]. cbn in *. subst. split; cbn; auto. intros K. apply X in K. discriminate. Qed.
Lemma lock_lock : forall l l' nr nw, lock_ok l nr nw -> lock l = Some l' -> lock_ok l' nr (S nw).
Proof.
  intros [w r] l' nr nw [R W X] H. unfold lock in H. cbn in *. destruct w; [discriminate|]. destruct r; [|discriminate].
  injection H as <-. subst. split; cbn; auto.
Qed.
Lemma lock_unlock : forall l nr nw, lock_ok l nr (S nw) -> lock_ok (unlock l) nr nw.
Proof.
  intros [w r] nr nw [R W X]. cbn in *. subst. destruct w; cbn in W; [|discriminate]. injection W as ->. split; cbn; auto.
Qed.

Definition excl (sys : fsys) : Prop := lock_ok (f_lock sys) (count reading (f_gos sys)) (count writing (f_gos sys)).
Lemma excl_init : forall n, excl (f_init n).
Proof. intros n. unfold excl, f_init. cbn [f_lock f_gos]. rewrite !count_repeat by reflexivity. split; cbn; auto. Qed.

Lemma excl_put : forall sys i g p own h c, excl sys -> nth_error (f_gos sys) i = Some g ->
  p_reading p = reading g -> p_writing p = writing g ->
  excl (mkF h c (f_lock sys) (set_nth i (mkGo p own) (f_gos sys))).
Proof.
  intros sys i g p own h c X N R W. unfold excl in *. cbn [f_lock f_gos].
  pose proof (count_set _ reading i (mkGo p own) g _ N) as A. pose proof (count_set _ writing i (mkGo p own) g _ N) as B.
  unfold reading at 4 in A. unfold writing at 4 in B. cbn [g_pc] in A, B. rewrite R in A. rewrite W in B.
  replace (count reading (set_nth i (mkGo p own) (f_gos sys))) with (count reading (f_gos sys)) by lia.
  replace (count writing (set_nth i (mkGo p own) (f_gos sys))) with (count writing (f_gos sys)) by lia. exact X.
Qed.
Ltac counts N :=
  match goal with |- lock_ok _ (count reading (set_nth ?i ?x ?l)) _ =>
    let A := fresh "A" in let B := fresh "B" in
    pose proof (count_set _ reading i x _ _ N) as A; pose proof (count_set _ writing i x _ _ N) as B;
    cbn [reading writing p_reading p_writing g_pc b2n] in A, B end.
Lemma excl_step : forall sys i g, excl sys -> nth_error (f_gos sys) i = Some g -> excl (f_step sys i g).
Proof.
  intros sys i [p own] X N. unfold f_step. cbn [g_pc g_own].
  destruct p; auto;
    try (destruct (map_get path (f_cache sys)); eapply excl_put; eauto; fail);
    try (cbn [alloc]; eapply excl_put; eauto; fail);
    try (destruct (Nat.ltb k _); eapply excl_put; eauto; fail).
  - destruct (rlock (f_lock sys)) as [l'|] eqn:L; auto. unfold excl. cbn [f_lock f_gos]. counts N.
    eapply lock_rlock in L; [|exact X]. match goal with |- lock_ok _ ?a ?b => replace a with (S (count reading (f_gos sys))) by lia;
      replace b with (count writing (f_gos sys)) by lia end. exact L.
  - unfold excl. cbn [f_lock f_gos]. counts N. apply lock_runlock.
    match goal with |- lock_ok _ (S ?a) ?b => replace (S a) with (count reading (f_gos sys)) by lia; replace b with (count writing (f_gos sys)) by lia end. exact X.
  - unfold excl. cbn [f_lock f_gos]. counts N. apply lock_runlock.
    match goal with |- lock_ok _ (S ?a) ?b => replace (S a) with (count reading (f_gos sys)) by lia; replace b with (count writing (f_gos sys)) by lia end. exact X.
  - destruct (parse_path_internal path) as [[|]| |]; cbn [alloc]; eapply excl_put; eauto.
  - destruct (lock (f_lock sys)) as [l'|] eqn:L; auto. unfold excl. cbn [f_lock f_gos]. counts N.
    eapply lock_lock in L; [|exact X]. match goal with |- lock_ok _ ?a ?b => replace a with (count reading (f_gos sys)) by lia;
      replace b with (S (count writing (f_gos sys))) by lia end. exact L.
  - unfold excl. cbn [f_lock f_gos]. counts N. apply lock_unlock.
    match goal with |- lock_ok _ ?a (S ?b) => replace a with (count reading (f_gos sys)) by lia; replace (S b) with (count writing (f_gos sys)) by lia end. exact X.
Qed.
Lemma q_call_out : forall path, p_reading (q_call path) = false /\ p_writing (q_call path) = false.
Proof. intros [|a l]; auto. Qed.
Lemma outside_none : forall p, outside p = true -> p_reading p = false /\ p_writing p = false.
Proof. destruct p; cbn; auto; discriminate. Qed.
Lemma excl_act : forall sys a, excl sys -> excl (f_act sys a).
Proof.
  intros sys a X. destruct a as [i path|i|i id k x]; cbn [f_act]; destruct (nth_error (f_gos sys) i) as [g|] eqn:N; auto.
  - destruct (outside (g_pc g)) eqn:O; auto. apply outside_none in O. destruct O as [O1 O2]. destruct (q_call_out path) as [Q1 Q2].
    eapply excl_put; eauto; unfold reading, writing; congruence.
  - now apply excl_step.
  - destruct (outside (g_pc g) && existsb (Nat.eqb id) (g_own g)); auto.
Qed.
(** One writer at most, and then no reader. *)
Lemma excl_one : forall sys i j gi gj, excl sys -> nth_error (f_gos sys) i = Some gi -> nth_error (f_gos sys) j = Some gj ->
  writing gi = true -> reading gj = true \/ writing gj = true -> i = j.
Proof.
  intros sys i j gi gj [R W X] Ni Nj Wi Wj. destruct (Nat.eq_dec i j) as [|D]; auto. exfalso.
  pose proof (count_pos _ writing i gi _ Ni Wi) as P. destruct Wj as [Rj|Wj].
  - pose proof (count_pos _ reading j gj _ Nj Rj). destruct (w_held (f_lock sys)); cbn [b2n] in W; [rewrite X in R by auto|]; lia.
  - pose proof (count_two _ writing _ i j _ _ Ni Nj Wi Wj D). destruct (w_held (f_lock sys)); cbn [b2n] in W; lia.
Qed.

(** ** Who holds which slice *)
(** Slices nobody else knows. *)
Definition p_pins (p : pc) : list nat :=
  match p with
  | QCopy _ _ id _ => [id]
  | QLock _ id | QEvict _ id | QMakeC _ id | QUnlock _ id => [id]
  | QCopyC _ id cid _ | QPut _ id cid => [id; cid]
  | _ => []
  end.
Definition pins (g : go) : list nat := p_pins (g_pc g) ++ g_own g.
(** Slices taken from the cache. *)
Definition views (p : pc) : list (bytes * nat) :=
  match p with QHit path cid | QMake path cid | QCopy path cid _ _ => [(path, cid)] | _ => [] end.
(** What is true at each program point. *)
Definition fact (h : heap) (p : pc) : Prop :=
  match p with
  | QIdle => True
  | QRLock path | QLook path | QHit path _ | QMake path _ | QMiss path | QParse path => path <> []
  | QCopy path cid id k => path <> [] /\ List.length (deref h id) = List.length (deref h cid) /\
      firstn k (deref h id) = firstn k (deref h cid) /\ k <= List.length (deref h cid)
  | QLock path id | QEvict path id | QMakeC path id | QUnlock path id => path <> [] /\ fresh_parse path (deref h id)
  | QCopyC path id cid k => path <> [] /\ fresh_parse path (deref h id) /\ id < cid /\
      List.length (deref h cid) = List.length (deref h id) /\ firstn k (deref h cid) = firstn k (deref h id) /\ k <= List.length (deref h id)
  | QPut path id cid => path <> [] /\ fresh_parse path (deref h id) /\ id < cid /\ deref h cid = deref h id
  | QDone path r => parse_path path = Ok r
  | QPanic path => parse_path path = Panic
  end.
Record finv (sys : fsys) : Prop := {
  v_shared : forall path id, In (path, id) (f_cache sys) \/ (exists i g, nth_error (f_gos sys) i = Some g /\ In (path, id) (views (g_pc g))) ->
    path <> [] /\ id < List.length (f_heap sys) /\ fresh_parse path (deref (f_heap sys) id) /\
    forall i g, nth_error (f_gos sys) i = Some g -> ~ In id (pins g);
  v_pins : forall i g id, nth_error (f_gos sys) i = Some g -> In id (pins g) ->
    id < List.length (f_heap sys) /\ forall j g', nth_error (f_gos sys) j = Some g' -> In id (pins g') -> i = j;
  v_fact : forall i g, nth_error (f_gos sys) i = Some g -> fact (f_heap sys) (g_pc g);
  v_nodup : forall i g, nth_error (f_gos sys) i = Some g -> NoDup (pins g) }.

(** A step of goroutine [i] that writes only to its own slices, keeps slices it holds or
    allocates new ones, and publishes at most slices it then gives up. *)
Lemma fact_keep : forall h h' p, fact h p ->
  (forall id, In id (p_pins p) -> deref h' id = deref h id) -> (forall path id, In (path, id) (views p) -> deref h' id = deref h id) ->
  fact h' p.
Proof.
  intros h h' p F P V. destruct p; cbn [fact p_pins views In] in *; auto.
  - rewrite (P id) by auto. rewrite (V path cid) by auto. auto.
  - rewrite (P id) by auto. auto.
  - rewrite (P id) by auto. auto.
  - rewrite (P id) by auto. auto.
  - rewrite (P id) by auto. rewrite (P cid) by auto. auto.
  - rewrite (P id) by auto. rewrite (P cid) by auto. auto.
  - rewrite (P id) by auto. auto.
Qed.
Lemma finv_move : forall sys i g h' c' l' g', finv sys -> nth_error (f_gos sys) i = Some g ->
  List.length (f_heap sys) <= List.length h' ->
  (forall id, id < List.length (f_heap sys) -> ~ In id (pins g) -> deref h' id = deref (f_heap sys) id) ->
  (forall id, In id (pins g') -> In id (pins g) \/ (List.length (f_heap sys) <= id < List.length h')) ->
  (forall path id, In (path, id) (views (g_pc g')) -> In (path, id) (views (g_pc g)) \/ In (path, id) (f_cache sys)) ->
  (forall path id, In (path, id) c' -> In (path, id) (f_cache sys) \/
     (path <> [] /\ In id (pins g) /\ ~ In id (pins g') /\ fresh_parse path (deref h' id))) ->
  fact h' (g_pc g') -> NoDup (pins g') ->
  finv (mkF h' c' l' (set_nth i g' (f_gos sys))).
Proof.
  intros sys i g h' c' l' g' I N Len Same Pin View Cache Fact ND. pose proof I as [V1 V2 V3 V4].
  assert (Old : forall path id, In (path, id) (f_cache sys) \/ (exists j gj, nth_error (f_gos sys) j = Some gj /\ In (path, id) (views (g_pc gj))) ->
    path <> [] /\ id < List.length h' /\ fresh_parse path (deref h' id) /\
    forall j gj, nth_error (set_nth i g' (f_gos sys)) j = Some gj -> ~ In id (pins gj)).
  { intros path id H. destruct (V1 _ _ H) as [A [B [C D]]]. repeat split; auto; [lia| |].
    - rewrite Same; auto. eapply D; eauto.
    - intros j gj Nj K. apply set_get in Nj. destruct Nj as [[_ ->]|[_ Nj]]; [|eapply D; eauto].
      apply Pin in K. destruct K as [K|K]; [eapply D; eauto|lia]. }
  split; cbn [f_heap f_cache f_gos].
  - intros path id [H|[j [gj [Nj H]]]].
    + apply Cache in H. destruct H as [H|[A [B [C D]]]]; [apply Old; auto|].
      destruct (V2 _ _ _ N B) as [B1 B2]. repeat split; auto; [lia|].
      intros j gj Nj K. apply set_get in Nj. destruct Nj as [[_ ->]|[Dj Nj]]; [auto|]. apply Dj. eapply B2; eauto.
    + apply set_get in Nj. destruct Nj as [[_ ->]|[_ Nj]].
      * apply View in H. apply Old. destruct H as [H|H]; [right; eauto|auto].
      * apply Old. right. eauto.
  - intros j gj id Nj K. apply set_get in Nj. destruct Nj as [[-> ->]|[Dj Nj]].
    + apply Pin in K. destruct K as [K|K].
      * destruct (V2 _ _ _ N K) as [B1 B2]. split; [lia|]. intros j' gj' Nj' K'. apply set_get in Nj'.
        destruct Nj' as [[-> ->]|[Dj' Nj']]; [auto|]. eapply B2; eauto.
      * split; [lia|]. intros j' gj' Nj' K'. apply set_get in Nj'. destruct Nj' as [[-> ->]|[Dj' Nj']]; [auto|].
        destruct (V2 _ _ _ Nj' K') as [B1 _]. lia.
    + destruct (V2 _ _ _ Nj K) as [B1 B2]. split; [lia|]. intros j' gj' Nj' K'. apply set_get in Nj'.
      destruct Nj' as [[<- ->]|[Dj' Nj']]; [|eapply B2; eauto].
      apply Pin in K'. destruct K' as [K'|K']; [|lia]. eapply B2; eauto.
  - intros j gj Nj. apply set_get in Nj. destruct Nj as [[_ ->]|[Dj Nj]]; [exact Fact|].
    eapply fact_keep; [eapply V3; eauto| |].
    + intros id K. assert (K' : In id (pins gj)) by (unfold pins; apply in_or_app; auto).
      destruct (V2 _ _ _ Nj K') as [B1 B2]. apply Same; auto. intros Q. apply Dj. symmetry. eapply B2; eauto.
    + intros path id K. assert (Sh : In (path, id) (f_cache sys) \/ (exists j gj, nth_error (f_gos sys) j = Some gj /\ In (path, id) (views (g_pc gj)))) by (right; eauto).
      destruct (V1 _ _ Sh) as [A [B [C D]]]. apply Same; auto. eapply D; eauto.
  - intros j gj Nj. apply set_get in Nj. destruct Nj as [[_ ->]|[Dj Nj]]; [exact ND|eauto].
Qed.

Lemma finv_init : forall n, finv (f_init n).
Proof.
  assert (R : forall n i g, nth_error (repeat (mkGo QIdle []) n) i = Some g -> g = mkGo QIdle []).
  { intros n i g H. apply nth_error_In in H. now apply repeat_spec in H. }
  intros n. split; cbn [f_init f_heap f_cache f_gos].
  - intros path id [[]|[i [g [H K]]]]. apply R in H. subst. destruct K.
  - intros i g id H K. apply R in H. subst. destruct K.
  - intros i g H. apply R in H. subst. exact I.
  - intros i g H. apply R in H. subst. constructor.
Qed.

(** Writing one element. *)
Lemma deref_store : forall h id k x, id < List.length h -> deref (store h id k x) id = set_nth k x (deref h id).
Proof.
  intros h id k x. unfold store. generalize (set_nth k x (deref h id)). revert id. induction h as [|y h IH]; intros id a H; cbn in *; [lia|].
  destruct id; cbn; auto. apply (IH id a). lia.
Qed.
Lemma deref_store_other : forall h id k x j, j <> id -> deref (store h id k x) j = deref h j.
Proof. intros. unfold store. now apply deref_set_nth. Qed.
Lemma store_length : forall h id k x, List.length (store h id k x) = List.length h.
Proof. intros. unfold store. apply set_nth_length. Qed.
Lemma firstn_set : forall A k (x d : A) a b, List.length a = List.length b -> k < List.length b -> firstn k a = firstn k b ->
  x = nth k b d -> firstn (S k) (set_nth k x a) = firstn (S k) b.
Proof.
  induction k as [|k IH]; intros x d a b L H F E; destruct a as [|y a], b as [|z b]; cbn in *; try lia; subst; auto.
  injection F as -> F. f_equal. apply (IH _ d); auto; lia.
Qed.
Lemma deref_app_old : forall h a id, id < List.length h -> deref (h ++ [a]) id = deref h id.
Proof. intros. now apply deref_alloc_old. Qed.

Lemma finv_step : forall sys i g, finv sys -> nth_error (f_gos sys) i = Some g -> finv (f_step sys i g).
Proof.
  intros sys i [p own] I N. pose proof I as [V1 V2 V3 V4]. pose proof (V3 _ _ N) as F. pose proof (V4 _ _ N) as ND.
  assert (Fresh : forall ids, (forall x, In x ids -> In x (pins (mkGo p own))) -> NoDup ids -> NoDup (List.length (f_heap sys) :: ids)).
  { intros ids A B. constructor; auto. intros K. apply A in K. destruct (V2 _ _ _ N K). lia. }
  assert (Triv : forall c' l' p', p_pins p' = p_pins p \/ p_pins p' = [] -> (forall q id, In (q, id) (views p') -> In (q, id) (views p) \/ In (q, id) (f_cache sys)) ->
     (forall q id, In (q, id) c' -> In (q, id) (f_cache sys)) -> fact (f_heap sys) p' ->
     finv (mkF (f_heap sys) c' l' (set_nth i (mkGo p' own) (f_gos sys)))).
  { intros c' l' p' A B C D. eapply finv_move; eauto; unfold pins in *; cbn [g_pc g_own] in *; destruct A as [A|A]; rewrite A; auto.
    - intros id K. left. apply in_or_app. auto.
    - revert ND. clear. induction (p_pins p) as [|x l IH]; auto. cbn. intros H. inversion H. auto. }
  unfold f_step. cbn [g_pc g_own] in *. destruct p; cbn [fact] in F; try exact I.
  - destruct (rlock (f_lock sys)); [|exact I]. apply Triv; cbn; auto; tauto.
  - destruct (map_get path (f_cache sys)) as [cid|] eqn:G; apply Triv; cbn; auto; try tauto.
    intros q id [K|[]]. injection K as <- <-. right. now apply map_get_In.
  - apply Triv; cbn; auto; tauto.
  - (* make *)
    assert (Sh : In (path, cid) (f_cache sys) \/ (exists j gj, nth_error (f_gos sys) j = Some gj /\ In (path, cid) (views (g_pc gj)))).
    { right. exists i. eexists. split; [exact N|]. cbn. auto. }
    destruct (V1 _ _ Sh) as [A [B [C D]]]. cbn [alloc]. eapply finv_move; eauto.
    + rewrite app_length. lia.
    + intros id L _. now apply deref_app_old.
    + unfold pins. cbn [g_pc g_own p_pins]. intros id K. cbn [app In] in K. rewrite app_length. cbn [List.length]. destruct K as [<-|K]; [right; lia|auto].
    + cbn [g_pc fact]. rewrite deref_alloc_new, deref_app_old by auto. unfold make_segs. rewrite List.repeat_length. cbn. repeat split; auto. lia.
    + apply (Fresh own); auto.
  - (* copy *)
    assert (Sh : In (path, cid) (f_cache sys) \/ (exists j gj, nth_error (f_gos sys) j = Some gj /\ In (path, cid) (views (g_pc gj)))).
    { right. exists i. eexists. split; [exact N|]. cbn. auto. }
    destruct (V1 _ _ Sh) as [A [B [C D]]]. destruct F as [F0 [F1 [F2 F3]]].
    assert (P : In id (pins (mkGo (QCopy path cid id k) own))) by (cbn; auto).
    destruct (V2 _ _ _ N P) as [P1 P2].
    assert (NE : cid <> id). { intros ->. eapply D; eauto. }
    destruct (Nat.ltb_spec k (List.length (deref (f_heap sys) cid))) as [L|L].
    + eapply finv_move; eauto.
      * rewrite store_length. lia.
      * intros x Lx Nx. apply deref_store_other. intros ->. auto.
      * cbn [g_pc fact]. rewrite deref_store, (deref_store_other _ _ _ _ cid) by auto. rewrite set_nth_length. repeat split; auto.
        apply (firstn_set _ k _ zero_seg); auto.
    + assert (E : deref (f_heap sys) id = deref (f_heap sys) cid).
      { rewrite <- (firstn_all2 (n:=k) (deref (f_heap sys) id)) by lia. rewrite <- (firstn_all2 (n:=k) (deref (f_heap sys) cid)) by lia. exact F2. }
      eapply finv_move; eauto.
      * cbn. tauto.
      * cbn [g_pc fact]. rewrite E. now apply fresh_parse_path.
  - apply Triv; cbn; auto; tauto.
  - (* parse *)
    assert (PP : parse_path path = let* r := parse_path_internal path in match r with None => Ok [] | Some ss => Ok ss end).
    { destruct path; [easy|reflexivity]. }
    destruct (parse_path_internal path) as [[segs|]| |] eqn:P.
    + cbn [alloc]. eapply finv_move; eauto.
      * rewrite app_length. lia.
      * intros id L _. now apply deref_app_old.
      * unfold pins. cbn [g_pc g_own p_pins]. intros id K. cbn [app In] in K. rewrite app_length. cbn [List.length]. destruct K as [<-|K]; [right; lia|auto].
      * cbn [g_pc fact]. rewrite deref_alloc_new. split; auto.
      * apply (Fresh own); auto.
    + apply Triv; cbn; auto; tauto.
    + apply Triv; cbn; auto; tauto.
    + exfalso. cbn [bind] in PP. exact (parse_path_fin path PP).
  - destruct (lock (f_lock sys)); [|exact I]. apply Triv; cbn; auto; tauto.
  - apply Triv; [left; reflexivity|cbn; tauto| |exact F]. intros q x K. destruct (Nat.leb pathCacheLimit (List.length (f_cache sys))); auto. destruct K.
  - (* make *)
    assert (P : In id (pins (mkGo (QMakeC path id) own))) by (cbn; auto).
    destruct (V2 _ _ _ N P) as [P1 P2]. cbn [alloc]. eapply finv_move; eauto.
    + rewrite app_length. lia.
    + intros x L _. now apply deref_app_old.
    + unfold pins. cbn [g_pc g_own p_pins]. intros x K. cbn [app In] in K. rewrite app_length. cbn [List.length]. cbn [app In].
      destruct K as [<-|[<-|K]]; [auto|right; lia|auto].
    + cbn [g_pc fact]. rewrite deref_alloc_new, deref_app_old by auto. unfold make_segs. rewrite List.repeat_length. cbn. destruct F. repeat split; auto. lia.
    + unfold pins in *. cbn [g_pc g_own p_pins app] in *. inversion ND. subst. constructor; [|apply (Fresh own); auto; cbn; auto].
      intros [K|K]; [lia|auto].
  - (* copy *)
    destruct F as [F0 [F1 [F2 [F3 [F4 F5]]]]].
    assert (P : In cid (pins (mkGo (QCopyC path id cid k) own))) by (cbn; auto).
    destruct (V2 _ _ _ N P) as [P1 P2].
    destruct (Nat.ltb_spec k (List.length (deref (f_heap sys) id))) as [L|L].
    + eapply finv_move; eauto.
      * rewrite store_length. lia.
      * intros x Lx Nx. apply deref_store_other. intros ->. auto.
      * cbn [g_pc fact]. rewrite deref_store, (deref_store_other _ _ _ _ id) by (auto; lia). rewrite set_nth_length. repeat split; auto.
        apply (firstn_set _ k _ zero_seg); auto.
    + assert (E : deref (f_heap sys) cid = deref (f_heap sys) id).
      { rewrite <- (firstn_all2 (n:=k) (deref (f_heap sys) id)) by lia. rewrite <- (firstn_all2 (n:=k) (deref (f_heap sys) cid)) by lia. exact F4. }
      apply Triv; cbn; auto; tauto.
  - (* publish *)
    destruct F as [F0 [F1 [F2 F3]]]. eapply finv_move; eauto.
    + unfold pins. cbn [g_pc g_own p_pins]. cbn. tauto.
    + intros q x K. apply map_set_In in K. destruct K as [[-> ->]|K]; auto. right. repeat split; auto.
      * cbn. auto.
      * unfold pins. cbn [g_pc g_own p_pins]. cbn. intros [K|K]; [lia|].
        apply in_split in K. destruct K as [l1 [l2 K]]. cbn in ND. rewrite K in ND. inversion ND as [|? ? _ ND']. inversion ND' as [|? ? Q _]. apply Q, in_elt.
      * rewrite F3. exact F1.
    + cbn. auto.
    + unfold pins in *. cbn [g_pc g_own p_pins app] in *. inversion ND as [|? ? Q1 Q2]. inversion Q2. subst. constructor; auto. intros K. apply Q1. now right.
  - destruct F as [F0 F1]. eapply finv_move; eauto.
    + cbn [g_pc fact]. now apply fresh_parse_path.
Qed.
Lemma finv_act : forall sys a, finv sys -> finv (f_act sys a).
Proof.
  intros sys a I. destruct a as [i path|i|i id k x]; cbn [f_act]; destruct (nth_error (f_gos sys) i) as [g|] eqn:N; try exact I.
  - destruct (outside (g_pc g)) eqn:O; [|exact I].
    assert (P : p_pins (q_call path) = []) by (destruct path; auto).
    assert (Q : views (q_call path) = []) by (destruct path; auto).
    eapply finv_move; eauto; unfold pins; cbn [g_pc g_own]; rewrite ?P, ?Q; cbn [app].
    + intros id K. left. apply in_or_app. auto.
    + intros p id [].
    + destruct path; cbn; auto. discriminate.
    + pose proof (v_nodup _ I _ _ N) as ND. unfold pins in ND. revert ND. induction (p_pins (g_pc g)) as [|y l IH]; auto. cbn. intros H. inversion H. auto.
  - now apply finv_step.
  - destruct (outside (g_pc g) && existsb (Nat.eqb id) (g_own g)) eqn:X; [|exact I].
    apply andb_prop in X. destruct X as [O X]. apply existsb_exists in X. destruct X as [id' [X1 X2]]. apply Nat.eqb_eq in X2. subst id'.
    rewrite <- (set_same _ i g (f_gos sys) N). eapply finv_move; eauto.
    + rewrite store_length. lia.
    + intros y L Ny. apply deref_store_other. intros ->. apply Ny. unfold pins. apply in_or_app. auto.
    + pose proof (v_fact _ I _ _ N) as F. destruct (g_pc g); cbn in O; try discriminate; exact F.
    + exact (v_nodup _ I _ _ N).
Qed.
Definition good_sys (sys : fsys) : Prop := excl sys /\ finv sys.
Lemma good_run : forall l n, good_sys (f_run (f_init n) l).
Proof.
  intros l n. assert (G : forall sys, good_sys sys -> good_sys (f_run sys l)).
  { induction l as [|a l IH]; intros sys [X I]; [split; auto|]. cbn [f_run fold_left]. apply IH. split; [now apply excl_act|now apply finv_act]. }
  apply G. split; [apply excl_init|apply finv_init].
Qed.

(** ** No data race *)
Lemma touch_map : forall h g w, may_access h g TheMap w -> reading g = true \/ writing g = true.
Proof. intros h g w H. inversion H; subst; cbn; auto. Qed.
Lemma write_map : forall h g, may_access h g TheMap Writes -> writing g = true.
Proof. intros h g H. inversion H; subst; reflexivity. Qed.
Lemma write_element : forall h g id k, may_access h g (Element id k) Writes -> In id (pins g).
Proof. intros h g id k H. inversion H; subst; unfold pins; cbn; auto. apply in_or_app. auto. Qed.
Lemma touch_element : forall h g id k w, may_access h g (Element id k) w -> In id (pins g) \/ exists path, In (path, id) (views (g_pc g)).
Proof. intros h g id k w H. inversion H; subst; unfold pins; cbn; eauto. left. apply in_or_app. auto. Qed.
Lemma no_race : forall sys, good_sys sys -> ~ race sys.
Proof.
  intros sys [X I] [i [j [gi [gj [x [w [D [Ni [Nj [A B]]]]]]]]]]. destruct x as [|id k].
  - apply D. apply (excl_one sys i j gi gj X Ni Nj); [exact (write_map _ _ A)|exact (touch_map _ _ _ B)].
  - apply write_element in A. destruct (touch_element _ _ _ _ _ B) as [K|[path K]].
    + apply D. exact (proj2 (v_pins _ I _ _ _ Ni A) _ _ Nj K).
    + assert (Sh : In (path, id) (f_cache sys) \/ (exists j gj, nth_error (f_gos sys) j = Some gj /\ In (path, id) (views (g_pc gj)))) by (right; eauto).
      destruct (v_shared _ I _ _ Sh) as [_ [_ [_ Q]]]. exact (Q _ _ Ni A).
Qed.

(** ** The list of accesses is complete *)
Lemma nth_set_other : forall A k j (x : A) l, j <> k -> nth_error (set_nth k x l) j = nth_error l j.
Proof. intros. apply set_elsewhere. auto. Qed.
Lemma store_change : forall h id k x j m, nth_error (deref (store h id k x) j) m <> nth_error (deref h j) m -> j = id /\ m = k.
Proof.
  intros h id k x j m H. destruct (Nat.eq_dec j id) as [->|D]; [|rewrite deref_store_other in H by auto; congruence].
  destruct (Nat.lt_ge_cases id (List.length h)) as [L|L].
  - rewrite deref_store in H by auto. destruct (Nat.eq_dec m k) as [->|E]; auto. rewrite nth_set_other in H by auto. congruence.
  - exfalso. apply H. unfold store. replace (set_nth id (set_nth k x (deref h id)) h) with h; auto.
    clear H. assert (forall a, h = set_nth id a h); auto. revert id L. induction h as [|y h IH]; intros id L a; destruct id; cbn in *; auto; try lia.
    f_equal. apply IH. lia.
Qed.
Lemma changes_accessed : forall sys a x, exists_in sys x -> holds_at (f_act sys a) x <> holds_at sys x ->
  exists g, nth_error (f_gos sys) (actor a) = Some g /\ may_access (f_heap sys) g x Writes.
Proof.
  intros sys a x E H. destruct a as [i path|i|i id k v]; cbn [f_act actor] in *; destruct (nth_error (f_gos sys) i) as [g|] eqn:N; try congruence.
  - destruct (outside (g_pc g)); destruct x; cbn [holds_at f_cache f_heap] in H; congruence.
  - exists g. split; auto. destruct g as [p own]. unfold f_step in H. cbn [g_pc g_own] in H.
    destruct x as [|id k]; cbn [holds_at exists_in] in *.
    + destruct p; cbn [alloc] in H; try congruence;
        repeat match type of H with
          | context [match rlock ?z with _ => _ end] => destruct (rlock z)
          | context [match lock ?z with _ => _ end] => destruct (lock z)
          | context [match map_get ?y ?z with _ => _ end] => destruct (map_get y z)
          | context [match parse_path_internal ?z with _ => _ end] => destruct (parse_path_internal z) as [[|]| |]
          | context [if Nat.ltb ?y ?z then _ else _] => destruct (Nat.ltb_spec y z)
          end; cbn [f_cache alloc] in H; try congruence; constructor.
    + destruct p; cbn [alloc] in H; try congruence;
        repeat match type of H with
          | context [match rlock ?z with _ => _ end] => destruct (rlock z)
          | context [match lock ?z with _ => _ end] => destruct (lock z)
          | context [match map_get ?y ?z with _ => _ end] => destruct (map_get y z)
          | context [match parse_path_internal ?z with _ => _ end] => destruct (parse_path_internal z) as [[|]| |]
          | context [if Nat.ltb ?y ?z then _ else _] => destruct (Nat.ltb_spec y z)
          end; cbn [f_heap alloc] in H; try congruence;
        try (rewrite deref_alloc_old in H by auto; congruence).
      * assert (C : nth_error (deref (store (f_heap sys) id0 k0 (load (f_heap sys) cid k0)) id) k <> nth_error (deref (f_heap sys) id) k) by congruence.
        apply store_change in C. destruct C as [-> ->]. now constructor.
      * assert (C : nth_error (deref (store (f_heap sys) cid k0 (load (f_heap sys) id0 k0)) id) k <> nth_error (deref (f_heap sys) id) k) by congruence.
        apply store_change in C. destruct C as [-> ->]. now constructor.
  - exists g. split; auto. destruct (outside (g_pc g) && existsb (Nat.eqb id) (g_own g)) eqn:X; [|congruence].
    apply andb_prop in X. destruct X as [O X]. apply existsb_exists in X. destruct X as [id' [X1 X2]]. apply Nat.eqb_eq in X2. subst id'.
    destruct x as [|j m]; cbn [holds_at f_cache f_heap] in H; [congruence|].
    assert (C : nth_error (deref (store (f_heap sys) id k v) j) m <> nth_error (deref (f_heap sys) j) m) by congruence.
    apply store_change in C. destruct C as [-> ->]. destruct g. now constructor.
Qed.
