(** C75: the library may be used from many goroutines. *)
From Coq Require Import List Ascii String NArith ZArith Bool Lia.
From Verif Require Import GoStr ModelParser ModelPath ModelResult ModelQuery ModelBuilder ModelQueryOpts ModelConc ModelRace SpecRace
  ProofBase ProofConc ProofRace ProofRace2 ProofRace3 ProofName ProofName2 ProofName3.
Import ListNotations.

(** C75. However [n] goroutines interleave, lock by lock, map access by map access and
    element by element, and whatever they write into the slices they were given: at no
    moment can two of them touch the same memory with one of them writing. *)
Theorem C75_no_race : forall n l, ~ race (f_run (f_init n) l).
Proof. intros n l. exact (no_race _ (good_run l n)). Qed.
Print Assumptions C75_no_race.

(** The accesses counted there are all there are: memory that changes is memory the acting
    goroutine may write, ... *)
Theorem C75_writes : forall n l a x, exists_in (f_run (f_init n) l) x ->
  holds_at (f_act (f_run (f_init n) l) a) x <> holds_at (f_run (f_init n) l) x ->
  exists g, nth_error (f_gos (f_run (f_init n) l)) (actor a) = Some g /\ may_access (f_heap (f_run (f_init n) l)) g x Writes.
Proof. intros n l. exact (changes_accessed (f_run (f_init n) l)). Qed.
Print Assumptions C75_writes.
(** ... and what a step does depends only on memory the goroutine may access. *)
Theorem C75_reads : forall i sys sys', looks_same i sys sys' -> forall g, nth_error (f_gos sys) i = Some g ->
  exists g1 g2, nth_error (f_gos (f_act sys (FStep i))) i = Some g1 /\ nth_error (f_gos (f_act sys' (FStep i))) i = Some g2 /\
    point (g_pc g1) = point (g_pc g2) /\ g_own g1 = g_own g2 /\
    f_lock (f_act sys (FStep i)) = f_lock (f_act sys' (FStep i)) /\
    map (@List.length seg) (f_heap (f_act sys (FStep i))) = map (@List.length seg) (f_heap (f_act sys' (FStep i))) /\
    forall x w, may_access (f_heap sys) g x w -> holds_at (f_act sys (FStep i)) x = holds_at (f_act sys' (FStep i)) x.
Proof. exact reads_accessed. Qed.
Print Assumptions C75_reads.

(** Every call returns the segments of its path, and panics only if parsing the path does. *)
Theorem C75_right : forall n l i g path r, nth_error (f_gos (f_run (f_init n) l)) i = Some g -> g_pc g = QDone path r -> parse_path path = Ok r.
Proof.
  intros n l i g path r N E. pose proof (v_fact _ (proj2 (good_run l n)) i g N) as F. rewrite E in F. exact F.
Qed.
Print Assumptions C75_right.
Theorem C75_panics : forall n l i g path, nth_error (f_gos (f_run (f_init n) l)) i = Some g -> g_pc g = QPanic path -> parse_path path = Panic.
Proof.
  intros n l i g path N E. pose proof (v_fact _ (proj2 (good_run l n)) i g N) as F. rewrite E in F. exact F.
Qed.
Print Assumptions C75_panics.

(** At no moment does the cache hold more than 256 paths. *)
Theorem C75_bounded : forall n l, (List.length (f_cache (f_run (f_init n) l)) <= 256)%nat.
Proof. intros n l. exact (proj1 (bounded_run l n)). Qed.
Print Assumptions C75_bounded.

(** No deadlock: when no goroutine can move, the lock is free and every call has ended. *)
Theorem C75_no_deadlock : forall n l, let sys := f_run (f_init n) l in (forall i, f_act sys (FStep i) = sys) ->
  f_lock sys = rw_free /\ forall i g, nth_error (f_gos sys) i = Some g -> outside (g_pc g) = true \/ exists path, g_pc g = QPanic path.
Proof. intros n l sys. exact (stuck_over sys (proj1 (good_run l n))). Qed.
Print Assumptions C75_no_deadlock.
(** No livelock: without new calls there is a moment after which no goroutine moves. *)
Theorem C75_calls_end : forall n l, exists b, forall k sys', moves (f_run (f_init n) l) k sys' -> (k <= b)%nat.
Proof. intros n l. exists (total (f_run (f_init n) l)). intros k sys' H. exact (moves_bound _ _ _ H (proj2 (good_run l n))). Qed.
Print Assumptions C75_calls_end.

(** Three goroutines ask for the same path. 0 and 1 both miss and parse; 0 stores; 2 finds
    the path and has copied one of two segments when 1 replaces the entry and 0 overwrites a
    segment of its own. All three end with the same segments. *)
Fixpoint steps (n i : nat) : list faction := match n with O => [] | S n' => FStep i :: steps n' i end.
Definition three : list faction :=
  let path := bs "a.b" in
  [FCall 0 path; FCall 1 path; FStep 0; FStep 1; FStep 0; FStep 1; FStep 1; FStep 0; FStep 1; FStep 0] ++
  steps 8 0 ++ [FCall 2 path] ++ steps 5 2 ++ [FWrite 0 1 0 zero_seg] ++ steps 8 1 ++ steps 2 2.
Example C75_example :
  let sys := f_run (f_init 3) three in
  map (fun g => match g_pc g with QDone _ r => map s_value r | _ => [] end) (f_gos sys) = repeat [bs "a"; bs "b"] 3 /\
  map g_own (f_gos sys) = [[1%nat]; [0%nat]; [3%nat]] /\ map_get (bs "a.b") (f_cache sys) = Some 4%nat /\
  hd zero_seg (deref (f_heap sys) 1) = zero_seg /\ f_lock sys = rw_free /\ forall i, f_act sys (FStep i) = sys.
Proof.
  cbv zeta. split; [vm_compute; reflexivity|]. split; [vm_compute; reflexivity|]. split; [vm_compute; reflexivity|].
  split; [vm_compute; reflexivity|]. split; [vm_compute; reflexivity|].
  intros [|[|[|[|i]]]]; vm_compute; reflexivity.
Qed.
(** Races can be expressed: two goroutines at the write to the map, which no schedule reaches. *)
Example C75_race_example : forall n l gs, let bad := mkF [[]; []] [] rw_free [mkGo (QPut (bs "a") 0 1) []; mkGo (QLook (bs "a")) []] in
  race bad /\ f_run (f_init n) l <> mkF [[]; []] [] rw_free (f_gos bad ++ gs).
Proof.
  intros n l gs bad. split.
  - exists 0%nat, 1%nat. do 2 eexists. exists TheMap, Reads. split; [discriminate|]. split; [reflexivity|]. split; [reflexivity|]. split; constructor.
  - intros E. apply (C75_no_race n l). rewrite E. exists 0%nat, 1%nat. do 2 eexists. exists TheMap, Reads. split; [discriminate|]. split; [reflexivity|]. split; [reflexivity|]. split; constructor.
Qed.
(** A writer waits for a reader, and goes ahead when the reader has left. *)
Example C75_wait_example :
  let sys := f_run (f_init 2) ([FCall 0 (bs "a")] ++ steps 4 0 ++ [FCall 1 (bs "b"); FStep 1]) in
  f_act sys (FStep 0) = sys /\ f_act sys (FStep 1) <> sys /\
  f_act (f_run sys (steps 2 1)) (FStep 0) <> f_run sys (steps 2 1).
Proof.
  cbv zeta. split; [vm_compute; reflexivity|]. split; vm_compute; intros E; discriminate E.
Qed.

(** The modifier registry has no data race either, ... *)
Theorem C75_registry_no_race : forall (M : Type) (builtin_of : bytes -> M) n l,
  ~ registry_race M (fst (k_run M (k_init M builtin_of n) l)).
Proof. intros M b n l. exact (k_no_race M _ (k_ok_run M b n l)). Qed.
Print Assumptions C75_registry_no_race.
(** ... and every concurrent use of it can be explained by a moment, inside each call, at
    which the whole call takes effect: with the built-in modifiers registered at the start,
    the calls one after the other in the order of these moments give every result that was
    returned and the modifiers that are registered in the end. *)
Theorem C75_registry_linearizable : forall (M : Type) (builtin_of : bytes -> M) n l (b0 : binding M),
  (forall x, In x [bs "reverse"; bs "sort"; bs "first"; bs "last"; bs "flatten"; bs "pretty"; bs "ugly"] -> b0 x = Some (Some (builtin_of x))) ->
  (forall x, ~ In x [bs "reverse"; bs "sort"; bs "first"; bs "last"; bs "flatten"; bs "pretty"; bs "ugly"] -> b0 x = None) ->
  exists t, seen M t = snd (k_run M (k_init M builtin_of n) l) /\
    serial M b0 t (fun x => map_get x (k_reg M (fst (k_run M (k_init M builtin_of n) l)))) /\
    forall i, orderly M i (mine M i t).
Proof.
  intros M bo n l b0 B1 B2. destruct (tells_run M bo n l) as [t T]. exists t. split; [exact (te_seen _ _ _ _ _ T)|]. split.
  - pose proof (te_serial _ _ _ _ _ T) as S. assert (Q : forall x, bound_in M (r_init M bo) x = b0 x).
    { intros x. unfold bound_in. rewrite r_init_get. destruct (is_builtin_name x) eqn:I.
      - symmetry. apply B1. now apply builtin_in.
      - symmetry. apply B2. intros K. apply builtin_in in K. congruence. }
    exact (serial_start M _ _ _ S b0 Q).
  - exact (tells_orderly M _ _ _ _ T).
Qed.
Print Assumptions C75_registry_linearizable.
Theorem C75_registry_no_deadlock : forall (M : Type) (builtin_of : bytes -> M) n l, let sys := fst (k_run M (k_init M builtin_of n) l) in
  (forall i, fst (k_act M sys (KAStep M i)) = sys) ->
  k_lock M sys = rw_free /\ forall i p, nth_error (k_gos M sys) i = Some p -> p = KIdle M.
Proof. intros M b n l sys. exact (k_stuck M sys (k_ok_run M b n l)). Qed.
Print Assumptions C75_registry_no_deadlock.
(** Two goroutines register the same name and a third looks it up. The
    second has to wait for the lock and is refused; the third sees the first's. *)
Definition contest : list (kaction nat) :=
  [KACall nat 0 (RRegister nat (bs "up") (Some 7)); KACall nat 1 (RRegister nat (bs "up") (Some 8)); KACall nat 2 (RGet nat (bs "up"));
   KAStep nat 0; KAStep nat 1; KAStep nat 0; KAStep nat 2; KAStep nat 0; KAStep nat 0; KAStep nat 1; KAStep nat 0; KAStep nat 1; KAStep nat 1; KAStep nat 1;
   KAStep nat 2; KAStep nat 2; KAStep nat 2; KAStep nat 2].
Example C75_registry_example :
  let st := k_run nat (k_init nat (fun _ => 0) 3) contest in
  snd st = [EvCall nat 0 (RRegister nat (bs "up") (Some 7)); EvCall nat 1 (RRegister nat (bs "up") (Some 8)); EvCall nat 2 (RGet nat (bs "up"));
            EvReturn nat 0 (RetOk nat); EvReturn nat 1 (RetErr nat); EvReturn nat 2 (RetMod nat (Some 7))] /\
  k_lock nat (fst st) = rw_free /\ (forall i, fst (k_act nat (fst st) (KAStep nat i)) = fst st) /\
  map_get (bs "up") (k_reg nat (fst st)) = Some (Some 7).
Proof.
  cbv zeta. split; [vm_compute; reflexivity|]. split; [vm_compute; reflexivity|]. split; [|vm_compute; reflexivity].
  intros [|[|[|[|i]]]]; vm_compute; reflexivity.
Qed.
(** Being explained this way is a restriction: two registrations of one name that both
    succeed cannot be. *)
Example C75_linearizable_example : forall (b0 b1 : binding nat) t n,
  seen nat t = [EvCall nat 0 (RRegister nat n (Some 7)); EvCall nat 1 (RRegister nat n (Some 8)); EvReturn nat 0 (RetOk nat); EvReturn nat 1 (RetOk nat)] ->
  serial nat b0 t b1 -> ~ forall i, orderly nat i (mine nat i t).
Proof. exact two_winners. Qed.

(** A query looks up no modifiers but those whose names stand behind an "@" in its path. *)
Theorem C75_get_names : forall E E' o xml path, same_but_modifiers E E' ->
  (forall n, mentions path n -> e_custom E n = e_custom E' n) -> get_opts E o xml path = get_opts E' o xml path.
Proof. exact get_opts_names. Qed.
Print Assumptions C75_get_names.
(** So a query is not affected by what other goroutines do to other names meanwhile: from
    a state in which no registry call is running, whatever calls are made on names the path
    does not mention, and however they interleave, the query answers the same at every
    moment. *)
Theorem C75_get_stable : forall builtin_of n l1 l2 E E' o xml path,
  let before := fst (k_run (result -> result) (k_init (result -> result) builtin_of n) l1) in
  let after := fst (k_run (result -> result) before l2) in
  (forall i p, nth_error (k_gos (result -> result) before) i = Some p -> p = KIdle (result -> result)) ->
  (forall i c m, In (KACall (result -> result) i c) l2 -> mentions path m -> ~ touches m c) ->
  same_but_modifiers E E' ->
  e_custom E = offers (k_reg (result -> result) before) -> e_custom E' = offers (k_reg (result -> result) after) ->
  get_opts E o xml path = get_opts E' o xml path.
Proof.
  intros bo n l1 l2 E E' o xml path before after Id H S C C'. apply get_opts_names; auto. intros m Hm. rewrite C, C'. unfold offers.
  replace (map_get m (k_reg (result -> result) after)) with (map_get m (k_reg (result -> result) before)); auto.
  symmetry. apply still_run; auto. apply k_ok_run. intros i c K. eapply H; eauto.
Qed.
Print Assumptions C75_get_stable.
(** "up" is registered; while "down" is registered by another goroutine the path
    `a.b|@up` is answered the same, and `a.b|@down` is not. *)
Definition shout (r : result) : result := mkR (r_type r) (r_raw r) (r_str r ++ bs "!") (r_num r) (r_results r).
Definition env_of (reg : registry (result -> result)) : env :=
  mkEnv (e_ord env0) (e_parse_float env0) (e_sort env0) (e_codec env0) (e_to_lower env0) (offers reg).
Definition F := (result -> result)%type.
Example C75_get_example :
  let before := fst (k_run F (k_init F (fun _ r => r) 2) [KACall F 0 (RRegister F (bs "up") (Some shout)); KAStep F 0; KAStep F 0; KAStep F 0; KAStep F 0; KAStep F 0]) in
  let l2 := [KACall F 1 (RRegister F (bs "down") (Some shout)); KAStep F 1; KAStep F 1; KAStep F 1] in
  let after := fst (k_run F before l2) in
  let ask reg path := match get (env_of reg) (bs "<a><b>x</b></a>") path with Ok r => r_str r | _ => [] end in
  (forall i p, nth_error (k_gos F before) i = Some p -> p = KIdle F) /\
  (forall i c m, In (KACall F i c) l2 -> mentions (bs "a.b|@up") m -> ~ touches m c) /\
  ask (k_reg F before) (bs "a.b|@up") = bs "x!" /\ ask (k_reg F after) (bs "a.b|@up") = bs "x!" /\
  ask (k_reg F before) (bs "a.b|@down") = [] /\ ask (k_reg F after) (bs "a.b|@down") = bs "x!".
Proof.
  cbv zeta. split; [|split; [|repeat split; vm_compute; reflexivity]].
  - intros [|[|[|i]]] p H; vm_compute in H; first [discriminate H|injection H as <-; reflexivity].
  - intros i c m [H|[H|[H|[H|[]]]]]; try discriminate H. injection H as <- <-. cbn [touches]. intros [a [b E]] <-.
    cbn in E. do 9 (destruct a as [|? a]; [cbn in E; discriminate E|cbn in E; first [discriminate E|injection E as _ E]]).
Qed.
