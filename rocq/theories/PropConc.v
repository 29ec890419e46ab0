(** C24, C25, C37: the path cache and the modifier registry under every schedule. *)
From Coq Require Import List Ascii String NArith ZArith Bool Lia.
From Verif Require Import GoStr ModelParser ModelPath ModelResult ModelQuery ModelConc
  ProofBase ProofFuel ProofFuel2 ProofConc.
Import ListNotations.

(** C24. However the steps of [n] goroutines interleave, and whatever callers write into
    slices they were given, a call of parsePath that has returned delivered the same
    segments as parsing its path without a cache, and it panics only if that does. *)
Theorem C24_cache_transparent : forall n sched i path r,
  nth_error (c_procs (p_run (p_init n) sched)) i = Some (PDone path r) -> parse_path path = Ok r.
Proof. intros n sched i path r. apply i_done. apply inv_run, inv_init. Qed.
Print Assumptions C24_cache_transparent.
Theorem C24_cache_panic : forall n sched i path,
  nth_error (c_procs (p_run (p_init n) sched)) i = Some (PPanic path) -> parse_path path = Panic.
Proof. intros n sched i path. apply i_panic. apply inv_run, inv_init. Qed.
Print Assumptions C24_cache_panic.
(** A goroutine that is inside parsePath has left it after three steps of its own. *)
Theorem C24_calls_finish : forall n sched1 sched2 i st,
  nth_error (c_procs (p_run (p_init n) sched1)) i = Some st ->
  (forall p, ~ In (PACall i p) sched2) ->
  (3 <= List.length (filter (is_step_of i) sched2))%nat ->
  exists st', nth_error (c_procs (p_run (p_init n) (sched1 ++ sched2))) i = Some st' /\
    match st' with PStart _ | PParse _ | PStore _ _ => False | _ => True end.
Proof.
  intros n s1 s2 i st N H L. destruct (stage_run s2 _ _ _ N H) as [st' [N' S']].
  exists st'. split.
  - unfold p_run in *. now rewrite fold_left_app.
  - assert (stage st <= 3)%nat by (destruct st; cbn; lia). destruct st'; cbn [stage] in S'; auto; lia.
Qed.
Print Assumptions C24_calls_finish.
(** C25. The cache never holds more than 256 entries. *)
Theorem C25_cache_bounded : forall n sched, (List.length (c_cache (p_run (p_init n) sched)) <= 256)%nat.
Proof. intros n sched. apply (i_bound _ (inv_run sched _ (inv_init n))). Qed.
Print Assumptions C25_cache_bounded.
(** 256 paths are kept; with one more the cache starts again. *)
Definition calls_for (k : nat) : list paction :=
  flat_map (fun i => [PACall 0 (bs "a" ++ itoa i); PAStep 0; PAStep 0; PAStep 0]) (seq 0 k).
Example C25_example :
  List.length (c_cache (p_run (p_init 1) (calls_for 256))) = 256%nat /\ List.length (c_cache (p_run (p_init 1) (calls_for 300))) = 44%nat /\
  match nth_error (c_procs (p_run (p_init 1) (calls_for 300))) 0 with Some (PDone _ [x]) => s_value x = bs "a299" | _ => False end.
Proof. vm_compute. repeat split; reflexivity. Qed.
(** Two goroutines race on the same path; the second returns a hit, the first caller then
    scribbles over its slice, and a third call still gets the right answer. *)
Definition scribble : seg := mkSeg SText [] 0 false None false [] [].
Example C24_example :
  let path := bs "a.b" in
  let sched := [PACall 0 path; PACall 1 path; PAStep 0; PAStep 1; PAStep 0; PAStep 0;
                PAStep 1; PAStep 1; PAWrite 0 0 scribble; PACall 0 path; PAStep 0] in
  let sys := p_run (p_init 2) sched in
  nth_error (c_procs sys) 0 = nth_error (c_procs sys) 1 /\
  List.length (c_cache sys) = 1%nat /\ hd [] (c_heap sys) <> deref (c_heap sys) 1 /\
  match nth_error (c_procs sys) 0 with Some (PDone _ [x; y]) => s_value y = bs "b" | _ => False end.
Proof. vm_compute. repeat split; discriminate. Qed.

(** C37. Whatever calls RegisterModifier, GetModifier and UnregisterModifier are made, in
    whatever order the goroutines take the lock, a built-in name keeps its original
    modifier. *)
Theorem C37_builtin_fixed : forall (M : Type) (builtin_of : bytes -> M) n l,
  In n [bs "reverse"; bs "sort"; bs "first"; bs "last"; bs "flatten"; bs "pretty"; bs "ugly"] ->
  map_get n (r_run M (r_init M builtin_of) l) = Some (Some (builtin_of n)) /\
  snd (r_call M (r_run M (r_init M builtin_of) l) (RGet M n)) = RetMod M (Some (builtin_of n)) /\
  snd (r_call M (r_run M (r_init M builtin_of) l) (RUnregister M n)) = RetErr M /\
  forall m, snd (r_call M (r_run M (r_init M builtin_of) l) (RRegister M n m)) = RetErr M.
Proof.
  intros M b n l Hn.
  assert (H : is_builtin_name n = true).
  { unfold is_builtin_name, builtin_names. apply existsb_exists. exists n. split; auto. apply bytes_eqb_refl. }
  pose proof (registry_builtin M b n l H) as K. split; auto. cbn [r_call snd]. rewrite K, H. repeat split.
  intros m. destruct n; [reflexivity|]. reflexivity.
Qed.
Print Assumptions C37_builtin_fixed.
(** A custom name is bound to [m] exactly when the history contains a registration of [m]
    made while the name was free and not followed by a removal of the name. *)
Theorem C37_custom_binding : forall (M : Type) (builtin_of : bytes -> M) n l m,
  ~ In n [bs "reverse"; bs "sort"; bs "first"; bs "last"; bs "flatten"; bs "pretty"; bs "ugly"] ->
  (map_get n (r_run M (r_init M builtin_of) l) = Some m <->
   n <> [] /\ exists a b, l = a ++ RRegister M n m :: b /\ ~ In (RUnregister M n) b /\
     map_get n (r_run M (r_init M builtin_of) a) = None).
Proof.
  intros M bo n l m Hn.
  assert (H : is_builtin_name n = false).
  { destruct (is_builtin_name n) eqn:K; auto. unfold is_builtin_name in K. apply existsb_exists in K.
    destruct K as [x [K1 K2]]. apply bytes_eqb_eq in K2. subst. now elim Hn. }
  rewrite (registry_custom M bo n l m H). split; intros [H0 [a [b [H1 [H2 H3]]]]]; (split; [exact H0|]); exists a, b.
  - split; [exact H1|]. split; [|exact H3]. intros K. exact (H2 _ K eq_refl).
  - split; [exact H1|]. split; [|exact H3]. intros c Hc K. unfold touches_un in K. subst c. contradiction.
Qed.
Print Assumptions C37_custom_binding.
(** The modifier a query finds under a name is the one the registry holds: built-ins by
    their own code, other names by the registered modifier. *)
Theorem C37_query_uses_registry : forall E l n,
  let reg := r_run (result -> result) (r_init _ (fun k => match builtin E k with Some m => m | None => fun r => r end)) l in
  (forall k, e_custom E k = match map_get k reg with Some m => m | None => None end) ->
  get_modifier E n = match map_get n reg with Some m => m | None => None end.
Proof.
  intros E l n reg H. unfold get_modifier. destruct (builtin E n) as [m|] eqn:B; [|apply H].
  assert (K : is_builtin_name n = true).
  { unfold builtin in B. unfold is_builtin_name, builtin_names. cbn [existsb].
    repeat match type of B with context [if bytes_eqb n ?k then _ else _] =>
      destruct (bytes_eqb n k) eqn:?; [cbn [orb]; rewrite ?orb_true_r; reflexivity|] end. discriminate. }
  unfold reg. rewrite registry_builtin by exact K. now rewrite B.
Qed.
Print Assumptions C37_query_uses_registry.
Example C37_example :
  let l := [RRegister nat (bs "up") (Some 1); RRegister nat (bs "sort") (Some 9); RUnregister nat (bs "first");
            RUnregister nat (bs "up"); RRegister nat (bs "up") (Some 2); RRegister nat (bs "up") (Some 3)]%nat in
  let reg := r_run nat (r_init nat (fun _ => 7%nat)) l in
  map_get (bs "up") reg = Some (Some 2%nat) /\ map_get (bs "sort") reg = Some (Some 7%nat) /\
  map_get (bs "first") reg = Some (Some 7%nat).
Proof. vm_compute. auto. Qed.
