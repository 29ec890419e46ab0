(** Fine-grained model of the shared state: every lock operation, every access to a shared
    map and every copied slice element is a step of its own. ModelConc.v, which is proved
    transparent and bounded with whole critical regions as steps, is the coarse view of the
    same code: /repo/path.go:23-27, 124-158 and /repo/modifier.go:74-132. *)
From Coq Require Import List Ascii String NArith ZArith Bool Lia SpecFloat.
From Verif Require Import GoStr ModelParser ModelPath ModelResult ModelConc.
Import ListNotations.

(** sync.RWMutex (pathCacheMu path.go:25, modifierMu modifier.go:78): whether a writer holds
    it and how many readers do. RLock goes ahead when no writer holds it, Lock when nobody
    does. That Go also holds back new readers while a writer waits only removes schedules. *)
Record rwmutex := mkRW { w_held : bool; r_held : nat }.
(** sync.RWMutex.RLock; [None]: blocked *)
Definition rlock (l : rwmutex) : option rwmutex :=
  if w_held l then None else Some (mkRW false (S (r_held l))).
(** sync.RWMutex.RUnlock *)
Definition runlock (l : rwmutex) : rwmutex := mkRW (w_held l) (pred (r_held l)).
(** sync.RWMutex.Lock; [None]: blocked *)
Definition lock (l : rwmutex) : option rwmutex :=
  if w_held l then None else match r_held l with O => Some (mkRW true 0) | S _ => None end.
(** sync.RWMutex.Unlock *)
Definition unlock (l : rwmutex) : rwmutex := mkRW false (r_held l).
(** The zero value of sync.RWMutex. *)
Definition rw_free : rwmutex := mkRW false 0.

(** ** The path cache *)

(** Program point of one goroutine in parsePath (path.go:124-158). [id] is the slice that
    will be returned, [cid] the slice in the cache, [k] the number of elements copied. *)
Inductive pc :=
| QIdle                                          (* not in parsePath *)
| QRLock (path : bytes)                          (* 130: before pathCacheMu.RLock *)
| QLook (path : bytes)                           (* 131: reading the map *)
| QHit (path : bytes) (cid : nat)                (* 132: before RUnlock *)
| QMake (path : bytes) (cid : nat)               (* 134: make *)
| QCopy (path : bytes) (cid id k : nat)          (* 135: copy, no lock held *)
| QMiss (path : bytes)                           (* 138: before RUnlock *)
| QParse (path : bytes)                          (* 141: parsePathInternal *)
| QLock (path : bytes) (id : nat)                (* 145: before Lock *)
| QEvict (path : bytes) (id : nat)               (* 147-149 *)
| QMakeC (path : bytes) (id : nat)               (* 152: make *)
| QCopyC (path : bytes) (id cid k : nat)         (* 153: copy *)
| QPut (path : bytes) (id cid : nat)             (* 154: write to the map *)
| QUnlock (path : bytes) (id : nat)              (* 155: before Unlock *)
| QDone (path : bytes) (r : list seg)            (* returned; contents at that moment *)
| QPanic (path : bytes).

(** A goroutine: its program point in path.go:124-158 and the slices parsePath has returned
    to it. *)
Record go := mkGo { g_pc : pc; g_own : list nat }.
(** The shared state: allocated slices, pathCache and pathCacheMu (path.go:23-27), and the
    goroutines. *)
Record fsys := mkF { f_heap : heap; f_cache : cache; f_lock : rwmutex; f_gos : list go }.

(** The zero PathSegment, path.go:76-100 *)
Definition zero_seg : seg := mkSeg SElem [] 0 false None false [] [].
(** make([]PathSegment, n), path.go:134, 152 *)
Definition make_segs (n : nat) : list seg := repeat zero_seg n.
(** One element assignment, path.go:135, 153 and get.go:905 *)
Definition store (h : heap) (id k : nat) (x : seg) : heap := set_nth id (set_nth k x (deref h id)) h.
(** Element [k] of a slice, path.go:135, 153 *)
Definition load (h : heap) (id k : nat) : seg := nth k (deref h id) zero_seg.

(** path.go:124-127 *)
Definition q_call (path : bytes) : pc :=
  match path with [] => QDone path [] | _ :: _ => QRLock path end.
(** path.go:130-157: one step of goroutine [i], which is [g]. *)
Definition f_step (sys : fsys) (i : nat) (g : go) : fsys :=
  let h := f_heap sys in
  let c := f_cache sys in
  let l := f_lock sys in
  let put h c l p own := mkF h c l (set_nth i (mkGo p own) (f_gos sys)) in
  let own := g_own g in
  match g_pc g with
  | QIdle | QDone _ _ | QPanic _ => sys
  | QRLock path =>
      match rlock l with Some l' => put h c l' (QLook path) own | None => sys end
  | QLook path =>
      match map_get path c with
      | Some cid => put h c l (QHit path cid) own
      | None => put h c l (QMiss path) own
      end
  | QHit path cid => put h c (runlock l) (QMake path cid) own
  | QMake path cid =>
      let '(h', id) := alloc h (make_segs (List.length (deref h cid))) in
      put h' c l (QCopy path cid id 0) own
  | QCopy path cid id k =>
      if Nat.ltb k (List.length (deref h cid))
      then put (store h id k (load h cid k)) c l (QCopy path cid id (S k)) own
      else put h c l (QDone path (deref h id)) (id :: own)
  | QMiss path => put h c (runlock l) (QParse path) own
  | QParse path =>
      match parse_path_internal path with
      | Ok (Some segs) => let '(h', id) := alloc h segs in put h' c l (QLock path id) own
      | Ok None => put h c l (QDone path []) own
      | _ => put h c l (QPanic path) own
      end
  | QLock path id =>
      match lock l with Some l' => put h c l' (QEvict path id) own | None => sys end
  | QEvict path id =>
      put h (if Nat.leb pathCacheLimit (List.length c) then [] else c) l (QMakeC path id) own
  | QMakeC path id =>
      let '(h', cid) := alloc h (make_segs (List.length (deref h id))) in
      put h' c l (QCopyC path id cid 0) own
  | QCopyC path id cid k =>
      if Nat.ltb k (List.length (deref h id))
      then put (store h cid k (load h id k)) c l (QCopyC path id cid (S k)) own
      else put h c l (QPut path id cid) own
  | QPut path id cid => put h (map_set path cid c) l (QUnlock path id) own
  | QUnlock path id => put h c (unlock l) (QDone path (deref h id)) (id :: own)
  end.

(** A goroutine outside parsePath calls it or overwrites an element of a slice it was
    given (get.go:900-908); a goroutine inside takes a step. *)
Inductive faction := FCall (i : nat) (path : bytes) | FStep (i : nat)
                   | FWrite (i id k : nat) (x : seg).
(** Whether the goroutine is outside parsePath (path.go:124-158) and has not panicked. *)
Definition outside (p : pc) : bool := match p with QIdle | QDone _ _ => true | _ => false end.
(** One action, path.go:124-158 and get.go:900-908; one that is not possible changes nothing. *)
Definition f_act (sys : fsys) (a : faction) : fsys :=
  match a with
  | FCall i path =>
      match nth_error (f_gos sys) i with
      | Some g => if outside (g_pc g)
                  then mkF (f_heap sys) (f_cache sys) (f_lock sys) (set_nth i (mkGo (q_call path) (g_own g)) (f_gos sys))
                  else sys
      | None => sys
      end
  | FStep i => match nth_error (f_gos sys) i with Some g => f_step sys i g | None => sys end
  | FWrite i id k x =>
      match nth_error (f_gos sys) i with
      | Some g => if outside (g_pc g) && existsb (Nat.eqb id) (g_own g)
                  then mkF (store (f_heap sys) id k x) (f_cache sys) (f_lock sys) (f_gos sys)
                  else sys
      | None => sys
      end
  end.
(** A schedule of calls of parsePath (path.go:124-158): the actions one after the other. *)
Definition f_run (sys : fsys) (l : list faction) : fsys := fold_left f_act l sys.
(** path.go:23-27: the cache starts empty; [n] goroutines. *)
Definition f_init (n : nat) : fsys := mkF [] [] rw_free (repeat (mkGo QIdle []) n).

(** ** The modifier registry *)
Section Registry.
  Variable M : Type.

  (** Program point of one goroutine in RegisterModifier (modifier.go:94-108), GetModifier
      (112-116) or UnregisterModifier (120-131). *)
  Inductive kpc :=
  | KIdle
  | KLock (c : rcall M)               (* 99, 121: before modifierMu.Lock *)
  | KCheck (n : bytes) (m : option M) (* 102: reading the map *)
  | KPut (n : bytes) (m : option M)   (* 106: write to the map *)
  | KNames (n : bytes)                (* 125: isBuiltinModifier *)
  | KDel (n : bytes)                  (* 129: delete *)
  | KUnlock (r : rret M)              (* 100, 122: deferred Unlock *)
  | KRLock (n : bytes)                (* 113: before RLock *)
  | KRead (n : bytes)                 (* 115: reading the map *)
  | KRUnlock (r : rret M)             (* 114: deferred RUnlock *)
  | KEnd (r : rret M).                (* about to return *)
  (** The shared state: modifierRegistry and modifierMu (modifier.go:76-79), and the goroutines. *)
  Record ksys := mkK { k_reg : registry M; k_lock : rwmutex; k_gos : list kpc }.

  (** What can be seen from outside: a goroutine enters one of the three functions
      (modifier.go:94, 112, 120), and leaves it with a result. *)
  Inductive kevent := EvCall (i : nat) (c : rcall M) | EvReturn (i : nat) (r : rret M).
  (** Entry into a function; modifier.go:95-97 rejects the empty name before locking. *)
  Definition k_enter (c : rcall M) : kpc :=
    match c with
    | RRegister _ [] _ => KEnd (RetErr M)
    | RRegister _ _ _ | RUnregister _ _ => KLock c
    | RGet _ n => KRLock n
    end.
  (** modifier.go:94-131: one step of goroutine [i] at point [p]. *)
  Definition k_step (sys : ksys) (i : nat) (p : kpc) : ksys * list kevent :=
    let g := k_reg sys in
    let l := k_lock sys in
    let put g l p := (mkK g l (set_nth i p (k_gos sys)), @nil kevent) in
    match p with
    | KIdle => (sys, [])
    | KLock c =>
        match lock l with
        | Some l' => put g l' (match c with
                               | RRegister _ n m => KCheck n m
                               | RUnregister _ n => KNames n
                               | RGet _ n => KRead n
                               end)
        | None => (sys, [])
        end
    | KCheck n m =>
        match map_get n g with
        | Some _ => put g l (KUnlock (RetErr M))
        | None => put g l (KPut n m)
        end
    | KPut n m => put (map_set n m g) l (KUnlock (RetOk M))
    | KNames n => if is_builtin_name n then put g l (KUnlock (RetErr M)) else put g l (KDel n)
    | KDel n => put (map_del n g) l (KUnlock (RetOk M))
    | KUnlock r => put g (unlock l) (KEnd r)
    | KRLock n => match rlock l with Some l' => put g l' (KRead n) | None => (sys, []) end
    | KRead n => put g l (KRUnlock (RetMod M (match map_get n g with Some m => m | None => None end)))
    | KRUnlock r => put g (runlock l) (KEnd r)
    | KEnd r => (mkK g l (set_nth i KIdle (k_gos sys)), [EvReturn i r])
    end.
  (** A goroutine outside calls one of the functions of modifier.go:94-131, or a goroutine
      inside takes a step. *)
  Inductive kaction := KACall (i : nat) (c : rcall M) | KAStep (i : nat).
  (** One action, modifier.go:94-131, with what is seen of it. *)
  Definition k_act (sys : ksys) (a : kaction) : ksys * list kevent :=
    match a with
    | KACall i c =>
        match nth_error (k_gos sys) i with
        | Some KIdle => (mkK (k_reg sys) (k_lock sys) (set_nth i (k_enter c) (k_gos sys)), [EvCall i c])
        | _ => (sys, [])
        end
    | KAStep i => match nth_error (k_gos sys) i with Some p => k_step sys i p | None => (sys, []) end
    end.
  (** A schedule of calls (modifier.go:94-131): the state and everything seen so far. *)
  Definition k_run (sys : ksys) (l : list kaction) : ksys * list kevent :=
    fold_left (fun st a => let '(s, t) := k_act (fst st) a in (s, snd st ++ t)) l (sys, []).
  (** modifier.go:548-558: init has registered the built-ins before any goroutine runs. *)
  Definition k_init (builtin_of : bytes -> M) (n : nat) : ksys :=
    mkK (r_init M builtin_of) rw_free (repeat KIdle n).
End Registry.
