(** Model of the two pieces of shared state, as state machines whose atomic steps
    are the regions executed under one lock: the path cache (/repo/path.go:23-27,
    124-158) and the modifier registry (/repo/modifier.go:70-140, 548-558). A schedule
    is the list of steps in the order in which the locks are taken. *)
From Coq Require Import List Ascii String NArith ZArith Bool Lia SpecFloat.
From Verif Require Import GoStr ModelParser ModelPath ModelResult.
Import ListNotations.

(** ** Path cache *)

(** Slices are identities of arrays in a heap, so that sharing between the cache and
    the slices handed to callers (which overwrite their elements, get.go:896-906) is
    visible. A heap only grows; an identity is a position in it. PathSegment values
    are copied by value; the filter pointer and the modifier slice inside them are
    never written by the library and are part of the value here. *)
Definition heap := list (list seg).
Definition deref (h : heap) (id : nat) : list seg := nth id h [].
(** make + copy (path.go:133-134, 151-152) or append in parsePathInternal *)
Definition alloc (h : heap) (a : list seg) : heap * nat := (h ++ [a], List.length h).

(** path.go:23-27 *)
Definition pathCacheLimit : nat := 256.
Definition cache := smap nat.

(** Program point of one goroutine inside parsePath(path). *)
Inductive pstate :=
| PIdle                                   (* not in parsePath *)
| PStart (path : bytes)                   (* path.go:128, before RLock *)
| PParse (path : bytes)                   (* path.go:140, after a cache miss *)
| PStore (path : bytes) (id : nat)        (* path.go:144, parsed and not nil *)
| PDone (path : bytes) (r : list seg)     (* returned; contents at that moment; nil is [] *)
| PPanic (path : bytes).                  (* panicked *)

(** path.go:124-127: call of parsePath. *)
Definition p_call (path : bytes) : pstate :=
  match path with [] => PDone path [] | _ :: _ => PStart path end.
(** path.go:146-154, under the write lock; [id] is the fresh copy. *)
Definition cache_store (path : bytes) (id : nat) (c : cache) : cache :=
  map_set path id (if Nat.leb pathCacheLimit (List.length c) then [] else c).

(** Shared state, the goroutines, and the slices handed out to callers. *)
Record csys := mkSys {
  c_heap : heap;
  c_cache : cache;
  c_procs : list pstate;
  c_out : list nat
}.
Fixpoint set_nth {A} (i : nat) (x : A) (l : list A) : list A :=
  match i, l with
  | _, [] => []
  | O, _ :: l' => x :: l'
  | S i', y :: l' => y :: set_nth i' x l'
  end.
(** One step of goroutine [i]: path.go:129-138 (lookup and copy; the copy is made
    after RUnlock but cached arrays are never written), 141-144 (parse, no lock),
    145-157 (store under the write lock, return). *)
Definition p_step (sys : csys) (i : nat) (st : pstate) : csys :=
  let put h c st' o := mkSys h c (set_nth i st' (c_procs sys)) o in
  match st with
  | PStart path =>
      match map_get path (c_cache sys) with
      | Some cid =>
          let '(h, id) := alloc (c_heap sys) (deref (c_heap sys) cid) in
          put h (c_cache sys) (PDone path (deref h id)) (id :: c_out sys)
      | None => put (c_heap sys) (c_cache sys) (PParse path) (c_out sys)
      end
  | PParse path =>
      match parse_path_internal path with
      | Ok (Some segs) =>
          let '(h, id) := alloc (c_heap sys) segs in
          put h (c_cache sys) (PStore path id) (c_out sys)
      | Ok None => put (c_heap sys) (c_cache sys) (PDone path []) (c_out sys)
      | _ => put (c_heap sys) (c_cache sys) (PPanic path) (c_out sys)
      end
  | PStore path id =>
      let '(h, cid) := alloc (c_heap sys) (deref (c_heap sys) id) in
      put h (cache_store path cid (c_cache sys)) (PDone path (deref h id)) (id :: c_out sys)
  | _ => sys
  end.

(** An action: a goroutine outside parsePath calls it, a goroutine inside takes a step,
    or a caller overwrites an element of a slice it was given (get.go:896-906). *)
Inductive paction := PACall (i : nat) (path : bytes) | PAStep (i : nat)
                   | PAWrite (id k : nat) (sg : seg).
Definition p_act (sys : csys) (a : paction) : csys :=
  match a with
  | PACall i path =>
      match nth_error (c_procs sys) i with
      | Some PIdle | Some (PDone _ _) =>
          mkSys (c_heap sys) (c_cache sys) (set_nth i (p_call path) (c_procs sys)) (c_out sys)
      | _ => sys
      end
  | PAStep i =>
      match nth_error (c_procs sys) i with
      | Some st => p_step sys i st
      | None => sys
      end
  | PAWrite id k sg =>
      if existsb (Nat.eqb id) (c_out sys)
      then mkSys (set_nth id (set_nth k sg (deref (c_heap sys) id)) (c_heap sys))
                 (c_cache sys) (c_procs sys) (c_out sys)
      else sys
  end.
Definition p_run (sys : csys) (l : list paction) : csys := fold_left p_act l sys.
(** Initial state: empty cache, [n] goroutines outside parsePath. *)
Definition p_init (n : nat) : csys := mkSys [] [] (repeat PIdle n) [].

(** ** Modifier registry *)

Section Registry.
  (** Identity of a Modifier value; [None] is the nil interface. *)
  Variable M : Type.

  Definition registry := smap (option M).
  (** modifier.go:134-140 *)
  Definition builtin_names : list bytes :=
    [bs "reverse"; bs "sort"; bs "first"; bs "last"; bs "flatten"; bs "pretty"; bs "ugly"].
  Definition is_builtin_name (n : bytes) : bool := existsb (bytes_eqb n) builtin_names.

  (** One public call; each body runs under modifierMu (modifier.go:98, 113, 121). *)
  Inductive rcall := RRegister (name : bytes) (m : option M) | RGet (name : bytes)
                   | RUnregister (name : bytes).
  Inductive rret := RetErr | RetOk | RetMod (m : option M).
  Definition r_call (reg : registry) (c : rcall) : registry * rret :=
    match c with
    | RRegister name m =>
        match name with
        | [] => (reg, RetErr)
        | _ :: _ =>
            match map_get name reg with
            | Some _ => (reg, RetErr)
            | None => (map_set name m reg, RetOk)
            end
        end
    | RGet name => (reg, RetMod (match map_get name reg with Some m => m | None => None end))
    | RUnregister name =>
        if is_builtin_name name then (reg, RetErr) else (map_del name reg, RetOk)
    end.
  Definition r_run (reg : registry) (l : list rcall) : registry :=
    fold_left (fun g c => fst (r_call g c)) l reg.
  (** modifier.go:548-558: init registers the built-in modifiers. *)
  Variable builtin_of : bytes -> M.
  Definition r_init : registry :=
    r_run [] (map (fun n => RRegister n (Some (builtin_of n))) builtin_names).
End Registry.
