(** What it means that goroutines may use the library at the same time. *)
From Coq Require Import List Ascii String NArith ZArith Bool Lia.
From Verif Require Import GoStr ModelPath ModelResult ModelConc ModelRace.
Import ListNotations.

Inductive kind := Reads | Writes.

(** ** The path cache *)

(** Shared memory: the cache map, with the variable that holds it, and the elements of
    slices. *)
Inductive place := TheMap | Element (id k : nat).
(** The accesses a goroutine may make next. Inside parsePath it is the statement at hand;
    outside, a goroutine may read and write the slices it was given. *)
Inductive may_access (h : heap) : go -> place -> kind -> Prop :=
| ma_look : forall path own, may_access h (mkGo (QLook path) own) TheMap Reads
| ma_evict : forall path id own w, may_access h (mkGo (QEvict path id) own) TheMap w
| ma_put : forall path id cid own w, may_access h (mkGo (QPut path id cid) own) TheMap w
| ma_copy_from : forall path cid id k own, (k < List.length (deref h cid))%nat ->
    may_access h (mkGo (QCopy path cid id k) own) (Element cid k) Reads
| ma_copy_to : forall path cid id k own, (k < List.length (deref h cid))%nat ->
    may_access h (mkGo (QCopy path cid id k) own) (Element id k) Writes
| ma_cache_from : forall path id cid k own, (k < List.length (deref h id))%nat ->
    may_access h (mkGo (QCopyC path id cid k) own) (Element id k) Reads
| ma_cache_to : forall path id cid k own, (k < List.length (deref h id))%nat ->
    may_access h (mkGo (QCopyC path id cid k) own) (Element cid k) Writes
| ma_own : forall p own id k w, outside p = true -> In id own -> may_access h (mkGo p own) (Element id k) w.
(** A data race: two goroutines can touch the same place at the same moment, and one of
    them writes. *)
Definition race (sys : fsys) : Prop :=
  exists i j gi gj x w, i <> j /\ nth_error (f_gos sys) i = Some gi /\ nth_error (f_gos sys) j = Some gj /\
    may_access (f_heap sys) gi x Writes /\ may_access (f_heap sys) gj x w.

(** What a place holds. *)
Inductive stored := SomeMap (c : cache) | SomeElement (x : option seg).
Definition holds_at (sys : fsys) (x : place) : stored :=
  match x with
  | TheMap => SomeMap (f_cache sys)
  | Element id k => SomeElement (nth_error (deref (f_heap sys) id) k)
  end.
(** Places that exist: memory allocated by the step itself is not shared yet. *)
Definition exists_in (sys : fsys) (x : place) : Prop :=
  match x with TheMap => True | Element id _ => (id < List.length (f_heap sys))%nat end.
(** The goroutine that takes an action. *)
Definition actor (a : faction) : nat := match a with FCall i _ | FStep i | FWrite i _ _ _ => i end.
(** Two states that look the same to goroutine [i]: same lock, same goroutines, slices of
    the same lengths, the same contents in every place it may access next. *)
Definition looks_same (i : nat) (sys sys' : fsys) : Prop :=
  f_lock sys = f_lock sys' /\ f_gos sys = f_gos sys' /\
  map (@List.length seg) (f_heap sys) = map (@List.length seg) (f_heap sys') /\
  forall g x w, nth_error (f_gos sys) i = Some g -> may_access (f_heap sys) g x w -> holds_at sys x = holds_at sys' x.
(** The program point without the record of what was returned. *)
Definition point (p : pc) : pc := match p with QDone path _ => QDone path [] | _ => p end.

(** ** The modifier registry *)
Section Registry.
  Variable M : Type.

  (** The accesses to the registry map a goroutine may make next. *)
  Inductive may_touch : kpc M -> kind -> Prop :=
  | mt_check : forall n m, may_touch (KCheck M n m) Reads
  | mt_put : forall n m w, may_touch (KPut M n m) w
  | mt_del : forall n w, may_touch (KDel M n) w
  | mt_read : forall n, may_touch (KRead M n) Reads.
  Definition registry_race (sys : ksys M) : Prop :=
    exists i j pi pj w, i <> j /\ nth_error (k_gos M sys) i = Some pi /\ nth_error (k_gos M sys) j = Some pj /\
      may_touch pi Writes /\ may_touch pj w.

  (** The modifier bound to each name; [Some None] is a registered nil. *)
  Definition binding := bytes -> option (option M).
  (** What one call does when it runs alone. *)
  Inductive alone (b b' : binding) : rcall M -> rret M -> Prop :=
  | al_refused : forall n m, n = [] \/ b n <> None -> (forall x, b' x = b x) -> alone b b' (RRegister M n m) (RetErr M)
  | al_registered : forall n m, n <> [] -> b n = None -> b' n = Some m -> (forall x, x <> n -> b' x = b x) ->
      alone b b' (RRegister M n m) (RetOk M)
  | al_got : forall n, (forall x, b' x = b x) ->
      alone b b' (RGet M n) (RetMod M (match b n with Some m => m | None => None end))
  | al_kept : forall n, In n [bs "reverse"; bs "sort"; bs "first"; bs "last"; bs "flatten"; bs "pretty"; bs "ugly"] ->
      (forall x, b' x = b x) -> alone b b' (RUnregister M n) (RetErr M)
  | al_removed : forall n, ~ In n [bs "reverse"; bs "sort"; bs "first"; bs "last"; bs "flatten"; bs "pretty"; bs "ugly"] ->
      b' n = None -> (forall x, x <> n -> b' x = b x) -> alone b b' (RUnregister M n) (RetOk M).

  (** A history in which every call is also given one moment at which it takes effect. *)
  Inductive moment := Calls (i : nat) (c : rcall M) | Acts (i : nat) (c : rcall M) (r : rret M) | Returns (i : nat) (r : rret M).
  (** Without these moments: what can be seen. *)
  Fixpoint seen (t : list moment) : list (kevent M) :=
    match t with
    | [] => []
    | Calls i c :: t' => EvCall M i c :: seen t'
    | Acts _ _ _ :: t' => seen t'
    | Returns i r :: t' => EvReturn M i r :: seen t'
    end.
  (** The effects, one after the other. *)
  Inductive serial : binding -> list moment -> binding -> Prop :=
  | se_none : forall b b', (forall x, b' x = b x) -> serial b [] b'
  | se_call : forall b i c t b', serial b t b' -> serial b (Calls i c :: t) b'
  | se_return : forall b i r t b', serial b t b' -> serial b (Returns i r :: t) b'
  | se_act : forall b b1 i c r t b', alone b b1 c r -> serial b1 t b' -> serial b (Acts i c r :: t) b'.
  (** The moments of goroutine [i]. *)
  Definition mine (i : nat) (t : list moment) : list moment :=
    filter (fun x => Nat.eqb (match x with Calls j _ | Acts j _ _ | Returns j _ => j end) i) t.
  (** One call after the other; each acts once, between its start and its end, and returns
      the result of that moment. The last may still be running. *)
  Inductive orderly (i : nat) : list moment -> Prop :=
  | or_end : orderly i []
  | or_waiting : forall c, orderly i [Calls i c]
  | or_acted : forall c r, orderly i [Calls i c; Acts i c r]
  | or_call : forall c r t, orderly i t -> orderly i (Calls i c :: Acts i c r :: Returns i r :: t).
End Registry.

(** [n] steps, none of which leaves the state as it was, lead from one state to another.
    No new call is made. *)
Inductive moves : fsys -> nat -> fsys -> Prop :=
| mo_none : forall sys, moves sys 0 sys
| mo_step : forall sys i n sys', f_act sys (FStep i) <> sys -> moves (f_act sys (FStep i)) n sys' -> moves sys (S n) sys'.

(** ** Queries *)
(** The modifiers a path can refer to: their names stand behind an "@" in it, not counting
    backslashes. *)
Definition bare (s : bytes) : bytes := filter (fun c => negb (Ascii.eqb c backslash)) s.
Definition mentions (path name : bytes) : Prop := exists a b, bare path = a ++ "@"%char :: bare name ++ b.
(** Two environments that differ in custom modifiers only. *)
Definition same_but_modifiers (E E' : env) : Prop :=
  e_ord E = e_ord E' /\ e_parse_float E = e_parse_float E' /\ e_sort E = e_sort E' /\ e_codec E = e_codec E' /\ e_to_lower E = e_to_lower E'.
(** What a registry offers to queries. *)
Definition offers (reg : registry (result -> result)) (n : bytes) : option (result -> result) :=
  match map_get n reg with Some m => m | None => None end.
(** A call that may change the modifier bound to a name. *)
Definition touches {M} (n : bytes) (c : rcall M) : Prop :=
  match c with RRegister _ k _ | RUnregister _ k => k = n | RGet _ _ => False end.
