(** A document used as a queue with two ends: the program calls the library, the outcome is
    that of a list. *)
From Coq Require Import List Ascii String NArith ZArith Bool.
From Verif Require Import GoStr ModelResult ModelParser ModelQuery ModelBuilder SpecText SpecPath SpecTree SpecQuery SpecEdit SpecContent SpecLoop.
Import ListNotations.

(** An entry is put at the end; the first or the last is taken out. *)
Inductive queue_op :=
| Push (v : bytes)
| TakeFirst
| TakeLast.

(** ** The list *)
(** The entries left and, for every taking, the entry taken or the answer that there was none. *)
Fixpoint on_list (ops : list queue_op) (q : list bytes) : list bytes * list (option bytes) :=
  match ops with
  | [] => (q, [])
  | Push v :: ops' => on_list ops' (q ++ [trim_space v])
  | TakeFirst :: ops' =>
      match q with
      | [] => let '(q', out) := on_list ops' [] in (q', None :: out)
      | x :: rest => let '(q', out) := on_list ops' rest in (q', Some x :: out)
      end
  | TakeLast :: ops' =>
      match rev q with
      | [] => let '(q', out) := on_list ops' [] in (q', None :: out)
      | x :: rest => let '(q', out) := on_list ops' (rev rest) in (q', Some x :: out)
      end
  end.

(** ** The document *)
(** r := Get(doc, path.i); if r.Exists() { doc = Delete(doc, path.i) } *)
Definition take_at (E : env) (s : list tstep) (m : bytes) (i : nat) (d : bytes) : Res (option (bytes * option bytes)) :=
  match get E d (tpath (item s m i) TheElement) with
  | Ok r =>
      if r_exists r
      then match delete E d (tpath (item s m i) TheElement) with
           | Ok (d', None) => Ok (Some (d', Some (r_string r)))
           | Ok (_, Some _) => Ok None
           | Panic => Panic
           | OutOfFuel => OutOfFuel
           end
      else Ok (Some (d, None))
  | Panic => Panic
  | OutOfFuel => OutOfFuel
  end.
(** n := Get(doc, path.#).Int(); if n > 0 { take the element n-1 } *)
Definition take_end (E : env) (s : list tstep) (m : bytes) (d : bytes) : Res (option (bytes * option bytes)) :=
  match get E d (tpath (s ++ [(m, None)]) TheCount) with
  | Ok r => match Z.to_nat (r_int r) with O => Ok (Some (d, None)) | S i => take_at E s m i d end
  | Panic => Panic
  | OutOfFuel => OutOfFuel
  end.
(** The operations one after the other on the elements [m] in the element at [s]; Ok None is
    an error reported by a call. *)
Fixpoint on_document (E : env) (fmt_g : f64 -> bytes) (s : list tstep) (m : bytes) (ops : list queue_op) (d : bytes) : Res (option (bytes * list (option bytes))) :=
  match ops with
  | [] => Ok (Some (d, []))
  | Push v :: ops' =>
      match set E fmt_g d (tpath (s ++ [(m, None)]) TheElement ++ bs ".-1") (VStr v) with
      | Ok (d', None) => on_document E fmt_g s m ops' d'
      | Ok (_, Some _) => Ok None
      | Panic => Panic
      | OutOfFuel => OutOfFuel
      end
  | o :: ops' =>
      match (match o with TakeFirst => take_at E s m 0 d | _ => take_end E s m d end) with
      | Ok (Some (d', x)) =>
          match on_document E fmt_g s m ops' d' with
          | Ok (Some (d'', out)) => Ok (Some (d'', x :: out))
          | other => other
          end
      | Ok None => Ok None
      | Panic => Panic
      | OutOfFuel => OutOfFuel
      end
  end.

(** The children that are not entries. *)
Definition others (m : bytes) (kids : list node) : list node := filter (fun x => negb (named (selects m) x)) kids.
(** What the operations add to the document at most, and how many entries. *)
Definition pushed (m : bytes) (ops : list queue_op) : list node :=
  flat_map (fun o => match o with Push v => [Elem m [] false [Text (esc v)]] | _ => [] end) ops.
