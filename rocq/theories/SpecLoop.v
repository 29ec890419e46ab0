(** Loops over the numbered elements of one name; the programs call the library, their
    outcomes are described on trees. *)
From Coq Require Import List Ascii String NArith ZArith Bool.
From Verif Require Import GoStr ModelResult ModelParser ModelQuery ModelBuilder SpecText SpecPath SpecTree SpecQuery SpecEdit SpecContent.
Import ListNotations.

(** The path of the element with a number. *)
Definition number (i : nat) : bytes := decimal (Z.of_nat i).
Definition item (s : list tstep) (m : bytes) (i : nat) : list tstep := s ++ [(m, Some (number i))].

(** ** The programs *)
(** for i := first; i < first + k; i++ { doc = Set(doc, path.i, f(Get(doc, path.i).String())) } *)
Fixpoint update_loop (E : env) (fmt_g : f64 -> bytes) (s : list tstep) (m : bytes) (fin : final) (f : bytes -> bytes) (first k : nat) (d : bytes)
  : Res (bytes * option err) :=
  match k with
  | O => Ok (d, None)
  | S k' =>
      match get E d (tpath (item s m first) fin) with
      | Ok r =>
          match set E fmt_g d (tpath (item s m first) TheElement) (VStr (f (r_string r))) with
          | Ok (d', None) => update_loop E fmt_g s m fin f (S first) k' d'
          | other => other
          end
      | Panic => Panic
      | OutOfFuel => OutOfFuel
      end
  end.
(** for i := k - 1; i >= 0; i-- { if p(Get(doc, path.i).String()) { doc = Delete(doc, path.i) } } *)
Fixpoint sweep_loop (E : env) (s : list tstep) (m : bytes) (fin : final) (P : bytes -> bool) (k : nat) (d : bytes) : Res (bytes * option err) :=
  match k with
  | O => Ok (d, None)
  | S i =>
      match get E d (tpath (item s m i) fin) with
      | Ok r =>
          if P (r_string r)
          then match delete E d (tpath (item s m i) TheElement) with
               | Ok (d', None) => sweep_loop E s m fin P i d'
               | other => other
               end
          else sweep_loop E s m fin P i d
      | Panic => Panic
      | OutOfFuel => OutOfFuel
      end
  end.
(** n := Get(doc, path.#).Int() and a loop up to n. *)
Definition counted (E : env) (s : list tstep) (m : bytes) (loop : nat -> bytes -> Res (bytes * option err)) (d : bytes) : Res (bytes * option err) :=
  match get E d (tpath (s ++ [(m, None)]) TheCount) with
  | Ok r => loop (Z.to_nat (r_int r)) d
  | Panic => Panic
  | OutOfFuel => OutOfFuel
  end.
Definition update_all E fmt_g s m fin f := counted E s m (update_loop E fmt_g s m fin f 0).
Definition delete_where E s m fin P := counted E s m (sweep_loop E s m fin P).

(** ** The outcomes *)
(** What an element says when it is asked for its content or for an attribute. *)
Definition says (fin : final) (nd : node) (t : bytes) : Prop :=
  match fin with
  | TheElement => Decodes (trim_space (all_text (kids_of nd))) t
  | TheAttribute x => attr_value x (attrs_of nd) = Some t
  | _ => False
  end.
(** Every element of the name gets the new text, the others stay. *)
Inductive updated (m : bytes) (fin : final) (f : bytes -> bytes) : list node -> list node -> Prop :=
| up_nil : updated m fin f [] []
| up_other : forall x K K', named (selects m) x = false -> updated m fin f K K' -> updated m fin f (x :: K) (x :: K')
| up_item : forall n a kids t K K', selects m n = true -> says fin (Elem n a false kids) t -> updated m fin f K K' ->
    updated m fin f (Elem n a false kids :: K) (Elem n a false [Text (esc (f t))] :: K').
(** The elements of the name that say what is not wanted are gone, the others stay. *)
Inductive swept (m : bytes) (fin : final) (P : bytes -> bool) : list node -> list node -> Prop :=
| sw_nil : swept m fin P [] []
| sw_other : forall x K K', named (selects m) x = false -> swept m fin P K K' -> swept m fin P (x :: K) (x :: K')
| sw_keep : forall x t K K', named (selects m) x = true -> says fin x t -> P t = false -> swept m fin P K K' -> swept m fin P (x :: K) (x :: K')
| sw_drop : forall x t K K', named (selects m) x = true -> says fin x t -> P t = true -> swept m fin P K K' -> swept m fin P (x :: K) K'.
