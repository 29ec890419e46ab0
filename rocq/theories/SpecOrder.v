(** The entries of a list put into another order: the programs call the library, their
    outcomes are described on lists. *)
From Coq Require Import List Ascii String NArith ZArith Bool.
From Verif Require Import GoStr ModelResult ModelParser ModelQuery ModelBuilder SpecText SpecPath SpecTree SpecQuery SpecEdit SpecContent SpecTail SpecLoop.
Import ListNotations.

(** The contents of two entries are exchanged, or an entry goes to the end. *)
Inductive move :=
| Exchange (i j : nat)
| ToEnd (i : nat).

(** ** Lists *)
Definition placed {A} (i : nat) (x : A) (l : list A) : list A := firstn i l ++ x :: skipn (S i) l.
Definition moved {A} (d : A) (o : move) (l : list A) : list A :=
  match o with
  | Exchange i j => placed j (nth i l d) (placed i (nth j l d) l)
  | ToEnd i => firstn i l ++ skipn (S i) l ++ [nth i l d]
  end.
Definition all_moved {A} (d : A) (ops : list move) (l : list A) : list A := fold_left (fun l o => moved d o l) ops l.
(** The numbers are those of entries. *)
Definition numbers_below (k : nat) (o : move) : Prop :=
  match o with
  | Exchange i j => i < k /\ j < k
  | ToEnd i => i < k
  end.

(** ** Documents *)
(** a := Get(doc, path.i).Raw; b := Get(doc, path.j).Raw; SetRaw(doc, path.i, b); SetRaw(doc, path.j, a) *)
Definition exchange (E : env) (fmt_g : f64 -> bytes) (s : list tstep) (m : bytes) (i j : nat) (d : bytes) : Res (bytes * option err) :=
  let* ri := get E d (tpath (item s m i) TheElement) in
  let* rj := get E d (tpath (item s m j) TheElement) in
  let* x := set_raw E fmt_g d (tpath (item s m i) TheElement) (r_raw rj) in
  match x with
  | (d', None) => set_raw E fmt_g d' (tpath (item s m j) TheElement) (r_raw ri)
  | (_, Some _) => Ok x
  end.
(** a := Get(doc, path.i).Raw; SetRaw(doc, path.-1, a); Delete(doc, path.i) *)
Definition to_end (E : env) (fmt_g : f64 -> bytes) (s : list tstep) (m : bytes) (i : nat) (d : bytes) : Res (bytes * option err) :=
  let* r := get E d (tpath (item s m i) TheElement) in
  let* x := set_raw E fmt_g d (tpath (s ++ [(m, None)]) TheElement ++ bs ".-1") (r_raw r) in
  match x with
  | (d', None) => delete E d' (tpath (item s m i) TheElement)
  | (_, Some _) => Ok x
  end.
Fixpoint rearrange (E : env) (fmt_g : f64 -> bytes) (s : list tstep) (m : bytes) (ops : list move) (d : bytes) : Res (bytes * option err) :=
  match ops with
  | [] => Ok (d, None)
  | o :: ops' =>
      let* x := (match o with Exchange i j => exchange E fmt_g s m i j d | ToEnd i => to_end E fmt_g s m i d end) in
      match x with
      | (d', None) => rearrange E fmt_g s m ops' d'
      | (_, Some _) => Ok x
      end
  end.

(** An element written with two tags. *)
Definition two_tags (nd : node) : Prop := match nd with Elem _ _ self _ => self = false | _ => False end.
(** An entry with the given content, the attributes inside in any order. *)
Definition holds (c : list node) (nd : node) : Prop := Forall2 same c (kids_of nd).

(** ** Sorting *)
(** An entry goes towards the front as long as it is less than the one before it:
    for ; j > 0; j-- { a := Get(doc, path.j.key).String(); b := Get(doc, path.(j-1).key).String(); if !less(a, b) { break }; exchange } *)
Fixpoint sink (E : env) (fmt_g : f64 -> bytes) (less : bytes -> bytes -> bool) (s : list tstep) (m : bytes) (rest : list tstep) (fin : final) (j : nat) (d : bytes) : Res (bytes * option err) :=
  match j with
  | O => Ok (d, None)
  | S i =>
      let* a := get E d (tpath (item s m j ++ rest) fin) in
      let* b := get E d (tpath (item s m i ++ rest) fin) in
      if less (r_string a) (r_string b)
      then let* x := exchange E fmt_g s m i j d in
           match x with
           | (d', None) => sink E fmt_g less s m rest fin i d'
           | (_, Some _) => Ok x
           end
      else Ok (d, None)
  end.
(** for j := first; j < first + k; j++ { sink entry j } *)
Fixpoint sort_from (E : env) (fmt_g : f64 -> bytes) (less : bytes -> bytes -> bool) (s : list tstep) (m : bytes) (rest : list tstep) (fin : final) (first k : nat) (d : bytes) : Res (bytes * option err) :=
  match k with
  | O => Ok (d, None)
  | S k' =>
      let* x := sink E fmt_g less s m rest fin first d in
      match x with
      | (d', None) => sort_from E fmt_g less s m rest fin (S first) k' d'
      | (_, Some _) => Ok x
      end
  end.
(** n := Get(doc, path.#).Int(), and all entries up to n. *)
Definition sort_entries E fmt_g less s m rest fin := counted E s m (sort_from E fmt_g less s m rest fin 0).
(** The key of an entry with the given content: the text of an element below it, or an attribute there. *)
Definition keyed (rest : list tstep) (fin : final) (c : list node) (t : bytes) : Prop :=
  (rest = [] -> forall x, fin <> TheAttribute x) /\
  match inside rest fin (Elem [] [] false c) with
  | Element k => Decodes (trim_space (all_text k)) t
  | Attribute v => v = t
  | _ => False
  end.
