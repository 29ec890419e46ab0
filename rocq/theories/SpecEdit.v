(** Edits of element trees; independent of the model of the library. *)
From Coq Require Import List Ascii String NArith ZArith Bool Permutation.
From Verif Require Import GoStr SpecText SpecPath SpecTree SpecQuery.
Import ListNotations.

Definition named (f : bytes -> bool) (nd : node) : bool :=
  match nd with Elem n _ _ _ => f n | _ => false end.
(** Replace the [i]-th element whose name satisfies [f] by what [g] makes of it. *)
Fixpoint edit_nth (f : bytes -> bool) (i : nat) (g : node -> option (list node)) (F : list node)
  : option (list node) :=
  match F with
  | [] => None
  | nd :: F' =>
      if named f nd then
        match i with
        | O => option_map (fun l => l ++ F') (g nd)
        | S i' => option_map (cons nd) (edit_nth f i' g F')
        end
      else option_map (cons nd) (edit_nth f i g F')
  end.
Definition index_of (idx : option bytes) : nat :=
  match idx with Some ds => N.to_nat (decimal_value ds) | None => 0 end.
(** Follow the path through the first (or the indexed) match of every name, without
    returning, and replace the element reached by [g]. *)
Fixpoint edit_at (steps : list tstep) (g : node -> list node) (F : list node) : option (list node) :=
  match steps with
  | [] => None
  | (n, idx) :: rest =>
      edit_nth (selects n) (index_of idx)
        (fun nd =>
           match rest, nd with
           | [], _ => Some (g nd)
           | _, Elem m a self kids =>
               option_map (fun kids' => [Elem m a self kids']) (edit_at rest g kids)
           | _, _ => None
           end) F
  end.
(** The element the path designates, with the bytes of the document around it. *)
Inductive located : list tstep -> list node -> bytes -> node -> bytes -> Prop :=
| loc_here : forall n idx F1 nd F2, named (selects n) nd = true ->
    List.length (called (selects n) F1) = index_of idx ->
    located [(n, idx)] (F1 ++ nd :: F2) (forest_text F1) nd (forest_text F2)
| loc_down : forall n idx rest F1 m a kids F2 A nd B, selects n m = true ->
    List.length (called (selects n) F1) = index_of idx -> located rest kids A nd B ->
    located ((n, idx) :: rest) (F1 ++ Elem m a false kids :: F2)
      (forest_text F1 ++ start_tag m a false ++ A) nd (B ++ end_tag m ++ forest_text F2).

(** ** The edits *)
(** New text content. *)
Definition with_text (v : bytes) (nd : node) : list node :=
  match nd with Elem n a self _ => [Elem n a self [Text (esc v)]] | _ => [nd] end.
(** Other attributes. *)
Definition with_attrs (a' : list (bytes * bytes)) (nd : node) : list node :=
  match nd with Elem n _ self kids => [Elem n a' self kids] | _ => [nd] end.
(** One more child at the end. *)
Definition with_child (a' : list (bytes * bytes)) (c : node) (nd : node) : list node :=
  match nd with Elem n _ _ kids => [Elem n a' false (kids ++ [c])] | _ => [nd] end.
(** Nested new elements around given children, and around a text. *)
Fixpoint nest (names : list bytes) (inside : list node) : list node :=
  match names with
  | [] => inside
  | n :: rest => [Elem n [] false (nest rest inside)]
  end.
Definition chain_of (names : list bytes) (v : bytes) : list node := nest names [Text (esc v)].
(** Steps without indexes. *)
Definition by_name (names : list bytes) : list tstep := map (fun n => (n, None)) names.
(** An attribute set to a value: replaced in place or added. *)
Fixpoint put_attr (x v : bytes) (a : list (bytes * bytes)) : list (bytes * bytes) :=
  match a with
  | [] => [(x, v)]
  | (n, w) :: a' => if bytes_eqb x n then (n, v) :: a' else (n, w) :: put_attr x v a'
  end.
(** An attribute removed. *)
Definition drop_attr (x : bytes) (a : list (bytes * bytes)) : list (bytes * bytes) :=
  filter (fun p => negb (bytes_eqb (fst p) x)) a.

(** A new node after the last element whose name satisfies [f], or at the end. *)
Fixpoint insert_last (f : bytes -> bool) (c : node) (F : list node) : list node :=
  match F with
  | [] => [c]
  | nd :: F' =>
      match called f F' with
      | [] => if named f nd then nd :: c :: F' else nd :: insert_last f c F'
      | _ :: _ => nd :: insert_last f c F'
      end
  end.

(** ** Paths that Get follows like the editing functions *)
(** Get counts at most 1000 siblings and compares a leading indexed name literally. *)
Definition readable (steps : list tstep) (F : list node) : Prop :=
  Forall (fun s => match snd s with Some ds => (decimal_value ds < 1000)%N | None => True end) steps /\
  match steps with
  | (n, Some _) :: _ => forall m a s k, In (Elem m a s k) F -> selects n m = bytes_eqb n m
  | _ => True
  end.
