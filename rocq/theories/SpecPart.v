(** The content of an element as a document of its own; independent of the model of the
    library. *)
From Coq Require Import List Ascii String NArith ZArith Bool.
From Verif Require Import GoStr SpecText SpecPath SpecTree SpecQuery SpecEdit SpecContent SpecHistory.
Import ListNotations.

(** Every step of the path has one candidate: the only element with the name, or the one
    with a number among the first thousand (at the top level: by its literal name). The
    element reached is not self-closing. *)
Definition picks (top : bool) (n : bytes) (idx : option bytes) (F : list node) (nd : node) : Prop :=
  match idx with
  | None => called (selects n) F = [nd]
  | Some ds => (decimal_value ds < 1000)%N /\ nth_error (called (selects n) F) (N.to_nat (decimal_value ds)) = Some nd /\
      (top = true -> called (bytes_eqb n) F = called (selects n) F)
  end.
Inductive pinned : bool -> list tstep -> list node -> node -> Prop :=
| pin_here : forall top n idx F m a kids, picks top n idx F (Elem m a false kids) -> pinned top [(n, idx)] F (Elem m a false kids)
| pin_down : forall top n idx s rest F m a kids nd, picks top n idx F (Elem m a false kids) -> pinned false (s :: rest) kids nd ->
    pinned top ((n, idx) :: s :: rest) F nd.
(** The edit with a longer path. *)
Definition under (pre : list tstep) (o : edit) : edit :=
  match o with
  | SetContent steps c => SetContent (pre ++ steps) c
  | SetAttr steps x v => SetAttr (pre ++ steps) x v
  | Remove steps => Remove (pre ++ steps)
  | RemoveAttr steps x => RemoveAttr (pre ++ steps) x
  | Append steps m c => Append (pre ++ steps) m c
  end.
