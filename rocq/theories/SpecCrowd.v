(** Any number of programs taking turns on one document. *)
From Coq Require Import List Ascii String NArith ZArith Bool.
From Verif Require Import GoStr SpecStore SpecFill SpecLayer SpecAgent SpecWeave.
Import ListNotations.

(** The programs one after the other; their answers in a list. *)
Fixpoint in_order {A} (Ps : list (agent A)) : agent (list A) :=
  match Ps with
  | [] => Finish []
  | P :: Ps' => and_then P (fun a => and_then (in_order Ps') (fun l => Finish (a :: l)))
  end.
(** Program number [i] has become [P]. *)
Definition became {A} (i : nat) (P : A) (Ps : list A) : list A := firstn i Ps ++ P :: skipn (S i) Ps.
(** The turns: the number of the program that makes the next call.  A turn of a program that
    has ended, or of none, is passed over; when no turns are left the programs go on one
    after the other. *)
Fixpoint interleave {A} (turns : list nat) (Ps : list (agent A)) : agent (list A) :=
  match turns with
  | [] => in_order Ps
  | i :: turns' =>
      match nth_error Ps i with
      | None | Some (Finish _) => interleave turns' Ps
      | Some (Ask q next) => Ask q (fun v => interleave turns' (became i (next v) Ps))
      | Some (Do o next) => Do o (interleave turns' (became i next Ps))
      end
  end.
