(** Two programs taking turns on one document. *)
From Coq Require Import List Ascii String NArith ZArith Bool.
From Verif Require Import GoStr SpecStore SpecFill SpecLayer SpecAgent.
Import ListNotations.

(** One program, then another one that may depend on its answer. *)
Fixpoint and_then {A B} (P : agent A) (f : A -> agent B) : agent B :=
  match P with
  | Finish a => f a
  | Ask q next => Ask q (fun v => and_then (next v) f)
  | Do o next => Do o (and_then next f)
  end.
(** The turns: true for a call of the first program, false for one of the second.  When no
    turns are left the first program goes on to its end, then the second one.  (Any
    interleaving of more programs is one of the first with an interleaving of the others.) *)
Fixpoint weave {A B} (turns : list bool) (P : agent A) (Q : agent B) : agent (A * B) :=
  match turns with
  | [] => and_then P (fun a => and_then Q (fun b => Finish (a, b)))
  | true :: turns' =>
      match P with
      | Finish _ => weave turns' P Q
      | Ask q next => Ask q (fun v => weave turns' (next v) Q)
      | Do o next => Do o (weave turns' next Q)
      end
  | false :: turns' =>
      match Q with
      | Finish _ => weave turns' P Q
      | Ask q next => Ask q (fun v => weave turns' P (next v))
      | Do o next => Do o (weave turns' P next)
      end
  end.
