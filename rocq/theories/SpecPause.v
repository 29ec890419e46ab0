(** Programs that are stopped on the way. *)
From Coq Require Import List Ascii String NArith ZArith Bool.
From Verif Require Import GoStr SpecStore SpecFill SpecLayer SpecAgent.
Import ListNotations.

(** The first [n] calls of a program; the answer is the program that is left. *)
Fixpoint first_calls {A} (n : nat) (P : agent A) : agent (agent A) :=
  match n with
  | O => Finish P
  | S n' =>
      match P with
      | Finish a => Finish P
      | Ask q next => Ask q (fun v => first_calls n' (next v))
      | Do o next => Do o (first_calls n' next)
      end
  end.
