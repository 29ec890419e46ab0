(** Glob matching, independent of the dynamic programme. Characters are code points:
    42 is '*', 63 is '?', 92 is the backslash. *)
From Coq Require Import List NArith.
Import ListNotations.

(** [Glob p s]: the string [s] is an instance of the pattern [p]
    (documented at internal/pattern/match.go:13-16). *)
Inductive Glob : list N -> list N -> Prop :=
| G_nil : Glob [] []
| G_star_none : forall p s, Glob p s -> Glob (42%N :: p) s
| G_star_one : forall p c s, Glob (42%N :: p) s -> Glob (42%N :: p) (c :: s)
| G_quest : forall p c s, Glob p s -> Glob (63%N :: p) (c :: s)
| G_quoted : forall p c s, Glob p s -> Glob (92%N :: c :: p) (c :: s)
| G_trailing : Glob [92%N] [92%N]
| G_lit : forall p c s, c <> 42%N -> c <> 63%N -> c <> 92%N -> Glob p s -> Glob (c :: p) (c :: s).

(** Number of pattern positions: a backslash and the character it quotes count once. *)
Fixpoint glob_width (p : list N) : nat :=
  match p with
  | [] => 0
  | c :: p' =>
      if N.eqb c 92 then match p' with [] => 1 | _ :: p2 => S (glob_width p2) end
      else S (glob_width p')
  end.
