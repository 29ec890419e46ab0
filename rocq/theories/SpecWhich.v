(** Lines inserted into a text; independent of the model of the library. *)
From Coq Require Import List Ascii String NArith ZArith Bool.
From Verif Require Import GoStr.
Import ListNotations.

(** The second text is the first one with newlines put in, each followed by some number of
    copies of [ind]. *)
Inductive spread (ind : bytes) : bytes -> bytes -> Prop :=
| spread_nil : spread ind [] []
| spread_char : forall c a b, spread ind a b -> spread ind (c :: a) (c :: b)
| spread_line : forall n a b, spread ind a b -> spread ind a (ascii_of_nat 10 :: List.concat (List.repeat ind n) ++ b).
