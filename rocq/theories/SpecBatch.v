(** Costs that add up; independent of the model of the library. *)
From Coq Require Import List Ascii NArith.
From Verif Require Import GoStr SpecTree SpecQuery.
Import ListNotations.

(** [sums step d ops c d']: performing the operations in order, each on the result of the
    previous one, leads from [d] to [d'], and the costs of the steps add up to [c]. *)
Inductive sums {A} (step : bytes -> A -> N -> bytes -> Prop) : bytes -> list A -> N -> bytes -> Prop :=
| sums_nil : forall d, sums step d [] 0 d
| sums_cons : forall d d1 d2 op ops c k, step d op c d1 -> sums step d1 ops k d2 -> sums step d (op :: ops) (c + k) d2.
(** The number of child elements. *)
Definition child_elements (kids : list node) : nat := List.length (filter is_elem kids).
