(** Specification vocabulary for the batch operations, independent of the model. *)
From Coq Require Import List Ascii.
From Verif Require Import GoStr.
Import ListNotations.

(** [firsts l d]: [d] lists the distinct members of [l] in the order of their first
    occurrence (set.go:389-400, documented behaviour of DeleteMany). *)
Inductive firsts : list bytes -> list bytes -> Prop :=
| firsts_nil : firsts [] []
| firsts_old : forall l d p, firsts l d -> In p l -> firsts (l ++ [p]) d
| firsts_new : forall l d p, firsts l d -> ~ In p l -> firsts (l ++ [p]) (d ++ [p]).

(** [chain step d ops d']: performing the operations in order, each on the result of
    the previous one, leads from [d] to [d']; [step d op d1] is one successful operation. *)
Inductive chain {A} (step : bytes -> A -> bytes -> Prop) : bytes -> list A -> bytes -> Prop :=
| chain_nil : forall d, chain step d [] d
| chain_cons : forall d d1 d2 op ops, step d op d1 -> chain step d1 ops d2 -> chain step d (op :: ops) d2.
