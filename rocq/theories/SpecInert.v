(** Documents with gaps; independent of the model of the library. *)
From Coq Require Import List Ascii String NArith.
From Verif Require Import GoStr.
Import ListNotations.

(** A document with gaps, and the document with a text in every gap. *)
Definition template := list (option bytes).
Definition fill (T : template) (t : bytes) : bytes :=
  flat_map (fun x => match x with Some b => b | None => t end) T.
(** How often a character occurs. *)
Definition occurrences (c : ascii) (s : bytes) : nat := count_occ ascii_dec s c.
