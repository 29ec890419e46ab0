(** Which steps of a path can multiply results. *)
From Coq Require Import List Ascii String NArith Bool.
From Verif Require Import GoStr.
Import ListNotations.

(** The steps documented to return several results: wildcard, recursive search, field
    extraction (or a count) and the condition with a final #. *)
Definition multiplies (part : bytes) : bool :=
  bytes_eqb part (bs "*") || bytes_eqb part (bs "**") || bytes_eqb part (bs "#") ||
  (has_prefix (bs "#(") part && has_suffix (bs ")#") part).
