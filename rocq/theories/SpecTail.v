(** What follows the element a path leads to; independent of the model of the library. *)
From Coq Require Import List Ascii String NArith ZArith Bool.
From Verif Require Import GoStr SpecText SpecPath SpecTree SpecQuery.
Import ListNotations.

(** What the rest of a path designates, seen from the element [nd]. *)
Definition inside (rest : list tstep) (fin : final) (nd : node) : answer :=
  match rest, fin with
  | [], TheChildren => query false [] TheChildren (kids_of nd)
  | [], _ => final_answer fin nd
  | _ :: _, _ => query false rest fin (kids_of nd)
  end.
