(** Lists kept in a document: elements of one name in one parent; independent of the model of
    the library. *)
From Coq Require Import List Ascii String NArith Bool.
From Verif Require Import GoStr SpecText SpecPath SpecTree SpecQuery SpecEdit SpecContent.
Import ListNotations.

(** The children up to the last one of a name, or all of them if there is none. *)
Definition up_to_last (m : bytes) (kids K1 K2 : list node) : Prop :=
  kids = K1 ++ K2 /\ called (selects m) K2 = [] /\
  (called (selects m) kids = [] -> K2 = []) /\
  (called (selects m) kids <> [] -> exists K x, K1 = K ++ [x] /\ named (selects m) x = true).
(** The entries a list of contents makes. *)
Definition entries (m : bytes) (cs : list content) : list node := map (fun c => Elem m [] false (content_nodes c)) cs.
(** The children without the first [j] of a name. *)
Fixpoint without_first (m : bytes) (j : nat) (kids : list node) : list node :=
  match kids with
  | [] => []
  | x :: rest =>
      if named (selects m) x
      then match j with 0 => kids | S j' => without_first m j' rest end
      else x :: without_first m j rest
  end.
