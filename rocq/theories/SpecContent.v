(** What is stored in an element; independent of the model of the library. *)
From Coq Require Import List Ascii String NArith ZArith Bool.
From Verif Require Import GoStr SpecText SpecPath SpecTree SpecQuery SpecEdit.
Import ListNotations.

(** Decimal notation without leading zeros. *)
Fixpoint digits_of (fuel : nat) (n : N) : bytes :=
  match fuel with
  | O => []
  | S f => (if (n <? 10)%N then [] else digits_of f (n / 10)%N) ++ [ascii_of_N (48 + n mod 10)%N]
  end.
Definition decimal (z : Z) : bytes :=
  (if (z <? 0)%Z then bs "-" else []) ++ digits_of (S (N.size_nat (Z.abs_N z))) (Z.abs_N z).
(** A text, a number, a truth value or a forest, and the children it becomes. *)
Inductive content :=
| AsText (s : bytes)
| AsInt (z : Z)
| AsBool (b : bool)
| AsForest (K : list node).
Definition content_nodes (c : content) : list node :=
  match c with
  | AsText s => [Text (esc s)]
  | AsInt z => [Text (decimal z)]
  | AsBool b => [Text (if b then bs "true" else bs "false")]
  | AsForest K => K
  end.
Definition height (F : list node) : nat := fold_right (fun k m => Nat.max (levels k) m) 0 F.
Definition good_content (c : content) : Prop :=
  (match c with AsForest K => Forall good K | _ => True end) /\
  (N.of_nat (List.length (forest_text (content_nodes c))) <= 5242880)%N.
