(** How much edits may add to a document; independent of the model of the library. *)
From Coq Require Import List Ascii String NArith Bool.
From Verif Require Import GoStr SpecText SpecPath SpecTree SpecQuery SpecEdit SpecContent SpecValid SpecHistory SpecStore.
Import ListNotations.

(** The length of a forest with two tags for every element. *)
Fixpoint opened (nd : node) : node :=
  match nd with Elem n a _ kids => Elem n a false (map opened kids) | Text t => Text t | Misc b => Misc b end.
Definition full (F : list node) : nat := List.length (forest_text (map opened F)).
(** The tags of new elements. *)
Definition tags (names : list bytes) : nat := list_sum (map (fun n => 2 * List.length n + 5) names).
(** What an edit may add. *)
Definition spend (o : edit) : nat :=
  match o with
  | SetContent steps c => tags (map fst steps) + full (content_nodes c)
  | SetAttr steps x v => tags (map fst steps) + List.length x + List.length (esc v) + 4
  | Append _ m c => tags [m] + full (content_nodes c)
  | Remove _ | RemoveAttr _ _ => 0
  end.
Definition spend_all (ops : list edit) : nat := list_sum (map spend ops).
(** The edits one after the other; an element remains. *)
Inductive leads : list edit -> list node -> list node -> Prop :=
| leads_nil : forall F, leads [] F F
| leads_cons : forall o ops F F1 F2, legal o -> apply_edit o F = Some F1 -> has_element F1 -> leads ops F1 F2 -> leads (o :: ops) F F2.
(** The largest number of attributes of an element. *)
Fixpoint most_attrs (nd : node) : nat :=
  match nd with
  | Elem _ a _ kids => Nat.max (List.length a) (fold_right (fun x k => Nat.max (most_attrs x) k) 0 kids)
  | _ => 0
  end.
Definition most (F : list node) : nat := fold_right (fun x k => Nat.max (most_attrs x) k) 0 F.
(** The number of different names of attributes given by operations on a store. *)
Definition mark_names (ops : list store_op) : list bytes := flat_map (fun o => match o with Mark _ x _ => [x] | _ => [] end) ops.
Definition marks (ops : list store_op) : nat := List.length (nodup (list_eq_dec ascii_dec) (mark_names ops)).
