(** Edits taken back one after the other; independent of the model of the library except for
    the calls the edits stand for. *)
From Coq Require Import List Ascii String NArith ZArith Bool Permutation.
From Verif Require Import GoStr SpecText SpecPath SpecTree SpecQuery SpecEdit SpecContent SpecValid SpecHistory SpecLoop.
Import ListNotations.

(** [undone_by F o o']: in a document with the tree [F], the edit [o] is taken back by [o']. *)
Inductive undone_by (F : list node) : edit -> edit -> Prop :=
(** New content of an element: its old content (as it was or as Raw returns it, with the
    attributes in another order). *)
| ub_content : forall s c A n a K B K', located s F A (Elem n a false K) B -> Forall2 same K K' ->
    undone_by F (SetContent s c) (SetContent s (AsForest K'))
(** A value at a path with missing elements: the first of the new elements is removed. *)
| ub_new : forall s c m ms A n a K B, located s F A (Elem n a false K) B -> called (selects m) K = [] ->
    undone_by F (SetContent (s ++ by_name (m :: ms)) c) (Remove (s ++ [(m, None)]))
| ub_new_top : forall c m ms, called (selects m) F = [] ->
    undone_by F (SetContent (by_name (m :: ms)) c) (Remove [(m, None)])
| ub_new_attr : forall s x v m ms A n a K B, located s F A (Elem n a false K) B -> called (selects m) K = [] ->
    undone_by F (SetAttr (s ++ by_name (m :: ms)) x v) (Remove (s ++ [(m, None)]))
(** An attribute: its old value, or its removal. *)
| ub_attr_new : forall s x v A nd B, located s F A nd B -> attr_value x (attrs_of nd) = None ->
    undone_by F (SetAttr s x v) (RemoveAttr s x)
| ub_attr_old : forall s x v w A nd B, located s F A nd B -> attr_value x (attrs_of nd) = Some w ->
    undone_by F (SetAttr s x v) (SetAttr s x w)
| ub_attr_gone : forall s x w A nd B, located s F A nd B -> attr_value x (attrs_of nd) = Some w ->
    undone_by F (RemoveAttr s x) (SetAttr s x w)
(** An entry at the end of a list: the removal of the entry with the number the list had entries. *)
| ub_append : forall s m c A n a K B, located s F A (Elem n a false K) B ->
    undone_by F (Append s m c) (Remove (item s m (List.length (called (selects m) K))))
(** A removal that found nothing. *)
| ub_no_element : forall s, (forall A nd B, ~ located s F A nd B) -> undone_by F (Remove s) (Remove s)
| ub_no_attr : forall s x A nd B, located s F A nd B -> attr_value x (attrs_of nd) = None ->
    undone_by F (RemoveAttr s x) (RemoveAttr s x).

(** Edits made one after the other, and the edits that take them back: the last one first. *)
Inductive journal (p : bytes) : list node -> list edit -> list edit -> list node -> Prop :=
| jo_nil : forall F, journal p F [] [] F
| jo_cons : forall F o o' F1 ops undos F2, legal o -> legal o' -> undone_by F o o' -> apply_edit o F = Some F1 -> room p F1 ->
    journal p F1 ops undos F2 -> journal p F (o :: ops) (undos ++ [o']) F2.
(** No element has more than one attribute. *)
Fixpoint few_attrs (nd : node) : Prop :=
  match nd with
  | Elem _ a _ kids => List.length a <= 1 /\ fold_right (fun k P => few_attrs k /\ P) True kids
  | _ => True
  end.
