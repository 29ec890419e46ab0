(** A document used as a store: keys are paths of names, and an entry has a content and
    attributes; independent of the model of the library. *)
From Coq Require Import List Ascii String NArith ZArith Bool.
From Verif Require Import GoStr SpecText SpecPath SpecTree SpecQuery SpecEdit SpecContent SpecHistory SpecTable.
Import ListNotations.

(** ** Stores *)
Record entry := mkEntry { content_of : bytes; attribute : bytes -> option bytes }.
Definition store := list bytes -> option entry.
Definition same_key (k k' : list bytes) : bool := if list_eq_dec (list_eq_dec ascii_dec) k k' then true else false.
(** Give an entry its content or one of its attributes, creating the entry; take out an
    entry or one of its attributes. *)
Inductive store_op :=
| Give (k : list bytes) (v : bytes)
| Mark (k : list bytes) (x v : bytes)
| Forget (k : list bytes)
| Unmark (k : list bytes) (x : bytes).
Definition key_of (o : store_op) : list bytes :=
  match o with Give k _ | Mark k _ _ | Forget k | Unmark k _ => k end.
Definition put_mark (x : bytes) (v : option bytes) (f : bytes -> option bytes) : bytes -> option bytes :=
  fun y => if bytes_eqb y x then v else f y.
Definition in_entry (o : store_op) (e : option entry) : option entry :=
  match o, e with
  | Give _ v, Some e => Some (mkEntry v (attribute e))
  | Give _ v, None => Some (mkEntry v (fun _ => None))
  | Mark _ x v, Some e => Some (mkEntry (content_of e) (put_mark x (Some v) (attribute e)))
  | Mark _ x v, None => Some (mkEntry [] (put_mark x (Some v) (fun _ => None)))
  | Forget _, _ => None
  | Unmark _ x, Some e => Some (mkEntry (content_of e) (put_mark x None (attribute e)))
  | Unmark _ _, None => None
  end.
Definition do_store (o : store_op) (D : store) : store :=
  fun k => if same_key k (key_of o) then in_entry o (D k) else D k.
Definition do_all (ops : list store_op) (D : store) : store := fold_left (fun D o => do_store o D) ops D.

(** ** Stores in documents *)
(** Names without a prefix; no key leads through another one. *)
Definition plain_key (k : list bytes) : Prop := k <> [] /\ Forall (fun n => split_colon n = None) k.
Definition keys (K : list bytes -> Prop) : Prop :=
  (forall k, K k -> plain_key k) /\ forall k z, K k -> K (k ++ z) -> z = [].
(** No element bears the names; the names on the way lead to one element each. *)
Inductive absent : list bytes -> list node -> Prop :=
| missing_here : forall n rest F, called (selects n) F = [] -> absent (n :: rest) F
| missing_below : forall n rest F m a self kids, called (selects n) F = [Elem m a self kids] -> absent rest kids -> absent (n :: rest) F.
(** The children of an element with nothing but a text. *)
Definition holds (kids : list node) (v : bytes) : Prop := kids = [Text (esc v)] \/ (kids = [] /\ v = []).
Definition stores (K : list bytes -> Prop) (F : list node) (D : store) : Prop :=
  forall k, K k ->
    match D k with
    | Some e => exists m a kids, sole k F (Elem m a false kids) /\ holds kids (content_of e) /\ forall x, attr_value x a = attribute e x
    | None => absent k F
    end.
(** The edits: Set of the key or of an attribute, Delete of the key or of an attribute. *)
Definition store_edit (o : store_op) : edit :=
  match o with
  | Give k v => SetContent (by_name k) (AsText v)
  | Mark k x v => SetAttr (by_name k) x v
  | Forget k => Remove (by_name k)
  | Unmark k x => RemoveAttr (by_name k) x
  end.
