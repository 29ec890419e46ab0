(** A document used as a table: rows are elements of one name in one parent, and a row has
    one child for every field; independent of the model of the library. *)
From Coq Require Import List Ascii String NArith ZArith Bool.
From Verif Require Import GoStr SpecText SpecPath SpecTree SpecQuery SpecEdit SpecContent SpecHistory ModelPath ModelResult SpecFilter SpecLang.
Import ListNotations.

(** ** Tables *)
(** The fields of a row with their values, in order. *)
Definition row := list (bytes * bytes).
Definition table := list row.
(** A new row at the end; a field of the row with a number changed or added; a row or a
    field taken out. *)
Inductive table_op :=
| Insert (r : row)
| Put (ds f v : bytes)
| DropRow (ds : bytes)
| DropField (ds f : bytes).
Fixpoint upd (i : nat) (g : row -> row) (T : table) : option table :=
  match T, i with
  | [], _ => None
  | r :: T', O => Some (g r :: T')
  | r :: T', S i' => option_map (cons r) (upd i' g T')
  end.
Definition do_op (o : table_op) (T : table) : option table :=
  match o with
  | Insert r => Some (T ++ [r])
  | Put ds f v => upd (index_of (Some ds)) (put_attr f v) T
  | DropRow ds => Some (firstn (index_of (Some ds)) T ++ skipn (S (index_of (Some ds))) T)
  | DropField ds f => match upd (index_of (Some ds)) (drop_attr f) T with Some T' => Some T' | None => Some T end
  end.
Fixpoint do_ops (ops : list table_op) (T : table) : option table :=
  match ops with
  | [] => Some T
  | o :: ops' => match do_op o T with Some T' => do_ops ops' T' | None => None end
  end.
(** The fields of a row differ, and their names have no prefix. *)
Definition good_row (r : row) : Prop := NoDup (map fst r) /\ Forall (fun f => split_colon f = None) (map fst r).
Definition good_op (o : table_op) : Prop :=
  match o with
  | Insert r => good_row r
  | Put _ f _ | DropField _ f => split_colon f = None
  | DropRow _ => True
  end.

(** ** Tables in documents *)
Definition cell_node (c : bytes * bytes) : node := Elem (fst c) [] false [Text (esc (snd c))].
Definition row_node (m : bytes) (r : row) : node := Elem m [] false (map cell_node r).
(** The element reached by names each of which only one child bears. *)
Inductive sole : list bytes -> list node -> node -> Prop :=
| sole_here : forall n F nd, called (selects n) F = [nd] -> sole [n] F nd
| sole_down : forall n rest F m a kids nd, called (selects n) F = [Elem m a false kids] -> sole rest kids nd -> sole (n :: rest) F nd.
(** The rows of a table are the elements with a name in that element; it may have other
    children. *)
Definition keeps (names : list bytes) (m : bytes) (F : list node) (T : table) : Prop :=
  Forall good_row T /\ exists n a kids, sole names F (Elem n a false kids) /\ called (selects m) kids = map (row_node m) T.
(** The edits: SetRaw to names.m.-1, Set to names.m.i.f, Delete of names.m.i and of
    names.m.i.f. *)
Definition op_edit (names : list bytes) (m : bytes) (o : table_op) : edit :=
  match o with
  | Insert r => Append (by_name names) m (AsForest (map cell_node r))
  | Put ds f v => SetContent (by_name names ++ [(m, Some ds); (f, None)]) (AsText v)
  | DropRow ds => Remove (by_name names ++ [(m, Some ds)])
  | DropField ds f => Remove (by_name names ++ [(m, Some ds); (f, None)])
  end.
(** What an operation may add: bytes and elements. *)
Definition added (m : bytes) (o : table_op) : list node :=
  match o with
  | Insert r => [row_node m r]
  | Put _ f v => [cell_node (f, v)]
  | DropRow _ | DropField _ _ => []
  end.
Definition all_added (m : bytes) (ops : list table_op) : list node := flat_map (added m) ops.

(** ** Questions *)
Definition chain (names : list bytes) : list qstep := map (fun n => Child n Leading) names.
Definition where_is (k v : bytes) : condition := mkCond (OfPath [(k, None)] TheElement) OpEq v.
(** The field of a row as it is read: white space at the ends is dropped. *)
Definition cell (f : bytes) (r : row) : option bytes := option_map trim_space (attr_value f r).
Definition matching (k v : bytes) (r : row) : bool := match cell k r with Some w => bytes_eqb w v | None => false end.
(** Answers: one element with a text, or nothing; a list of elements with texts. *)
Definition tells (r : result) (o : option bytes) : Prop :=
  match o with Some v => r_type r = RElement /\ r_string r = v | None => r_type r = RNull end.
Definition lists (r : result) (l : list bytes) : Prop :=
  r_type r = RArray /\ Forall2 (fun x v => r_type x = RElement /\ r_string x = v) (r_results r) l.
Definition tells_all (r : result) (l : list bytes) : Prop :=
  match l with [] => tells r None | [v] => tells r (Some v) | _ => lists r l end.
Definition column (f : bytes) (T : table) : list bytes :=
  flat_map (fun r => match cell f r with Some v => [v] | None => [] end) T.
