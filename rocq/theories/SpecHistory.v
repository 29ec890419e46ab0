(** Sequences of edits of element trees; independent of the model of the library except for
    the calls the edits stand for (at the end). *)
From Coq Require Import List Ascii String NArith ZArith Bool Permutation.
From Verif Require Import GoStr ModelResult ModelParser ModelQuery ModelBuilder SpecText SpecPath SpecTree SpecQuery SpecEdit SpecContent SpecValid.
Import ListNotations.

(** ** Changing one place *)
(** Follow the path through the first (or the indexed) match of every name.  Replace the
    element reached by [g]; where the first element is missing, add what [miss] makes of the
    rest of the path after the other children (the parent then has two tags). *)
Fixpoint change (g : node -> option (list node)) (miss : list tstep -> option (list node)) (steps : list tstep) (F : list node)
  : option (list node) :=
  match steps with
  | [] => None
  | (n, idx) :: rest =>
      match nth_error (called (selects n) F) (index_of idx) with
      | None => option_map (fun l => F ++ l) (miss steps)
      | Some _ =>
          edit_nth (selects n) (index_of idx)
            (fun nd =>
               match rest with
               | [] => g nd
               | _ :: _ =>
                   match nd with
                   | Elem m a _ kids => option_map (fun kids' => [Elem m a false kids']) (change g miss rest kids)
                   | _ => None
                   end
               end) F
      end
  end.
(** The names of a path without indexes. *)
Fixpoint names_only (steps : list tstep) : option (list bytes) :=
  match steps with
  | [] => Some []
  | (n, None) :: rest => option_map (cons n) (names_only rest)
  | (_, Some _) :: _ => None
  end.
Definition nothing (steps : list tstep) : option (list node) := None.

(** ** Edits *)
Inductive edit :=
| SetContent (steps : list tstep) (c : content)
| SetAttr (steps : list tstep) (x v : bytes)
| Remove (steps : list tstep)
| RemoveAttr (steps : list tstep) (x : bytes)
| Append (steps : list tstep) (m : bytes) (c : content).
Notation SetText steps v := (SetContent steps (AsText v)).

Definition with_kids (K : list node) (nd : node) : option (list node) :=
  match nd with Elem n a false _ => Some [Elem n a false K] | _ => None end.
Definition attr_of (x v : bytes) (nd : node) : option (list node) :=
  match nd with
  | Elem n a self kids => if List.length (put_attr x v a) <=? 100 then Some [Elem n (put_attr x v a) self kids] else None
  | _ => None
  end.
Definition without_attr (x : bytes) (nd : node) : option (list node) :=
  match nd with Elem n a self kids => Some [Elem n (drop_attr x a) self kids] | _ => None end.
Definition more_kids (m : bytes) (K : list node) (nd : node) : option (list node) :=
  match nd with
  | Elem n a self kids => Some [Elem n a false (insert_last (selects m) (Elem m [] false K) kids)]
  | _ => None
  end.
Definition new_kids (K : list node) (steps : list tstep) : option (list node) :=
  option_map (fun names => nest names K) (names_only steps).
Definition new_attr (x v : bytes) (steps : list tstep) : option (list node) :=
  match names_only steps with
  | Some names => Some (nest (removelast names) [Elem (last names []) [(x, v)] false []])
  | None => None
  end.
(** What an edit does to the tree; [None] when it is not described here (content of a
    self-closing element, missing indexes, too many attributes, missing parent of an
    appended element). *)
Definition apply_edit (o : edit) (F : list node) : option (list node) :=
  match o with
  | SetContent steps c => change (with_kids (content_nodes c)) (new_kids (content_nodes c)) steps F
  | SetAttr steps x v => change (attr_of x v) (new_attr x v) steps F
  | Remove steps => match change (fun _ => Some []) nothing steps F with Some F' => Some F' | None => Some F end
  | RemoveAttr steps x => match change (without_attr x) nothing steps F with Some F' => Some F' | None => Some F end
  | Append [] m c => Some (insert_last (selects m) (Elem m [] false (content_nodes c)) F)
  | Append steps m c => change (more_kids m (content_nodes c)) nothing steps F
  end.
(** Paths and values an edit may have. *)
Definition legal (o : edit) : Prop :=
  match o with
  | SetContent steps c => good_tpath steps TheElement /\ Forall xml_name (map fst steps) /\ good_content c /\
      List.length steps + height (content_nodes c) <= 100
  | SetAttr steps x v => good_tpath steps (TheAttribute x) /\ Forall xml_name (map fst steps) /\ xml_name x /\
      (N.of_nat (List.length (esc v)) <= 5242880)%N /\ small (esc v)
  | Remove steps => good_tpath steps TheElement
  | RemoveAttr steps x => good_tpath steps (TheAttribute x)
  | Append steps m c => Forall good_tstep (steps ++ [(m, None)]) /\ List.length (flat_map tstep_steps (steps ++ [(m, None)])) < 100 /\
      xml_name m /\ good_content c /\ List.length steps + 1 + height (content_nodes c) <= 100
  end.
(** The document keeps an element and stays within the size limit. *)
Definition room (p : bytes) (F : list node) : Prop :=
  has_element F /\ (N.of_nat (List.length (p ++ forest_text F)) <= 10485760)%N.
(** It is also not too deep. *)
Definition fits (p : bytes) (F : list node) : Prop :=
  has_element F /\ shallow F /\ (N.of_nat (List.length (p ++ forest_text F)) <= 10485760)%N.
Inductive history (p : bytes) : list edit -> list node -> list node -> Prop :=
| his_nil : forall F, history p [] F F
| his_cons : forall o ops F F1 F2, legal o -> apply_edit o F = Some F1 -> room p F1 -> history p ops F1 F2 -> history p (o :: ops) F F2.

(** ** The calls of the library *)
(** How the values given to Set are written (nil deletes, other types are refused); the
    notation of floating-point numbers is that of Go's %g. *)
Inductive written (fmt_g : f64 -> bytes) : value -> bytes -> Prop :=
| wr_str : forall s, written fmt_g (VStr s) (esc s)
| wr_bytes : forall s, written fmt_g (VBytes s) s
| wr_int : forall z, written fmt_g (VInt z) (decimal z)
| wr_bool : forall b, written fmt_g (VBool b) (if b then bs "true" else bs "false")
| wr_float : forall f, written fmt_g (VFloat f) (fmt_g f).
(** Forests go through SetRaw, the others through Set. *)
Definition set_content (E : env) (fmt_g : f64 -> bytes) (d path : bytes) (c : content) : Res (bytes * option err) :=
  match c with
  | AsText s => set E fmt_g d path (VStr s)
  | AsInt z => set E fmt_g d path (VInt z)
  | AsBool b => set E fmt_g d path (VBool b)
  | AsForest K => set_raw E fmt_g d path (forest_text K)
  end.
(** The call an edit stands for. *)
Definition call (E : env) (fmt_g : f64 -> bytes) (o : edit) (d : bytes) : Res (bytes * option err) :=
  match o with
  | SetContent steps c => set_content E fmt_g d (tpath steps TheElement) c
  | SetAttr steps x v => set E fmt_g d (tpath steps (TheAttribute x)) (VStr v)
  | Remove steps => delete E d (tpath steps TheElement)
  | RemoveAttr steps x => delete E d (tpath steps (TheAttribute x))
  | Append steps m c => set_content E fmt_g d (tpath (steps ++ [(m, None)]) TheElement ++ bs ".-1") c
  end.
(** Calls one after the other, until one fails. *)
Fixpoint calls (E : env) (fmt_g : f64 -> bytes) (ops : list edit) (d : bytes) : Res (bytes * option err) :=
  match ops with
  | [] => Ok (d, None)
  | o :: rest =>
      match call E fmt_g o d with
      | Ok (d', None) => calls E fmt_g rest d'
      | other => other
      end
  end.
