(** Documents in which every element is told from its siblings by its name, and a program that
    copies such a document value by value. *)
From Coq Require Import List Ascii String NArith ZArith Bool.
From Verif Require Import GoStr ModelResult ModelParser ModelQuery ModelBuilder SpecText SpecPath SpecTree SpecQuery SpecEdit SpecMod SpecHistory SpecTable.
Import ListNotations.

(** ** Data *)
(** A text or a group of named data, both with attributes. *)
Inductive data :=
| Leaf (n : bytes) (a : list (bytes * bytes)) (v : bytes)
| Group (n : bytes) (a : list (bytes * bytes)) (subs : list data).
Definition label (t : data) : bytes := match t with Leaf n _ _ | Group n _ _ => n end.
Fixpoint node_of (t : data) : node :=
  match t with
  | Leaf n a v => Elem n a false [Text (esc v)]
  | Group n a subs => Elem n a false (map node_of subs)
  end.
(** Names without a prefix that can be used in paths; no white space around texts; siblings
    have different names; no empty groups. *)
Definition label_ok (n : bytes) : Prop := xml_name n /\ step_name n /\ split_colon n = None.
Inductive well : data -> Prop :=
| well_leaf : forall n a v, label_ok n -> good_attrs a -> trim_space v = v -> (N.of_nat (List.length (esc v)) <= 5242880)%N -> well (Leaf n a v)
| well_group : forall n a subs, label_ok n -> good_attrs a -> subs <> [] -> Forall well subs -> NoDup (map label subs) -> well (Group n a subs).

(** The number of levels. *)
Fixpoint depth (t : data) : nat := match t with Leaf _ _ _ => 1 | Group _ _ subs => S (fold_right (fun s m => Nat.max (depth s) m) 0 subs) end.
(** At most one attribute in every element. *)
Fixpoint few (t : data) : Prop :=
  match t with
  | Leaf _ a _ => List.length a <= 1
  | Group _ a subs => List.length a <= 1 /\ fold_right (fun s P => few s /\ P) True subs
  end.

(** ** Where the values are *)
(** The content of an element, or an attribute of it. *)
Inductive place := Content (k : list bytes) | Named (k : list bytes) (x : bytes).
Definition below (n : bytes) (p : place) : place :=
  match p with Content k => Content (n :: k) | Named k x => Named (n :: k) x end.
Definition own_places (n : bytes) (a : list (bytes * bytes)) : list place := map (fun xv => Named [n] (fst xv)) a.
(** All places, in the order of the document, the attributes of an element after its
    content. *)
Fixpoint places (t : data) : list place :=
  match t with
  | Leaf n a _ => Content [n] :: own_places n a
  | Group n a subs => map (below n) (flat_map places subs) ++ own_places n a
  end.
Definition place_path (p : place) : bytes :=
  match p with
  | Content k => tpath (by_name k) TheElement
  | Named k x => tpath (by_name k) (TheAttribute x)
  end.

(** ** Programs *)
(** Set(d, path, Get(src, path).String()) for the places one after the other. *)
Fixpoint copy_all (E : env) (fmt_g : f64 -> bytes) (src : bytes) (ps : list place) (d : bytes) : Res (bytes * option err) :=
  match ps with
  | [] => Ok (d, None)
  | p :: ps' =>
      let* r := get E src (place_path p) in
      let* x := set E fmt_g d (place_path p) (VStr (r_string r)) in
      match x with
      | (d', None) => copy_all E fmt_g src ps' d'
      | (_, Some _) => Ok x
      end
  end.
