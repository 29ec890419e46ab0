(** Element trees, their canonical text and queries on them; independent of the model of
    the library. *)
From Coq Require Import List Ascii String NArith Bool Permutation.
From Verif Require Import GoStr SpecText SpecPath.
Import ListNotations.

(** A forest is a list of nodes. [Misc] is a comment or a CDATA section. *)
Inductive node :=
| Elem (name : bytes) (attrs : list (bytes * bytes)) (self : bool) (kids : list node)
| Text (t : bytes)
| Misc (body : bytes).

(** ** Canonical text *)
(** The five reserved characters are written as references. *)
Definition esc_byte (c : ascii) : bytes :=
  match find (fun p => Ascii.eqb (snd p) c) predefined with
  | Some (n, _) => n
  | None => [c]
  end.
Definition esc (s : bytes) : bytes := flat_map esc_byte s.
Definition attr_text (a : bytes * bytes) : bytes :=
  bs " " ++ fst a ++ bs "=" ++ [dquote] ++ esc (snd a) ++ [dquote].
Definition attrs_text (l : list (bytes * bytes)) : bytes := flat_map attr_text l.
(** <name a="v">, <name a="v"/> and </name>. *)
Definition start_tag (n : bytes) (a : list (bytes * bytes)) (self : bool) : bytes :=
  bs "<" ++ n ++ attrs_text a ++ (if self then bs "/>" else bs ">").
Definition end_tag (n : bytes) : bytes := bs "</" ++ n ++ bs ">".
Fixpoint node_text (nd : node) : bytes :=
  match nd with
  | Elem n a self kids =>
      start_tag n a self ++ (if self then [] else flat_map node_text kids ++ end_tag n)
  | Text t => t
  | Misc b => bs "<!" ++ b ++ bs ">"
  end.
Definition forest_text (F : list node) : bytes := flat_map node_text F.

(** ** Well-formed trees *)
Definition letter (c : ascii) : Prop := (65 <= N_of_ascii c <= 90)%N \/ (97 <= N_of_ascii c <= 122)%N.
Definition small (s : bytes) : Prop := (N.of_nat (List.length s) <= 1048576)%N.
(** ASCII XML names of at most 1 MiB. *)
Definition xml_name (n : bytes) : Prop :=
  (exists c r, n = c :: r /\ (letter c \/ In c (bs "_:"))) /\
  (forall c, In c n -> letter c \/ digit c \/ In c (bs ".-_:")) /\ small n.
Definition no_angle (t : bytes) : Prop := ~ In "<"%char t /\ ~ In ">"%char t.
(** Comments without a double hyphen and CDATA sections, both without angle brackets. *)
Definition misc_body (b : bytes) : Prop :=
  (exists c, b = bs "--" ++ c ++ bs "--" /\ no_angle c /\ forall x y, c ++ bs "-" <> x ++ bs "--" ++ y) \/
  (exists c, b = bs "[CDATA[" ++ c ++ bs "]]" /\ no_angle c).
Record good_attrs (a : list (bytes * bytes)) : Prop := {
  ga_count : (List.length a <= 100)%nat;
  ga_distinct : NoDup (map fst a);
  ga_names : Forall xml_name (map fst a);
  ga_values : Forall (fun p => small (esc (snd p))) a
}.
Inductive good : node -> Prop :=
| good_elem : forall n a self kids, xml_name n -> good_attrs a -> (self = true -> kids = []) ->
    Forall good kids -> good (Elem n a self kids)
| good_text : forall t, no_angle t -> good (Text t)
| good_misc : forall b, misc_body b -> good (Misc b).
(** The number of levels of elements. *)
Fixpoint levels (nd : node) : nat :=
  match nd with
  | Elem _ _ _ kids => S (fold_right (fun k m => Nat.max (levels k) m) 0 kids)
  | _ => 0
  end.

(** The same tree with the attributes of each element in any order. *)
Inductive same : node -> node -> Prop :=
| same_elem : forall n a a' self kids kids', Permutation a a' -> Forall2 same kids kids' ->
    same (Elem n a self kids) (Elem n a' self kids')
| same_text : forall t, same (Text t) (Text t)
| same_misc : forall b, same (Misc b) (Misc b).

(** ** What may precede the root *)
Inductive prolog : bytes -> Prop :=
| pro_nil : prolog []
| pro_space : forall x p, (forall c, In c x -> In c [" "%char; tab; lf; cr]) -> prolog p -> prolog (x ++ p)
(** XML declaration or processing instruction *)
| pro_pi : forall b p, ~ In ">"%char b -> small (bs "<?" ++ b ++ bs "?") -> prolog p ->
    prolog (bs "<?" ++ b ++ bs "?>" ++ p)
| pro_comment : forall c p, (forall x y, bs "--" ++ c ++ bs "--" <> x ++ bs "-->" ++ y) -> prolog p ->
    prolog (bs "<!--" ++ c ++ bs "-->" ++ p)
(** DOCTYPE without and with an internal subset *)
| pro_doctype : forall x p, (forall c, In c x -> ~ In c (bs "[]>")) -> prolog p ->
    prolog (bs "<!DOCTYPE" ++ x ++ bs ">" ++ p)
| pro_subset : forall x y z p, (forall c, In c (x ++ z) -> ~ In c (bs "[]>")) -> (forall c, In c y -> ~ In c (bs "[]")) ->
    prolog p -> prolog (bs "<!DOCTYPE" ++ x ++ bs "[" ++ y ++ bs "]" ++ z ++ bs ">" ++ p).
