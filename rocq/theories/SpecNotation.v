(** The ways to write the tags of a tree; independent of the model of the library. *)
From Coq Require Import List Ascii String NArith Bool.
From Verif Require Import GoStr SpecText SpecPath SpecTree SpecValid.
Import ListNotations.

(** Attributes with white space around names, signs and values, in single or double quotes;
    characters of the values may be written as themselves or as references. *)
Inductive attrs_as : list (bytes * bytes) -> bytes -> Prop :=
| aa_none : forall w, blanks w -> attrs_as [] w
| aa_one : forall n v a w1 w2 w3 q x s, blanks w1 -> blanks w2 -> blanks w3 ->
    (q = dquote \/ q = squote) -> ~ In q x -> small x -> Decodes x v -> attrs_as a s ->
    attrs_as ((n, v) :: a) (w1 ++ n ++ w2 ++ "="%char :: w3 ++ q :: x ++ q :: s).
(** The name of a tag ends where its attributes begin. *)
Definition tag_as (a : list (bytes * bytes)) (s : bytes) : Prop :=
  attrs_as a s /\ (s = [] \/ exists c s', s = c :: s' /\ blank c).
(** Elements with such start tags and with white space at the end of end tags; text,
    comments and CDATA sections stand for themselves. *)
Inductive written : node -> bytes -> Prop :=
| wr_elem : forall n a kids t x w, tag_as a t -> written_all kids x -> blanks w -> small (n ++ w) ->
    written (Elem n a false kids) (bs "<" ++ n ++ t ++ bs ">" ++ x ++ bs "</" ++ n ++ w ++ bs ">")
| wr_self : forall n a t, tag_as a t -> written (Elem n a true []) (bs "<" ++ n ++ t ++ bs "/>")
| wr_text : forall t, written (Text t) t
| wr_misc : forall b, written (Misc b) (bs "<!" ++ b ++ bs ">")
with written_all : list node -> bytes -> Prop :=
| wa_nil : written_all [] []
| wa_cons : forall nd F x y, written nd x -> written_all F y -> written_all (nd :: F) (x ++ y).
