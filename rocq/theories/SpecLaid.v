(** Documents in ordinary notation that edits leave exact; independent of the model of the
    library except for the calls the edits stand for ([SpecHistory]). *)
From Coq Require Import List Ascii String NArith ZArith Bool Permutation.
From Verif Require Import GoStr SpecText SpecPath SpecTree SpecQuery SpecEdit SpecContent SpecValid SpecNotation SpecHistory.
Import ListNotations.

(** A start tag with its attributes written as [t]. *)
Definition opening (n t : bytes) (self : bool) : bytes := bs "<" ++ n ++ t ++ (if self then bs "/>" else bs ">").
(** Trees whose start tags are written in any notation at the top level ([top]), where they
    are together at most [e] bytes longer than the canonical ones, and with exactly the
    length of the canonical ones below; end tags are without white space. *)
Inductive laid : bool -> nat -> node -> bytes -> Prop :=
| la_elem : forall (top : bool) e n a kids t x, tag_as a t -> List.length t <= List.length (attrs_text a) + e ->
    (top = false -> List.length t = List.length (attrs_text a)) -> laid_all false 0 kids x ->
    laid top e (Elem n a false kids) (opening n t false ++ x ++ end_tag n)
| la_self : forall (top : bool) e n a t, tag_as a t -> List.length t <= List.length (attrs_text a) + e ->
    (top = false -> List.length t = List.length (attrs_text a)) -> laid top e (Elem n a true []) (opening n t true)
| la_text : forall top e t, laid top e (Text t) t
| la_misc : forall top e b, laid top e (Misc b) (bs "<!" ++ b ++ bs ">")
with laid_all : bool -> nat -> list node -> bytes -> Prop :=
| ls_nil : forall top e, laid_all top e [] []
| ls_cons : forall top e s nd F x y, laid top e nd x -> laid_all top s F y -> laid_all top (e + s) (nd :: F) (x ++ y).
(** The element a path designates in such a text: the bytes before it, its own text and the
    bytes after it. *)
Inductive standing : bool -> nat -> list tstep -> list node -> bytes -> node -> bool -> nat -> bytes -> bytes -> Prop :=
| st_here : forall top s1 s2 e n idx F1 nd F2 x1 z x2, named (selects n) nd = true ->
    List.length (called (selects n) F1) = index_of idx ->
    laid_all top s1 F1 x1 -> laid top e nd z -> laid_all top s2 F2 x2 ->
    standing top (s1 + s2) [(n, idx)] (F1 ++ nd :: F2) x1 nd top e z x2
| st_down : forall (top : bool) s1 s2 e0 n idx rest F1 m a kids F2 x1 t A nd e z B x2, selects n m = true ->
    List.length (called (selects n) F1) = index_of idx ->
    laid_all top s1 F1 x1 -> laid_all top s2 F2 x2 ->
    tag_as a t -> List.length t <= List.length (attrs_text a) + e0 -> (top = false -> List.length t = List.length (attrs_text a)) ->
    standing false 0 rest kids A nd false e z B ->
    standing top (s1 + e0 + s2) ((n, idx) :: rest) (F1 ++ Elem m a false kids :: F2)
      (x1 ++ opening m t false ++ A) nd false e z (B ++ end_tag m ++ x2).

(** The document keeps an element and has room for [s] more bytes than its canonical text. *)
Definition spacious (p : bytes) (s : nat) (F : list node) : Prop :=
  has_element F /\ (N.of_nat (List.length p + List.length (forest_text F) + s) <= 10485760)%N.
(** Sequences of edits that leave such room after every step. *)
Inductive laid_history (p : bytes) (s : nat) : list edit -> list node -> list node -> Prop :=
| lh_nil : forall F, laid_history p s [] F F
| lh_cons : forall o ops F F1 F2, legal o -> apply_edit o F = Some F1 -> spacious p s F1 -> laid_history p s ops F1 F2 ->
    laid_history p s (o :: ops) F F2.
