(** Documents with markup inside comments and with brackets in texts; independent of the
    model of the library except for the type of results. *)
From Coq Require Import List Ascii String NArith ZArith Bool Permutation.
From Verif Require Import GoStr SpecText SpecPath SpecTree SpecQuery SpecLang ModelPath ModelResult.
Import ListNotations.

(** What a comment may contain: elements, each with its end tag, and texts without "<". *)
Inductive loose : node -> Prop :=
| loose_elem : forall n a self kids, xml_name n -> good_attrs a -> (self = true -> kids = []) -> Forall loose kids ->
    loose (Elem n a self kids)
| loose_text : forall t, ~ In "<"%char t -> loose (Text t).
Definition comment_of (K : list node) : node := Misc (bs "--" ++ forest_text K ++ bs "--").
(** No arrow ends the comment early. *)
Definition no_arrow (s : bytes) : Prop := forall x y, s <> x ++ bs "-->" ++ y.

(** Documents with such comments; texts and CDATA sections are without "<". *)
Inductive fair : node -> Prop :=
| fair_elem : forall n a self kids, xml_name n -> good_attrs a -> (self = true -> kids = []) -> Forall fair kids ->
    fair (Elem n a self kids)
| fair_text : forall t, ~ In "<"%char t -> fair (Text t)
| fair_cdata : forall c, ~ In "<"%char c -> fair (Misc (bs "[CDATA[" ++ c ++ bs "]]"))
| fair_comment : forall K, Forall loose K -> no_arrow (bs "--" ++ forest_text K ++ bs "--") -> fair (comment_of K).

(** What a result tells about an answer of the tree: everything but the text of elements
    that contain comments with markup or texts with ">". *)
Definition sketch_of (kids : list node) (r : result) : Prop :=
  r_type r = RElement /\ (Forall good kids -> is_element kids r).
Definition sketches (r : result) (a : answer) : Prop :=
  match a with
  | Element kids => sketch_of kids r
  | TextAnswer kids => r_type r = RString /\ (Forall good kids -> describes r a)
  | Elements l => r_type r = RArray /\ Forall2 sketch_of l (r_results r)
  | _ => describes r a
  end.

(** ** Queries of the whole language *)
(** Conditions that do not compare the text of elements. *)
Definition structural (c : condition) : Prop :=
  match c_about c with
  | OfAttr _ => True
  | OfPath _ fin => c_op c = OpExists \/ fin = TheCount \/ exists x, fin = TheAttribute x
  end.
Definition structural_step (s : qstep) : Prop :=
  match s with Child _ (Where c _) | Kid c _ => structural c | _ => True end.
Definition hint (i : item) (r : result) : Prop :=
  match i with
  | AnElement kids => sketch_of kids r
  | AText kids => r_type r = RString /\ (Forall good kids -> item_is i r)
  | _ => item_is i r
  end.
Definition hints (r : result) (a : reply) : Prop :=
  match a with
  | NoReply => r_type r = RNull
  | One i => hint i r
  | Many l => r_type r = RArray /\ Forall2 hint l (r_results r)
  end.

(** The document without its comments. *)
Inductive bare : list node -> list node -> Prop :=
| bare_nil : bare [] []
| bare_comment : forall K F F', bare F F' -> bare (comment_of K :: F) F'
| bare_misc : forall m F F', bare F F' -> bare (Misc m :: F) (Misc m :: F')
| bare_text : forall t F F', bare F F' -> bare (Text t :: F) (Text t :: F')
| bare_elem : forall n a self kids kids' F F', bare kids kids' -> bare F F' ->
    bare (Elem n a self kids :: F) (Elem n a self kids' :: F').

(** ** Edits *)
(** Such documents that also follow the rules of the validator: no double hyphen inside a
    comment, no early end of a CDATA section. *)
Inductive clean : node -> Prop :=
| clean_elem : forall n a self kids, xml_name n -> good_attrs a -> (self = true -> kids = []) -> Forall clean kids ->
    clean (Elem n a self kids)
| clean_text : forall t, ~ In "<"%char t -> clean (Text t)
| clean_cdata : forall c, ~ In "<"%char c -> (forall x y, c ++ bs "]]" <> x ++ bs "]]>" ++ y) ->
    clean (Misc (bs "[CDATA[" ++ c ++ bs "]]"))
| clean_comment : forall K, Forall loose K -> no_arrow (bs "--" ++ forest_text K ++ bs "--") ->
    (forall x y, forest_text K ++ bs "-" <> x ++ bs "--" ++ y) -> clean (comment_of K).
