(** Ordinary documents, described by their bytes; independent of the model of the library. *)
From Coq Require Import List Ascii String NArith ZArith Bool.
From Verif Require Import GoStr SpecText SpecPath SpecTree SpecValid SpecNotation.
Import ListNotations.

(** [ordinary found open s]: [s] can follow in an ordinary document in which the elements
    [open] are open, innermost first; [found]: some element has been seen. Text, comments
    and CDATA sections are without angle brackets, and no tag has two attributes of the
    same name. *)
Inductive ordinary : bool -> list bytes -> bytes -> Prop :=
| or_end : ordinary true [] []
| or_blank : forall found open c s, blank c -> ordinary found open s -> ordinary found open (c :: s)
| or_text : forall found open c s, open <> [] -> c <> "<"%char -> c <> ">"%char -> ordinary found open s -> ordinary found open (c :: s)
| or_comment : forall found open c s, no_angle c -> (forall x y, c ++ bs "-" <> x ++ bs "--" ++ y) -> ordinary found open s ->
    ordinary found open (bs "<!--" ++ c ++ bs "-->" ++ s)
| or_cdata : forall found open c s, no_angle c -> ordinary found open s -> ordinary found open (bs "<![CDATA[" ++ c ++ bs "]]>" ++ s)
| or_open : forall found open n a t s, xml_name n -> List.length open < 100 -> good_attrs a -> tag_as a t ->
    ordinary true (n :: open) s -> ordinary found open (bs "<" ++ n ++ t ++ bs ">" ++ s)
| or_self : forall found open n a t s, xml_name n -> List.length open < 100 -> good_attrs a -> tag_as a t ->
    ordinary true open s -> ordinary found open (bs "<" ++ n ++ t ++ bs "/>" ++ s)
| or_close : forall found open n w s, blanks w -> small (n ++ w) -> ordinary found open s ->
    ordinary found (n :: open) (bs "</" ++ n ++ w ++ bs ">" ++ s).
Definition ordinary_document (s : bytes) : Prop := ordinary false [] s.

(** Trees without empty texts and texts side by side. *)
Definition is_text (nd : node) : Prop := exists t, nd = Text t.
Inductive joined : node -> Prop :=
| jo_elem : forall n a self kids, joined_all kids -> joined (Elem n a self kids)
| jo_text : forall t, t <> [] -> joined (Text t)
| jo_misc : forall b, joined (Misc b)
with joined_all : list node -> Prop :=
| ja_nil : joined_all []
| ja_cons : forall nd F, joined nd -> joined_all F -> (is_text nd -> forall x F', F = x :: F' -> ~ is_text x) -> joined_all (nd :: F).

(** ** Plain bytes *)
(** Every quotation is closed. *)
Inductive quotes_closed : bytes -> Prop :=
| qc_nil : quotes_closed []
| qc_char : forall c s, c <> dquote -> c <> squote -> quotes_closed s -> quotes_closed (c :: s)
| qc_quoted : forall q v s, q = dquote \/ q = squote -> ~ In q v -> quotes_closed s -> quotes_closed (q :: v ++ q :: s).
(** What stands between a "<" and the next ">": a comment or CDATA section without another
    "<", or a tag of at most 170 kB in which every quotation is closed and no attribute
    occurs twice. *)
Definition plain_markup (t : bytes) : Prop :=
  (exists c, (t = bs "!--" ++ c ++ bs "--" \/ t = bs "![CDATA[" ++ c ++ bs "]]") /\ ~ In "<"%char c) \/
  ((forall s, t <> "!"%char :: s) /\ (forall s, t <> "?"%char :: s) /\ (6 * N.of_nat (List.length t) <= 1048576)%N /\ quotes_closed t /\
   forall n a s r, t = n ++ s ++ r -> xml_name n -> r = [] \/ r = bs "/" -> tag_as a s -> Forall xml_name (map fst a) -> NoDup (map fst a)).
Record plain (x : bytes) : Prop := {
  pl_markup : forall a t b, x = a ++ "<"%char :: t ++ ">"%char :: b -> ~ In ">"%char t -> plain_markup t;
  pl_single : forall a t b, x = a ++ ">"%char :: t ++ ">"%char :: b -> In "<"%char t }.

(** ** Neat bytes *)
(** Attributes with one space before each and none elsewhere; no reserved character stands
    for itself in a value. *)
Inductive tidy : bytes -> Prop :=
| ti_none : tidy []
| ti_one : forall n q v s, xml_name n -> q = dquote \/ q = squote -> Inert v -> small v -> tidy s ->
    tidy (" "%char :: n ++ "="%char :: q :: v ++ q :: s).
(** Every start tag is tidy and every end tag is without white space. *)
Definition neat (x : bytes) : Prop := forall a t b, x = a ++ "<"%char :: t ++ ">"%char :: b -> ~ In ">"%char t ->
  (exists s, t = "!"%char :: s) \/ (exists n, xml_name n /\ t = "/"%char :: n) \/
  exists n s r, xml_name n /\ tidy s /\ (r = [] \/ r = bs "/") /\ t = n ++ s ++ r.
