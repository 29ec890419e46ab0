(** The texts of the errors of edits, described independently of the model of the library
    except for the types of elements, values and errors. *)
From Coq Require Import List Ascii String NArith ZArith Bool.
From Verif Require Import GoStr ModelParser ModelResult ModelBuilder SpecText SpecPath SpecTree SpecEdit SpecContent SpecMod
  SpecGrammar SpecScan SpecRaw SpecError SpecOutcome.
Import ListNotations.

Definition bad_path : bytes := bs "invalid path syntax".
Definition bad_document : bytes := bs "malformed XML document".
Definition bad_value : bytes := bs "invalid value for XML".
Definition because (what why : bytes) : bytes := what ++ bs ": " ++ why.
(** The general text of each kind of error. *)
Definition general (e : err) : bytes :=
  match e with ErrInvalidPath => bad_path | ErrMalformedXML => bad_document | ErrInvalidValue => bad_value end.

(** ** Set *)
(** The first negative number of the path. *)
Inductive first_negative (l : steps) (i : Z) (post : steps) : Prop :=
| first_neg : forall pre ms, l = pre ++ (GNth i, ms) :: post -> (i < 0)%Z ->
    (forall j ms', In (GNth j, ms') pre -> (0 <= j)%Z) -> first_negative l i post.
Section Says.
  Variable sight : bytes -> list elem -> Prop.
  Variable order : attrs -> attrs -> Prop.
  Variable cs : bool.
  Variable indent : bytes.
  (** What is said of the text [t] at the path [l] of the document [d]. *)
  Inductive set_says (d : bytes) (l : steps) (t : bytes) : bytes -> Prop :=
  | says_nested : forall post, first_negative l (-1) post -> post <> [] ->
      set_says d l t (because bad_path (bs "append (-1 index) cannot be used with nested paths (e.g., item.-1.child)"))
  | says_reserved : forall i post, first_negative l i post -> (i < -1)%Z ->
      set_says d l t (because bad_path (bs "index " ++ decimal i ++ bs " reserved for future use; only -1 (append) is currently supported"))
  | says_alone : forall ms, l = [(GNth (-1), ms)] -> set_says d l t (because bad_path (bs "append requires at least element.-1"))
  | says_unnamed : forall pre st ms ms', ~ misplaced l -> l = pre ++ [(st, ms); (GNth (-1), ms')] -> (forall n, st <> GName n) ->
      set_says d l t (because bad_path (bs "can only append elements, not attributes or other types"))
  | says_full : forall pre n ms ms', ~ misplaced l -> l = pre ++ [(GName n, ms); (GNth (-1), ms')] ->
      appended sight order cs indent d pre n ms t (Refused ErrInvalidValue) ->
      set_says d l t (because bad_value (bs "resulting document exceeds maximum size"))
  | says_unreadable : forall pre n ms ms', ~ misplaced l -> l = pre ++ [(GName n, ms); (GNth (-1), ms')] ->
      appended sight order cs indent d pre n ms t (Refused ErrMalformedXML) -> set_says d l t bad_document
  | says_orphan : forall pre x ms, ~ misplaced l -> l = pre ++ [(GAttr x, ms)] -> lies sight cs d 0 pre None ->
      created sight order cs indent d pre [] (Refused ErrMalformedXML) ->
      set_says d l t (bs "failed to create parent element: " ++ bad_document)
  | says_large : forall pre x ms d', ~ misplaced l -> l = pre ++ [(GAttr x, ms)] -> lies sight cs d 0 pre None ->
      created sight order cs indent d pre [] (Done d') -> (10485760 < size (kept d d'))%Z ->
      set_says d l t (because bad_document (bs "intermediate result exceeds maximum document size"))
  | says_lost : forall pre x ms d', ~ misplaced l -> l = pre ++ [(GAttr x, ms)] -> lies sight cs d 0 pre None ->
      created sight order cs indent d pre [] (Done d') -> (size (kept d d') <= 10485760)%Z -> lies sight cs (kept d d') 0 pre None ->
      set_says d l t (because bad_path (bs "failed to locate created element for attribute"))
  | says_nowhere : ~ misplaced l -> ~ appends l -> ~ at_attribute l -> lies sight cs d 0 l None ->
      created sight order cs indent d l t (Refused ErrMalformedXML) -> set_says d l t bad_document.
End Says.

(** ** Raw content *)
(** Reading [s] with the tags [stack] open comes to something that is not allowed. *)
Inductive objection : list bytes -> bytes -> bytes -> Prop :=
| ob_open_cdata : forall st s, ~ has_sub (bs "]]>") s -> objection st (bs "<![CDATA[" ++ s) (bs "unclosed CDATA section")
| ob_nested : forall st s a r, first_cut (bs "]]>") s a r -> has_sub (bs "<![CDATA[") a ->
    objection st (bs "<![CDATA[" ++ s) (bs "nested CDATA sections not allowed")
| ob_doctype : forall st s, objection st (bs "<!DOCTYPE" ++ s) (bs "DOCTYPE declarations not allowed in SetRaw")
| ob_entity : forall st s, objection st (bs "<!ENTITY" ++ s) (bs "ENTITY declarations not allowed in SetRaw")
| ob_text : forall st c s m, c <> "<"%char -> objection st s m -> objection st (c :: s) m
| ob_comment : forall st s a r m, starts (bs "<!-") s \/ starts (bs "<?-") s -> first_cut (bs "-->") s a r ->
    objection st r m -> objection st s m
| ob_cdata : forall st s a r m, first_cut (bs "]]>") s a r -> ~ has_sub (bs "<![CDATA[") a ->
    objection st r m -> objection st (bs "<![CDATA[" ++ s) m
| ob_other : forall st c b r m, In c (bs "!?") -> ~ In ">"%char b ->
    ~ starts (bs "-") b -> ~ starts (bs "![CDATA[") (c :: b ++ bs ">" ++ r) ->
    ~ starts (bs "!DOCTYPE") (c :: b ++ bs ">" ++ r) -> ~ starts (bs "!ENTITY") (c :: b ++ bs ">" ++ r) ->
    objection st r m -> objection st (bs "<" ++ [c] ++ b ++ bs ">" ++ r) m
| ob_open : forall st n a r m, tag_name n -> tag_rest (bs " /") a -> (forall a', a <> a' ++ bs "/") ->
    objection (n :: st) r m -> objection st (bs "<" ++ n ++ a ++ bs ">" ++ r) m
| ob_self : forall st n a r m, tag_name n -> tag_rest (bs " /") a ->
    objection st r m -> objection st (bs "<" ++ n ++ a ++ bs "/>" ++ r) m
| ob_close : forall st n w r m, tag_rest (bs " ") w -> (forall c, In c n -> ~ In c (bs "> ")) ->
    objection st r m -> objection (n :: st) (bs "</" ++ n ++ w ++ bs ">" ++ r) m.
Inductive raw_says (raw : bytes) : bytes -> Prop :=
| raw_objects : forall m, objection [] raw m -> raw_says raw (because bad_value m)
| raw_unbalanced : ~ fragment [] raw -> (forall m, ~ objection [] raw m) -> raw_says raw bad_value.

(** ** Several calls *)
Section Several.
  Context {A : Type}.
  (** A call that leads from one document to another; one that fails with a text. *)
  Variable does : bytes -> A -> bytes -> Prop.
  Variable fails : bytes -> A -> bytes -> Prop.
  (** The calls, made one after the other, stop at the call [a], which says [m]. *)
  Inductive stops : bytes -> list A -> A -> bytes -> Prop :=
  | stops_here : forall d a l m, fails d a m -> stops d (a :: l) a m
  | stops_later : forall d d' b l a m, does d b d' -> stops d' l a m -> stops d (b :: l) a m.
End Several.
