(** The documents that should be accepted; independent of the model of the library. *)
From Coq Require Import List Ascii String NArith ZArith Bool.
From Verif Require Import GoStr SpecText SpecPath SpecTree.
Import ListNotations.

Definition blank (c : ascii) : Prop := In c [" "%char; tab; lf; cr].
Definition blanks (s : bytes) : Prop := Forall blank s.

(** Attributes with the white space around them and the number of attributes. *)
Inductive attributes : nat -> bytes -> Prop :=
| at_none : forall w, blanks w -> attributes 0 w
| at_one : forall k w1 n w2 w3 q v s, blanks w1 -> xml_name n -> blanks w2 -> blanks w3 ->
    (q = dquote \/ q = squote) -> ~ In q v -> small v -> attributes k s ->
    attributes (S k) (w1 ++ n ++ w2 ++ "="%char :: w3 ++ q :: v ++ q :: s).
(** The name of a tag ends where its attributes begin. *)
Definition tag_attributes (k : nat) (s : bytes) : Prop :=
  attributes k s /\ (s = [] \/ exists c s', s = c :: s' /\ blank c).

(** Opening minus closing brackets. *)
Fixpoint brackets (s : bytes) : Z :=
  match s with
  | [] => 0
  | c :: s' => (if Ascii.eqb c "[" then 1 else if Ascii.eqb c "]" then -1 else 0) + brackets s'
  end.
(** Markup that is not a tag. *)
Inductive aside : bytes -> Prop :=
| as_pi : forall b, ~ In ">"%char b -> small b -> aside (bs "<?" ++ b ++ bs ">")
| as_comment : forall c, (forall x y, c ++ bs "-" <> x ++ bs "--" ++ y) -> aside (bs "<!--" ++ c ++ bs "-->")
| as_cdata : forall c, (forall x y, c ++ bs "]]" <> x ++ bs "]]>" ++ y) -> aside (bs "<![CDATA[" ++ c ++ bs "]]>")
| as_doctype : forall w b, w = bs "DOCTYPE" \/ w = bs "doctype" -> brackets b = 0%Z ->
    (forall x y, b = x ++ ">"%char :: y -> brackets x <> 0%Z) -> aside (bs "<!" ++ w ++ b ++ bs ">")
| as_other : forall b, ~ In ">"%char b -> small b ->
    (forall w x, In w [bs "DOCTYPE"; bs "doctype"; bs "--"; bs "[CDATA["] -> b ++ bs ">" <> w ++ x) ->
    aside (bs "<!" ++ b ++ bs ">").

(** [accepted found open s]: [s] can follow in a document in which the elements [open]
    are open, innermost first; [found]: some element has been seen. At most 100 elements
    are open at any time, with at most 100 attributes each. Text other than white space
    occurs only inside elements. *)
Inductive accepted : bool -> list bytes -> bytes -> Prop :=
| ac_end : accepted true [] []
| ac_blank : forall found open c s, blank c -> accepted found open s -> accepted found open (c :: s)
| ac_text : forall found open c s, open <> [] -> c <> "<"%char -> accepted found open s -> accepted found open (c :: s)
| ac_aside : forall found open m s, aside m -> accepted found open s -> accepted found open (m ++ s)
| ac_open : forall found open n k a s, xml_name n -> k <= 100 -> List.length open < 100 -> tag_attributes k a ->
    accepted true (n :: open) s -> accepted found open ("<"%char :: n ++ a ++ ">"%char :: s)
| ac_self : forall found open n k a s, xml_name n -> k <= 100 -> List.length open < 100 -> tag_attributes k a ->
    accepted true open s -> accepted found open ("<"%char :: n ++ a ++ "/"%char :: ">"%char :: s)
| ac_close : forall found open n w s, blanks w -> accepted found open s ->
    accepted found (n :: open) ("<"%char :: "/"%char :: n ++ w ++ ">"%char :: s).
Definition accepted_document (s : bytes) : Prop :=
  accepted false [] s /\ (N.of_nat (List.length s) <= 10485760)%N.

(** ** Canonical documents *)
(** White space, comments, CDATA and elements at the top level, one element at least. *)
Definition top_node (nd : node) : Prop :=
  match nd with Text t => blanks t | _ => True end.
Definition has_element (F : list node) : Prop := exists n a s k, In (Elem n a s k) F.
Definition shallow (F : list node) : Prop := Forall (fun nd => levels nd <= 100) F.
(** What may precede the first element, with comments without double hyphens. *)
Inductive strict_prolog : bytes -> Prop :=
| sp_nil : strict_prolog []
| sp_space : forall x p, blanks x -> strict_prolog p -> strict_prolog (x ++ p)
| sp_pi : forall b p, ~ In ">"%char b -> small (bs "<?" ++ b ++ bs "?") -> strict_prolog p ->
    strict_prolog (bs "<?" ++ b ++ bs "?>" ++ p)
| sp_comment : forall c p, (forall x y, c ++ bs "-" <> x ++ bs "--" ++ y) -> strict_prolog p ->
    strict_prolog (bs "<!--" ++ c ++ bs "-->" ++ p)
| sp_doctype : forall x p, (forall c, In c x -> ~ In c (bs "[]>")) -> strict_prolog p ->
    strict_prolog (bs "<!DOCTYPE" ++ x ++ bs ">" ++ p)
| sp_subset : forall x y z p, (forall c, In c (x ++ z) -> ~ In c (bs "[]>")) -> (forall c, In c y -> ~ In c (bs "[]")) ->
    strict_prolog p -> strict_prolog (bs "<!DOCTYPE" ++ x ++ bs "[" ++ y ++ bs "]" ++ z ++ bs ">" ++ p).

(** ** Positions *)
Fixpoint newlines (s : bytes) : nat :=
  match s with [] => 0 | c :: s' => (if Ascii.eqb c lf then 1 else 0) + newlines s' end.
(** [p] ends in a line of [n] bytes. *)
Definition last_line (p : bytes) (n : nat) : Prop :=
  exists a b, p = a ++ b /\ List.length b = n /\ ~ In lf b /\ (a = [] \/ exists a', a = a' ++ [lf]).
