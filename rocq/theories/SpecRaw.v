(** Fragments for SetRaw and the text of values; independent of the model of the library. *)
From Coq Require Import List Ascii String NArith ZArith Bool.
From Verif Require Import GoStr SpecText SpecPath SpecTree SpecQuery SpecEdit SpecMod.
Import ListNotations.

(** [s] is cut at the first occurrence of [pat]. *)
Definition first_cut (pat s a r : bytes) : Prop :=
  s = a ++ pat ++ r /\ forall a' r', s = a' ++ pat ++ r' -> (List.length a <= List.length a')%nat.
Definition has_sub (pat s : bytes) : Prop := exists a r, s = a ++ pat ++ r.
Definition starts (pat s : bytes) : Prop := exists r, s = pat ++ r.
(** What may follow the name in a tag: nothing, or something starting with a byte of [seps];
    without '>'. *)
Definition tag_rest (seps a : bytes) : Prop :=
  (a = [] \/ exists c a', a = c :: a' /\ In c seps) /\ ~ In ">"%char a.
(** The name of a start tag. *)
Definition tag_name (n : bytes) : Prop :=
  (exists c n', n = c :: n' /\ ~ In c (bs "/!?")) /\ (forall c, In c n -> ~ In c (bs "> /")).

(** The fragments SetRaw takes, after the start tags [open] (innermost first). *)
Inductive fragment : list bytes -> bytes -> Prop :=
| fr_end : fragment [] []
| fr_text : forall st c s, c <> "<"%char -> fragment st s -> fragment st (c :: s)
(** A comment (or an instruction starting with a hyphen) up to the first "-->". *)
| fr_comment : forall st s a r, starts (bs "<!-") s \/ starts (bs "<?-") s -> first_cut (bs "-->") s a r ->
    fragment st r -> fragment st s
(** A CDATA section without another start of a CDATA section. *)
| fr_cdata : forall st s a r, first_cut (bs "]]>") s a r -> ~ has_sub (bs "<![CDATA[") a ->
    fragment st r -> fragment st (bs "<![CDATA[" ++ s)
(** Any other instruction or declaration, but DOCTYPE and ENTITY. *)
| fr_other : forall st c b r, In c (bs "!?") -> ~ In ">"%char b ->
    ~ starts (bs "-") b -> ~ starts (bs "![CDATA[") (c :: b ++ bs ">" ++ r) ->
    ~ starts (bs "!DOCTYPE") (c :: b ++ bs ">" ++ r) -> ~ starts (bs "!ENTITY") (c :: b ++ bs ">" ++ r) ->
    fragment st r -> fragment st (bs "<" ++ [c] ++ b ++ bs ">" ++ r)
| fr_open : forall st n a r, tag_name n -> tag_rest (bs " /") a -> (forall a', a <> a' ++ bs "/") ->
    fragment (n :: st) r -> fragment st (bs "<" ++ n ++ a ++ bs ">" ++ r)
| fr_self : forall st n a r, tag_name n -> tag_rest (bs " /") a ->
    fragment st r -> fragment st (bs "<" ++ n ++ a ++ bs "/>" ++ r)
(** An end tag closes the innermost open tag. *)
| fr_close : forall st n w r, tag_rest (bs " ") w -> (forall c, In c n -> ~ In c (bs "> ")) ->
    fragment st r -> fragment (n :: st) (bs "</" ++ n ++ w ++ bs ">" ++ r)
(** The last end tag may lack its '>'. *)
| fr_cut : forall n w, tag_rest (bs " ") w -> (forall c, In c n -> ~ In c (bs "> ")) ->
    fragment [n] (bs "</" ++ n ++ w).
