(** What the report about a document that is refused should say: the first fault and the
    text from the reported position on. Only the names of the messages are taken from the
    model of the library. *)
From Coq Require Import List Ascii String NArith ZArith Bool.
From Verif Require Import GoStr ModelValidate SpecText SpecPath SpecTree SpecValid.
Import ListNotations.

Definition name_letter (c : ascii) : Prop := letter c \/ digit c \/ In c (bs ".-_:").
Definition starts (P : ascii -> Prop) (s : bytes) : Prop := exists c r, s = c :: r /\ P c.
(** The end, or a byte other than those of [P]. *)
Definition avoids (P : ascii -> Prop) (s : bytes) : Prop := s = [] \/ starts (fun c => ~ P c) s.
Definition name_head (c : ascii) : Prop := letter c \/ In c (bs "_:").
(** More than 1 MiB of bytes of [P], and more to come. *)
Definition overlong (P : ascii -> Prop) (s : bytes) (at_ : bytes) : Prop :=
  exists v, s = v ++ at_ /\ Forall P v /\ N.of_nat (List.length v) = 1048577%N /\ at_ <> [].
(** [n] is the longest name at the beginning of [s]. *)
Definition leading_name (s n r : bytes) : Prop :=
  s = n ++ r /\ n <> [] /\ Forall name_letter n /\ avoids name_letter r /\
  (N.of_nat (List.length n) <= 1048576 \/ r = [] /\ N.of_nat (List.length n) <= 1048577)%N.
Definition nameless (s : bytes) : Prop := avoids name_letter s \/ exists r, overlong name_letter s r.

(** No [d] ends [s]. *)
Inductive unended (d : ascii) (s : bytes) : vmsg -> bytes -> Prop :=
| ue_end : ~ In d s -> (N.of_nat (List.length s) <= 1048577)%N -> unended d s (VEndOfDoc d) []
| ue_long : forall r, overlong (fun c => c <> d) s r -> unended d s VTokenSize r.
(** The last two bytes. *)
Definition last_two (s r : bytes) : Prop :=
  exists p, s = p ++ r /\ (List.length r = 2 \/ p = [] /\ List.length r < 2).

Inductive attr_fault : nat -> bytes -> vmsg -> bytes -> Prop :=
| af_end : forall k w, blanks w -> attr_fault k w VEndInTag []
| af_many : forall w s, blanks w -> starts (fun c => ~ blank c /\ ~ In c (bs ">/")) s -> attr_fault 0 (w ++ s) VTooManyAttrs s
| af_nameless : forall k w s, blanks w -> starts (fun c => ~ blank c /\ ~ In c (bs ">/")) s -> nameless s ->
    attr_fault (S k) (w ++ s) (VBadAttrName None) s
| af_name : forall k w s n r, blanks w -> leading_name s n r -> avoids name_head n -> attr_fault (S k) (w ++ s) (VBadAttrName (Some n)) s
| af_equals : forall k w s n w2 r, blanks w -> leading_name s n (w2 ++ r) -> starts name_head n -> blanks w2 ->
    avoids (fun c => blank c \/ c = "="%char) r -> attr_fault (S k) (w ++ s) VExpectEq r
| af_quote : forall k w s n w2 w3 r, blanks w -> leading_name s n (w2 ++ "="%char :: w3 ++ r) -> starts name_head n -> blanks w2 -> blanks w3 ->
    avoids (fun c => blank c \/ c = dquote \/ c = squote) r -> attr_fault (S k) (w ++ s) VUnquoted r
| af_value : forall k w s n w2 w3 q v m r, blanks w -> leading_name s n (w2 ++ "="%char :: w3 ++ q :: v) -> starts name_head n -> blanks w2 -> blanks w3 ->
    (q = dquote \/ q = squote) -> unended q v m r -> attr_fault (S k) (w ++ s) m r
| af_next : forall k w1 n w2 w3 q v s m r, blanks w1 -> xml_name n -> blanks w2 -> blanks w3 ->
    (q = dquote \/ q = squote) -> ~ In q v -> small v -> attr_fault k s m r ->
    attr_fault (S k) (w1 ++ n ++ w2 ++ "="%char :: w3 ++ q :: v ++ q :: s) m r.

(** The start tag of an element inside [depth] others. *)
Inductive start_fault (depth : nat) (s : bytes) : vmsg -> bytes -> Prop :=
| sf_empty : avoids name_letter s -> start_fault depth s VEmptyName s
| sf_long : forall r, overlong name_letter s r -> start_fault depth s VNameSize s
| sf_name : forall n r, leading_name s n r -> avoids name_head n -> start_fault depth s (VBadName n) s
| sf_depth : forall n r, leading_name s n r -> starts name_head n -> 100 <= depth -> start_fault depth s VDepth ("<"%char :: s)
| sf_attr : forall n a m r, leading_name s n a -> starts name_head n -> depth < 100 -> attr_fault 100 a m r -> start_fault depth s m r
| sf_slash : forall n k a r, leading_name s n (a ++ "/"%char :: r) -> starts name_head n -> depth < 100 -> k <= 100 -> attributes k a ->
    avoids (fun c => c = ">"%char) r -> start_fault depth s VExpectGt r.

(** The end tag where the elements [open] are open. *)
Inductive end_fault (open : list (bytes * bytes)) (s : bytes) : vmsg -> bytes -> Prop :=
| ef_name : nameless s -> end_fault open s VEmptyClose s
| ef_more : forall n w r, leading_name s n (w ++ r) -> blanks w -> avoids (fun c => blank c \/ c = ">"%char) r -> end_fault open s VExpectGt r
| ef_open : forall n w r, leading_name s n (w ++ ">"%char :: r) -> blanks w -> open = [] -> end_fault open s (VNoOpen n) (bs "</" ++ s)
| ef_other : forall n w r o t open', leading_name s n (w ++ ">"%char :: r) -> blanks w -> open = (o, t) :: open' -> o <> n ->
    end_fault open s (VMismatch n o t) (bs "</" ++ s).

(** Comments, CDATA and declarations. *)
Inductive aside_fault : bytes -> vmsg -> bytes -> Prop :=
| xf_pi : forall s m r, unended ">" s m r -> aside_fault (bs "<?" ++ s) m r
| xf_hyphens : forall c s, (forall x y, c ++ bs "-" <> x ++ bs "--" ++ y) -> starts (fun d => d <> ">"%char) s ->
    aside_fault (bs "<!--" ++ c ++ bs "--" ++ s) VDashDash s
| xf_comment : forall s r, (forall x d y, s <> x ++ bs "--" ++ d :: y) -> last_two s r -> aside_fault (bs "<!--" ++ s) VUnclosedComment r
| xf_cdata : forall s r, (forall x y, s <> x ++ bs "]]>" ++ y) -> last_two s r -> aside_fault (bs "<![CDATA[" ++ s) VUnclosedCDATA r
| xf_doctype : forall w s, w = bs "DOCTYPE" \/ w = bs "doctype" -> (forall x y, s = x ++ ">"%char :: y -> brackets x <> 0%Z) ->
    aside_fault (bs "<!" ++ w ++ s) VUnclosedDoctype []
| xf_other : forall s m r, unended ">" s m r ->
    (forall w x, In w [bs "DOCTYPE"; bs "doctype"; bs "--"; bs "[CDATA["] -> s <> w ++ x) -> aside_fault (bs "<!" ++ s) m r.

(** [fault whole found open s m r]: the first fault of [s], in the document [whole] in which
    the elements [open] are open, innermost first, each with the text from its start tag on;
    [found]: some element has been seen. The fault is reported as [m], where the text [r]
    begins. *)
Inductive fault (whole : bytes) : bool -> list (bytes * bytes) -> bytes -> vmsg -> bytes -> Prop :=
| fa_blank : forall found open c s m r, blank c -> fault whole found open s m r -> fault whole found open (c :: s) m r
| fa_text : forall found open c s m r, open <> [] -> c <> "<"%char -> fault whole found open s m r -> fault whole found open (c :: s) m r
| fa_aside : forall found open x s m r, aside x -> fault whole found open s m r -> fault whole found open (x ++ s) m r
| fa_open : forall found open n k a s m r, xml_name n -> k <= 100 -> List.length open < 100 -> tag_attributes k a ->
    fault whole true ((n, "<"%char :: n ++ a ++ ">"%char :: s) :: open) s m r -> fault whole found open ("<"%char :: n ++ a ++ ">"%char :: s) m r
| fa_self : forall found open n k a s m r, xml_name n -> k <= 100 -> List.length open < 100 -> tag_attributes k a ->
    fault whole true open s m r -> fault whole found open ("<"%char :: n ++ a ++ "/"%char :: ">"%char :: s) m r
| fa_close : forall found open n t w s m r, blanks w -> fault whole found open s m r ->
    fault whole found ((n, t) :: open) ("<"%char :: "/"%char :: n ++ w ++ ">"%char :: s) m r
| fa_outside : forall found c s, ~ blank c -> c <> "<"%char -> fault whole found [] (c :: s) VOutsideRoot (c :: s)
| fa_unclosed : forall found n t open, fault whole found ((n, t) :: open) [] (VUnclosedTag n) t
| fa_no_element : fault whole false [] [] VNoRoot whole
| fa_bare : forall found open, fault whole found open ["<"%char] VEndInTag ["<"%char]
| fa_aside_bad : forall found open s m r, aside_fault s m r -> fault whole found open s m r
| fa_end_bad : forall found open s m r, end_fault open s m r -> fault whole found open (bs "</" ++ s) m r
| fa_start_bad : forall found open s m r, starts (fun c => ~ In c (bs "?!/")) s -> start_fault (List.length open) s m r ->
    fault whole found open ("<"%char :: s) m r.
(** The report about the document [s]. *)
Inductive first_fault (s : bytes) : vmsg -> bytes -> Prop :=
| ff_size : (10485760 < N.of_nat (List.length s))%N -> first_fault s VDocSize s
| ff_empty : s = [] -> first_fault s VEmptyDoc s
| ff_fault : forall m r, (N.of_nat (List.length s) <= 10485760)%N -> s <> [] -> fault s false [] s m r -> first_fault s m r.

(** A document that has been written up to some place: the content before the first element
    that is still open, then the open elements from the outside to the inside, each with its
    content so far. *)
Definition level : Type := bytes * list (bytes * bytes) * list node.
Definition level_text (l : level) : bytes := let '(n, a, F) := l in start_tag n a false ++ forest_text F.
Definition levels_text (L : list level) : bytes := List.concat (map level_text L).
(** At most 100 levels, [d] of them outside. *)
Inductive writable : nat -> list level -> Prop :=
| wr_nil : forall d, writable d []
| wr_cons : forall d n a F L, xml_name n -> good_attrs a -> Forall good F -> S d <= 100 -> Forall (fun nd => S d + levels nd <= 100) F ->
    writable (S d) L -> writable d ((n, a, F) :: L).
