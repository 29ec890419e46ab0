(** What is recognised as an element in any text, well-formed or not; independent of the
    model of the library except for the record of an element (ModelParser.elem). *)
From Coq Require Import List Ascii String NArith ZArith Bool Permutation.
From Verif Require Import GoStr SpecText SpecPath SpecTree ModelParser.
Import ListNotations.

(** ** Tokens *)
Definition blank (c : ascii) : Prop := In (N_of_ascii c) [32; 9; 10; 13]%N.
(** [r] begins with a character in [P]. *)
Definition begins (P : ascii -> Prop) (r : bytes) : Prop := exists c r', r = c :: r' /\ P c.
(** [cut P s t r]: the token [t] in front of the first character in [P], or of the end of
    the text, leaves [r]. A token of more than 1 MiB counts as empty, and is given up
    after 1 MiB and one byte. *)
Inductive cut (P : ascii -> Prop) : bytes -> bytes -> bytes -> Prop :=
| cut_short : forall t r, Forall (fun c => ~ P c) t -> (N.of_nat (List.length t) <= 1048576)%N -> r = [] \/ begins P r ->
    cut P (t ++ r) t r
| cut_last : forall t, Forall (fun c => ~ P c) t -> N.of_nat (List.length t) = 1048577%N -> cut P t t []
| cut_long : forall t r, Forall (fun c => ~ P c) t -> N.of_nat (List.length t) = 1048577%N -> r <> [] ->
    cut P (t ++ r) [] r.
(** White space is passed over. *)
Definition gap (s r : bytes) : Prop := exists w, s = w ++ r /\ Forall blank w /\ ~ begins blank r.
Definition rest_of (s : bytes) : bytes := match s with _ :: r => r | [] => [] end.

(** ** Tags *)
Definition ends_name (c : ascii) : Prop := blank c \/ c = "/"%char \/ c = ">"%char.
Definition ends_attr (c : ascii) : Prop := ends_name c \/ c = "="%char.
Definition quote (c : ascii) : Prop := c = dquote \/ c = squote.
(** [attributes k s l r]: at most [k] attributes are read in front of [r]; the first
    thing that is not an attribute ends them. *)
Inductive attributes : nat -> bytes -> list (bytes * bytes) -> bytes -> Prop :=
| attributes_enough : forall s r, gap s r -> attributes 0 s [] r
| attributes_end : forall k s r, gap s r -> r = [] \/ begins (fun c => c = ">"%char \/ c = "/"%char) r -> attributes (S k) s [] r
| attributes_nameless : forall k s s1 r, gap s s1 -> s1 <> [] -> ~ begins (fun c => c = ">"%char \/ c = "/"%char) s1 ->
    cut ends_attr s1 [] r -> attributes (S k) s [] r
| attributes_bare : forall k s s1 x s2 r, gap s s1 -> ~ begins (fun c => c = ">"%char \/ c = "/"%char) s1 ->
    cut ends_attr s1 x s2 -> x <> [] -> gap s2 r -> ~ begins (fun c => c = "="%char) r -> attributes (S k) s [] r
| attributes_quoted : forall k s s1 x s2 s3 q s4 v s5 d l r, gap s s1 -> ~ begins (fun c => c = ">"%char \/ c = "/"%char) s1 ->
    cut ends_attr s1 x s2 -> x <> [] -> gap s2 ("="%char :: s3) -> gap s3 (q :: s4) -> quote q ->
    cut (fun c => c = q) s4 v s5 -> Decodes v d -> attributes k (rest_of s5) l r -> attributes (S k) s ((x, d) :: l) r
| attributes_unquoted : forall k s s1 x s2 s3 s4 v s5 d l r, gap s s1 -> ~ begins (fun c => c = ">"%char \/ c = "/"%char) s1 ->
    cut ends_attr s1 x s2 -> x <> [] -> gap s2 ("="%char :: s3) -> gap s3 s4 -> ~ begins quote s4 ->
    cut ends_name s4 v s5 -> Decodes v d -> attributes k s5 l r -> attributes (S k) s ((x, d) :: l) r.
(** The last attribute with a name counts; the order is not fixed. *)
Definition settled (l m : list (bytes * bytes)) : Prop :=
  NoDup (map fst m) /\
  forall x v, In (x, v) m <-> exists a b, l = a ++ (x, v) :: b /\ ~ In x (map fst b).
(** An optional character. *)
Inductive maybe (c : ascii) : bytes -> bool -> bytes -> Prop :=
| maybe_yes : forall r, maybe c (c :: r) true r
| maybe_no : forall r, ~ begins (fun d => d = c) r -> maybe c r false r.
(** [tag s n m self gt r]: the start tag [s] (without its bracket) has the name [n], the
    attributes [m], a slash if [self] and a closing bracket if [gt]; [r] follows. *)
Inductive tag : bytes -> bytes -> list (bytes * bytes) -> bool -> bool -> bytes -> Prop :=
| tag_is : forall s n s1 l s2 m self s3 gt r, cut ends_name s n s1 -> attributes 100 s1 l s2 -> settled l m ->
    maybe "/" s2 self s3 -> maybe ">" s3 gt r -> tag s n m self gt r.

(** ** Places that are not elements *)
(** The bracket depth of a piece of a document type declaration. *)
Definition count (c : ascii) (s : bytes) : Z := Z.of_nat (count_occ ascii_dec s c).
Definition level (s : bytes) : Z := (count "[" s - count "]" s)%Z.
Definition unclosed (s : bytes) : Prop := forall a b, s = a ++ ">"%char :: b -> level a <> 0%Z.
Inductive doctype_rest : bytes -> bytes -> Prop :=
| doctype_closed : forall u r, level u = 0%Z -> unclosed u -> doctype_rest (u ++ ">"%char :: r) r
| doctype_open : forall s, unclosed s -> doctype_rest s [].
(** A comment ends at the first arrow, which may begin with the dashes that open it; in an
    open comment the search goes on two bytes before the end. *)
Inductive comment_rest : bytes -> bytes -> Prop :=
| comment_closed : forall u r, (forall a b, u ++ bs "--" <> a ++ bs "-->" ++ b) -> comment_rest (u ++ bs "-->" ++ r) r
| comment_open : forall u x y, (forall a b, u ++ [x; y] <> a ++ bs "-->" ++ b) -> comment_rest (u ++ [x; y]) [x; y].
(** Nine bytes that spell <!DOCTYPE in any case. *)
Definition lower_case (c : ascii) : ascii :=
  if (65 <=? N_of_ascii c)%N && (N_of_ascii c <=? 90)%N then ascii_of_N (N_of_ascii c + 32) else c.
Definition doctype (d : bytes) : Prop := map lower_case d = bs "<!doctype".
(** [leads s o]: where the next start tag is. *)
Inductive leads : bytes -> option bytes -> Prop :=
| leads_end : leads [] None
| leads_on : forall c s o, c <> "<"%char -> leads s o -> leads (c :: s) o
| leads_alone : leads (bs "<") None
| leads_tag : forall c s, ~ In c (bs "!?/") -> leads ("<"%char :: c :: s) (Some ("<"%char :: c :: s))
| leads_doctype : forall d s r o, doctype d -> doctype_rest s r -> leads r o -> leads (d ++ s) o
| leads_comment : forall s r o, comment_rest (bs "--" ++ s) r -> leads r o -> leads (bs "<!--" ++ s) o
| leads_bang : forall s o, (forall d u, doctype d -> bs "<!" ++ s <> d ++ u) -> (forall u, s <> bs "--" ++ u) ->
    leads s o -> leads (bs "<!" ++ s) o
| leads_past : forall c s t r o, In c (bs "?/") -> cut (fun c => c = ">"%char) ("<"%char :: c :: s) t r ->
    leads (rest_of r) o -> leads ("<"%char :: c :: s) o.

(** ** Content *)
(** The name in an end tag. *)
Definition closes (t n : bytes) : Prop :=
  exists r, trim_space t = n ++ r /\ Forall (fun c => ~ blank c) n /\ (r = [] \/ begins blank r).
Definition mark (b : bool) (t : bytes) : bytes := if b then t else [].
(** [inner n d s t r]: with [d] elements called [n] open, the text [t] is taken from [s]
    up to the end tag of the outermost of them, and [r] follows. The start tags are
    written anew, with the attributes in any order, and so are the end tags. *)
Inductive inner (n : bytes) : nat -> bytes -> bytes -> bytes -> Prop :=
| inner_end : forall d, inner n d [] [] []
| inner_char : forall d c s t r, c <> "<"%char -> inner n d s t r -> inner n d (c :: s) (c :: t) r
| inner_alone : forall d, inner n d (bs "<") (bs "<") []
| inner_bang : forall d s t r, inner n d ("!"%char :: s) t r -> inner n d (bs "<!" ++ s) ("<"%char :: t) r
| inner_last : forall s e r, cut (fun c => c = ">"%char) s e r -> closes e n ->
    inner n 1 (bs "</" ++ s) [] (rest_of r)
| inner_close : forall d s e r0 t r, cut (fun c => c = ">"%char) s e r0 -> closes e n ->
    inner n (S d) (rest_of r0) t r -> inner n (S (S d)) (bs "</" ++ s) (end_tag n ++ t) r
| inner_other : forall d s e x r0 t r, cut (fun c => c = ">"%char) s e r0 -> closes e x -> x <> n ->
    inner n d (rest_of r0) t r -> inner n d (bs "</" ++ s) (end_tag x ++ t) r
| inner_open : forall d c s x m self gt r0 t r, ~ In c (bs "/!") -> tag (c :: s) x m self gt r0 ->
    inner n (if self then d else if bytes_eqb x n then S d else d) r0 t r ->
    inner n d ("<"%char :: c :: s) (bs "<" ++ x ++ attrs_text m ++ mark self (bs "/") ++ mark gt (bs ">") ++ t) r.

(** ** Elements *)
(** [sees s l]: the elements of [s], those inside others left out; each with its name,
    attributes and content, and with the text from its start tag on, after its start tag
    and after its end. *)
Inductive sees : bytes -> list elem -> Prop :=
| sees_none : forall s, leads s None -> sees s []
| sees_empty : forall s s1 n m gt r l, leads s (Some ("<"%char :: s1)) -> tag s1 n m true gt r -> sees r l ->
    sees s (mkElem n m true [] ("<"%char :: s1) r r :: l)
| sees_element : forall s s1 n m gt r t r' l, leads s (Some ("<"%char :: s1)) -> tag s1 n m false gt r ->
    inner n 1 r t r' -> sees r' l -> sees s (mkElem n m false t ("<"%char :: s1) r r' :: l).

(** ** Sameness *)
(** Texts that differ in the order of the attributes of some tags. *)
Inductive reordered : bytes -> bytes -> Prop :=
| reordered_nil : reordered [] []
| reordered_char : forall c t t', reordered t t' -> reordered (c :: t) (c :: t')
| reordered_attrs : forall m m' t t', Permutation m m' -> reordered t t' -> reordered (attrs_text m ++ t) (attrs_text m' ++ t').
Definition same_elem (e e' : elem) : Prop :=
  e_name e = e_name e' /\ Permutation (e_attrs e) (e_attrs e') /\ e_self e = e_self e' /\ reordered (e_content e) (e_content e') /\
  e_start e = e_start e' /\ e_body e = e_body e' /\ e_after e = e_after e'.
