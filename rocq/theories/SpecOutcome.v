(** The outcome of every edit of every document; independent of the model of the library
    except for the types of elements, values and errors. Positions are found in the
    normalised contents of elements but used in the document as written: where the two
    differ in length, the outcome is what it says here, and may be a crash. *)
From Coq Require Import List Ascii String NArith ZArith Bool Permutation.
From Verif Require Import GoStr ModelParser ModelResult ModelBuilder SpecText SpecPath SpecTree SpecEdit SpecCase SpecOptions
  SpecGrammar SpecScan SpecAnswer SpecError.
Import ListNotations.
Notation steps := (list (gstep * list bytes)).
Notation attrs := (list (bytes * bytes)).

(** A new document, an error with the document as it was, or a crash. *)
Inductive outcome := Done (d : bytes) | Refused (e : err) | Crashed.
Definition returned (d : bytes) (out : outcome) : Res (bytes * option err) :=
  match out with Done d' => Ok (d', None) | Refused e => Ok (d, Some e) | Crashed => Panic end.
(** An edit that would leave nothing leaves everything. *)
Definition kept (d d' : bytes) : bytes := match d' with [] => d | _ :: _ => d' end.
Definition settled (d : bytes) (out : outcome) : outcome := match out with Done d' => Done (kept d d') | _ => out end.

(** ** Places *)
Definition size (s : bytes) : Z := Z.of_nat (List.length s).
(** The bytes before a rest of the text. *)
Definition offset (s rest : bytes) : Z := (size s - size rest)%Z.
(** Start of the start tag, end of the start tag, start of the end tag. *)
Record place := mkPlace { p_start : Z; p_body : Z; p_end : Z; p_name : bytes; p_attrs : attrs; p_empty : bool }.
(** The end tag is taken to be written without white space. *)
Definition place_of (s : bytes) (base : Z) (e : elem) : place :=
  mkPlace (base + offset s (e_start e)) (base + offset s (e_body e))
    (if e_self e then base + offset s (e_body e) else base + offset s (e_after e) - (size (e_name e) + 3))
    (e_name e) (e_attrs e) (e_self e).
(** [d] with the bytes from [p] to [q] replaced by [m]. *)
Inductive spliced (d : bytes) (p q : Z) (m : bytes) : outcome -> Prop :=
| spliced_in : forall a a' b b', d = a ++ a' -> size a = p -> d = b' ++ b -> size b' = q -> spliced d p q m (Done (a ++ m ++ b))
| spliced_out : ~ ((0 <= p <= size d)%Z /\ (0 <= q <= size d)%Z) -> spliced d p q m Crashed.

(** ** Tags *)
(** Attributes with their values as written. *)
Definition listed (a : attrs) : bytes := flat_map (fun p => bs " " ++ fst p ++ bs "=" ++ [dquote] ++ snd p ++ [dquote]) a.
Definition escaped (a : attrs) : attrs := map (fun p => (fst p, esc (snd p))) a.
Inductive retagged (p : place) (w : attrs) : bytes -> Prop :=
| retagged_as : forall a, Permutation a w -> sorted_by_name a ->
    retagged p w (bs "<" ++ p_name p ++ listed a ++ (if p_empty p then bs "/>" else bs ">")).
Definition enclosed (n t : bytes) : bytes := bs "<" ++ n ++ bs ">" ++ t ++ bs "</" ++ n ++ bs ">".

Section Outcomes.
  (** The elements of a text, and the ways to write a list of attributes. *)
  Variable sight : bytes -> list elem -> Prop.
  Variable order : attrs -> attrs -> Prop.
  (** Respect for case; indentation. *)
  Variable cs : bool.
  Variable indent : bytes.

  (** ** Finding a place *)
  Definition candidates (st : gstep) (es l : list elem) : Prop :=
    match st with GName n => only (bears (Under cs) n) es l | GAny | GDeep => l = es | _ => l = [] end.
  Definition is_nth (st : gstep) : Prop := match st with GNth _ => True | _ => False end.
  Inductive lies : bytes -> Z -> steps -> option place -> Prop :=
  | lies_here : forall s base, lies s base [] None
  | lies_far : forall s base l, (1073741823 < base)%Z -> lies s base l None
  | lies_none : forall s base st ms es, (base <= 1073741823)%Z -> sight s es -> candidates st es [] -> lies s base [(st, ms)] None
  | lies_first : forall s base st ms es e l, (base <= 1073741823)%Z -> sight s es -> candidates st es (e :: l) ->
      lies s base [(st, ms)] (Some (place_of s base e))
  | lies_no_nth : forall s base st ms i ms' rest es l, (base <= 1073741823)%Z -> sight s es -> candidates st es l -> no_place l i ->
      lies s base ((st, ms) :: (GNth i, ms') :: rest) None
  | lies_nth : forall s base st ms i ms' es l e, (base <= 1073741823)%Z -> sight s es -> candidates st es l -> at_place l i e ->
      lies s base [(st, ms); (GNth i, ms')] (Some (place_of s base e))
  | lies_in_nth : forall s base st ms i ms' x rest es l e p, (base <= 1073741823)%Z -> sight s es -> candidates st es l -> at_place l i e ->
      lies (e_content e) (base + offset s (e_body e)) (x :: rest) p -> lies s base ((st, ms) :: (GNth i, ms') :: x :: rest) p
  | lies_in_none : forall s base st ms nx ms' rest es, (base <= 1073741823)%Z -> sight s es -> candidates st es [] -> ~ is_nth nx ->
      lies s base ((st, ms) :: (nx, ms') :: rest) None
  | lies_in : forall s base st ms nx ms' rest es e l p, (base <= 1073741823)%Z -> sight s es -> candidates st es (e :: l) -> ~ is_nth nx ->
      lies (e_content e) (base + offset s (e_body e)) ((nx, ms') :: rest) p -> lies s base ((st, ms) :: (nx, ms') :: rest) p.

  (** ** New elements *)
  (** A step that is no name and no attribute makes an element without a name. *)
  Definition title (st : gstep) : bytes := match st with GName n => spelled cs n | _ => [] end.
  Definition is_attr (st : gstep) : Prop := match st with GAttr _ => True | _ => False end.
  Definition margin (i : nat) : bytes := match indent with [] => [] | _ :: _ => lf :: times i indent end.
  (** One element in the other, the text in the last one; [i] steps precede. *)
  Inductive built (t : bytes) : nat -> steps -> bytes -> Prop :=
  | built_end : forall i, built t i [] []
  | built_attr : forall i st ms l u, is_attr st -> built t (S i) l u -> built t i ((st, ms) :: l) u
  | built_inmost : forall i st ms, ~ is_attr st -> built t i [(st, ms)] (margin i ++ enclosed (title st) t)
  | built_outer : forall i st ms x l u, ~ is_attr st -> built t (S i) (x :: l) u -> built t i ((st, ms) :: x :: l) (margin i ++ enclosed (title st) u).
  (** At the end of the content of an element; an empty one gets an end tag. *)
  Inductive inserted (d : bytes) (p : place) (u : bytes) : outcome -> Prop :=
  | inserted_full : forall out, p_empty p = false -> spliced d (p_end p) (p_end p) u out -> inserted d p u out
  | inserted_empty : forall a out, p_empty p = true -> order (p_attrs p) a ->
      spliced d (p_start p) (p_end p) (bs "<" ++ p_name p ++ listed (escaped a) ++ bs ">" ++ u ++ bs "</" ++ p_name p ++ bs ">") out -> inserted d p u out.
  (** No proper beginning of the path leads to an element. *)
  Definition unrooted (d : bytes) (l : steps) : Prop := forall l1 l2, l = l1 ++ l2 -> l1 <> [] -> l2 <> [] -> lies d 0 l1 None.
  (** The path begins with a name no element at the top has. *)
  Definition beside (es : list elem) (l : steps) : Prop :=
    exists n ms more, l = (GName n, ms) :: more /\ forall e, In e es -> e_name e <> spelled cs n.
  Inductive under_root (e : elem) : steps -> steps -> Prop :=
  | under_same : forall n ms more, e_name e = spelled cs n -> under_root e ((GName n, ms) :: more) more
  | under_other : forall l, (forall n ms more, l = (GName n, ms) :: more -> e_name e <> spelled cs n) -> under_root e l l.
  Inductive created (d : bytes) (l : steps) (t : bytes) : outcome -> Prop :=
  | created_all : forall u, d = [] -> built t 0 l u -> created d l t (Done u)
  (* below the element the longest beginning of the path leads to *)
  | created_in : forall l1 l2 p u out, d <> [] -> l = l1 ++ l2 -> l1 <> [] -> l2 <> [] -> lies d 0 l1 (Some p) ->
      (forall x y, l2 = x ++ y -> x <> [] -> y <> [] -> lies d 0 (l1 ++ x) None) -> built t 0 l2 u -> inserted d p u out -> created d l t out
  (* beside the elements at the top *)
  | created_beside : forall es u, d <> [] -> unrooted d l -> sight d es -> beside es l -> built t 0 l u -> created d l t (Done (d ++ u))
  | created_nowhere : d <> [] -> unrooted d l -> sight d [] -> ~ beside [] l -> created d l t (Refused ErrMalformedXML)
  (* in the first element *)
  | created_nothing : forall e es, d <> [] -> unrooted d l -> sight d (e :: es) -> ~ beside (e :: es) l -> under_root e l [] ->
      created d l t (Done [])
  | created_top : forall e es x more u out, d <> [] -> unrooted d l -> sight d (e :: es) -> ~ beside (e :: es) l -> under_root e l (x :: more) ->
      built t 0 (x :: more) u -> inserted d (place_of d 0 e) u out -> created d l t out.

  (** ** Set *)
  (** After the last element that bears the name, or at [dflt]. *)
  Inductive after_last (n : bytes) (s : bytes) (dflt : Z) (es : list elem) : Z -> Prop :=
  | after_one : forall l1 e l2, es = l1 ++ e :: l2 -> bears (Under cs) n e -> (forall e', In e' l2 -> ~ bears (Under cs) n e') ->
      after_last n s dflt es (offset s (e_after e))
  | after_none : (forall e, In e es -> ~ bears (Under cs) n e) -> after_last n s dflt es dflt.
  Definition limited (out : outcome) : outcome :=
    match out with Done d => if (10485760 <? size d)%Z then Refused ErrInvalidValue else Done d | _ => out end.
  (** One more element [n] below [pre]. *)
  Inductive appended (d : bytes) (pre : steps) (n : bytes) (ms : list bytes) (t : bytes) : outcome -> Prop :=
  | appended_all : pre = [] -> d = [] -> appended d pre n ms t (Done (enclosed (spelled cs n) t))
  | appended_top : forall es z out, pre = [] -> d <> [] -> sight d es -> after_last n d (size d) es z ->
      spliced d z z (enclosed (spelled cs n) t) out -> appended d pre n ms t (limited out)
  | appended_new : forall out, pre <> [] -> lies d 0 pre None -> created d (pre ++ [(GName n, ms)]) t out -> appended d pre n ms t out
  | appended_empty : forall p a out, pre <> [] -> lies d 0 pre (Some p) -> p_empty p = true -> Permutation a (p_attrs p) -> sorted_by_name a ->
      spliced d (p_start p) (p_end p)
        (bs "<" ++ p_name p ++ listed (escaped a) ++ bs ">" ++ enclosed (spelled cs n) t ++ bs "</" ++ p_name p ++ bs ">") out ->
      appended d pre n ms t out
  | appended_lost : forall p, pre <> [] -> lies d 0 pre (Some p) -> p_empty p = false ->
      ~ (0 <= p_body p <= p_end p /\ p_end p <= size d)%Z -> appended d pre n ms t Crashed
  | appended_in : forall p a c b es z out, pre <> [] -> lies d 0 pre (Some p) -> p_empty p = false ->
      d = a ++ c ++ b -> size a = p_body p -> size (a ++ c) = p_end p -> sight c es -> after_last n c (size c) es z ->
      spliced d (p_body p + z) (p_body p + z) ((if (0 <? z)%Z then margin (List.length pre) else []) ++ enclosed (spelled cs n) t) out ->
      appended d pre n ms t (limited out).
  (** The attribute [x] of the element at [pre]. *)
  Inductive given (d : bytes) (pre : steps) (x t : bytes) : outcome -> Prop :=
  | given_to : forall p m out, lies d 0 pre (Some p) -> retagged p (put_attrs cs x t (escaped (p_attrs p))) m ->
      spliced d (p_start p) (p_body p) m out -> given d pre x t out.
  Inductive attributed (d : bytes) (pre : steps) (x t : bytes) : outcome -> Prop :=
  | attributed_there : forall out, given d pre x t out -> attributed d pre x t (settled d out)
  | attributed_fail : forall out, lies d 0 pre None -> created d pre [] out -> (forall d', out <> Done d') -> attributed d pre x t out
  | attributed_large : forall d', lies d 0 pre None -> created d pre [] (Done d') -> (10485760 < size (kept d d'))%Z ->
      attributed d pre x t (Refused ErrMalformedXML)
  | attributed_lost : forall d', lies d 0 pre None -> created d pre [] (Done d') -> (size (kept d d') <= 10485760)%Z ->
      lies (kept d d') 0 pre None -> attributed d pre x t (Refused ErrInvalidPath)
  | attributed_new : forall d' out, lies d 0 pre None -> created d pre [] (Done d') -> (size (kept d d') <= 10485760)%Z ->
      given (kept d d') pre x t out -> attributed d pre x t (settled (kept d d') out).
  (** The text [t] at the path [l]. *)
  Inductive set_outcome (d : bytes) (l : steps) (t : bytes) : outcome -> Prop :=
  | set_misplaced : misplaced l -> set_outcome d l t (Refused ErrInvalidPath)
  | set_unnamed : ~ misplaced l -> appends l -> (forall n, ~ appends_named l n) -> set_outcome d l t (Refused ErrInvalidPath)
  | set_append : forall pre n ms ms' out, ~ misplaced l -> l = pre ++ [(GName n, ms); (GNth (-1), ms')] -> appended d pre n ms t out ->
      set_outcome d l t (settled d out)
  | set_attr : forall pre x ms out, ~ misplaced l -> l = pre ++ [(GAttr x, ms)] -> attributed d pre x t out -> set_outcome d l t out
  | set_content : forall p out, ~ misplaced l -> ~ appends l -> ~ at_attribute l -> lies d 0 l (Some p) -> spliced d (p_body p) (p_end p) t out ->
      set_outcome d l t (settled d out)
  | set_create : forall out, ~ misplaced l -> ~ appends l -> ~ at_attribute l -> lies d 0 l None -> created d l t out -> set_outcome d l t (settled d out).

  (** ** Delete *)
  Inductive delete_outcome (d : bytes) (l : steps) : outcome -> Prop :=
  | delete_bare : forall x ms, l = [(GAttr x, ms)] -> delete_outcome d l (Refused ErrInvalidPath)
  | delete_no_element : forall pre x ms, pre <> [] -> l = pre ++ [(GAttr x, ms)] -> lies d 0 pre None -> delete_outcome d l (Done d)
  | delete_no_attr : forall pre x ms p, pre <> [] -> l = pre ++ [(GAttr x, ms)] -> lies d 0 pre (Some p) ->
      (forall y v, In (y, v) (p_attrs p) -> spelled cs y <> spelled cs x) -> delete_outcome d l (Done d)
  | delete_attr : forall pre x ms p y v m out, pre <> [] -> l = pre ++ [(GAttr x, ms)] -> lies d 0 pre (Some p) ->
      In (y, v) (p_attrs p) -> spelled cs y = spelled cs x -> retagged p (drop_attrs cs x (escaped (p_attrs p))) m ->
      spliced d (p_start p) (p_body p) m out -> delete_outcome d l (settled d out)
  | delete_absent : ~ at_attribute l -> lies d 0 l None -> delete_outcome d l (Done d)
  | delete_present : forall p out, ~ at_attribute l -> lies d 0 l (Some p) ->
      spliced d (p_start p) (if p_empty p then p_body p else p_end p + (size (p_name p) + 3)) [] out -> delete_outcome d l (settled d out).
End Outcomes.
