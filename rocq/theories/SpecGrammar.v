(** Independent description of the language of paths: what every text given as a path
    means, including the texts that are refused and those that bring the program down. *)
From Coq Require Import List Ascii String NArith ZArith Bool.
From Verif Require Import GoStr ModelParser ModelPath SpecPath.
Import ListNotations.

(** The pieces a path is cut into: at the dots that no backslash precedes; a backslash
    stands for the character after it. *)
Inductive cuts : bytes -> list bytes -> Prop :=
| cuts_end : cuts [] [[]]
| cuts_dangling : cuts [backslash] [[]]
| cuts_dot : forall s l, cuts s l -> cuts ("."%char :: s) ([] :: l)
| cuts_quoted : forall c s h t, cuts s (h :: t) -> cuts (backslash :: c :: s) ((c :: h) :: t)
| cuts_other : forall c s h t, c <> "."%char -> c <> backslash -> cuts s (h :: t) ->
    cuts (c :: s) ((c :: h) :: t).

(** A piece is a step, and behind bars its modifiers. *)
Fixpoint barred (h : bytes) (l : list bytes) : bytes :=
  match l with
  | [] => h
  | x :: l' => h ++ "|"%char :: barred x l'
  end.
(** The names of the modifiers: what stands between bars and starts, after white space,
    with an at sign. Anything else between bars is passed over. *)
Inductive named : list bytes -> list bytes -> Prop :=
| named_nil : named [] []
| named_one : forall x m l ms, trim_space x = "@"%char :: m -> named l ms -> named (x :: l) (m :: ms)
| named_none : forall x l ms, (forall m, trim_space x <> "@"%char :: m) -> named l ms -> named (x :: l) ms.

(** Operators of conditions as they are written. *)
Definition two_sign (op : fop) : option bytes :=
  match op with
  | OpEq => Some (bs "==") | OpNe => Some (bs "!=") | OpLe => Some (bs "<=") | OpGe => Some (bs ">=")
  | OpNotMatch => Some (bs "!%")
  | _ => None
  end.
Definition one_sign (op : fop) : option bytes :=
  match op with OpLt => Some (bs "<") | OpGt => Some (bs ">") | OpMatch => Some (bs "%") | _ => None end.
(** Where a condition is divided: at the first sign of two characters, and when there is
    none at the first sign of one character. *)
Inductive divided : bytes -> bytes -> fop -> bytes -> Prop :=
| divided_two : forall p op sign q, two_sign op = Some sign ->
    (forall p' op' sign' q', two_sign op' = Some sign' -> p ++ sign ++ q = p' ++ sign' ++ q' ->
       (List.length p <= List.length p')%nat) ->
    divided (p ++ sign ++ q) p op q
| divided_one : forall p op sign q, one_sign op = Some sign ->
    (forall p' op' sign' q', two_sign op' = Some sign' -> p ++ sign ++ q <> p' ++ sign' ++ q') ->
    (forall p' op' sign' q', one_sign op' = Some sign' -> p ++ sign ++ q = p' ++ sign' ++ q' ->
       (List.length p <= List.length p')%nat) ->
    divided (p ++ sign ++ q) p op q.
Definition undivided (e : bytes) : Prop := forall p op q, ~ divided e p op q.
Definition a_quote (c : ascii) : Prop := c = squote \/ c = dquote.
(** The literal a value stands for: without its quotes when it begins and ends with the
    same quote. *)
Inductive literal : bytes -> bytes -> Prop :=
| literal_quoted : forall c v, a_quote c -> literal (c :: v ++ [c]) v
| literal_bare : forall v, v <> [] -> (forall c r, a_quote c -> v = c :: r -> exists r' d, v = r' ++ [d] /\ d <> c) ->
    literal v v.
Definition controlled (s : bytes) : Prop := exists c, In c s /\ In (N_of_ascii c) [0; 9; 10; 13]%N.

(** What a condition means. *)
Inductive told := Test (path : bytes) (op : fop) (value : bytes) | Refused | Down.
Inductive condition : bytes -> told -> Prop :=
| condition_long : forall e, (256 < List.length e)%nat -> condition e Refused
| condition_nul : forall e, (List.length e <= 256)%nat -> In (ascii_of_N 0) e -> condition e Refused
| condition_blank : forall e, (List.length e <= 256)%nat -> ~ In (ascii_of_N 0) e -> trim_space e = [] ->
    condition e Refused
| condition_exists : forall e, (List.length e <= 256)%nat -> ~ In (ascii_of_N 0) e -> trim_space e <> [] ->
    op_free (trim_space e) -> condition e (Test (trim_space e) OpExists [])
| condition_odd : forall e, (List.length e <= 256)%nat -> ~ In (ascii_of_N 0) e ->
    ~ op_free (trim_space e) -> undivided (trim_space e) -> condition e Refused
| condition_faulty : forall e p op q, (List.length e <= 256)%nat -> ~ In (ascii_of_N 0) e ->
    divided (trim_space e) p op q ->
    controlled p \/ trim_space p = [] \/ trim_space q = [] \/ ~ op_free (trim_space p) ->
    condition e Refused
| condition_down : forall e p op q c, (List.length e <= 256)%nat -> ~ In (ascii_of_N 0) e ->
    divided (trim_space e) p op q -> ~ controlled p -> trim_space p <> [] -> op_free (trim_space p) ->
    a_quote c -> trim_space q = [c] -> condition e Down
| condition_value : forall e p op q v, (List.length e <= 256)%nat -> ~ In (ascii_of_N 0) e ->
    divided (trim_space e) p op q -> ~ controlled p -> trim_space p <> [] -> op_free (trim_space p) ->
    literal (trim_space q) v -> controlled v -> condition e Refused
| condition_test : forall e p op q v, (List.length e <= 256)%nat -> ~ In (ascii_of_N 0) e ->
    divided (trim_space e) p op q -> ~ controlled p -> trim_space p <> [] -> op_free (trim_space p) ->
    literal (trim_space q) v -> ~ controlled v -> condition e (Test (trim_space p) op v).

(** Numerals: digits and dashes, not a lone dash. *)
Definition numeral (h : bytes) : Prop :=
  h <> [] /\ h <> bs "-" /\ Forall (fun c => digit c \/ c = "-"%char) h.
Inductive number : bytes -> Z -> Prop :=
| number_plain : forall ds, Forall digit ds -> number ds (Z.min (Z.of_N (decimal_value ds)) (2 ^ 63 - 1))
| number_minus : forall ds, Forall digit ds -> number ("-"%char :: ds) (Z.max (- Z.of_N (decimal_value ds)) (- 2 ^ 63))
| number_odd : forall p q, p <> [] -> number (p ++ "-"%char :: q) 0.

(** Steps. *)
Inductive gstep :=
| GName (n : bytes) | GNth (i : Z) | GAttr (n : bytes) | GText | GCount | GAny | GDeep
| GWhere (all : bool) (path : bytes) (op : fop) (value : bytes) | GField (f : bytes).
Inductive means := Nothing | Meant (st : gstep) | Rejected | Crash.
Definition judged (all : bool) (t : told) : means :=
  match t with Test p op v => Meant (GWhere all p op v) | Refused => Rejected | Down => Crash end.
(** What the text before the modifiers means. *)
Inductive head : bytes -> means -> Prop :=
| head_attr : forall n, head ("@"%char :: n) (Meant (GAttr n))
| head_text : head (bs "%") (Meant GText)
| head_count : head (bs "#") (Meant GCount)
| head_any : head (bs "*") (Meant GAny)
| head_deep : head (bs "**") (Meant GDeep)
| head_all : forall e t, e <> [] -> condition e t -> head (bs "#(" ++ e ++ bs ")#") (judged true t)
| head_one : forall e t, e <> [] -> condition e t -> head (bs "#(" ++ e ++ bs ")") (judged false t)
| head_open : forall s, (forall e, e <> [] -> s <> e ++ bs ")#" /\ s <> e ++ bs ")") -> head (bs "#(" ++ s) Nothing
| head_nth : forall h i, numeral h -> number h i -> head h (Meant (GNth i))
| head_name : forall h, (forall n, h <> "@"%char :: n) -> (forall s, h <> bs "#(" ++ s) ->
    ~ In h [bs "%"; bs "#"; bs "*"; bs "**"] -> ~ numeral h -> head h (Meant (GName h)).
Inductive piece : bytes -> means -> list bytes -> Prop :=
| piece_empty : piece [] Nothing []
| piece_some : forall h l m ms, barred h l <> [] -> Forall (fun x => ~ In "|"%char x) (h :: l) ->
    head h m -> named l ms -> piece (barred h l) m ms.

(** The steps of a list of pieces: the first piece that is rejected or brings the
    program down decides. *)
Inductive steps_of : list bytes -> option (option (list (gstep * list bytes))) -> Prop :=
| steps_end : steps_of [] (Some (Some []))
| steps_nothing : forall x ms l o, piece x Nothing ms -> steps_of l o -> steps_of (x :: l) o
| steps_rejected : forall x ms l, piece x Rejected ms -> steps_of (x :: l) (Some None)
| steps_crash : forall x ms l, piece x Crash ms -> steps_of (x :: l) None
| steps_meant : forall x st ms l o, piece x (Meant st) ms -> steps_of l o ->
    steps_of (x :: l) (option_map (option_map (cons (st, ms))) o).

(** A count followed by a name, an attribute or the text stands for the extraction of
    that field, when it is written with letters, digits, dashes, underscores and colons,
    begins with a letter or underscore, and has at most 256 characters. *)
Definition letter (c : ascii) : Prop := (97 <= N_of_ascii c <= 122)%N \/ (65 <= N_of_ascii c <= 90)%N.
Definition identifier (s : bytes) : Prop :=
  exists c r, s = c :: r /\ (letter c \/ c = "_"%char) /\
    Forall (fun c => letter c \/ digit c \/ In c (bs "-_:")) r.
Definition field (st : gstep) (f : bytes) : Prop :=
  (List.length f <= 256)%nat /\
  match st with
  | GName n => f = n /\ identifier n
  | GAttr n => f = "@"%char :: n /\ identifier n
  | GText => f = bs "%"
  | _ => False
  end.
Inductive extracted : list (gstep * list bytes) -> list (gstep * list bytes) -> Prop :=
| extracted_nil : extracted [] []
| extracted_field : forall ms st ms' f l l', field st f -> extracted l l' ->
    extracted ((GCount, ms) :: (st, ms') :: l) ((GField f, ms') :: l')
| extracted_keep : forall st ms l l',
    (st = GCount -> forall st' ms' f rest, l = (st', ms') :: rest -> ~ field st' f) ->
    extracted l l' -> extracted ((st, ms) :: l) ((st, ms) :: l').

(** What a path means: its steps with their modifiers, or a refusal, or a crash. *)
Inductive meaning := Steps (l : list (gstep * list bytes)) | Unusable | Fatal.
Inductive path_means : bytes -> meaning -> Prop :=
| path_long : forall path parts, cuts path parts -> (100 < List.length parts)%nat -> path_means path Unusable
| path_steps : forall path parts l l', cuts path parts -> (List.length parts <= 100)%nat ->
    steps_of parts (Some (Some l)) -> extracted l l' -> path_means path (Steps l')
| path_rejected : forall path parts, cuts path parts -> (List.length parts <= 100)%nat ->
    steps_of parts (Some None) -> path_means path Unusable
| path_fatal : forall path parts, cuts path parts -> (List.length parts <= 100)%nat ->
    steps_of parts None -> path_means path Fatal.

(** How a step is stored (path.go:76-110). *)
Definition seg_of (x : gstep * list bytes) : seg :=
  let ms := snd x in
  match fst x with
  | GName n => mkSeg SElem n 0 false None false [] ms
  | GNth i => mkSeg SIndex [] i false None false [] ms
  | GAttr n => mkSeg SAttr n 0 false None false [] ms
  | GText => mkSeg SText [] 0 false None false [] ms
  | GCount => mkSeg SCount [] 0 false None false [] ms
  | GAny => mkSeg SWild [] 0 false None false [] ms
  | GDeep => mkSeg SWild [] 0 true None false [] ms
  | GWhere all p op v => mkSeg SFilter [] 0 false (Some (mkFilt p op v)) all [] ms
  | GField f => mkSeg SField [] 0 false None false f ms
  end.
(** What the parser returns for a meaning. *)
Definition meaning_res (o : meaning) : Res (list seg) :=
  match o with Steps l => Ok (map seg_of l) | Unusable => Ok [] | Fatal => Panic end.
