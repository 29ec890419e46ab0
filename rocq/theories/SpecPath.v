(** Independent description of path texts, namespace-qualified names and filter
    conditions. *)
From Coq Require Import List Ascii String NArith Bool.
From Verif Require Import GoStr.
Import ListNotations.

(** A name written in a path: every dot and backslash is preceded by a backslash
    (documented at path.go:313-321; README "Escaping"). *)
Definition quote_byte (c : ascii) : bytes :=
  if Ascii.eqb c "." || Ascii.eqb c backslash then [backslash; c] else [c].
Definition quote_name (n : bytes) : bytes := flat_map quote_byte n.
(** Names joined by dots. *)
Fixpoint path_text (names : list bytes) : bytes :=
  match names with
  | [] => []
  | [n] => quote_name n
  | n :: rest => quote_name n ++ "."%char :: path_text rest
  end.

(** A name without any other special meaning as a path step: not an attribute, text,
    count, wildcard, filter or index step, and without the modifier separator. *)
Record plain_name (n : bytes) : Prop := {
  pn_nonempty : n <> [];
  pn_no_bar : ~ In "|"%char n;
  pn_not_attr : forall r, n <> "@"%char :: r;
  pn_not_filter : forall r, n <> "#"%char :: "("%char :: r;
  pn_not_special : ~ In n [bs "%"; bs "#"; bs "*"; bs "**"];
  pn_not_numeric : exists c, In c n /\ c <> "-"%char /\ ~ (48 <= N_of_ascii c <= 57)%N
}.

(** Number of steps a path text has: one more than its unquoted dots. *)
Fixpoint step_count (s : bytes) : nat :=
  match s with
  | [] => 1
  | c :: s' =>
      if Ascii.eqb c backslash then
        match s' with [] => 1 | _ :: s2 => step_count s2 end
      else if Ascii.eqb c "." then S (step_count s')
      else step_count s'
  end.

(** Namespace prefixes the library accepts (path.go:572-598): at most 256 bytes, no
    colon, no control characters. *)
Record good_prefix (p : bytes) : Prop := {
  gp_colon : ~ In ":"%char p;
  gp_length : (List.length p <= 256)%nat;
  gp_ctl : forall c, In c p -> (32 <= N_of_ascii c)%N /\ N_of_ascii c <> 127%N
}.
Definition qualified (p l : bytes) : bytes := p ++ ":"%char :: l.

(** ASCII lower-casing. *)
Definition ascii_lower (c : ascii) : ascii :=
  if ((65 <=? N_of_ascii c) && (N_of_ascii c <=? 90))%N then ascii_of_N (N_of_ascii c + 32) else c.

(** Decimal numerals. *)
Definition digit (c : ascii) : Prop := (48 <= N_of_ascii c <= 57)%N.
Definition decimal_value (ds : bytes) : N :=
  fold_left (fun n c => n * 10 + (N_of_ascii c - 48))%N ds 0%N.

(** Operands of a filter condition: text without NUL, tab, line feed and carriage
    return whose first and last characters are visible ASCII characters. *)
Definition visible (c : ascii) : Prop := (33 <= N_of_ascii c <= 126)%N.
Definition no_control (s : bytes) : Prop :=
  forall c, In c s -> ~ In (N_of_ascii c) [0; 9; 10; 13]%N.
Record operand (s : bytes) : Prop := {
  od_first : exists c r, s = c :: r /\ visible c;
  od_last : exists r c, s = r ++ [c] /\ visible c;
  od_ctl : no_control s
}.
(** Characters the condition syntax uses for operators. *)
Definition op_free (s : bytes) : Prop := forall c, In c s -> ~ In c (bs "=!<>%").
Definition spaces (n : nat) : bytes := repeat " "%char n.

(** Steps of a path and how they are written. *)
Inductive step :=
| Name (n : bytes) | Nth (ds : bytes) | Attr (n : bytes) | TextOf | CountOf | AnyChild | AnyDepth.
Definition step_text (st : step) : bytes :=
  match st with
  | Name n => n
  | Nth ds => ds
  | Attr n => "@"%char :: n
  | TextOf => bs "%"
  | CountOf => bs "#"
  | AnyChild => bs "*"
  | AnyDepth => bs "**"
  end.
Definition good_step (st : step) : Prop :=
  match st with
  | Name n => plain_name n
  | Nth ds => ds <> [] /\ Forall digit ds
  | Attr n => ~ In "|"%char n
  | _ => True
  end.
(** A step followed by modifiers. *)
Definition mods_text (ms : list bytes) : bytes := flat_map (fun m => bs "|@" ++ m) ms.
Definition good_mod (m : bytes) : Prop :=
  ~ In "|"%char m /\ (m = [] \/ exists r c, m = r ++ [c] /\ visible c).
Definition steps_text (l : list (step * list bytes)) : bytes :=
  path_text (map (fun x => step_text (fst x) ++ mods_text (snd x)) l).
(** A count directly followed by a name, an attribute or a text step means field
    extraction. *)
Fixpoint no_field (l : list (step * list bytes)) : Prop :=
  match l with
  | (CountOf, _) :: (((Name _ | Attr _ | TextOf), _) :: _) => False
  | _ :: l' => no_field l'
  | [] => True
  end.
