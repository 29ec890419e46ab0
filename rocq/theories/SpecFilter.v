(** Meaning of filter conditions, independent of the evaluator. *)
From Coq Require Import List Ascii String NArith Bool SpecFloat.
From Verif Require Import GoStr ModelParser ModelPath ModelResult ModelQuery SpecPath SpecGlob.
Import ListNotations.

(** Texts that count as numbers (documented at filter.go:359-365): an optional sign, then
    digits with at most one dot and at least one digit, then nothing or an exponent
    part. *)
Definition mantissa (m : bytes) : Prop :=
  (exists d, In d m /\ digit d) /\
  ((Forall digit m) \/ (exists a b, m = a ++ "."%char :: b /\ Forall digit a /\ Forall digit b)).
Definition number_text (s : bytes) : Prop :=
  exists sign m rest, s = sign ++ m ++ rest /\ In sign [[]; bs "+"; bs "-"] /\ mantissa m /\
    (rest = [] \/ exists e r, rest = e :: r /\ In e (bs "eE")).
Definition finite (f : f64) : Prop :=
  match f with S754_zero _ | S754_finite _ _ _ => True | _ => False end.
(** [number pf s x]: the text [s] is a number with value [x]; [pf] is
    strconv.ParseFloat. *)
Definition number (pf : bytes -> option f64) (s : bytes) (x : f64) : Prop :=
  number_text s /\ pf s = Some x /\ finite x.
(** Order of finite binary64 numbers. *)
Definition num_lt (x y : f64) : Prop := SFcompare x y = Some Lt.
Definition num_eq (x y : f64) : Prop := SFcompare x y = Some Eq.

(** A pattern is a glob if it contains a special character; it stands for itself
    otherwise. *)
Definition is_glob (p : bytes) : Prop := exists c, In c p /\ In c ["*"%char; "?"%char; backslash].
(** The matcher works on at most 10000 pairs of characters. *)
Definition within_budget (s p : bytes) : Prop :=
  (N.of_nat (List.length (runes s)) * N.of_nat (glob_width (runes p)) <= 10000)%N.
Definition matches (s p : bytes) : Prop :=
  (is_glob p -> Glob (runes p) (runes s)) /\ (~ is_glob p -> s = p).

(** [holds pf op v lit]: the condition with operator [op] and literal [lit] is satisfied
    by the value [v]; None when the value is missing. *)
Inductive holds (pf : bytes -> option f64) : fop -> option bytes -> bytes -> Prop :=
| H_exists : forall v lit, holds pf OpExists (Some v) lit
| H_eq : forall v, holds pf OpEq (Some v) v
| H_ne : forall v lit, v <> lit -> holds pf OpNe (Some v) lit
| H_lt : forall v lit x y, number pf v x -> number pf lit y -> num_lt x y -> holds pf OpLt (Some v) lit
| H_gt : forall v lit x y, number pf v x -> number pf lit y -> num_lt y x -> holds pf OpGt (Some v) lit
| H_le : forall v lit x y, number pf v x -> number pf lit y -> num_lt x y \/ num_eq x y -> holds pf OpLe (Some v) lit
| H_ge : forall v lit x y, number pf v x -> number pf lit y -> num_lt y x \/ num_eq y x -> holds pf OpGe (Some v) lit
| H_match : forall v lit, (is_glob lit -> within_budget v lit) -> matches v lit -> holds pf OpMatch (Some v) lit
| H_nomatch : forall v lit, (is_glob lit -> within_budget v lit) -> ~ matches v lit -> holds pf OpNotMatch (Some v) lit.

(** The text a condition is about: an attribute of the element, or what a query finds in
    its content. *)
Definition condition_value (E : env) (path : bytes) (e : elem) (o : option bytes) : Prop :=
  match path with
  | "@"%char :: a => o = map_get a (e_attrs e)
  | _ => exists r, get E (e_content e) path = Ok r /\ o = if r_exists r then Some (r_string r) else None
  end.
Definition satisfies (E : env) (f : filt) (e : elem) : Prop :=
  exists o, condition_value E (f_path f) e o /\ holds (e_parse_float E) (f_op f) o (f_value f).
