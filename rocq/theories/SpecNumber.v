(** Decimal numbers and their rounding to binary64; what strconv.ParseFloat promises.
    Independent of the model of the library. *)
From Coq Require Import List Ascii String NArith ZArith QArith Qabs Bool SpecFloat.
From Verif Require Import GoStr ModelPath ModelResult SpecPath SpecFilter.
Import ListNotations.
Open Scope Z_scope.

(** ** Texts of numbers *)
(** [sign] digits [. digits] [e [sign] digits], with a digit before the exponent and an
    exponent below 10000; strconv.ParseFloat does not read the digits of an exponent
    beyond that. *)
Definition signed (neg : bool) (z : Z) : Z := if neg then - z else z.
Inductive sign : bytes -> bool -> Prop :=
| sign_none : sign [] false
| sign_plus : sign (bs "+") false
| sign_minus : sign (bs "-") true.
Inductive fraction : bytes -> bytes -> Prop :=
| frac_none : fraction [] []
| frac_some : forall ds, Forall digit ds -> fraction ("."%char :: ds) ds.
Inductive exponent : bytes -> Z -> Prop :=
| exp_none : exponent [] 0
| exp_some : forall c s neg ds, In c (bs "eE") -> sign s neg -> ds <> [] -> Forall digit ds -> (decimal_value ds < 10000)%N ->
    exponent (c :: s ++ ds) (signed neg (Z.of_N (decimal_value ds))).
(** m * 10^k *)
Definition scaled (m k : Z) : Q :=
  if 0 <=? k then inject_Z (m * 10 ^ k) else m # Z.to_pos (10 ^ (- k)).
(** The text [s] is a decimal number with value [v]. *)
Inductive numeral : bytes -> Q -> Prop :=
| numeral_of : forall s neg a f b e x, sign s neg -> Forall digit a -> fraction f b -> exponent e x -> a ++ b <> [] ->
    numeral (s ++ a ++ f ++ e) (scaled (signed neg (Z.of_N (decimal_value (a ++ b)))) (x - Z.of_nat (List.length b))).

(** ** Values of floating-point numbers *)
(** All finite values are multiples of 2^-1074. *)
Definition unit_den : positive := Pos.pow 2 1074.
Definition units (f : spec_float) : Z :=
  match f with S754_finite s m e => signed s (Zpos m * 2 ^ (e + 1074)) | _ => 0 end.
Definition float_value (f : spec_float) : Q := units f # unit_den.
(** The binary64 numbers. *)
Definition binary64 (f : spec_float) : Prop := finite f /\ valid_binary 53 1024 f = true.
(** No binary64 number is closer to [v]. *)
Definition nearest (v : Q) (f : spec_float) : Prop :=
  binary64 f /\ forall g, binary64 g -> (Qabs (v - float_value f) <= Qabs (v - float_value g))%Q.
(** Half a unit of the last place above the largest binary64 number. *)
Definition representable (v : Q) : Prop := (Qabs v < inject_Z ((2 ^ 54 - 1) * 2 ^ 970))%Q.
(** Values that binary64 numbers have. *)
Definition exact (v : Q) : Prop := exists f, binary64 f /\ (float_value f == v)%Q.
(** Two such values lie between [v] and [w], which are then told apart. *)
Definition separated (v w : Q) : Prop := exists x y, exact x /\ exact y /\ (v <= x)%Q /\ (x < y)%Q /\ (y <= w)%Q.
(** Numbers of at most 15 significant digits, written with the same power of ten. *)
Definition short (k : Z) (v : Q) : Prop := -290 <= k <= 290 /\ exists m, Z.abs m <= 10 ^ 15 /\ (v == scaled m k)%Q.

(** ** strconv.ParseFloat on decimal numbers *)
(** The nearest binary64 number, which depends on the value only; an error out of range. *)
Record rounds (pf : bytes -> option spec_float) : Prop := {
  rounds_in : forall s v, numeral s v -> representable v -> exists f, pf s = Some f /\ nearest v f;
  rounds_out : forall s v, numeral s v -> ~ representable v -> pf s = None;
  rounds_same : forall s t v w f g, numeral s v -> numeral t w -> (v == w)%Q -> pf s = Some f -> pf t = Some g -> (float_value f == float_value g)%Q
}.
(** The order a condition asks for. *)
Definition relation (op : fop) (v w : Q) : Prop :=
  match op with OpLt => (v < w)%Q | OpGt => (w < v)%Q | OpLe => (v <= w)%Q | OpGe => (w <= v)%Q | _ => False end.
Definition strict (op : fop) : Prop := op = OpLt \/ op = OpGt.
Definition weak (op : fop) : Prop := op = OpLe \/ op = OpGe.
(** Results whose number is read from their text. *)
Definition textual (r : result) : Prop := r_type r = RString \/ r_type r = RElement \/ r_type r = RAttribute.
(** What fmt.Sprintf("%g") promises for binary64 numbers: a decimal number that is read back
    with the same value. *)
Definition prints (pf : bytes -> option spec_float) (fmt : spec_float -> bytes) : Prop :=
  forall f, binary64 f -> exists v g, numeral (fmt f) v /\ pf (fmt f) = Some g /\ binary64 g /\ (float_value g == float_value f)%Q.
