(** Sizes of answers; independent of the model of the library except for the type of results. *)
From Coq Require Import List Ascii String NArith ZArith Bool SpecFloat.
From Verif Require Import GoStr ModelResult SpecContent.
Import ListNotations.

(** The float64 with the value of a positive integer. *)
Definition is_float (f : f64) (n : Z) : Prop :=
  valid_binary 53 1024 f = true /\
  exists m e, f = S754_finite false m e /\ (n * 2 ^ (Z.max 0 (- e)) = Zpos m * 2 ^ (Z.max 0 e))%Z.
(** One value: text is not longer than what it was read from, an attribute has at most 1 MiB
    (and one byte, where the text breaks off), a number is a count from 1 to 1000. *)
Definition modest (r : result) : Prop :=
  match r_type r with
  | RElement | RString => (List.length (r_string r) <= List.length (r_raw r))%nat /\ r_results r = []
  | RAttribute => (N.of_nat (List.length (r_string r)) <= 1048577)%N /\ r_raw r = r_string r /\ r_results r = []
  | RNumber => exists n, (1 <= n <= 1000)%nat /\ r_string r = decimal (Z.of_nat n) /\ is_float (r_num r) (Z.of_nat n) /\ r_raw r = [] /\ r_results r = []
  | _ => False
  end.
(** Nothing, one value or a list of values. *)
Definition modest_answer (r : result) : Prop :=
  match r_type r with
  | RNull => r_string r = [] /\ r_raw r = [] /\ r_results r = []
  | RArray => Forall modest (r_results r) /\ r_raw r = []
  | _ => modest r
  end.
