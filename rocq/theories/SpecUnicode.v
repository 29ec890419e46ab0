(** Characters and white space, after the Unicode standard and RFC 3629; independent of the
    model of the Go string functions. *)
From Coq Require Import List Ascii String NArith Bool.
From Verif Require Import GoStr.
Import ListNotations.
Open Scope N_scope.

(** ** Characters *)
(** Unicode scalar values: code points that are not surrogates. *)
Definition scalar (r : N) : Prop := r < 55296 \/ (57344 <= r /\ r < 1114112).
(** UTF-8: the bits of the code point in groups of six behind a leading byte that tells
    their number. *)
Definition byte_of (n : N) : ascii := ascii_of_N n.
Definition utf8 (r : N) : bytes :=
  if r <? 128 then [byte_of r]
  else if r <? 2048 then [byte_of (192 + r / 64); byte_of (128 + r mod 64)]
  else if r <? 65536 then [byte_of (224 + r / 4096); byte_of (128 + r / 64 mod 64); byte_of (128 + r mod 64)]
  else [byte_of (240 + r / 262144); byte_of (128 + r / 4096 mod 64); byte_of (128 + r / 64 mod 64); byte_of (128 + r mod 64)].
Definition utf8s (rs : list N) : bytes := flat_map utf8 rs.
(** The characters of any bytes: a byte that does not begin the encoding of a scalar value
    counts as U+FFFD. *)
Inductive reads_chars : bytes -> list N -> Prop :=
| rc_nil : reads_chars [] []
| rc_char : forall r s rs, scalar r -> reads_chars s rs -> reads_chars (utf8 r ++ s) (r :: rs)
| rc_byte : forall c s rs, (forall r u, scalar r -> c :: s <> utf8 r ++ u) -> reads_chars s rs -> reads_chars (c :: s) (65533 :: rs).

(** ** White space *)
(** The characters with the property White_Space. *)
Definition white_space : list N :=
  [9; 10; 11; 12; 13; 32; 133; 160; 5760; 8192; 8193; 8194; 8195; 8196; 8197; 8198; 8199; 8200; 8201; 8202; 8232; 8233; 8239; 8287; 12288].
Inductive spaces_only : bytes -> Prop :=
| so_nil : spaces_only []
| so_cons : forall r w, In r white_space -> spaces_only w -> spaces_only (utf8 r ++ w).
Definition starts_white (s : bytes) : Prop := exists r u, In r white_space /\ s = utf8 r ++ u.
Definition ends_white (s : bytes) : Prop := exists r u, In r white_space /\ s = u ++ utf8 r.
(** The text without the white space around it. *)
Definition trimmed (s t : bytes) : Prop :=
  (exists w1 w2, s = w1 ++ t ++ w2 /\ spaces_only w1 /\ spaces_only w2) /\ ~ starts_white t /\ ~ ends_white t.
