(** Byte strings and the Go standard-library string functions the library uses.
    Go [string]/[[]byte] values are lists of bytes; all functions are total.
    Standard-library behaviour is described from the Go documentation; the
    use sites in /repo are cited at each definition. *)
From Coq Require Import List Ascii String NArith ZArith Bool Lia.
Import ListNotations.

(** Bytes and byte strings. Models Go [byte], [string] and [[]byte] everywhere in /repo. *)
Notation byte := ascii (only parsing).
Definition bytes := list ascii.

(** Literal helper: a Coq string literal as bytes (no /repo counterpart, notation only). *)
Definition bs (s : string) : bytes := list_ascii_of_string s.

(** Outcome of a computation that can panic (Go run-time panic) or, in the
    model only, run out of fuel.  No /repo counterpart: explicit bookkeeping. *)
Inductive Res (A : Type) : Type :=
| Ok (a : A)
| Panic
| OutOfFuel.
Arguments Ok {A} a.
Arguments Panic {A}.
Arguments OutOfFuel {A}.

Definition bind {A B} (m : Res A) (f : A -> Res B) : Res B :=
  match m with Ok a => f a | Panic => Panic | OutOfFuel => OutOfFuel end.
Notation "'let*' x := m 'in' f" := (bind m (fun x => f))
  (at level 200, x pattern, right associativity).

(** Byte codes for range tests such as [c >= 'a']; used for path.go:352-418 etc. *)
Definition code (c : ascii) : N := N_of_ascii c.
Definition in_range (lo hi : N) (c : ascii) : bool :=
  ((lo <=? code c) && (code c <=? hi))%N.
Definition is_digit (c : ascii) : bool := in_range 48 57 c.
Definition is_lower (c : ascii) : bool := in_range 97 122 c.
Definition is_upper (c : ascii) : bool := in_range 65 90 c.

Definition tab : ascii := "009"%char.
Definition lf : ascii := "010"%char.
Definition cr : ascii := "013"%char.
Definition nul : ascii := "000"%char.
Definition dquote : ascii := "034"%char.
Definition squote : ascii := "'"%char.
Definition backslash : ascii := "\"%char.

(** Go string equality [==]. *)
Fixpoint bytes_eqb (a b : bytes) : bool :=
  match a, b with
  | [], [] => true
  | x :: a', y :: b' => Ascii.eqb x y && bytes_eqb a' b'
  | _, _ => false
  end.

(** Go string order [<] (bytewise lexicographic), used by sort.Strings
    (builder.go:397, 1124, 740) and @sort (modifier.go:298-300). *)
Fixpoint bytes_ltb (a b : bytes) : bool :=
  match a, b with
  | _, [] => false
  | [], _ :: _ => true
  | x :: a', y :: b' =>
      if (code x <? code y)%N then true
      else if Ascii.eqb x y then bytes_ltb a' b' else false
  end.

(** strings.HasPrefix, and the remaining suffix. *)
Fixpoint strip_prefix (p s : bytes) : option bytes :=
  match p, s with
  | [], _ => Some s
  | x :: p', y :: s' => if Ascii.eqb x y then strip_prefix p' s' else None
  | _ :: _, [] => None
  end.
Definition has_prefix (p s : bytes) : bool :=
  match strip_prefix p s with Some _ => true | None => false end.
(** strings.HasSuffix. *)
Definition has_suffix (p s : bytes) : bool := has_prefix (rev p) (rev s).

(** Membership of a byte in a set given as a string: the inner loop of
    readUntilAny (parser.go:154-159) and strings.ContainsAny/IndexAny for
    ASCII character sets. *)
Definition mem (c : ascii) (set : bytes) : bool := existsb (Ascii.eqb c) set.
Definition contains_any (set s : bytes) : bool := existsb (fun c => mem c set) s.
(** strings.IndexAny(s, set) used only to cut [s] at the index (parser.go:282-284). *)
Fixpoint cut_at_any (set s : bytes) : bytes :=
  match s with
  | [] => []
  | c :: s' => if mem c set then [] else c :: cut_at_any set s'
  end.
(** strings.IndexByte(s, b): the text before and after the first [b]. *)
Fixpoint split_first (b : ascii) (s : bytes) : option (bytes * bytes) :=
  match s with
  | [] => None
  | c :: s' =>
      if Ascii.eqb c b then Some ([], s')
      else match split_first b s' with
           | Some (p, q) => Some (c :: p, q)
           | None => None
           end
  end.
(** strings.Split(s, sep) for a one-byte separator (modifier.go:213): never empty. *)
Fixpoint split_on (b : ascii) (s : bytes) : bytes * list bytes :=
  match s with
  | [] => ([], [])
  | c :: s' =>
      let '(h, t) := split_on b s' in
      if Ascii.eqb c b then ([], h :: t) else (c :: h, t)
  end.

(** unicode.IsSpace on one byte (ASCII), and the UTF-8 encodings of the
    non-ASCII white-space runes U+0085 U+00A0 U+1680 U+2000-U+200A U+2028
    U+2029 U+202F U+205F U+3000. *)
Definition ascii_space (c : ascii) : bool := in_range 9 13 c || (code c =? 32)%N.
Definition uni_space2 (a b : ascii) : bool :=
  ((code a =? 194) && ((code b =? 133) || (code b =? 160)))%N.
Definition uni_space3 (a b c : ascii) : bool :=
  (((code a =? 225) && (code b =? 154) && (code c =? 128))
   || ((code a =? 226) && (code b =? 128) &&
       (((128 <=? code c) && (code c <=? 138)) || (code c =? 168) || (code c =? 169) || (code c =? 175)))
   || ((code a =? 226) && (code b =? 129) && (code c =? 159))
   || ((code a =? 227) && (code b =? 128) && (code c =? 128)))%N.

(** strings.TrimLeftFunc(s, unicode.IsSpace): drop leading white-space runes. *)
Fixpoint trim_left (s : bytes) : bytes :=
  match s with
  | [] => []
  | a :: s1 =>
      if ascii_space a then trim_left s1
      else match s1 with
           | [] => s
           | b :: s2 =>
               if uni_space2 a b then trim_left s2
               else match s2 with
                    | [] => s
                    | c :: s3 => if uni_space3 a b c then trim_left s3 else s
                    end
           end
  end.
(** Same on the reversed string, i.e. dropping trailing white-space runes. A rune
    ending the string is decoded exactly when the string ends in its encoding. *)
Fixpoint trim_left_rev (s : bytes) : bytes :=
  match s with
  | [] => []
  | a :: s1 =>
      if ascii_space a then trim_left_rev s1
      else match s1 with
           | [] => s
           | b :: s2 =>
               if uni_space2 b a then trim_left_rev s2
               else match s2 with
                    | [] => s
                    | c :: s3 => if uni_space3 c b a then trim_left_rev s3 else s
                    end
           end
  end.
Definition trim_right (s : bytes) : bytes := rev (trim_left_rev (rev s)).
(** strings.TrimSpace (parser.go:281,364,398; filter.go:116,210,211; modifier.go:217). *)
Definition trim_space (s : bytes) : bytes := trim_right (trim_left s).

(** Go maps from strings, as association lists with unique keys. Assignment
    [m[k]=v] replaces or adds; iteration order is not given by the list (see
    [ord] in ModelParser.v). *)
Definition smap (A : Type) := list (bytes * A).
Fixpoint map_get {A} (k : bytes) (m : smap A) : option A :=
  match m with
  | [] => None
  | (k', v) :: m' => if bytes_eqb k k' then Some v else map_get k m'
  end.
Fixpoint map_set {A} (k : bytes) (v : A) (m : smap A) : smap A :=
  match m with
  | [] => [(k, v)]
  | (k', v') :: m' => if bytes_eqb k k' then (k', v) :: m' else (k', v') :: map_set k v m'
  end.
Fixpoint map_del {A} (k : bytes) (m : smap A) : smap A :=
  match m with
  | [] => []
  | (k', v') :: m' => if bytes_eqb k k' then m' else (k', v') :: map_del k m'
  end.

(** sort.Strings on attribute names (builder.go:397, 740, 1124): equal strings are
    indistinguishable, so the result is the unique ascending arrangement;
    modelled as insertion sort. *)
Fixpoint insert_str (x : bytes) (l : list bytes) : list bytes :=
  match l with
  | [] => [x]
  | y :: l' => if bytes_ltb y x then y :: insert_str x l' else x :: l
  end.
Fixpoint sort_strings (l : list bytes) : list bytes :=
  match l with
  | [] => []
  | x :: l' => insert_str x (sort_strings l')
  end.

(** strconv.ParseInt(s, 10, 64) / strconv.Atoi on a 64-bit platform: [inl v] on
    success, [inr v] on error with the value returned besides the error (0 for a
    syntax error, the nearest bound for a range error). Underscores are not
    accepted in base 10. *)
Fixpoint digits_val (acc : Z) (s : bytes) : option Z :=
  match s with
  | [] => Some acc
  | c :: s' => if is_digit c then digits_val (acc * 10 + Z.of_N (code c - 48)) s' else None
  end.
Definition int64_max : Z := 9223372036854775807.
Definition int64_min : Z := -9223372036854775808.
Definition parse_int64 (s : bytes) : Z + Z :=
  let '(neg, ds) :=
    match s with
    | c :: s' => if Ascii.eqb c "-" then (true, s')
                 else if Ascii.eqb c "+" then (false, s') else (false, s)
    | [] => (false, s)
    end in
  match ds with
  | [] => inr 0%Z
  | _ :: _ =>
      match digits_val 0 ds with
      | None => inr 0%Z
      | Some v =>
          if neg then
            if (- v <? int64_min)%Z then inr int64_min else inl (- v)%Z
          else
            if (int64_max <? v)%Z then inr int64_max else inl v
      end
  end.

(** One step of UTF-8 decoding as done by [[]rune(s)] (internal/pattern/match.go:43-44)
    and [for _, ch := range s] (result.go:77): the rune and the rest of the string.
    Invalid bytes decode to U+FFFD and consume one byte. *)
Definition cont (c : ascii) : bool := in_range 128 191 c.
Definition low6 (c : ascii) : N := (code c - 128)%N.
Definition rune_error : N := 65533.
Definition decode_rune (c0 : ascii) (s : bytes) : N * bytes :=
  let b0 := code c0 in
  if (b0 <? 128)%N then (b0, s)
  else if in_range 194 223 c0 then
    match s with
    | c1 :: s1 => if cont c1 then ((b0 - 192) * 64 + low6 c1, s1)%N else (rune_error, s)
    | [] => (rune_error, s)
    end
  else if in_range 224 239 c0 then
    match s with
    | c1 :: c2 :: s2 =>
        let ok1 := if (b0 =? 224)%N then in_range 160 191 c1
                   else if (b0 =? 237)%N then in_range 128 159 c1
                   else cont c1 in
        if ok1 && cont c2
        then ((b0 - 224) * 4096 + low6 c1 * 64 + low6 c2, s2)%N
        else (rune_error, s)
    | _ => (rune_error, s)
    end
  else if in_range 240 244 c0 then
    match s with
    | c1 :: c2 :: c3 :: s3 =>
        let ok1 := if (b0 =? 240)%N then in_range 144 191 c1
                   else if (b0 =? 244)%N then in_range 128 143 c1
                   else cont c1 in
        if ok1 && cont c2 && cont c3
        then ((b0 - 240) * 262144 + low6 c1 * 4096 + low6 c2 * 64 + low6 c3, s3)%N
        else (rune_error, s)
    | _ => (rune_error, s)
    end
  else (rune_error, s).

(** [[]rune(s)]; the fuel [length s] is always enough since each step consumes a byte. *)
Fixpoint runes_fuel (fuel : nat) (s : bytes) : list N :=
  match fuel, s with
  | S f, c :: s' => let '(r, s2) := decode_rune c s' in r :: runes_fuel f s2
  | _, _ => []
  end.
Definition runes (s : bytes) : list N := runes_fuel (List.length s) s.

(** utf8.AppendRune, used by strings.Builder.WriteRune (result.go:84). *)
Definition encode_rune (r : N) : bytes :=
  (if r <? 128 then [ascii_of_N r]
   else if r <? 2048 then [ascii_of_N (192 + r / 64); ascii_of_N (128 + r mod 64)]
   else if r <? 65536 then
     if (55296 <=? r) && (r <=? 57343) then [ascii_of_N 239; ascii_of_N 191; ascii_of_N 189]
     else [ascii_of_N (224 + r / 4096); ascii_of_N (128 + (r / 64) mod 64); ascii_of_N (128 + r mod 64)]
   else if r <=? 1114111 then
     [ascii_of_N (240 + r / 262144); ascii_of_N (128 + (r / 4096) mod 64);
      ascii_of_N (128 + (r / 64) mod 64); ascii_of_N (128 + r mod 64)]
   else [ascii_of_N 239; ascii_of_N 191; ascii_of_N 189])%N.
