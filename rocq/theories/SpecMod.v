(** Independent vocabulary for modifiers and result accessors: subsequences, pieces of
    markup, decoding of the text of an array, UTF-8, order of numbers. *)
From Coq Require Import List Ascii String NArith ZArith Bool SpecFloat Permutation.
From Verif Require Import GoStr ModelResult SpecPath.
Import ListNotations.

(** [subseq a b]: [a] is obtained from [b] by leaving bytes out. *)
Inductive subseq : bytes -> bytes -> Prop :=
| sub_nil : subseq [] []
| sub_keep : forall c a b, subseq a b -> subseq (c :: a) (c :: b)
| sub_drop : forall c a b, subseq a b -> subseq a (c :: b).

(** XML white space: space, tab, line feed, carriage return. *)
Definition white (c : ascii) : bool := existsb (N.eqb (N_of_ascii c)) [32; 9; 10; 13]%N.
Definition unspaced (s : bytes) : bytes := filter (fun c => negb (white c)) s.

(** Markup as a sequence of tags, CDATA sections and text. *)
Inductive piece :=
| PTag (inside : bytes)
| PCData (body : bytes)
| PText (t : bytes).
Definition piece_text (p : piece) : bytes :=
  match p with
  | PTag b => "<"%char :: b ++ [">"%char]
  | PCData b => bs "<![CDATA[" ++ b ++ bs "]]>"
  | PText t => t
  end.
Definition pieces_text (l : list piece) : bytes := flat_map piece_text l.
Definition good_piece (p : piece) : Prop :=
  match p with
  | PTag b => ~ In ">"%char b /\ forall r, b <> bs "![CDATA[" ++ r
  | PCData b => forall u v, b ++ bs "]]" <> u ++ bs "]]>" ++ v
  | PText t => ~ In "<"%char t
  end.
(** The same without the white space in its text. *)
Definition tighten (p : piece) : piece :=
  match p with PText t => PText (unspaced t) | _ => p end.

(** Reading the text of an array: items between quotes, a backslash takes the next
    character literally, items are separated by commas. *)
Definition item_char (c : ascii) (x : option (bytes * bytes)) : option (bytes * bytes) :=
  match x with Some (i, r) => Some (c :: i, r) | None => None end.
Fixpoint read_item (s : bytes) : option (bytes * bytes) :=
  match s with
  | [] => None
  | c :: s' =>
      if Ascii.eqb c dquote then Some ([], s')
      else if Ascii.eqb c backslash then
        match s' with [] => None | c2 :: s2 => item_char c2 (read_item s2) end
      else item_char c (read_item s')
  end.
Fixpoint read_items (fuel : nat) (s : bytes) : option (list bytes) :=
  match fuel, s with
  | S f, c :: s' =>
      if Ascii.eqb c dquote then
        match read_item s' with
        | Some (i, [e]) => if Ascii.eqb e "]" then Some [i] else None
        | Some (i, e :: r) =>
            if Ascii.eqb e "," then
              match read_items f r with Some l => Some (i :: l) | None => None end
            else None
        | _ => None
        end
      else None
  | _, _ => None
  end.
Definition decode_array (s : bytes) : option (list bytes) :=
  match s with
  | c :: r =>
      if Ascii.eqb c "[" then
        if bytes_eqb r (bs "]") then Some [] else read_items (List.length r) r
      else None
  | [] => None
  end.

(** Well-formed UTF-8 (Unicode Standard, table 3-7). *)
Definition between (lo hi : N) (c : ascii) : Prop := (lo <= N_of_ascii c <= hi)%N.
Inductive utf8 : bytes -> Prop :=
| u_nil : utf8 []
| u_1 : forall a s, between 0 127 a -> utf8 s -> utf8 (a :: s)
| u_2 : forall a b s, between 194 223 a -> between 128 191 b -> utf8 s -> utf8 (a :: b :: s)
| u_3 : forall a b c s,
    (N_of_ascii a = 224%N /\ between 160 191 b) \/ (N_of_ascii a = 237%N /\ between 128 159 b) \/
    ((between 225 236 a \/ between 238 239 a) /\ between 128 191 b) ->
    between 128 191 c -> utf8 s -> utf8 (a :: b :: c :: s)
| u_4 : forall a b c d s,
    (N_of_ascii a = 240%N /\ between 144 191 b) \/ (N_of_ascii a = 244%N /\ between 128 143 b) \/
    (between 241 243 a /\ between 128 191 b) ->
    between 128 191 c -> between 128 191 d -> utf8 s -> utf8 (a :: b :: c :: d :: s).

(** [l] is in ascending order for [lt]: nothing is below something before it. *)
Fixpoint ascending {A} (lt : A -> A -> bool) (l : list A) : Prop :=
  match l with
  | [] => True
  | x :: l' => Forall (fun y => lt y x = false) l' /\ ascending lt l'
  end.
(** What sort.Slice promises: a rearrangement, and an ascending one whenever the
    comparison is a strict weak order on the entries. *)
Definition weak_order {A} (lt : A -> A -> bool) (l : list A) : Prop :=
  (forall x, In x l -> lt x x = false) /\
  (forall x y z, In x l -> In y l -> In z l -> lt x y = true -> lt y z = true -> lt x z = true) /\
  (forall x y z, In x l -> In y l -> In z l -> lt x y = false -> lt y z = false -> lt x z = false).

(** A decimal numeral with an optional sign, and its value. *)
Definition numeral (s : bytes) (z : Z) : Prop :=
  exists ds, ds <> [] /\ Forall (fun c => 48 <= N_of_ascii c <= 57)%N ds /\
    let v := Z.of_N (fold_left (fun n c => n * 10 + (N_of_ascii c - 48))%N ds 0%N) in
    ((s = ds \/ s = "+"%char :: ds) /\ z = v \/ s = "-"%char :: ds /\ z = (- v)%Z).

(** Steps that may end a path of [names] names in the modifier theorem: an index or a
    count needs two names before it (directly below the first name it addresses the
    roots of a fragment, where the library ignores modifiers).  *)
Definition last_step_ok (names : nat) (st : step) : Prop :=
  match st with
  | Name _ => True
  | Attr _ | TextOf => (1 <= names)%nat
  | Nth _ | CountOf => (2 <= names)%nat
  | _ => False
  end.
(** Numbers that can be ordered, and equality up to the sign of zero. *)
Definition no_nan (f : f64) : Prop := match f with S754_nan => False | _ => True end.
Definition norm0 (f : f64) : f64 := match f with S754_zero _ => S754_zero false | _ => f end.
(** The contract of sort.Slice. *)
Definition sorts (srt : (result -> result -> bool) -> list result -> list result) : Prop :=
  forall lt l, Permutation l (srt lt l) /\ (weak_order lt l -> ascending lt (srt lt l)).
(** Entries @sort compares as numbers. *)
Definition numeric (E : env) (x : result) : Prop :=
  r_type x = RNumber \/
  ((r_type x = RString \/ r_type x = RElement \/ r_type x = RAttribute) /\ e_parse_float E (r_str x) <> None).
(** The state after a list of callbacks (index, entry). *)
Definition run {S} (f : S -> nat -> result -> S * bool) (st : S) (l : list (nat * result)) : S :=
  fold_left (fun s ix => fst (f s (fst ix) (snd ix))) l st.
