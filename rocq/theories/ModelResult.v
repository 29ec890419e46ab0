(** Model of /repo/result.go (type and accessors) and /repo/modifier.go (built-in
    modifiers, chains). *)
From Coq Require Import List Ascii String NArith ZArith Bool Lia SpecFloat DecimalString.
From Verif Require Import GoStr ModelParser ModelPath ModelPretty.
Import ListNotations.

(** result.go:12-31 *)
Inductive rtype := RNull | RString | RNumber | RTrue | RFalse | RElement | RAttribute | RArray.
Definition rtype_eqb (a b : rtype) : bool :=
  match a, b with
  | RNull, RNull | RString, RString | RNumber, RNumber | RTrue, RTrue | RFalse, RFalse
  | RElement, RElement | RAttribute, RAttribute | RArray, RArray => true
  | _, _ => false
  end.

(** float64 values as binary64 numbers of the Coq standard library (SpecFloat);
    result.go:45. *)
Definition f64 := spec_float.
(** float64(n) for an int n (get.go:233, 546). *)
Definition f64_of_Z (z : Z) : f64 := binary_normalize 53 1024 z 0 false.
Definition f64_zero : f64 := S754_zero false.
Definition f64_one : f64 := f64_of_Z 1.

(** result.go:35-48. The Index field is never set by the library and is omitted. *)
Inductive result := mkR (ty : rtype) (raw str : bytes) (num : f64) (results : list result).
Definition r_type (r : result) := let '(mkR t _ _ _ _) := r in t.
Definition r_raw (r : result) := let '(mkR _ w _ _ _) := r in w.
Definition r_str (r : result) := let '(mkR _ _ s _ _) := r in s.
Definition r_num (r : result) := let '(mkR _ _ _ n _) := r in n.
Definition r_results (r : result) := let '(mkR _ _ _ _ l) := r in l.

(** Result{Type: Null}, Result{Type: Array, Results: l} and the shapes built in get.go. *)
Definition r_null : result := mkR RNull [] [] f64_zero [].
Definition r_array (l : list result) : result := mkR RArray [] [] f64_zero l.
(** get.go:465-469 and the identical literals elsewhere *)
Definition r_element (content : bytes) : result :=
  mkR RElement content (unescape_xml (extract_text content)) f64_zero [].
(** get.go:438-442 *)
Definition r_attribute (v : bytes) : result := mkR RAttribute v v f64_zero [].
(** get.go:454-458 *)
Definition r_text (content : bytes) : result :=
  mkR RString content (unescape_xml (extract_direct content)) f64_zero [].
(** strconv.Itoa for a length (get.go:547). *)
Definition itoa (n : nat) : bytes := bs (NilZero.string_of_uint (N.to_uint (N.of_nat n))).
(** get.go:544-548 *)
Definition r_count (n : nat) : result :=
  mkR RNumber [] (itoa n) (f64_of_Z (Z.of_nat n)) [].

(** result.go:51-53 *)
Definition r_exists (r : result) : bool := negb (rtype_eqb (r_type r) RNull).
Definition is_null (r : result) : bool := rtype_eqb (r_type r) RNull.

(** result.go:74-87: quoting of one entry. *)
Definition quote_rune (r : N) : bytes :=
  if (r =? 34)%N then [backslash; dquote]
  else if (r =? 92)%N then [backslash; backslash]
  else encode_rune r.
Definition quote_item (s : bytes) : bytes :=
  [dquote] ++ flat_map quote_rune (runes s) ++ [dquote].
Fixpoint join_comma (l : list bytes) : bytes :=
  match l with
  | [] => []
  | [x] => x
  | x :: l' => x ++ bs "," ++ join_comma l'
  end.
(** result.go:59-93 *)
Fixpoint r_string (r : result) : bytes :=
  match r with
  | mkR t _ s _ l =>
      match t with
      | RNull => []
      | RArray =>
          match l with
          | [] => bs "[]"
          | _ :: _ => bs "[" ++ join_comma (map (fun x => quote_item (r_string x)) l) ++ bs "]"
          end
      | _ => s
      end
  end.

(** int64(f) for a finite f within range: truncation toward zero (result.go:100).
    Out-of-range conversion is implementation-defined in Go; the model returns 0. *)
Definition f64_trunc (f : f64) : Z :=
  match f with
  | S754_finite s m e =>
      let a := if (0 <=? e)%Z then Z.shiftl (Zpos m) e else Z.shiftr (Zpos m) (- e) in
      let v := if s then (- a)%Z else a in
      if ((int64_min <=? v) && (v <=? int64_max))%Z then v else 0%Z
  | _ => 0%Z
  end.
(** result.go:97-112 *)
Definition r_int (r : result) : Z :=
  match r_type r with
  | RNumber => f64_trunc (r_num r)
  | RString | RElement | RAttribute =>
      match parse_int64 (r_str r) with inl v => v | inr _ => 0%Z end
  | RTrue => 1%Z
  | _ => 0%Z
  end.

(** strconv.ParseFloat, sort.Slice, encoding/xml, strings.ToLower and the
    registry of custom modifiers are parameters of the model. *)
Record env := mkEnv {
  (** map iteration order, see ModelParser.v *)
  e_ord : order;
  (** strconv.ParseFloat(s, 64): None when err != nil *)
  e_parse_float : bytes -> option f64;
  (** sort.Slice(l, less): some arrangement of l; facts about it are hypotheses *)
  e_sort : (result -> result -> bool) -> list result -> list result;
  (** the decoder and the encoder of encoding/xml (modifier.go:368-370) *)
  e_codec : codec;
  (** strings.ToLower (result.go:664) *)
  e_to_lower : bytes -> bytes;
  (** custom modifiers present in the registry while a query runs *)
  e_custom : bytes -> option (result -> result)
}.

(** result.go:116-131 *)
Definition r_float (E : env) (r : result) : f64 :=
  match r_type r with
  | RNumber => r_num r
  | RString | RElement | RAttribute =>
      match e_parse_float E (r_str r) with Some v => v | None => f64_zero end
  | RTrue => f64_one
  | _ => f64_zero
  end.
(** result.go:135-148 *)
Definition truthy : list bytes :=
  [bs "true"; bs "1"; bs "yes"; bs "True"; bs "YES"; bs "t"; bs "T"].
Definition r_bool (r : result) : bool :=
  match r_type r with
  | RTrue => true
  | RNumber => negb (SFeqb (r_num r) f64_zero)
  | RString | RElement | RAttribute => existsb (bytes_eqb (r_str r)) truthy
  | _ => false
  end.
(** result.go:171-173 *)
Definition r_is_array (r : result) : bool := rtype_eqb (r_type r) RArray.
(** result.go:177-185 *)
Definition r_list (r : result) : list result :=
  match r_type r with
  | RArray => r_results r
  | RNull => []
  | _ => [r]
  end.
(** result.go:190-200 with a stateful callback: the callback maps its state to a new
    state and "continue?"; the final state is returned. *)
Fixpoint foreach_loop {S} (f : S -> nat -> result -> S * bool) (st : S) (i : nat) (l : list result) : S :=
  match l with
  | [] => st
  | x :: l' => let '(st', go) := f st i x in
               if go then foreach_loop f st' (Datatypes.S i) l' else st'
  end.
Definition r_foreach {S} (f : S -> nat -> result -> S * bool) (st : S) (r : result) : S :=
  match r_type r with
  | RArray => foreach_loop f st 0 (r_results r)
  | RNull => st
  | _ => fst (f st 0 r)
  end.

(** modifier.go:233-247 *)
Definition mod_reverse (r : result) : result :=
  if r_is_array r then
    match r_results r with [] => r | _ :: _ => r_array (rev (r_results r)) end
  else r.

(** modifier.go:264-278 *)
Definition sort_numeric (E : env) (x : result) : bool :=
  match r_type x with
  | RNumber => true
  | RString | RElement | RAttribute =>
      match e_parse_float E (r_str x) with Some _ => true | None => false end
  | _ => false
  end.
(** modifier.go:282-295: the value compared; ParseFloat errors cannot occur here. *)
Definition sort_num (E : env) (x : result) : f64 :=
  match r_type x with
  | RNumber => r_num x
  | _ => match e_parse_float E (r_str x) with Some v => v | None => f64_zero end
  end.
Definition less_num (E : env) (a b : result) : bool := SFltb (sort_num E a) (sort_num E b).
Definition less_str (a b : result) : bool := bytes_ltb (r_string a) (r_string b).
(** modifier.go:254-304 *)
Definition mod_sort (E : env) (r : result) : result :=
  if r_is_array r then
    match r_results r with
    | [] | [_] => r
    | l => if forallb (sort_numeric E) l
           then r_array (e_sort E (less_num E) l)
           else r_array (e_sort E less_str l)
    end
  else r.

(** modifier.go:311-316, 323-328 *)
Definition mod_first (r : result) : result :=
  if r_is_array r then match r_results r with x :: _ => x | [] => r end else r.
Definition mod_last (r : result) : result :=
  if r_is_array r then
    match r_results r with [] => r | x :: l => last l x end
  else r.
(** modifier.go:335-354 *)
Definition mod_flatten (r : result) : result :=
  if r_is_array r then
    match flat_map (fun x => if r_is_array x then r_results x else [x]) (r_results r) with
    | [] => r_null
    | l => r_array l
    end
  else r.
(** modifier.go:361-429 *)
Definition mod_pretty (E : env) (r : result) : result :=
  match r_raw r with
  | [] => r
  | _ :: _ =>
      match pretty_text (e_codec E) (r_raw r) with
      | None => r
      | Some t => mkR (r_type r) t (r_str r) (r_num r) []
      end
  end.

(** modifier.go:495-545. *)
Definition cdata_start : bytes := bs "<![CDATA[".
Definition cdata_end : bytes := bs "]]>".
(** Fuel [length s] suffices: every step consumes a byte. *)
Fixpoint compact_loop (fuel : nat) (in_tag in_cdata : bool) (s : bytes) : bytes :=
  match fuel, s with
  | S f, c :: s' =>
      match (if in_tag then None else strip_prefix cdata_start s) with
      | Some r => cdata_start ++ compact_loop f in_tag true r
      | None =>
          match (if in_cdata then strip_prefix cdata_end s else None) with
          | Some r => cdata_end ++ compact_loop f in_tag false r
          | None =>
              if in_cdata then c :: compact_loop f in_tag in_cdata s'
              else if Ascii.eqb c "<" then c :: compact_loop f true in_cdata s'
              else if Ascii.eqb c ">" then c :: compact_loop f false in_cdata s'
              else if in_tag then c :: compact_loop f in_tag in_cdata s'
              else if is_ws c then compact_loop f in_tag in_cdata s'
              else c :: compact_loop f in_tag in_cdata s'
          end
      end
  | _, _ => []
  end.
Definition compact_xml (s : bytes) : bytes := compact_loop (List.length s) false false s.
(** modifier.go:476-490 *)
Definition mod_ugly (r : result) : result :=
  match r_raw r with
  | [] => r
  | _ :: _ => mkR (r_type r) (compact_xml (r_raw r)) (r_str r) (r_num r) []
  end.

(** modifier.go:548-558 *)
Definition builtin (E : env) (name : bytes) : option (result -> result) :=
  if bytes_eqb name (bs "reverse") then Some mod_reverse
  else if bytes_eqb name (bs "sort") then Some (mod_sort E)
  else if bytes_eqb name (bs "first") then Some mod_first
  else if bytes_eqb name (bs "last") then Some mod_last
  else if bytes_eqb name (bs "flatten") then Some mod_flatten
  else if bytes_eqb name (bs "pretty") then Some (mod_pretty E)
  else if bytes_eqb name (bs "ugly") then Some mod_ugly
  else None.
(** modifier.go:112-116. The registry history (registration, removal) is modelled
    in ModelConc.v, which proves that built-in names always keep their modifier;
    here the registry is a snapshot taken for the query. *)
Definition get_modifier (E : env) (name : bytes) : option (result -> result) :=
  match builtin E name with
  | Some m => Some m
  | None => e_custom E name
  end.

(** modifier.go:18 *)
Definition MaxModifierChainDepth : nat := 20.
(** modifier.go:188-207 *)
Fixpoint apply_loop (E : env) (r : result) (names : list bytes) : result :=
  match names with
  | [] => r
  | n :: names' =>
      match get_modifier E n with
      | None => r_null
      | Some m => let r' := m r in if is_null r' then r' else apply_loop E r' names'
      end
  end.
(** modifier.go:182-208 *)
Definition apply_modifiers (E : env) (r : result) (names : list bytes) : result :=
  if Nat.ltb MaxModifierChainDepth (List.length names) then r_null
  else apply_loop E r names.
(** The guard [if len(mods) > 0] at the call sites is redundant (an empty chain
    returns its argument) and is dropped. *)
