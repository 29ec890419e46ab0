(** Model of /repo/path.go, filter.go:29-239 (filter syntax) and parseModifiers. *)
From Coq Require Import List Ascii String NArith ZArith Bool Lia.
From Verif Require Import GoStr ModelParser.
Import ListNotations.

(** path.go:15,19 *)
Definition MaxPathSegments : nat := 100.
Definition MaxFieldNameLength : N := 256.
(** filter.go:17-26. MaxFilterDepth is compared with a depth that is always 0
    (filter.go:361) so the test at filter.go:249 never fires; it is not modelled. *)
Definition MaxFilterExpressionLength : N := 256.
Definition MaxPatternIterations : N := 10000.

(** path.go:32-49 *)
Inductive segtype := SElem | SAttr | SIndex | SWild | SFilter | SText | SCount | SField.
(** filter.go:32-51 *)
Inductive fop := OpEq | OpNe | OpLt | OpGt | OpLe | OpGe | OpMatch | OpNotMatch | OpExists.
(** path.go:103-110 *)
Record filt := mkFilt { f_path : bytes; f_op : fop; f_value : bytes }.
(** path.go:76-100. The Intent field is written in one place (builder.go:123) and never
    read; it is omitted. *)
Record seg := mkSeg {
  s_type : segtype;
  s_value : bytes;
  s_index : Z;
  s_wild : bool;
  s_filter : option filt;
  s_all : bool;
  s_field : bytes;
  s_mods : list bytes
}.

Definition segtype_eqb (a b : segtype) : bool :=
  match a, b with
  | SElem, SElem | SAttr, SAttr | SIndex, SIndex | SWild, SWild | SFilter, SFilter
  | SText, SText | SCount, SCount | SField, SField => true
  | _, _ => false
  end.

(** path.go:322-348: the loop of splitPath; returns the first part and the others. *)
Fixpoint split_loop (escaped : bool) (s : bytes) : bytes * list bytes :=
  match s with
  | [] => ([], [])
  | c :: s' =>
      if escaped then let '(h, t) := split_loop false s' in (c :: h, t)
      else if Ascii.eqb c backslash then split_loop true s'
      else if Ascii.eqb c "." then let '(h, t) := split_loop false s' in ([], h :: t)
      else let '(h, t) := split_loop false s' in (c :: h, t)
  end.
(** path.go:313-349 *)
Definition split_path (s : bytes) : list bytes :=
  match s with
  | [] => []
  | _ :: _ => let '(h, t) := split_loop false s in h :: t
  end.

(** modifier.go:212-224 *)
Fixpoint mods_of (l : list bytes) : list bytes :=
  match l with
  | [] => []
  | x :: l' =>
      match trim_space x with
      | c :: m => if Ascii.eqb c "@" then m :: mods_of l' else mods_of l'
      | [] => mods_of l'
      end
  end.
Definition parse_modifiers (part : bytes) : bytes * list bytes :=
  let '(h, t) := split_on "|" part in (h, mods_of t).

(** path.go:352-366. Ranging over runes instead of bytes makes no difference: a
    non-ASCII byte yields a rune that is neither a digit nor '-'. *)
Definition is_numeric (s : bytes) : bool :=
  match s with
  | [] => false
  | _ :: _ => forallb (fun c => is_digit c || (Ascii.eqb c "-" && (1 <? blen s)%N)) s
  end.

(** path.go:397-418 *)
Definition is_letter (c : ascii) : bool := is_lower c || is_upper c.
Definition ident_start (c : ascii) : bool := is_letter c || Ascii.eqb c "_".
Definition ident_char (c : ascii) : bool :=
  is_letter c || is_digit c || Ascii.eqb c "-" || Ascii.eqb c "_" || Ascii.eqb c ":".
Definition is_valid_identifier (s : bytes) : bool :=
  match s with
  | [] => false
  | c :: s' => ident_start c && forallb ident_char s'
  end.
(** path.go:370-392 *)
Definition is_valid_field_name (s : bytes) : bool :=
  match s with
  | [] => false
  | c :: s' =>
      if bytes_eqb s (bs "%") then true
      else if Ascii.eqb c "@" then is_valid_identifier s'
      else is_valid_identifier s
  end.

(** filter.go:136-169: first position holding a two-character operator. *)
Definition two_op (a b : ascii) : option fop :=
  if Ascii.eqb b "=" then
    if Ascii.eqb a "=" then Some OpEq
    else if Ascii.eqb a "<" then Some OpLe
    else if Ascii.eqb a ">" then Some OpGe
    else if Ascii.eqb a "!" then Some OpNe
    else None
  else if Ascii.eqb a "!" && Ascii.eqb b "%" then Some OpNotMatch
  else None.
Fixpoint find_two (s : bytes) : option (bytes * fop * bytes) :=
  match s with
  | a :: ((b :: r) as s') =>
      match two_op a b with
      | Some op => Some ([], op, r)
      | None => match find_two s' with
                | Some (p, op, q) => Some (a :: p, op, q)
                | None => None
                end
      end
  | _ => None
  end.
(** filter.go:171-193: first position holding a one-character operator. *)
Definition one_op (a : ascii) : option fop :=
  if Ascii.eqb a "<" then Some OpLt
  else if Ascii.eqb a ">" then Some OpGt
  else if Ascii.eqb a "%" then Some OpMatch
  else None.
Fixpoint find_one (s : bytes) : option (bytes * fop * bytes) :=
  match s with
  | a :: s' =>
      match one_op a with
      | Some op => Some ([], op, s')
      | None => match find_one s' with
                | Some (p, op, q) => Some (a :: p, op, q)
                | None => None
                end
      end
  | [] => None
  end.
Definition find_op (s : bytes) : option (bytes * fop * bytes) :=
  match find_two s with Some x => Some x | None => find_one s end.

Definition op_chars : bytes := bs "=!<>%".
Definition ctl_chars : bytes := [nul; lf; cr; tab].
Definition quoted_with (q : ascii) (v : bytes) : bool := has_prefix [q] v && has_suffix [q] v.
(** filter.go:223-227: value[1:len(value)-1]; the slice bounds are invalid, and
    Go panics, when value is a single quote character. *)
Definition unquote (v : bytes) : Res bytes :=
  if quoted_with squote v || quoted_with dquote v then
    match v with
    | _ :: ((_ :: _) as v') => Ok (removelast v')
    | _ => Panic
    end
  else Ok v.

(** filter.go:105-239. [Ok None] is a non-nil error. *)
Definition parse_filter_condition (expr0 : bytes) : Res (option filt) :=
  if (MaxFilterExpressionLength <? blen expr0)%N then Ok None
  else if mem nul expr0 then Ok None
  else
    let expr := trim_space expr0 in
    match expr with
    | [] => Ok None
    | _ :: _ =>
        if negb (contains_any op_chars expr) then Ok (Some (mkFilt expr OpExists []))
        else
          match find_op expr with
          | None => Ok None
          | Some (path_raw, op, value_raw) =>
              if contains_any ctl_chars path_raw then Ok None
              else
                let path := trim_space path_raw in
                let value := trim_space value_raw in
                match path, value with
                | [], _ => Ok None
                | _, [] => Ok None
                | _ :: _, _ :: _ =>
                    if contains_any op_chars path then Ok None
                    else
                      let* v := unquote value in
                      if contains_any ctl_chars v then Ok None
                      else Ok (Some (mkFilt path op v))
                end
          end
    end.

(** strconv.Atoi with the error ignored (path.go:258). *)
Definition atoi (s : bytes) : Z := match parse_int64 s with inl v => v | inr v => v end.

(** path.go:172-266: one loop iteration. PSkip is [continue] without a segment,
    PReject is [return nil]. *)
Inductive part_out := PSkip | PReject | PSeg (s : seg).
Definition parse_part (part : bytes) : Res part_out :=
  match part with
  | [] => Ok PSkip
  | _ :: _ =>
      let '(pp, mods) := parse_modifiers part in
      match strip_prefix (bs "#(") pp with
      | Some body =>
          let cut :=
            if has_suffix (bs ")#") pp then Some (true, List.length pp - 2)
            else if has_suffix (bs ")") pp then Some (false, List.length pp - 1)
            else None in
          match cut with
          | None => Ok PSkip
          | Some (all, endidx) =>
              if Nat.leb endidx 2 then Ok PSkip
              else
                let* f := parse_filter_condition (firstn (endidx - 2) body) in
                match f with
                | None => Ok PReject
                | Some f => Ok (PSeg (mkSeg SFilter [] 0 false (Some f) all [] mods))
                end
          end
      | None =>
          let plain ty v := Ok (PSeg (mkSeg ty v 0 false None false [] mods)) in
          match pp with
          | c :: v =>
              if Ascii.eqb c "@" then plain SAttr v
              else if bytes_eqb pp (bs "%") then plain SText []
              else if bytes_eqb pp (bs "#") then plain SCount []
              else if bytes_eqb pp (bs "*") then plain SWild []
              else if bytes_eqb pp (bs "**") then
                Ok (PSeg (mkSeg SWild [] 0 true None false [] mods))
              else if is_numeric pp then
                Ok (PSeg (mkSeg SIndex [] (atoi pp) false None false [] mods))
              else plain SElem pp
          | [] => plain SElem []
          end
      end
  end.

(** path.go:172-266 *)
Fixpoint parse_parts (l : list bytes) : Res (option (list seg)) :=
  match l with
  | [] => Ok (Some [])
  | x :: l' =>
      let* o := parse_part x in
      match o with
      | PReject => Ok None
      | PSkip => parse_parts l'
      | PSeg s =>
          let* r := parse_parts l' in
          match r with
          | None => Ok None
          | Some ss => Ok (Some (s :: ss))
          end
      end
  end.

(** path.go:281-294 *)
Definition field_of (nx : seg) : bytes :=
  match s_type nx with
  | SAttr => "@"%char :: s_value nx
  | SText => bs "%"
  | _ => s_value nx
  end.
(** path.go:268-307: merge [#] with a following element, attribute or text. *)
Fixpoint merge_fields (l : list seg) : list seg :=
  match l with
  | [] => []
  | x :: l1 =>
      match s_type x, l1 with
      | SCount, nx :: l2 =>
          match s_type nx with
          | SElem | SAttr | SText =>
              let f := field_of nx in
              if is_valid_field_name f && (blen f <=? MaxFieldNameLength)%N
              then mkSeg SField [] 0 false None false f (s_mods nx) :: merge_fields l2
              else x :: merge_fields l1
          | _ => x :: merge_fields l1
          end
      | _, _ => x :: merge_fields l1
      end
  end.

(** path.go:162-310. [Ok None] is nil. *)
Definition parse_path_internal (path : bytes) : Res (option (list seg)) :=
  let parts := split_path path in
  if Nat.ltb MaxPathSegments (List.length parts) then Ok None
  else
    let* r := parse_parts parts in
    match r with
    | None => Ok None
    | Some ss => Ok (Some (merge_fields ss))
    end.

(** path.go:124-158 without the cache (the cache is modelled in ModelConc.v, which
    proves it transparent). A nil slice and an empty slice are treated alike by
    all callers, which test len(segments) == 0. *)
Definition parse_path (path : bytes) : Res (list seg) :=
  match path with
  | [] => Ok []
  | _ :: _ =>
      let* r := parse_path_internal path in
      match r with None => Ok [] | Some ss => Ok ss end
  end.

(** path.go:489-512 *)
Definition to_lower_ascii (s : bytes) : bytes := map to_lower_char s.

(** path.go:572-598 *)
Definition is_ctl (c : ascii) : bool := (code c <? 32)%N || (code c =? 127)%N.
Definition split_namespace (name : bytes) : bytes * bytes :=
  match split_first ":" name with
  | None => ([], name)
  | Some (p, l) =>
      if (MaxNamespacePrefixLength <? blen p)%N then ([], name)
      else if existsb is_ctl p then ([], name)
      else (p, l)
  end.

(** path.go:422-444 *)
Definition seg_matches (s : seg) (ename : bytes) : bool :=
  match s_type s with
  | SElem =>
      let '(pp, pl) := split_namespace (s_value s) in
      let '(ep, el) := split_namespace ename in
      match pp with
      | _ :: _ => bytes_eqb pp ep && bytes_eqb pl el
      | [] => bytes_eqb pl el
      end
  | SWild => true
  | _ => false
  end.

(** path.go:450-485; [cs] is opts.CaseSensitive (true for nil options). *)
Definition seg_matches_opts (cs : bool) (s : seg) (ename : bytes) : bool :=
  match s_type s with
  | SElem =>
      let '(pp0, pl0) := split_namespace (s_value s) in
      let '(ep0, el0) := split_namespace ename in
      let lw := fun x => if cs then x else to_lower_ascii x in
      let pp := lw pp0 in let pl := lw pl0 in
      let ep := lw ep0 in let el := lw el0 in
      match pp with
      | _ :: _ => bytes_eqb pp ep && bytes_eqb pl el
      | [] => bytes_eqb pl el
      end
  | SWild => true
  | _ => false
  end.

(** path.go:615-647 with opContext "set", for an index segment: None is an error. *)
Inductive intent := IntentReplace | IntentAppend.
Definition resolve_index_intent (idx : Z) (is_last : bool) : option intent :=
  if (0 <=? idx)%Z then Some IntentReplace
  else if (idx =? -1)%Z then (if is_last then Some IntentAppend else None)
  else None.
