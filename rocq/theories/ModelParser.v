(** Model of /repo/parser.go. The scanner state [xmlParser] is represented by the
    unread suffix of its data, [p.data[p.pos:]]; [p.pos] is recovered as
    [length data - length suffix]. [p.peek()] is the head of the suffix
    (0 at the end) and [p.next()] its tail. *)
From Coq Require Import List Ascii String NArith ZArith Bool Lia.
From Verif Require Import GoStr.
Import ListNotations.

(** parser.go:11-37 *)
Definition MaxNestingDepth : nat := 100.
Definition MaxDocumentSize : N := 10485760.
Definition MaxValueSize : N := 5242880.
Definition MaxAttributes : nat := 100.
Definition MaxTokenSize : N := 1048576.
Definition MaxNamespacePrefixLength : N := 256.

(** len(x) compared with a limit: [len(x) > limit]. *)
Definition blen {A} (s : list A) : N := N.of_nat (List.length s).

(** An attribute map: map[string]string (parser.go:168-169). *)
Definition attrmap := smap bytes.

(** The order in which [for k, v := range m] enumerates a map (parser.go:310,
    builder.go:498, 622 and get.go) is chosen by the runtime. It is an oracle
    indexed by a key that is distinct for every executed [range]: the number of
    unread bytes of the scanner followed by the key of the scanner. *)
Definition order := list nat -> attrmap -> attrmap.

(** parser.go:95-97 *)
Definition is_ws (c : ascii) : bool :=
  Ascii.eqb c " " || Ascii.eqb c tab || Ascii.eqb c lf || Ascii.eqb c cr.

(** parser.go:87-91 *)
Fixpoint skip_ws (s : bytes) : bytes :=
  match s with
  | c :: s' => if is_ws c then skip_ws s' else s
  | [] => []
  end.

(** parser.go:101-106: 0 at the end of the data. *)
Definition peek (s : bytes) : ascii := match s with c :: _ => c | [] => nul end.
(** parser.go:110-117 *)
Definition next (s : bytes) : bytes := match s with _ :: s' => s' | [] => [] end.

(** parser.go:123-163: common loop of readUntil and readUntilAny. [n] is
    [p.pos-start]. The third component is true when the loop stopped because the
    token exceeded MaxTokenSize. *)
Fixpoint read_loop (stop : ascii -> bool) (n : N) (s : bytes) : bytes * bytes * bool :=
  match s with
  | [] => ([], [], false)
  | c :: s' =>
      if (MaxTokenSize <? n)%N then ([], s, true)
      else if stop c then ([], s, false)
      else let '(t, r, o) := read_loop stop (n + 1) s' in (c :: t, r, o)
  end.
Definition read_stop (stop : ascii -> bool) (s : bytes) : bytes * bytes :=
  let '(t, r, o) := read_loop stop 0 s in
  (if o then [] else t, r).
(** parser.go:123-138 *)
Definition read_until (d : ascii) (s : bytes) : bytes * bytes := read_stop (Ascii.eqb d) s.
(** parser.go:144-163 *)
Definition read_until_any (ds : bytes) (s : bytes) : bytes * bytes :=
  read_stop (fun c => mem c ds) s.

(** The delimiter sets of parser.go:191, 216, 229, 302. *)
Definition ws_chars : bytes := [" "%char; tab; lf; cr].
Definition name_delims : bytes := ws_chars ++ ["/"%char; ">"%char].
Definition attr_delims : bytes := ("="%char :: ws_chars) ++ ["/"%char; ">"%char].

(** parser.go:476-482, 496-498: the escaping replacer maps single bytes. *)
Definition escape_char (c : ascii) : bytes :=
  if Ascii.eqb c "&" then bs "&amp;"
  else if Ascii.eqb c "<" then bs "&lt;"
  else if Ascii.eqb c ">" then bs "&gt;"
  else if Ascii.eqb c dquote then bs "&quot;"
  else if Ascii.eqb c squote then bs "&apos;"
  else [c].
Definition escape_xml (s : bytes) : bytes := flat_map escape_char s.

(** parser.go:486-492: the replacement pairs in argument order. *)
Definition unescape_table : list (bytes * ascii) :=
  [(bs "&lt;", "<"%char); (bs "&gt;", ">"%char); (bs "&quot;", dquote);
   (bs "&apos;", squote); (bs "&amp;", "&"%char)].
Fixpoint lookup_ref (tbl : list (bytes * ascii)) (s : bytes) : option (ascii * bytes) :=
  match tbl with
  | [] => None
  | (k, v) :: tbl' =>
      match strip_prefix k s with
      | Some r => Some (v, r)
      | None => lookup_ref tbl' s
      end
  end.
(** parser.go:502-504: strings.Replacer scans left to right, replacing the first
    table entry that matches at each position, without rescanning. Fuel
    [length s] suffices: each step consumes at least one byte. *)
Fixpoint unescape_fuel (fuel : nat) (s : bytes) : bytes :=
  match fuel, s with
  | S f, c :: s' =>
      match lookup_ref unescape_table s with
      | Some (v, r) => v :: unescape_fuel f r
      | None => c :: unescape_fuel f s'
      end
  | _, _ => []
  end.
Definition unescape_xml (s : bytes) : bytes := unescape_fuel (List.length s) s.

(** parser.go:168-222. [n] is MaxAttributes - attrCount. *)
Fixpoint parse_attrs_loop (n : nat) (attrs : attrmap) (s0 : bytes) : attrmap * bytes :=
  let s := skip_ws s0 in
  match n with
  | O => (attrs, s)
  | S n' =>
      match s with
      | [] => (attrs, s)
      | c :: _ =>
          if Ascii.eqb c ">" || Ascii.eqb c "/" then (attrs, s)
          else
            let '(name, s1) := read_until_any attr_delims s in
            match name with
            | [] => (attrs, s1)
            | _ :: _ =>
                let s2 := skip_ws s1 in
                if negb (Ascii.eqb (peek s2) "=") then (attrs, s2)
                else
                  let s3 := skip_ws (next s2) in
                  let q := peek s3 in
                  if Ascii.eqb q dquote || Ascii.eqb q squote then
                    let '(v, s4) := read_until q (next s3) in
                    parse_attrs_loop n' (map_set name (unescape_xml v) attrs) (next s4)
                  else
                    let '(v, s4) := read_until_any name_delims s3 in
                    parse_attrs_loop n' (map_set name (unescape_xml v) attrs) s4
            end
      end
  end.
Definition parse_attributes (s : bytes) : attrmap * bytes :=
  parse_attrs_loop MaxAttributes [] s.

(** parser.go:227-247 *)
Definition parse_element_name (s : bytes) : bytes * attrmap * bool * bytes :=
  let '(name, s1) := read_until_any name_delims s in
  let '(attrs, s2) := parse_attributes s1 in
  let '(self, s3) := if Ascii.eqb (peek s2) "/" then (true, next s2) else (false, s2) in
  let s4 := if Ascii.eqb (peek s3) ">" then next s3 else s3 in
  (name, attrs, self, s4).

(** parser.go:310-316: one re-serialised attribute. *)
Definition write_attr (a : bytes * bytes) : bytes :=
  bs " " ++ fst a ++ ["="%char; dquote] ++ escape_xml (snd a) ++ [dquote].
Definition write_attrs (l : attrmap) : bytes := flat_map write_attr l.

(** parser.go:280-284: name part of a closing tag. *)
Definition close_name (t : bytes) : bytes := cut_at_any ws_chars (trim_space t).

(** parser.go:265-343: one loop of parseElementContent; the remaining suffix is
    returned with the text appended to the builder. [d] is elementDepth. The
    guard on p.depth (parser.go:253-259) is omitted: the function is not
    recursive and every scanner starts with depth 0, so p.depth is 1 whenever
    it is tested and the guard never fires. [None]: out of fuel. *)
Fixpoint content_loop (ord : order) (key : list nat) (fuel : nat)
         (ename : bytes) (d : nat) (s : bytes) : option (bytes * bytes) :=
  match fuel with
  | O => None
  | S f =>
      match d with
      | O => Some ([], s)
      | S d' =>
          match s with
          | [] => Some ([], [])
          | c :: s1 =>
              if Ascii.eqb c "<" then
                match s1 with
                | [] =>
                    match content_loop ord key f ename d s1 with
                    | Some (t, r) => Some (c :: t, r)
                    | None => None
                    end
                | n :: s2 =>
                    if Ascii.eqb n "/" then
                      let '(t0, s3) := read_until ">" s2 in
                      let s4 := next s3 in
                      let cn := close_name t0 in
                      let d2 := if bytes_eqb cn ename then d' else d in
                      match d2 with
                      | O => Some ([], s4)
                      | S _ =>
                          match content_loop ord key f ename d2 s4 with
                          | Some (t, r) => Some (bs "</" ++ cn ++ bs ">" ++ t, r)
                          | None => None
                          end
                      end
                    else if Ascii.eqb n "!" then
                      match content_loop ord key f ename d s1 with
                      | Some (t, r) => Some (c :: t, r)
                      | None => None
                      end
                    else
                      let '(nn, s3) := read_until_any name_delims s1 in
                      let '(attrs, s4) := parse_attributes s3 in
                      let '(self, s5) :=
                        if Ascii.eqb (peek s4) "/" then (true, next s4) else (false, s4) in
                      let '(gt, s6) :=
                        if Ascii.eqb (peek s5) ">" then (bs ">", next s5) else ([], s5) in
                      let d2 := if negb self && bytes_eqb nn ename then S d else d in
                      match content_loop ord key f ename d2 s6 with
                      | Some (t, r) =>
                          Some (bs "<" ++ nn ++ write_attrs (ord (List.length s :: key) attrs)
                                  ++ (if self then bs "/" else []) ++ gt ++ t, r)
                      | None => None
                      end
                end
              else
                match content_loop ord key f ename d s1 with
                | Some (t, r) => Some (c :: t, r)
                | None => None
                end
          end
      end
  end.
(** parser.go:251-346 *)
Definition parse_content (ord : order) (key : list nat) (ename : bytes) (s : bytes)
  : option (bytes * bytes) :=
  content_loop ord key (S (List.length s)) ename 1 s.

(** parser.go:349-365 *)
Fixpoint text_loop (in_tag : bool) (s : bytes) : bytes :=
  match s with
  | [] => []
  | c :: s' =>
      if Ascii.eqb c "<" then text_loop true s'
      else if Ascii.eqb c ">" then text_loop false s'
      else if in_tag then text_loop in_tag s' else c :: text_loop in_tag s'
  end.
Definition extract_text (s : bytes) : bytes := trim_space (text_loop false s).

(** parser.go:369-399. [prev] is content[i-1] (None when i = 0). *)
Fixpoint direct_loop (prev : option ascii) (in_tag : bool) (depth : Z) (s : bytes) : bytes :=
  match s with
  | [] => []
  | c :: s' =>
      if Ascii.eqb c "<" then
        let depth' :=
          match s' with
          | n :: _ =>
              if Ascii.eqb n "/" then (depth - 1)%Z
              else if negb (Ascii.eqb n "!") && negb (Ascii.eqb n "?") then (depth + 1)%Z
              else depth
          | [] => depth
          end in
        direct_loop (Some c) true depth' s'
      else if Ascii.eqb c ">" then
        let depth' := match prev with
                      | Some p => if Ascii.eqb p "/" then (depth - 1)%Z else depth
                      | None => depth
                      end in
        direct_loop (Some c) false depth' s'
      else if negb in_tag && (depth =? 0)%Z then c :: direct_loop (Some c) in_tag depth s'
      else direct_loop (Some c) in_tag depth s'
  end.
Definition extract_direct (s : bytes) : bytes := trim_space (direct_loop None false 0 s).

(** strings.EqualFold(doctype, "<!DOCTYPE") on the next 9 bytes (parser.go:415-421).
    None of the letters of DOCTYPE has a non-ASCII case variant, so ASCII folding
    is exact. *)
Definition to_lower_char (c : ascii) : ascii :=
  if is_upper c then ascii_of_N (code c + 32) else c.
Definition eq_fold_prefix (p s : bytes) : bool :=
  has_prefix (map to_lower_char p) (map to_lower_char (firstn (List.length p) s)).

(** parser.go:424-437: skip to the end of a DOCTYPE declaration. *)
Fixpoint skip_doctype (depth : Z) (s : bytes) : bytes :=
  match s with
  | [] => []
  | c :: s' =>
      if Ascii.eqb c "[" then skip_doctype (depth + 1) s'
      else if Ascii.eqb c "]" then skip_doctype (depth - 1) s'
      else if Ascii.eqb c ">" && (depth =? 0)%Z then s'
      else skip_doctype depth s'
  end.
(** parser.go:446-452: skip a comment; stops two bytes before the end when
    the comment is not closed. *)
Fixpoint skip_comment_body (s : bytes) : bytes :=
  match s with
  | a :: ((b :: c :: r) as s') =>
      if Ascii.eqb a "-" && Ascii.eqb b "-" && Ascii.eqb c ">" then r
      else skip_comment_body s'
  | _ => s
  end.

(** parser.go:402-471: [Some (Some s)] positioned at an opening '<' (return true),
    [Some None] for return false, [None] out of fuel. *)
Fixpoint skip_next_loop (fuel : nat) (s : bytes) : option (option bytes) :=
  match fuel with
  | O => None
  | S f =>
      match s with
      | [] => Some None
      | c :: s1 =>
          if Ascii.eqb c "<" then
            match s1 with
            | [] => Some None
            | n :: s2 =>
                if negb (Ascii.eqb n "!") && negb (Ascii.eqb n "?") && negb (Ascii.eqb n "/")
                then Some (Some s)
                else if Ascii.eqb n "!" then
                  if (8 <? blen s)%N && eq_fold_prefix (bs "<!DOCTYPE") s
                  then skip_next_loop f (skip_doctype 0 (skipn 9 s))
                  else
                    match s2 with
                    | a :: b :: _ =>
                        if Ascii.eqb a "-" && Ascii.eqb b "-"
                        then skip_next_loop f (skip_comment_body s2)
                        else skip_next_loop f s2
                    | _ => skip_next_loop f s2
                    end
                else
                  let '(_, s3) := read_until ">" s in
                  skip_next_loop f (next s3)
            end
          else skip_next_loop f s1
      end
  end.
Definition skip_to_next (s : bytes) : option (option bytes) :=
  skip_next_loop (S (List.length s)) s.

(** One element found by the enumeration loops. [e_start], [e_body], [e_after] are
    the unread suffixes at the opening '<', after the start tag and after the
    element. *)
Record elem := mkElem {
  e_name : bytes;
  e_attrs : attrmap;
  e_self : bool;
  e_content : bytes;
  e_start : bytes;
  e_body : bytes;
  e_after : bytes
}.

(** The enumeration loop shared by get.go:132-160, 240-…, 697-…, builder.go:206-…,
    result.go:574-602 and others:
    [for p.skipToNextElement() { p.next(); parseElementName; if !self parseElementContent }].
    All of them advance the scanner in this way; they differ only in what they do
    with each element and in stopping early, so the list of elements is computed
    here once and the loops are folds over it. *)
Fixpoint scan_loop (ord : order) (key : list nat) (fuel : nat) (s : bytes) : option (list elem) :=
  match fuel with
  | O => None
  | S f =>
      match skip_to_next s with
      | None => None
      | Some None => Some []
      | Some (Some s1) =>
          let '(name, attrs, self, s2) := parse_element_name (next s1) in
          if self then
            match scan_loop ord key f s2 with
            | Some l => Some (mkElem name attrs true [] s1 s2 s2 :: l)
            | None => None
            end
          else
            match parse_content ord key name s2 with
            | None => None
            | Some (content, s3) =>
                match scan_loop ord key f s3 with
                | Some l => Some (mkElem name attrs false content s1 s2 s3 :: l)
                | None => None
                end
            end
      end
  end.
Definition scan (ord : order) (key : list nat) (s : bytes) : option (list elem) :=
  scan_loop ord key (S (List.length s)) s.
