(** Model of the texts of the errors returned by the editing API (/repo/errors.go,
    builder.go, path.go, set.go) and by the modifier registry (/repo/modifier.go).
    Each function repeats the one of the same name in ModelBuilder.v or ModelConc.v and
    returns the error value, not only the sentinel errors.Is finds in it. *)
From Coq Require Import List Ascii String NArith ZArith Bool.
From Verif Require Import GoStr ModelParser ModelPath ModelResult ModelQuery ModelValidate ModelBuilder ModelConc.
Import ListNotations.

(** errors.go:12-20: the texts of the sentinel errors. *)
Definition sentinel (e : err) : bytes :=
  match e with
  | ErrInvalidPath => bs "invalid path syntax"
  | ErrMalformedXML => bs "malformed XML document"
  | ErrInvalidValue => bs "invalid value for XML"
  end.
(** An error value: the sentinel it wraps (errors.Is) and its Error() text. *)
Record failure := mkFail { f_kind : err; f_text : bytes }.
(** A sentinel itself (errors.go:10-20). *)
Definition plain (e : err) : failure := mkFail e (sentinel e).
(** fmt.Errorf("%w: ...", e) (builder.go:77 and others). *)
Definition detailed (e : err) (what : bytes) : failure := mkFail e (sentinel e ++ bs ": " ++ what).
(** fmt.Errorf("...: %w", err) (builder.go:667, set.go:305, set.go:413). *)
Definition prefixed (what : bytes) (f : failure) : failure := mkFail (f_kind f) (what ++ bs ": " ++ f_text f).
(** A call that returns only sentinels (builder.go:420-532). *)
Definition plainly (m : Res (err + bytes)) : Res (failure + bytes) :=
  let* r := m in Ok (match r with inl e => inl (plain e) | inr d => inr d end).

(** builder.go:50-79; [tn] is what %T prints for the value. *)
Definition value_to_xml_t (fmt_g : f64 -> bytes) (tn : bytes) (v : value) : failure + bytes :=
  match v with
  | VNil => inr []
  | VStr s => inr (escape_xml s)
  | VInt z => inr (fmt_int z)
  | VFloat f => inr (fmt_g f)
  | VBool b => inr (if b then bs "true" else bs "false")
  | VBytes s => inr s
  | VOther => inl (detailed ErrInvalidValue (bs "unsupported type " ++ tn))
  end.

(** builder.go:659-693 *)
Definition create_element_for_attr_t (E : env) (o : options) (key : list nat) (d : bytes)
           (path : list seg) (name v : bytes) : Res (failure + bytes) :=
  let* r := plainly (create_element E o (0 :: key) d path []) in
  match r with
  | inl f => Ok (inl (prefixed (bs "failed to create parent element") f))
  | inr r =>
      let d2 := get_result d r in
      if (MaxDocumentSize <? blen d2)%N
      then Ok (inl (detailed ErrMalformedXML (bs "intermediate result exceeds maximum document size")))
      else
        let* l := find_loc E o (1 :: key) d2 path 0 in
        match l with
        | None => Ok (inl (detailed ErrInvalidPath (bs "failed to locate created element for attribute")))
        | Some l => let* x := replace_attribute o d2 l name v in Ok (inr (get_result d2 x))
        end
  end.

(** builder.go:860-916 *)
Definition append_root_t (E : env) (o : options) (key : list nat) (d : bytes) (sg : seg) (v : bytes)
  : Res (failure + bytes) :=
  match d with
  | [] => Ok (inr (new_elem (s_value sg) v))
  | _ :: _ =>
      let* es := scan_res E key d in
      let p := last_match_pos o sg d es (Z.of_nat (List.length d)) in
      let* a := slice_to d p in
      let* b := slice_from d p in
      let r := a ++ new_elem (s_value sg) v ++ b in
      if (MaxDocumentSize <? blen r)%N
      then Ok (inl (detailed ErrInvalidValue (bs "resulting document exceeds maximum size")))
      else Ok (inr r)
  end.

(** builder.go:710-851, after the value has been converted and its size checked. *)
Definition append_element_t (E : env) (o : options) (key : list nat) (d : bytes)
           (path : list seg) (v : bytes) : Res (failure + bytes) :=
  match rev path with
  | lastseg :: sg :: rparent =>
      let parent := rev rparent in
      if negb (segtype_eqb (s_type lastseg) SIndex) || negb (s_index lastseg =? -1)%Z
      then Ok (inl (detailed ErrInvalidPath (bs "expected -1 index for append operation")))
      else if negb (segtype_eqb (s_type sg) SElem)
      then Ok (inl (detailed ErrInvalidPath (bs "can only append elements, not attributes or other types")))
      else
        match parent with
        | [] => append_root_t E o (0 :: key) d sg v
        | _ :: _ =>
            let* l := find_loc E o (1 :: key) d parent 0 in
            match l with
            | None => plainly (create_element E o (2 :: key) d (parent ++ [sg]) v)
            | Some l =>
                if l_self l then
                  let* a := slice_to d (l_start l) in
                  let* b := slice_from d (l_content_end l) in
                  Ok (inr (a ++ bs "<" ++ l_name l ++ sorted_attrs (l_attrs l) ++ bs ">"
                             ++ new_elem (s_value sg) v ++ close_tag (l_name l) ++ b))
                else
                  let* p := find_last_match E o (3 :: key) d l sg in
                  let* a := slice_to d p in
                  let ind :=
                    match o_indent o with
                    | [] => []
                    | _ :: _ => if (l_content_start l <? p)%Z
                                then lf :: repeat_bytes (List.length parent) (o_indent o) else []
                    end in
                  let* b := slice_from d p in
                  let r := a ++ ind ++ new_elem (s_value sg) v ++ b in
                  if (MaxDocumentSize <? blen r)%N
                  then Ok (inl (detailed ErrInvalidValue (bs "resulting document exceeds maximum size")))
                  else Ok (inr r)
            end
        end
  | _ => Ok (inl (detailed ErrInvalidPath (bs "append requires at least element.-1")))
  end.

(** path.go:615-647 with opContext "set", for an index segment. *)
Definition resolve_index_intent_t (idx : Z) (is_last : bool) : failure + intent :=
  if (0 <=? idx)%Z then inr IntentReplace
  else if (idx =? -1)%Z then
    (if is_last then inr IntentAppend
     else inl (detailed ErrInvalidPath (bs "append (-1 index) cannot be used with nested paths (e.g., item.-1.child)")))
  else inl (detailed ErrInvalidPath
              (bs "index " ++ fmt_int idx ++ bs " reserved for future use; only -1 (append) is currently supported")).
(** builder.go:103-129: an error, or whether a segment asks for appending. *)
Fixpoint check_intents_t (path : list seg) : failure + bool :=
  match path with
  | [] => inr false
  | sg :: rest =>
      match s_type sg with
      | SIndex =>
          match resolve_index_intent_t (s_index sg) (match rest with [] => true | _ :: _ => false end) with
          | inl f => inl f
          | inr IntentAppend => inr true
          | inr IntentReplace => check_intents_t rest
          end
      | _ => check_intents_t rest
      end
  end.

(** builder.go:82-166 followed by getResult. *)
Definition set_element_t (E : env) (fmt_g : f64 -> bytes) (o : options) (d : bytes)
           (path : list seg) (tn : bytes) (v : value) : Res (failure + bytes) :=
  match path with
  | [] => Ok (inl (plain ErrInvalidPath))
  | _ :: _ =>
      match value_to_xml_t fmt_g tn v with
      | inl f => Ok (inl f)
      | inr xv =>
          if (MaxValueSize <? blen xv)%N
          then Ok (inl (detailed ErrInvalidValue (bs "value exceeds maximum size of " ++ fmt_int (Z.of_N MaxValueSize) ++ bs " bytes")))
          else if (MaxDocumentSize <? blen d)%N then Ok (inl (plain ErrMalformedXML))
          else
            let finish m :=
              let* r := m in
              match r with
              | inl f => Ok (inl f)
              | inr r => Ok (inr (get_result d r))
              end in
            match check_intents_t path with
            | inl f => Ok (inl f)
            | inr true => finish (append_element_t E o [0] d path xv)
            | inr false =>
                let lastseg := last path (mkSeg SElem [] 0 false None false [] []) in
                if segtype_eqb (s_type lastseg) SAttr then
                  let epath := removelast path in
                  let* l := find_loc E o [1] d epath 0 in
                  match l with
                  | None => create_element_for_attr_t E o [2] d epath (s_value lastseg) xv
                  | Some l => finish (plainly (lift (replace_attribute o d l (s_value lastseg) xv) (fun x => x)))
                  end
                else
                  let* l := find_loc E o [3] d path 0 in
                  match l with
                  | Some l => finish (plainly (lift (replace_element d l xv) (fun x => x)))
                  | None => finish (plainly (create_element E o [4] d path xv))
                  end
            end
      end
  end.

(** The returned document and error of an editing call (set.go:70-81, 332-343). *)
Definition reply := (bytes * option failure)%type.
Definition told_of (xml : bytes) (r : Res (failure + bytes)) : Res reply :=
  let* x := r in
  Ok (match x with inl f => (xml, Some f) | inr d => (d, None) end).

(** set.go:492-519; every error of builder.go:1018-1074 is a sentinel. *)
Definition delete_opts_t (E : env) (o : options) (xml path : bytes) : Res reply :=
  if (MaxDocumentSize <? blen xml)%N then Ok (xml, Some (plain ErrMalformedXML))
  else if negb (valid xml) then Ok (xml, Some (plain ErrMalformedXML))
  else
    let* segs := parse_path_opts o path in
    match segs with
    | [] => Ok (xml, Some (plain ErrInvalidPath))
    | _ :: _ => told_of xml (plainly (delete_element E o xml segs))
    end.
(** set.go:332-343 *)
Definition delete_t (E : env) (xml path : bytes) : Res reply := delete_opts_t E default_options xml path.

(** set.go:449-488 for a non-nil slice. *)
Definition set_opts_t (E : env) (fmt_g : f64 -> bytes) (o : options) (xml path : bytes) (tn : bytes) (v : value)
  : Res reply :=
  if (MaxDocumentSize <? blen xml)%N then Ok (xml, Some (plain ErrMalformedXML))
  else if (match xml with [] => false | _ :: _ => negb (valid xml) end)
  then Ok (xml, Some (plain ErrMalformedXML))
  else
    match v with
    | VNil => delete_opts_t E o xml path
    | _ =>
        let* segs := parse_path_opts o path in
        match segs with
        | [] => Ok (xml, Some (plain ErrInvalidPath))
        | _ :: _ => told_of xml (set_element_t E fmt_g o xml segs tn v)
        end
    end.
(** set.go:451-453: a nil slice is rejected. *)
Definition set_bytes_opts_t (E : env) (fmt_g : f64 -> bytes) (o : options) (xml : option bytes)
           (path : bytes) (tn : bytes) (v : value) : Res (option bytes * option failure) :=
  match xml with
  | None => Ok (None, Some (plain ErrMalformedXML))
  | Some x => let* r := set_opts_t E fmt_g o x path tn v in Ok (Some (fst r), snd r)
  end.
(** set.go:70-81 *)
Definition set_t (E : env) (fmt_g : f64 -> bytes) (xml path tn : bytes) (v : value) : Res reply :=
  set_opts_t E fmt_g default_options xml path tn v.

(** set.go:116-232; None: no error. Fuel [S (length s)] suffices. *)
Fixpoint raw_loop_t (fuel : nat) (stack : list bytes) (s : bytes) : option failure :=
  match fuel with
  | O => Some (plain ErrInvalidValue)
  | S f =>
      match s with
      | [] => match stack with [] => None | _ :: _ => Some (plain ErrInvalidValue) end
      | c :: s1 =>
          if Ascii.eqb c "<" then
            match s1 with
            | [] => Some (plain ErrInvalidValue)
            | n :: s2 =>
                if Ascii.eqb n "/" then
                  let '(name, s3) := span_until (bs "> ") s2 in
                  match stack with
                  | [] => Some (plain ErrInvalidValue)
                  | top :: stack' =>
                      if bytes_eqb top name
                      then raw_loop_t f stack' (next (snd (span_until (bs ">") s3)))
                      else Some (plain ErrInvalidValue)
                  end
                else if Ascii.eqb n "!" || Ascii.eqb n "?" then
                  if Ascii.eqb (peek s2) "-" then
                    match find_after (bs "-->") s with
                    | None => Some (plain ErrInvalidValue)
                    | Some (_, r) => raw_loop_t f stack r
                    end
                  else
                    match strip_prefix cdata_start s with
                    | Some body =>
                        match find_after cdata_end body with
                        | None => Some (detailed ErrInvalidValue (bs "unclosed CDATA section"))
                        | Some (content, r) =>
                            match find_after cdata_start content with
                            | Some _ => Some (detailed ErrInvalidValue (bs "nested CDATA sections not allowed"))
                            | None => raw_loop_t f stack r
                            end
                        end
                    | None =>
                        if has_prefix (bs "<!DOCTYPE") s
                        then Some (detailed ErrInvalidValue (bs "DOCTYPE declarations not allowed in SetRaw"))
                        else if has_prefix (bs "<!ENTITY") s
                        then Some (detailed ErrInvalidValue (bs "ENTITY declarations not allowed in SetRaw"))
                        else
                          match find_after (bs ">") s with
                          | None => Some (plain ErrInvalidValue)
                          | Some (_, r) => raw_loop_t f stack r
                          end
                    end
                else
                  let '(name, s3) := span_until (bs "> /") s1 in
                  match name with
                  | [] => Some (plain ErrInvalidValue)
                  | _ :: _ =>
                      let '(self, s4) := raw_tag_end s3 in
                      raw_loop_t f (if self then stack else name :: stack) s4
                  end
            end
          else raw_loop_t f stack s1
      end
  end.
(** set.go:111-240 *)
Definition validate_raw_t (s : bytes) : option failure := raw_loop_t (S (List.length s)) [] s.
(** set.go:100-108; the value passed on is a []byte. *)
Definition set_raw_t (E : env) (fmt_g : f64 -> bytes) (xml path raw : bytes) : Res reply :=
  match validate_raw_t raw with
  | None => set_t E fmt_g xml path (bs "[]uint8") (VBytes raw)
  | Some f => Ok (xml, Some f)
  end.

Section Quoting.
  (** What %q prints for a string (strconv.Quote). *)
  Variable quote : bytes -> bytes.
  (** set.go:301-308; a value comes with what %T prints for it. *)
  Fixpoint set_each_t (E : env) (fmt_g : f64 -> bytes) (xml0 xml : bytes) (l : list (bytes * (bytes * value)))
    : Res reply :=
    match l with
    | [] => Ok (xml, None)
    | (p, (tn, v)) :: l' =>
        let* r := set_t E fmt_g xml p tn v in
        match snd r with
        | Some f => Ok (xml0, Some (prefixed (bs "error setting path " ++ quote p) f))
        | None => set_each_t E fmt_g xml0 (fst r) l'
        end
    end.
  (** set.go:271-310 *)
  Definition set_many_t (E : env) (fmt_g : f64 -> bytes) (xml : bytes) (paths : list bytes)
             (values : list (bytes * value)) : Res reply :=
    if (MaxDocumentSize <? blen xml)%N then Ok (xml, Some (plain ErrMalformedXML))
    else if negb (Nat.eqb (List.length paths) (List.length values))
    then Ok (xml, Some (detailed ErrInvalidPath (bs "paths and values length mismatch")))
    else set_each_t E fmt_g xml xml (combine paths values).
  (** set.go:403-416 *)
  Fixpoint delete_each_t (E : env) (xml0 xml : bytes) (l : list bytes) : Res reply :=
    match l with
    | [] => Ok (xml, None)
    | p :: l' =>
        let* r := delete_t E xml p in
        match snd r with
        | Some f => Ok (xml0, Some (prefixed (bs "error deleting path " ++ quote p) f))
        | None => delete_each_t E xml0 (fst r) l'
        end
    end.
  (** set.go:373-418 *)
  Definition delete_many_t (E : env) (xml : bytes) (paths : list bytes) : Res reply :=
    if (MaxDocumentSize <? blen xml)%N then Ok (xml, Some (plain ErrMalformedXML))
    else delete_each_t E xml xml (dedupe [] paths).

  (** modifier.go:94-130: the error text of a call of the registry. *)
  Definition r_text {M : Type} (reg : registry M) (c : rcall M) : option bytes :=
    match c with
    | RRegister _ name _ =>
        match name with
        | [] => Some (bs "modifier name cannot be empty")
        | _ :: _ =>
            match map_get name reg with
            | Some _ => Some (bs "modifier " ++ quote name ++ bs " already registered")
            | None => None
            end
        end
    | RGet _ _ => None
    | RUnregister _ name =>
        if is_builtin_name name then Some (bs "cannot unregister built-in modifier " ++ quote name) else None
    end.
End Quoting.
