(** Model of /repo/builder.go, options.go and of the editing API in /repo/set.go. *)
From Coq Require Import List Ascii String NArith ZArith Bool Lia SpecFloat DecimalString.
From Verif Require Import GoStr ModelParser ModelPath ModelResult ModelQuery ModelValidate.
Import ListNotations.

(** options.go:16-35; Namespaces is None for a nil map. *)
Record options := mkOpts {
  o_case : bool;
  o_indent : bytes;
  o_preserve : bool;
  o_namespaces : option (list (bytes * bytes))
}.
(** options.go:51-58 *)
Definition default_options : options := mkOpts true [] false None.
(** options.go:63-71, for a non-nil pointer; nil pointers are replaced by the
    default options at every use (get.go:892, builder.go:38, ...). *)
Definition is_default_options (o : options) : bool :=
  o_case o && (match o_indent o with [] => true | _ :: _ => false end)
    && negb (o_preserve o) && (match o_namespaces o with None => true | Some _ => false end).

(** errors.go:10-20; wrapping with %w keeps the identity tested by errors.Is. *)
Inductive err := ErrInvalidPath | ErrMalformedXML | ErrInvalidValue.

(** The interface{} values accepted by Set (builder.go:55-78). *)
Inductive value :=
| VNil | VStr (s : bytes) | VInt (z : Z) | VFloat (f : f64) | VBool (b : bool)
| VBytes (s : bytes) | VOther.
(** fmt.Sprintf("%d", v) *)
Definition fmt_int (z : Z) : bytes := bs (NilZero.string_of_int (Z.to_int z)).
(** builder.go:50-79; [fmt_g] is fmt.Sprintf("%g", v) for float64 and float32. *)
Definition value_to_xml (fmt_g : f64 -> bytes) (v : value) : err + bytes :=
  match v with
  | VNil => inr []
  | VStr s => inr (escape_xml s)
  | VInt z => inr (fmt_int z)
  | VFloat f => inr (fmt_g f)
  | VBool b => inr (if b then bs "true" else bs "false")
  | VBytes s => inr s
  | VOther => inl ErrInvalidValue
  end.

(** builder.go:15 *)
Definition MaxPositionOffset : Z := 1073741823.

(** builder.go:169-177. Positions are Go ints; no overflow is possible below
    MaxPositionOffset + MaxDocumentSize, so they are integers. *)
Record location := mkLoc {
  l_start : Z;
  l_end_tag : Z;
  l_content_start : Z;
  l_content_end : Z;
  l_name : bytes;
  l_attrs : attrmap;
  l_self : bool
}.

(** b.data[:n] and b.data[n:]. Out-of-range bounds panic in Go; for [:n] Go checks
    against the capacity of the slice, which may exceed its length: the model
    panics there as well. *)
Definition slice_to (d : bytes) (n : Z) : Res bytes :=
  if ((0 <=? n) && (n <=? Z.of_nat (List.length d)))%Z then Ok (firstn (Z.to_nat n) d) else Panic.
Definition slice_from (d : bytes) (n : Z) : Res bytes :=
  if ((0 <=? n) && (n <=? Z.of_nat (List.length d)))%Z then Ok (skipn (Z.to_nat n) d) else Panic.

(** parser.pos when [rest] of [d] is unread. *)
Definition pos_of (d rest : bytes) : Z := (Z.of_nat (List.length d) - Z.of_nat (List.length rest))%Z.
(** builder.go:217-245, 268-297: location of element [e] of [d]. *)
Definition elem_location (d : bytes) (base : Z) (e : elem) : location :=
  let cend := if e_self e then pos_of d (e_body e)
              else (pos_of d (e_after e) - Z.of_nat (List.length (e_name e)) - 3)%Z in
  mkLoc (pos_of d (e_start e) + base) (cend + base) (pos_of d (e_body e) + base) (cend + base)
        (e_name e) (e_attrs e) (e_self e).

(** builder.go:181-315. The loop over elements returns at the first match (or at the
    match whose count equals the index), so it is a selection from the list of
    matching elements. *)
Fixpoint find_loc (E : env) (o : options) (key : list nat) (d : bytes) (segs : list seg) (base : Z)
  : Res (option location) :=
  if (MaxPositionOffset <? base)%Z then Ok None
  else
    match segs with
    | [] => Ok None
    | sg :: rest =>
        let* es := scan_res E key d in
        let ms := filter (fun e => seg_matches_opts (o_case o) sg (e_name e)) es in
        match rest with
        | [] =>
            match ms with
            | [] => Ok None
            | e :: _ => Ok (Some (elem_location d base e))
            end
        | nx :: rest2 =>
            match s_type nx with
            | SIndex =>
                match nth_elem ms (s_index nx) with
                | None => Ok None
                | Some e =>
                    match rest2 with
                    | [] => Ok (Some (elem_location d base e))
                    | _ :: _ =>
                        let nb := (base + pos_of d (e_body e))%Z in
                        if (MaxPositionOffset <? nb)%Z then Ok None
                        else find_loc E o (child_key site_query e key) (e_content e) rest2 nb
                    end
                end
            | _ =>
                match ms with
                | [] => Ok None
                | e :: _ =>
                    let nb := (base + pos_of d (e_body e))%Z in
                    if (MaxPositionOffset <? nb)%Z then Ok None
                    else find_loc E o (child_key site_query e key) (e_content e) rest nb
                end
            end
        end
    end.

(** builder.go:966-1015 with baseDepth 0 (buildElementPath, builder.go:961-963 is the
    only caller): opening tags, value, closing tags. [i] counts the segments already
    written. Without a non-attribute last segment the value is dropped. *)
Fixpoint repeat_bytes (n : nat) (s : bytes) : bytes :=
  match n with O => [] | S n' => s ++ repeat_bytes n' s end.
Definition open_tag (n : bytes) : bytes := bs "<" ++ n ++ bs ">".
Definition close_tag (n : bytes) : bytes := bs "</" ++ n ++ bs ">".
Fixpoint build_path (indent : bytes) (i : nat) (path : list seg) (v : bytes) : bytes :=
  match path with
  | [] => []
  | sg :: rest =>
      match s_type sg with
      | SAttr => build_path indent (S i) rest v
      | _ =>
          (match indent with [] => [] | _ :: _ => lf :: repeat_bytes i indent end)
            ++ open_tag (s_value sg)
            ++ (match rest with [] => v | _ :: _ => [] end)
            ++ build_path indent (S i) rest v
            ++ close_tag (s_value sg)
      end
  end.

(** builder.go:318-338; location.contentStart/contentEnd. The segment passed is
    never an attribute (setElement handles those before). *)
Definition replace_element (d : bytes) (l : location) (v : bytes) : Res bytes :=
  let* a := slice_to d (l_content_start l) in
  let* b := slice_from d (l_content_end l) in
  Ok (a ++ v ++ b).

(** Name comparison of builder.go:355-374, 391-397, 1081-1093, 1113-1119. *)
Definition attr_eqb (o : options) (a b : bytes) : bool :=
  if o_case o then bytes_eqb a b else bytes_eqb (to_lower_ascii a) (to_lower_ascii b).
Definition attr_value (m : attrmap) (n : bytes) : bytes :=
  match map_get n m with Some v => v | None => [] end.
(** builder.go:341-417 *)
Definition replace_attribute (o : options) (d : bytes) (l : location) (name v : bytes) : Res bytes :=
  let* a := slice_to d (l_start l) in
  let names0 := map fst (l_attrs l) in
  let names := if existsb (fun n => attr_eqb o n name) names0 then names0 else names0 ++ [name] in
  let attrs :=
    flat_map (fun n =>
      bs " " ++ n ++ ["="%char; dquote]
        ++ (if attr_eqb o n name then v else escape_xml (attr_value (l_attrs l) n)) ++ [dquote])
      (sort_strings names) in
  let* b := slice_from d (l_content_start l) in
  Ok (a ++ bs "<" ++ l_name l ++ attrs ++ (if l_self l then bs "/>" else bs ">") ++ b).

(** The rebuilt start tag of builder.go:486-506 and 604-624: attributes in map order. *)
Definition reopen_tag (E : env) (key : list nat) (name : bytes) (attrs : attrmap) : bytes :=
  bs "<" ++ name ++ write_attrs (e_ord E key attrs) ++ bs ">".

(** builder.go:545-571 (data non-empty): no root element has the name. *)
Definition should_create_sibling (es : list elem) (name : bytes) : bool :=
  negb (existsb (fun e => bytes_eqb (e_name e) name) es).

(** builder.go:594-640 *)
Definition create_in_parent (E : env) (o : options) (key : list nat) (d : bytes) (l : location)
           (path : list seg) (v : bytes) : Res bytes :=
  if l_self l then
    let* a := slice_to d (l_start l) in
    let* b := slice_from d (l_content_end l) in
    Ok (a ++ reopen_tag E key (l_name l) (l_attrs l) ++ build_path (o_indent o) 0 path v
          ++ close_tag (l_name l) ++ b)
  else
    let* a := slice_to d (l_content_end l) in
    let* b := slice_from d (l_content_end l) in
    Ok (a ++ build_path (o_indent o) 0 path v ++ b).

(** builder.go:454-532. [inr []] also stands for "nothing written". *)
Definition create_in_root (E : env) (o : options) (key : list nat) (d : bytes)
           (path : list seg) (v : bytes) : Res (err + bytes) :=
  let* es := scan_res E (0 :: key) d in
  let sibling := match path with
                 | sg :: _ => segtype_eqb (s_type sg) SElem && should_create_sibling es (s_value sg)
                 | [] => false
                 end in
  if sibling then Ok (inr (d ++ build_path (o_indent o) 0 path v))
  else
    match es with
    | [] => Ok (inl ErrMalformedXML)
    | e :: _ =>
        let path' := match path with
                     | sg :: rest =>
                         if segtype_eqb (s_type sg) SElem && bytes_eqb (s_value sg) (e_name e)
                         then rest else path
                     | [] => path
                     end in
        match path' with
        | [] => Ok (inr [])
        | _ :: _ =>
            if e_self e then
              let* a := slice_to d (pos_of d (e_start e)) in
              let* b := slice_from d (pos_of d (e_body e)) in
              Ok (inr (a ++ reopen_tag E (1 :: key) (e_name e) (e_attrs e)
                         ++ build_path (o_indent o) 0 path' v ++ close_tag (e_name e) ++ b))
            else
              let cend := (pos_of d (e_after e) - Z.of_nat (List.length (e_name e)) - 3)%Z in
              let* a := slice_to d cend in
              let* b := slice_from d cend in
              Ok (inr (a ++ build_path (o_indent o) 0 path' v ++ b))
        end
    end.

(** builder.go:432-441: the deepest existing prefix path[0:i], i from [n] down to 1. *)
Fixpoint find_parent (E : env) (o : options) (key : list nat) (d : bytes) (path : list seg) (n : nat)
  : Res (option (location * nat)) :=
  match n with
  | O => Ok None
  | S n' =>
      let* r := find_loc E o (n :: key) d (firstn n path) 0 in
      match r with
      | Some l => Ok (Some (l, n))
      | None => find_parent E o key d path n'
      end
  end.
(** builder.go:420-451 *)
Definition create_element (E : env) (o : options) (key : list nat) (d : bytes)
           (path : list seg) (v : bytes) : Res (err + bytes) :=
  match d with
  | [] => Ok (inr (build_path (o_indent o) 0 path v))
  | _ :: _ =>
      let* p := find_parent E o (0 :: key) d path (List.length path - 1) in
      match p with
      | None => create_in_root E o (1 :: key) d path v
      | Some (l, i) =>
          let* r := create_in_parent E o (2 :: key) d l (skipn i path) v in
          Ok (inr r)
      end
  end.

(** builder.go:1147-1152 *)
Definition get_result (d r : bytes) : bytes := match r with [] => d | _ :: _ => r end.

(** builder.go:659-693 (the check of attrSeg.Type is always satisfied). The result is
    relative to the intermediate document, which replaces b.data. *)
Definition create_element_for_attr (E : env) (o : options) (key : list nat) (d : bytes)
           (path : list seg) (name v : bytes) : Res (err + bytes) :=
  let* r := create_element E o (0 :: key) d path [] in
  match r with
  | inl e => Ok (inl e)
  | inr r =>
      let d2 := get_result d r in
      if (MaxDocumentSize <? blen d2)%N then Ok (inl ErrMalformedXML)
      else
        let* l := find_loc E o (1 :: key) d2 path 0 in
        match l with
        | None => Ok (inl ErrInvalidPath)
        | Some l => let* x := replace_attribute o d2 l name v in Ok (inr (get_result d2 x))
        end
  end.

(** builder.go:923-958: position after the last child matching [sg]; the parent is not
    self-closing. *)
Fixpoint last_match_pos (o : options) (sg : seg) (d : bytes) (l : list elem) (dflt : Z) : Z :=
  match l with
  | [] => dflt
  | e :: l' =>
      last_match_pos o sg d l'
        (if seg_matches_opts (o_case o) sg (e_name e) then pos_of d (e_after e) else dflt)
  end.
Definition sliced (d : bytes) (a b : Z) : Res bytes :=
  if (a <=? b)%Z then let* x := slice_to d b in slice_from x a else Panic.
Definition find_last_match (E : env) (o : options) (key : list nat) (d : bytes) (p : location)
           (sg : seg) : Res Z :=
  let* content := sliced d (l_content_start p) (l_content_end p) in
  let* es := scan_res E key content in
  Ok (last_match_pos o sg content es (l_content_end p - l_content_start p) + l_content_start p)%Z.

Definition new_elem (n v : bytes) : bytes := open_tag n ++ v ++ close_tag n.

(** builder.go:860-916 *)
Definition append_root (E : env) (o : options) (key : list nat) (d : bytes) (sg : seg) (v : bytes)
  : Res (err + bytes) :=
  match d with
  | [] => Ok (inr (new_elem (s_value sg) v))
  | _ :: _ =>
      let* es := scan_res E key d in
      let p := last_match_pos o sg d es (Z.of_nat (List.length d)) in
      let* a := slice_to d p in
      let* b := slice_from d p in
      let r := a ++ new_elem (s_value sg) v ++ b in
      if (MaxDocumentSize <? blen r)%N then Ok (inl ErrInvalidValue) else Ok (inr r)
  end.

(** builder.go:757-770: attributes of a rebuilt self-closing parent, sorted. *)
Definition sorted_attrs (m : attrmap) : bytes :=
  flat_map (fun n => bs " " ++ n ++ ["="%char; dquote] ++ escape_xml (attr_value m n) ++ [dquote])
           (sort_strings (map fst m)).

(** builder.go:710-851, after the value has been converted and its size checked
    (builder.go:712-720 repeats the conversion of setElement). *)
Definition append_element (E : env) (o : options) (key : list nat) (d : bytes)
           (path : list seg) (v : bytes) : Res (err + bytes) :=
  match rev path with
  | lastseg :: sg :: rparent =>
      let parent := rev rparent in
      if negb (segtype_eqb (s_type lastseg) SIndex) || negb (s_index lastseg =? -1)%Z
      then Ok (inl ErrInvalidPath)
      else if negb (segtype_eqb (s_type sg) SElem) then Ok (inl ErrInvalidPath)
      else
        match parent with
        | [] => append_root E o (0 :: key) d sg v
        | _ :: _ =>
            let* l := find_loc E o (1 :: key) d parent 0 in
            match l with
            | None => create_element E o (2 :: key) d (parent ++ [sg]) v
            | Some l =>
                if l_self l then
                  let* a := slice_to d (l_start l) in
                  let* b := slice_from d (l_content_end l) in
                  Ok (inr (a ++ bs "<" ++ l_name l ++ sorted_attrs (l_attrs l) ++ bs ">"
                             ++ new_elem (s_value sg) v ++ close_tag (l_name l) ++ b))
                else
                  let* p := find_last_match E o (3 :: key) d l sg in
                  let* a := slice_to d p in
                  let ind :=
                    match o_indent o with
                    | [] => []
                    | _ :: _ => if (l_content_start l <? p)%Z
                                then lf :: repeat_bytes (List.length parent) (o_indent o) else []
                    end in
                  let* b := slice_from d p in
                  let r := a ++ ind ++ new_elem (s_value sg) v ++ b in
                  if (MaxDocumentSize <? blen r)%N then Ok (inl ErrInvalidValue) else Ok (inr r)
            end
        end
  | _ => Ok (inl ErrInvalidPath)
  end.

(** builder.go:103-129: intents of the index segments, in order. *)
Inductive intents := IntentsOk | IntentsAppend | IntentsErr.
Fixpoint check_intents (path : list seg) : intents :=
  match path with
  | [] => IntentsOk
  | sg :: rest =>
      match s_type sg with
      | SIndex =>
          match resolve_index_intent (s_index sg) (match rest with [] => true | _ :: _ => false end) with
          | None => IntentsErr
          | Some IntentAppend => IntentsAppend
          | Some IntentReplace => check_intents rest
          end
      | _ => check_intents rest
      end
  end.

Definition lift {A B} (m : Res B) (f : B -> A) : Res (err + A) :=
  let* x := m in Ok (inr (f x)).

(** builder.go:82-166 followed by getResult: the new document or an error. *)
Definition set_element (E : env) (fmt_g : f64 -> bytes) (o : options) (d : bytes)
           (path : list seg) (v : value) : Res (err + bytes) :=
  match path with
  | [] => Ok (inl ErrInvalidPath)
  | _ :: _ =>
      match value_to_xml fmt_g v with
      | inl e => Ok (inl e)
      | inr xv =>
          if (MaxValueSize <? blen xv)%N then Ok (inl ErrInvalidValue)
          else if (MaxDocumentSize <? blen d)%N then Ok (inl ErrMalformedXML)
          else
            let finish m :=
              let* r := m in
              match r with
              | inl e => Ok (inl e)
              | inr r => Ok (inr (get_result d r))
              end in
            match check_intents path with
            | IntentsErr => Ok (inl ErrInvalidPath)
            | IntentsAppend => finish (append_element E o [0] d path xv)
            | IntentsOk =>
                let lastseg := last path (mkSeg SElem [] 0 false None false [] []) in
                if segtype_eqb (s_type lastseg) SAttr then
                  let epath := removelast path in
                  let* l := find_loc E o [1] d epath 0 in
                  match l with
                  | None => create_element_for_attr E o [2] d epath (s_value lastseg) xv
                  | Some l => finish (lift (replace_attribute o d l (s_value lastseg) xv) (fun x => x))
                  end
                else
                  let* l := find_loc E o [3] d path 0 in
                  match l with
                  | Some l => finish (lift (replace_element d l xv) (fun x => x))
                  | None => finish (create_element E o [4] d path xv)
                  end
            end
      end
  end.

(** builder.go:1077-1144 *)
Definition delete_attribute (o : options) (d : bytes) (l : location) (name : bytes) : Res bytes :=
  let found := if o_case o
               then match map_get name (l_attrs l) with Some _ => true | None => false end
               else existsb (fun n => attr_eqb o n name) (map fst (l_attrs l)) in
  if negb found then Ok d
  else
    let* a := slice_to d (l_start l) in
    let names := filter (fun n => negb (attr_eqb o n name)) (map fst (l_attrs l)) in
    let attrs :=
      flat_map (fun n => bs " " ++ n ++ ["="%char; dquote]
                           ++ escape_xml (attr_value (l_attrs l) n) ++ [dquote])
               (sort_strings names) in
    let* b := slice_from d (l_content_start l) in
    Ok (a ++ bs "<" ++ l_name l ++ attrs ++ (if l_self l then bs "/>" else bs ">") ++ b).

(** builder.go:1018-1074 followed by getResult. *)
Definition delete_element (E : env) (o : options) (d : bytes) (path : list seg)
  : Res (err + bytes) :=
  match path with
  | [] => Ok (inl ErrInvalidPath)
  | _ :: _ =>
      if (MaxDocumentSize <? blen d)%N then Ok (inl ErrMalformedXML)
      else
        let lastseg := last path (mkSeg SElem [] 0 false None false [] []) in
        if segtype_eqb (s_type lastseg) SAttr then
          match removelast path with
          | [] => Ok (inl ErrInvalidPath)
          | epath =>
              let* l := find_loc E o [5] d epath 0 in
              match l with
              | None => Ok (inr d)
              | Some l => lift (delete_attribute o d l (s_value lastseg)) (get_result d)
              end
          end
        else
          let* l := find_loc E o [6] d path 0 in
          match l with
          | None => Ok (inr d)
          | Some l =>
              let* a := slice_to d (l_start l) in
              let* b := slice_from d (if l_self l then l_content_start l
                                      else (l_end_tag l + Z.of_nat (List.length (l_name l)) + 3)%Z) in
              Ok (inr (get_result d (a ++ b)))
          end
  end.

(** get.go:890-910 *)
Definition lower_seg (sg : seg) : seg :=
  match s_type sg with
  | SElem | SAttr =>
      mkSeg (s_type sg) (to_lower_ascii (s_value sg)) (s_index sg) (s_wild sg) (s_filter sg)
            (s_all sg) (s_field sg) (s_mods sg)
  | _ => sg
  end.
Definition parse_path_opts (o : options) (path : bytes) : Res (list seg) :=
  let* segs := parse_path path in
  Ok (if o_case o then segs else map lower_seg segs).

(** Result of an editing call: the returned document and the returned error. *)
Definition edit_result := (bytes * option err)%type.
Definition edit_of (xml : bytes) (r : Res (err + bytes)) : Res edit_result :=
  let* x := r in
  Ok (match x with inl e => (xml, Some e) | inr d => (d, None) end).

(** set.go:492-519 *)
Definition delete_opts (E : env) (o : options) (xml path : bytes) : Res edit_result :=
  if (MaxDocumentSize <? blen xml)%N then Ok (xml, Some ErrMalformedXML)
  else if negb (valid xml) then Ok (xml, Some ErrMalformedXML)
  else
    let* segs := parse_path_opts o path in
    match segs with
    | [] => Ok (xml, Some ErrInvalidPath)
    | _ :: _ => edit_of xml (delete_element E o xml segs)
    end.
(** set.go:332-343 *)
Definition delete (E : env) (xml path : bytes) : Res edit_result :=
  delete_opts E default_options xml path.

(** set.go:449-488 for a non-nil slice. *)
Definition set_opts (E : env) (fmt_g : f64 -> bytes) (o : options) (xml path : bytes) (v : value)
  : Res edit_result :=
  if (MaxDocumentSize <? blen xml)%N then Ok (xml, Some ErrMalformedXML)
  else if (match xml with [] => false | _ :: _ => negb (valid xml) end)
  then Ok (xml, Some ErrMalformedXML)
  else
    match v with
    | VNil => delete_opts E o xml path
    | _ =>
        let* segs := parse_path_opts o path in
        match segs with
        | [] => Ok (xml, Some ErrInvalidPath)
        | _ :: _ => edit_of xml (set_element E fmt_g o xml segs v)
        end
    end.
(** set.go:451-453: a nil slice is rejected. *)
Definition set_bytes_opts (E : env) (fmt_g : f64 -> bytes) (o : options) (xml : option bytes)
           (path : bytes) (v : value) : Res (option bytes * option err) :=
  match xml with
  | None => Ok (None, Some ErrMalformedXML)
  | Some x => let* r := set_opts E fmt_g o x path v in Ok (Some (fst r), snd r)
  end.
(** set.go:70-81 *)
Definition set (E : env) (fmt_g : f64 -> bytes) (xml path : bytes) (v : value) : Res edit_result :=
  set_opts E fmt_g default_options xml path v.

(** set.go:111-240: text from the first occurrence of [pat] on, cut after it. *)
Fixpoint find_after (pat s : bytes) : option (bytes * bytes) :=
  match strip_prefix pat s with
  | Some r => Some ([], r)
  | None =>
      match s with
      | [] => None
      | c :: s' => match find_after pat s' with
                   | Some (a, b) => Some (c :: a, b)
                   | None => None
                   end
      end
  end.
(** set.go:127-130, 150-155, 202-204: cut at the first byte of a set. *)
Fixpoint span_until (set s : bytes) : bytes * bytes :=
  match s with
  | [] => ([], [])
  | c :: s' => if mem c set then ([], s) else let '(a, b) := span_until set s' in (c :: a, b)
  end.
(** set.go:212-224: end of an opening tag; true when self-closing. *)
Fixpoint raw_tag_end (s : bytes) : bool * bytes :=
  match s with
  | [] => (false, [])
  | c :: s' =>
      if Ascii.eqb c "/" then
        match s' with
        | d :: s2 => if Ascii.eqb d ">" then (true, s2) else raw_tag_end s'
        | [] => (false, [])
        end
      else if Ascii.eqb c ">" then (false, s')
      else raw_tag_end s'
  end.
(** set.go:116-232; true: no error. Fuel [S (length s)] suffices. *)
Fixpoint raw_loop (fuel : nat) (stack : list bytes) (s : bytes) : bool :=
  match fuel with
  | O => false
  | S f =>
      match s with
      | [] => match stack with [] => true | _ :: _ => false end
      | c :: s1 =>
          if Ascii.eqb c "<" then
            match s1 with
            | [] => false
            | n :: s2 =>
                if Ascii.eqb n "/" then
                  let '(name, s3) := span_until (bs "> ") s2 in
                  match stack with
                  | [] => false
                  | top :: stack' =>
                      if bytes_eqb top name
                      then raw_loop f stack' (next (snd (span_until (bs ">") s3)))
                      else false
                  end
                else if Ascii.eqb n "!" || Ascii.eqb n "?" then
                  if Ascii.eqb (peek s2) "-" then
                    match find_after (bs "-->") s with
                    | None => false
                    | Some (_, r) => raw_loop f stack r
                    end
                  else
                    match strip_prefix cdata_start s with
                    | Some body =>
                        match find_after cdata_end body with
                        | None => false
                        | Some (content, r) =>
                            match find_after cdata_start content with
                            | Some _ => false
                            | None => raw_loop f stack r
                            end
                        end
                    | None =>
                        if has_prefix (bs "<!DOCTYPE") s || has_prefix (bs "<!ENTITY") s then false
                        else
                          match find_after (bs ">") s with
                          | None => false
                          | Some (_, r) => raw_loop f stack r
                          end
                    end
                else
                  let '(name, s3) := span_until (bs "> /") s1 in
                  match name with
                  | [] => false
                  | _ :: _ =>
                      let '(self, s4) := raw_tag_end s3 in
                      raw_loop f (if self then stack else name :: stack) s4
                  end
            end
          else raw_loop f stack s1
      end
  end.
Definition validate_raw (s : bytes) : bool := raw_loop (S (List.length s)) [] s.
(** set.go:100-108 *)
Definition set_raw (E : env) (fmt_g : f64 -> bytes) (xml path raw : bytes) : Res edit_result :=
  if validate_raw raw then set E fmt_g xml path (VBytes raw)
  else Ok (xml, Some ErrInvalidValue).

(** set.go:301-308 *)
Fixpoint set_each (E : env) (fmt_g : f64 -> bytes) (xml0 xml : bytes) (l : list (bytes * value))
  : Res edit_result :=
  match l with
  | [] => Ok (xml, None)
  | (p, v) :: l' =>
      let* r := set E fmt_g xml p v in
      match snd r with
      | Some e => Ok (xml0, Some e)
      | None => set_each E fmt_g xml0 (fst r) l'
      end
  end.
(** set.go:271-310 *)
Definition set_many (E : env) (fmt_g : f64 -> bytes) (xml : bytes) (paths : list bytes)
           (values : list value) : Res edit_result :=
  if (MaxDocumentSize <? blen xml)%N then Ok (xml, Some ErrMalformedXML)
  else if negb (Nat.eqb (List.length paths) (List.length values)) then Ok (xml, Some ErrInvalidPath)
  else set_each E fmt_g xml xml (combine paths values).

(** set.go:393-400 *)
Fixpoint dedupe (seen : list bytes) (l : list bytes) : list bytes :=
  match l with
  | [] => []
  | p :: l' => if existsb (bytes_eqb p) seen then dedupe seen l'
               else p :: dedupe (p :: seen) l'
  end.
Fixpoint delete_each (E : env) (xml0 xml : bytes) (l : list bytes) : Res edit_result :=
  match l with
  | [] => Ok (xml, None)
  | p :: l' =>
      let* r := delete E xml p in
      match snd r with
      | Some e => Ok (xml0, Some e)
      | None => delete_each E xml0 (fst r) l'
      end
  end.
(** set.go:373-418 *)
Definition delete_many (E : env) (xml : bytes) (paths : list bytes) : Res edit_result :=
  if (MaxDocumentSize <? blen xml)%N then Ok (xml, Some ErrMalformedXML)
  else delete_each E xml xml (dedupe [] paths).
