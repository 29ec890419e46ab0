(** The edits of ModelBuilder.v with a count of the elements that are met, as in ModelLoad.v:
    every pass over a text by a loop over skipToNextElement (/repo/parser.go:402) counts 1 and
    the number of elements in the text. Erasing the count gives the functions of
    ModelBuilder.v (ProofToil.v). A pass is counted in full, though the loops of the library
    stop where they have what they need. The validation of the document before an edit
    (set.go:455, 498), one loop over its bytes, is not counted. *)
From Coq Require Import List Ascii String NArith ZArith Bool Lia SpecFloat.
From Verif Require Import GoStr ModelParser ModelPath ModelResult ModelQuery ModelValidate ModelBuilder ModelWork ModelLoad.
Import ListNotations.

(** builder.go:181-315; see [find_loc]. *)
Fixpoint tfind_loc (E : env) (o : options) (key : list nat) (d : bytes) (segs : list seg) (base : Z)
  : W (option location) :=
  if (MaxPositionOffset <? base)%Z then wret None
  else
    match segs with
    | [] => wret None
    | sg :: rest =>
        let! es := lscan E key d in
        let ms := filter (fun e => seg_matches_opts (o_case o) sg (e_name e)) es in
        match rest with
        | [] =>
            match ms with
            | [] => wret None
            | e :: _ => wret (Some (elem_location d base e))
            end
        | nx :: rest2 =>
            match s_type nx with
            | SIndex =>
                match nth_elem ms (s_index nx) with
                | None => wret None
                | Some e =>
                    match rest2 with
                    | [] => wret (Some (elem_location d base e))
                    | _ :: _ =>
                        let nb := (base + pos_of d (e_body e))%Z in
                        if (MaxPositionOffset <? nb)%Z then wret None
                        else tfind_loc E o (child_key site_query e key) (e_content e) rest2 nb
                    end
                end
            | _ =>
                match ms with
                | [] => wret None
                | e :: _ =>
                    let nb := (base + pos_of d (e_body e))%Z in
                    if (MaxPositionOffset <? nb)%Z then wret None
                    else tfind_loc E o (child_key site_query e key) (e_content e) rest nb
                end
            end
        end
    end.

(** builder.go:454-532; see [create_in_root]. There are two passes: shouldCreateSibling
    (builder.go:545-571) and the search for the first root (builder.go:466-475). *)
Definition tcreate_in_root (E : env) (o : options) (key : list nat) (d : bytes)
           (path : list seg) (v : bytes) : W (err + bytes) :=
  let! es := lscan E (0 :: key) d in
  wcost (1 + N.of_nat (List.length es)) (wlift (create_in_root E o key d path v)).
(** builder.go:432-441; see [find_parent]. *)
Fixpoint tfind_parent (E : env) (o : options) (key : list nat) (d : bytes) (path : list seg) (n : nat)
  : W (option (location * nat)) :=
  match n with
  | O => wret None
  | S n' =>
      let! r := tfind_loc E o (n :: key) d (firstn n path) 0 in
      match r with
      | Some l => wret (Some (l, n))
      | None => tfind_parent E o key d path n'
      end
  end.
(** builder.go:420-451; see [create_element]. *)
Definition tcreate_element (E : env) (o : options) (key : list nat) (d : bytes)
           (path : list seg) (v : bytes) : W (err + bytes) :=
  match d with
  | [] => wret (inr (build_path (o_indent o) 0 path v))
  | _ :: _ =>
      let! p := tfind_parent E o (0 :: key) d path (List.length path - 1) in
      match p with
      | None => tcreate_in_root E o (1 :: key) d path v
      | Some (l, i) =>
          let! r := wlift (create_in_parent E o (2 :: key) d l (skipn i path) v) in
          wret (inr r)
      end
  end.
(** builder.go:659-693; see [create_element_for_attr]. *)
Definition tcreate_element_for_attr (E : env) (o : options) (key : list nat) (d : bytes)
           (path : list seg) (name v : bytes) : W (err + bytes) :=
  let! r := tcreate_element E o (0 :: key) d path [] in
  match r with
  | inl e => wret (inl e)
  | inr r =>
      let d2 := get_result d r in
      if (MaxDocumentSize <? blen d2)%N then wret (inl ErrMalformedXML)
      else
        let! l := tfind_loc E o (1 :: key) d2 path 0 in
        match l with
        | None => wret (inl ErrInvalidPath)
        | Some l => let! x := wlift (replace_attribute o d2 l name v) in wret (inr (get_result d2 x))
        end
  end.
(** builder.go:923-958; see [find_last_match]. *)
Definition tfind_last_match (E : env) (o : options) (key : list nat) (d : bytes) (p : location)
           (sg : seg) : W Z :=
  let! content := wlift (sliced d (l_content_start p) (l_content_end p)) in
  let! es := lscan E key content in
  wret (last_match_pos o sg content es (l_content_end p - l_content_start p) + l_content_start p)%Z.
(** builder.go:860-916; see [append_root]. *)
Definition tappend_root (E : env) (o : options) (key : list nat) (d : bytes) (sg : seg) (v : bytes)
  : W (err + bytes) :=
  match d with
  | [] => wret (inr (new_elem (s_value sg) v))
  | _ :: _ =>
      let! es := lscan E key d in
      let p := last_match_pos o sg d es (Z.of_nat (List.length d)) in
      let! a := wlift (slice_to d p) in
      let! b := wlift (slice_from d p) in
      let r := a ++ new_elem (s_value sg) v ++ b in
      if (MaxDocumentSize <? blen r)%N then wret (inl ErrInvalidValue) else wret (inr r)
  end.
(** builder.go:710-851; see [append_element]. *)
Definition tappend_element (E : env) (o : options) (key : list nat) (d : bytes)
           (path : list seg) (v : bytes) : W (err + bytes) :=
  match rev path with
  | lastseg :: sg :: rparent =>
      let parent := rev rparent in
      if negb (segtype_eqb (s_type lastseg) SIndex) || negb (s_index lastseg =? -1)%Z
      then wret (inl ErrInvalidPath)
      else if negb (segtype_eqb (s_type sg) SElem) then wret (inl ErrInvalidPath)
      else
        match parent with
        | [] => tappend_root E o (0 :: key) d sg v
        | _ :: _ =>
            let! l := tfind_loc E o (1 :: key) d parent 0 in
            match l with
            | None => tcreate_element E o (2 :: key) d (parent ++ [sg]) v
            | Some l =>
                if l_self l then
                  let! a := wlift (slice_to d (l_start l)) in
                  let! b := wlift (slice_from d (l_content_end l)) in
                  wret (inr (a ++ bs "<" ++ l_name l ++ sorted_attrs (l_attrs l) ++ bs ">"
                               ++ new_elem (s_value sg) v ++ close_tag (l_name l) ++ b))
                else
                  let! p := tfind_last_match E o (3 :: key) d l sg in
                  let! a := wlift (slice_to d p) in
                  let ind :=
                    match o_indent o with
                    | [] => []
                    | _ :: _ => if (l_content_start l <? p)%Z
                                then lf :: repeat_bytes (List.length parent) (o_indent o) else []
                    end in
                  let! b := wlift (slice_from d p) in
                  let r := a ++ ind ++ new_elem (s_value sg) v ++ b in
                  if (MaxDocumentSize <? blen r)%N then wret (inl ErrInvalidValue) else wret (inr r)
            end
        end
  | _ => wret (inl ErrInvalidPath)
  end.
(** builder.go:82-166; see [set_element]. *)
Definition tset_element (E : env) (fmt_g : f64 -> bytes) (o : options) (d : bytes)
           (path : list seg) (v : value) : W (err + bytes) :=
  match path with
  | [] => wret (inl ErrInvalidPath)
  | _ :: _ =>
      match value_to_xml fmt_g v with
      | inl e => wret (inl e)
      | inr xv =>
          if (MaxValueSize <? blen xv)%N then wret (inl ErrInvalidValue)
          else if (MaxDocumentSize <? blen d)%N then wret (inl ErrMalformedXML)
          else
            let finish m :=
              let! r := m in
              match r with
              | inl e => wret (inl e)
              | inr r => wret (inr (get_result d r))
              end in
            match check_intents path with
            | IntentsErr => wret (inl ErrInvalidPath)
            | IntentsAppend => finish (tappend_element E o [0] d path xv)
            | IntentsOk =>
                let lastseg := last path (mkSeg SElem [] 0 false None false [] []) in
                if segtype_eqb (s_type lastseg) SAttr then
                  let epath := removelast path in
                  let! l := tfind_loc E o [1] d epath 0 in
                  match l with
                  | None => tcreate_element_for_attr E o [2] d epath (s_value lastseg) xv
                  | Some l => finish (wlift (lift (replace_attribute o d l (s_value lastseg) xv) (fun x => x)))
                  end
                else
                  let! l := tfind_loc E o [3] d path 0 in
                  match l with
                  | Some l => finish (wlift (lift (replace_element d l xv) (fun x => x)))
                  | None => finish (tcreate_element E o [4] d path xv)
                  end
            end
      end
  end.
(** builder.go:1018-1074; see [delete_element]. *)
Definition tdelete_element (E : env) (o : options) (d : bytes) (path : list seg) : W (err + bytes) :=
  match path with
  | [] => wret (inl ErrInvalidPath)
  | _ :: _ =>
      if (MaxDocumentSize <? blen d)%N then wret (inl ErrMalformedXML)
      else
        let lastseg := last path (mkSeg SElem [] 0 false None false [] []) in
        if segtype_eqb (s_type lastseg) SAttr then
          match removelast path with
          | [] => wret (inl ErrInvalidPath)
          | epath =>
              let! l := tfind_loc E o [5] d epath 0 in
              match l with
              | None => wret (inr d)
              | Some l => wlift (lift (delete_attribute o d l (s_value lastseg)) (get_result d))
              end
          end
        else
          let! l := tfind_loc E o [6] d path 0 in
          match l with
          | None => wret (inr d)
          | Some l =>
              let! a := wlift (slice_to d (l_start l)) in
              let! b := wlift (slice_from d (if l_self l then l_content_start l
                                             else (l_end_tag l + Z.of_nat (List.length (l_name l)) + 3)%Z)) in
              wret (inr (get_result d (a ++ b)))
          end
  end.
(** See [edit_of]. *)
Definition tedit_of (xml : bytes) (r : W (err + bytes)) : W edit_result :=
  let! x := r in
  wret (match x with inl e => (xml, Some e) | inr d => (d, None) end).
(** set.go:492-519; see [delete_opts]. *)
Definition tdelete_opts (E : env) (o : options) (xml path : bytes) : W edit_result :=
  if (MaxDocumentSize <? blen xml)%N then wret (xml, Some ErrMalformedXML)
  else if negb (valid xml) then wret (xml, Some ErrMalformedXML)
  else
    let! segs := wlift (parse_path_opts o path) in
    match segs with
    | [] => wret (xml, Some ErrInvalidPath)
    | _ :: _ => tedit_of xml (tdelete_element E o xml segs)
    end.
(** set.go:449-488; see [set_opts]. *)
Definition tset_opts (E : env) (fmt_g : f64 -> bytes) (o : options) (xml path : bytes) (v : value)
  : W edit_result :=
  if (MaxDocumentSize <? blen xml)%N then wret (xml, Some ErrMalformedXML)
  else if (match xml with [] => false | _ :: _ => negb (valid xml) end)
  then wret (xml, Some ErrMalformedXML)
  else
    match v with
    | VNil => tdelete_opts E o xml path
    | _ =>
        let! segs := wlift (parse_path_opts o path) in
        match segs with
        | [] => wret (xml, Some ErrInvalidPath)
        | _ :: _ => tedit_of xml (tset_element E fmt_g o xml segs v)
        end
    end.
