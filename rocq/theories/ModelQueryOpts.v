(** Model of the WithOptions variants of /repo/get.go. Only CaseSensitive
    influences them; it is the parameter [cs]. *)
From Coq Require Import List Ascii String NArith ZArith Bool Lia SpecFloat.
From Verif Require Import GoStr ModelParser ModelPath ModelResult ModelQuery ModelBuilder.
Import ListNotations.

(** Attribute lookup of get.go:1139-1168, 1223-1243, 2070-2103: with
    case-insensitive options the first attribute in map iteration order whose
    lower-cased name equals the (already lower-cased) name. *)
Definition site_attr : nat := 4.
Definition attr_lookup (E : env) (cs : bool) (key : list nat) (name : bytes) (e : elem)
  : option bytes :=
  if cs then map_get name (e_attrs e)
  else
    match filter (fun a => bytes_eqb (to_lower_ascii (fst a)) name)
                 (e_ord E (child_key site_attr e key) (e_attrs e)) with
    | [] => None
    | a :: _ => Some (snd a)
    end.
(** get.go:1305-1332, 1437-1459, 2163-2184: all matching attributes. *)
Definition attr_lookup_all (E : env) (cs : bool) (key : list nat) (name : bytes) (e : elem)
  : list bytes :=
  if cs then match map_get name (e_attrs e) with Some v => [v] | None => [] end
  else
    map snd (filter (fun a => bytes_eqb (to_lower_ascii (fst a)) name)
                    (e_ord E (child_key site_attr e key) (e_attrs e))).

Definition opt_list {A} (o : option A) : list A := match o with Some x => [x] | None => [] end.
Definition lower_if (cs : bool) (s : bytes) : bytes := if cs then s else to_lower_ascii s.

(** get.go:1677-1716 *)
Fixpoint field_children_opts (E : env) (cs : bool) (key : list nat) (field : bytes) (l : list elem)
  : Res (list result) :=
  match l with
  | [] => Ok []
  | e :: l' =>
      let* es := scan_res E (child_key site_field e key) (e_content e) in
      let* r := field_children_opts E cs key field l' in
      Ok (map (fun c => r_element (e_content c))
              (filter (fun c => bytes_eqb (lower_if cs (e_name c)) (lower_if cs field)) es) ++ r)
  end.
(** get.go:1607-1729 *)
Definition field_extract_opts (E : env) (cs : bool) (key : list nat) (l : list elem) (sg : seg)
  : Res result :=
  match s_field sg with
  | [] => Ok r_null
  | c :: name =>
      let* all :=
        (if Ascii.eqb c "@" then
           Ok (flat_map (fun e => map r_attribute
                          (opt_list (attr_lookup E cs key (lower_if cs name) e))) l)
         else if bytes_eqb (s_field sg) (bs "%") then
           Ok (flat_map (fun e => match extract_direct (e_content e) with
                                  | [] => []
                                  | t => [mkR RString t (unescape_xml t) f64_zero []] end) l)
         else field_children_opts E cs key (s_field sg) l) in
      match firstn MaxWildcardResults all with
      | [] => Ok (r_array [])
      | rs => Ok (apply_modifiers E (r_array rs) (s_mods sg))
      end
  end.

Section ExecOpts.
  Variable E : env.
  Variable cs : bool.
  (** [plain] is executeQuery, used by filters (filter.go:265); [rec] is
      executeQueryWithOptions. *)
  Variable plain rec : qrec.

  (** get.go:2048-2129 *)
  Definition process_first_opts (key : list nat) (e : elem) (sg : seg) (rest : list seg)
    : Res result :=
    match rest with
    | [] => Ok (apply_modifiers E (r_element (e_content e)) (s_mods sg))
    | nx :: _ =>
        match s_type nx with
        | SAttr =>
            match attr_lookup E cs key (s_value nx) e with
            | Some v => Ok (apply_modifiers E (r_attribute v) (s_mods nx))
            | None => Ok r_null
            end
        | SText => Ok (apply_modifiers E (r_text (e_content e)) (s_mods nx))
        | SField => field_extract_opts E cs key [e] nx
        | _ => rec (child_key site_query e key) false (e_content e) rest
        end
    end.

  (** get.go:2132-2253 *)
  Definition process_all_opts (key : list nat) (l : list elem) (sg : seg) (rest : list seg)
    : Res result :=
    match rest with
    | [] => Ok (apply_modifiers E (r_array (map (fun e => r_element (e_content e)) l)) (s_mods sg))
    | nx :: _ =>
        let finish all :=
          match all with
          | [] => Ok r_null
          | _ :: _ => Ok (apply_modifiers E (package all) (s_mods nx))
          end in
        match s_type nx with
        | SField => field_extract_opts E cs key l nx
        | SAttr =>
            finish (flat_map (fun e => map r_attribute (attr_lookup_all E cs key (s_value nx) e)) l)
        | SText => finish (map (fun e => r_text (e_content e)) l)
        | _ => let* all := query_each rec key l rest in finish all
        end
    end.

  (** get.go:2008-2020, 2036-2044 *)
  Definition route_matches_opts (key : list nat) (l : list elem) (sg : seg) (rest : list seg)
    : Res result :=
    match l with
    | [] => Ok r_null
    | e :: _ => if s_all sg then process_all_opts key l sg rest else process_first_opts key e sg rest
    end.

  (** get.go:1276-1376: no distinction between an empty array and no result. *)
  Definition handle_wildcard_opts (key : list nat) (l : list elem) (rest : list seg) : Res result :=
    match rest with
    | [] => Ok (package (map (fun e => r_element (e_content e)) l))
    | nx :: more =>
        let finish all :=
          match all with
          | [] => Ok r_null
          | _ :: _ => Ok (apply_modifiers E (package all) (s_mods nx))
          end in
        match s_type nx with
        | SAttr =>
            finish (match more with
                    | [] => flat_map (fun e => map r_attribute
                                                   (attr_lookup_all E cs key (s_value nx) e)) l
                    | _ :: _ => []
                    end)
        | SText => finish (map (fun e => r_text (e_content e)) l)
        | _ => let* all := query_each rec key l rest in finish all
        end
    end.

  (** get.go:1438-1490 *)
  Definition search_add_opts (key : list nat) (e : elem) (rest : list seg) : Res (list result) :=
    match rest with
    | [] => Ok [r_element (e_content e)]
    | nx :: more =>
        match s_type nx with
        | SAttr =>
            Ok (match more with
                | [] => map r_attribute (attr_lookup_all E cs key (s_value nx) e)
                | _ :: _ => []
                end)
        | SText => Ok [r_text (e_content e)]
        | _ =>
            let* r := rec (child_key site_query e key) false (e_content e) rest in
            Ok (flatten1 r)
        end
    end.
  (** get.go:1405-1492 *)
  Fixpoint rsearch_opts (n : nat) (key : list nat) (target : seg) (rest : list seg)
           (st : N * list result) (s : bytes) : Res (N * list result) :=
    let ops := (fst st + 1)%N in
    match n with
    | O => Ok (ops, snd st)
    | S n' =>
        if Nat.leb MaxWildcardResults (List.length (snd st)) || (MaxRecursiveOperations <=? ops)%N
        then Ok (ops, snd st)
        else
          let* es := scan_res E key s in
          (fix go (es : list elem) (st : N * list result) : Res (N * list result) :=
             match es with
             | [] => Ok st
             | e :: es' =>
                 let* st1 :=
                   (match e_content e with
                    | [] => Ok st
                    | _ :: _ =>
                        rsearch_opts n' (child_key site_search e key) target rest st (e_content e)
                    end) in
                 if (MaxRecursiveOperations <=? fst st1)%N then Ok st1
                 else if seg_matches_opts cs target (e_name e) then
                   if Nat.leb MaxWildcardResults (List.length (snd st1)) then Ok st1
                   else
                     let* add := search_add_opts key e rest in
                     go es' (fst st1, snd st1 ++ add)
                 else go es' st1
             end) es (ops, snd st)
    end.
  (** get.go:1379-1402 *)
  Definition handle_recursive_opts (key : list nat) (rest : list seg) (s : bytes) : Res result :=
    match rest with
    | [] => Ok r_null
    | target :: rest' =>
        let* st := rsearch_opts (S MaxNestingDepth) key target rest' (0%N, []) s in
        match snd st with
        | [] => Ok r_null
        | l => Ok (package l)
        end
    end.

  (** get.go:929-993 *)
  Definition root_array_opts (key : list nat) (l : list elem) (nx : seg) (more : list seg)
    : Res result :=
    match l with
    | [] => Ok r_null
    | _ :: _ =>
        match s_type nx with
        | SField => field_extract_opts E cs key l nx
        | SIndex =>
            match nth_elem l (s_index nx) with
            | None => Ok r_null
            | Some e =>
                match more with
                | [] => Ok (r_element (e_content e))
                | n2 :: _ =>
                    match s_type n2 with
                    | SAttr =>
                        Ok (match map_get (s_value n2) (e_attrs e) with
                            | Some v => r_attribute v
                            | None => r_null
                            end)
                    | SText => Ok (r_text (e_content e))
                    | _ => rec (child_key site_query e key) false (e_content e) more
                    end
                end
            end
        | _ => Ok (r_count (List.length l))
        end
    end.

  (** get.go:1211-1270: no modifiers. *)
  Definition array_op_opts (key : list nat) (l : list elem) (nx : seg) (more : list seg)
    : Res result :=
    match l with
    | [] => Ok r_null
    | _ :: _ =>
        match s_type nx with
        | SIndex =>
            match nth_elem l (s_index nx) with
            | None => Ok r_null
            | Some e =>
                match more with
                | [] => Ok (r_element (e_content e))
                | n2 :: _ =>
                    match s_type n2 with
                    | SAttr =>
                        Ok (match attr_lookup E cs key (s_value n2) e with
                            | Some v => r_attribute v
                            | None => r_null
                            end)
                    | _ => rec (child_key site_query e key) false (e_content e) more
                    end
                end
            end
        | _ => Ok (r_count (List.length l))
        end
    end.

  (** get.go:1134-1203: no modifiers. *)
  Fixpoint first_loop_opts (key : list nat) (l : list elem) (sg : seg) (rest : list seg)
    : Res result :=
    match l with
    | [] => Ok r_null
    | e :: l' =>
        match rest with
        | [] => Ok (r_element (e_content e))
        | nx :: more =>
            match s_type nx with
            | SAttr =>
                match attr_lookup E cs key (s_value nx) e, more with
                | Some v, [] => Ok (r_attribute v)
                | _, _ => Ok r_null
                end
            | SText => Ok (r_text (e_content e))
            | _ =>
                let* r := rec (child_key site_query e key) false (e_content e) rest in
                if is_null r then first_loop_opts key l' sg rest else Ok r
            end
        end
    end.

  (** get.go:1005-1273 for an element segment. *)
  Definition exec_element_opts (key : list nat) (es : list elem) (sg : seg) (rest : list seg)
    : Res result :=
    let ms := filter (fun e => seg_matches_opts cs sg (e_name e)) es in
    let capped := firstn MaxWildcardResults ms in
    match rest with
    | [] => first_loop_opts key ms sg rest
    | nx :: more =>
        match s_type nx with
        | SField => field_extract_opts E cs key capped nx
        | SFilter =>
            let* l := filter_elems E plain key (s_filter nx) capped in
            route_matches_opts key l nx more
        | SIndex | SCount => array_op_opts key capped nx more
        | _ => first_loop_opts key ms sg rest
        end
    end.

  (** get.go:915-1273 *)
  Definition exec_body_opts (key : list nat) (root : bool) (s : bytes) (segs : list seg)
    : Res result :=
    match segs with
    | [] => Ok r_null
    | sg :: rest =>
        let* es := scan_res E key s in
        match s_type sg with
        | SElem =>
            match root && cs, rest with
            | true, nx :: more =>
                match s_type nx with
                | SIndex | SCount | SField =>
                    root_array_opts key
                      (firstn MaxWildcardResults
                         (filter (fun e => bytes_eqb (e_name e) (s_value sg)) es)) nx more
                | _ => exec_element_opts key es sg rest
                end
            | _, _ => exec_element_opts key es sg rest
            end
        | SFilter =>
            let* l := filter_elems_upto MaxWildcardResults E plain key (s_filter sg) es in
            route_matches_opts key l sg rest
        | SField => Ok (r_array [])
        | SIndex | SCount | SText | SAttr => Ok r_null
        | SWild =>
            if s_wild sg then handle_recursive_opts key rest s
            else
              match firstn MaxWildcardResults es with
              | [] => Ok r_null
              | ms => handle_wildcard_opts key ms rest
              end
        end
    end.
End ExecOpts.

(** executeQueryWithOptions (get.go:915-1273) with recursion fuel. *)
Fixpoint exec_opts (E : env) (cs : bool) (fuel : nat) (key : list nat) (root : bool) (s : bytes)
         (segs : list seg) : Res result :=
  match fuel with
  | O => OutOfFuel
  | S f => exec_body_opts E cs (exec E f) (exec_opts E cs f) key root s segs
  end.

(** get.go:857-885; GetWithOptions and GetStringWithOptions (get.go:844-852) only
    convert their argument. A nil options pointer behaves as default options. *)
Definition get_opts (E : env) (o : options) (xml path : bytes) : Res result :=
  if (MaxDocumentSize <? blen xml)%N then Ok r_null
  else if is_default_options o then
    let* segs := parse_path path in
    match segs with
    | [] => Ok r_null
    | _ :: _ => exec E (query_fuel path) [] true xml segs
    end
  else
    let* segs := parse_path_opts o path in
    match segs with
    | [] => Ok r_null
    | _ :: _ => exec_opts E (o_case o) (query_fuel path) [] true xml segs
    end.
