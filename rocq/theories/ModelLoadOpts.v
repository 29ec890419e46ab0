(** Query evaluation of ModelQueryOpts.v with the count of ModelLoad.v: every pass over a text by
    a loop over skipToNextElement (/repo/parser.go:402) counts 1 and the number of elements it
    finds, and every call of recursiveSearchWithContextAndOptions (/repo/get.go:1404) counts 1.
    Erasing the count gives the functions of ModelQueryOpts.v (ProofLoadOpts.v). *)
From Coq Require Import List Ascii String NArith ZArith Bool Lia SpecFloat.
From Verif Require Import GoStr ModelParser ModelPath ModelResult ModelQuery ModelBuilder ModelQueryOpts ModelWork ModelLoad.
Import ListNotations.

(** get.go:1677-1716; see [field_children_opts]. *)
Fixpoint lfield_children_opts (E : env) (cs : bool) (key : list nat) (field : bytes) (l : list elem)
  : W (list result) :=
  match l with
  | [] => wret []
  | e :: l' =>
      let! es := lscan E (child_key site_field e key) (e_content e) in
      let! r := lfield_children_opts E cs key field l' in
      wret (map (fun c => r_element (e_content c))
              (filter (fun c => bytes_eqb (lower_if cs (e_name c)) (lower_if cs field)) es) ++ r)
  end.
(** get.go:1607-1729; see [field_extract_opts]. *)
Definition lfield_extract_opts (E : env) (cs : bool) (key : list nat) (l : list elem) (sg : seg)
  : W result :=
  match s_field sg with
  | [] => wret r_null
  | c :: name =>
      let! all :=
        (if Ascii.eqb c "@" then
           wret (flat_map (fun e => map r_attribute
                          (opt_list (attr_lookup E cs key (lower_if cs name) e))) l)
         else if bytes_eqb (s_field sg) (bs "%") then
           wret (flat_map (fun e => match extract_direct (e_content e) with
                                  | [] => []
                                  | t => [mkR RString t (unescape_xml t) f64_zero []] end) l)
         else lfield_children_opts E cs key (s_field sg) l) in
      match firstn MaxWildcardResults all with
      | [] => wret (r_array [])
      | rs => wret (apply_modifiers E (r_array rs) (s_mods sg))
      end
  end.

Section LoadOpts.
  Variable E : env.
  Variable cs : bool.
  (** [plain] is executeQuery, used by filters (filter.go:265); [rec] is
      executeQueryWithOptions. *)
  Variable plain rec : wrec.

  (** get.go:2048-2129; see [process_first_opts]. *)
  Definition lprocess_first_opts (key : list nat) (e : elem) (sg : seg) (rest : list seg)
    : W result :=
    match rest with
    | [] => wret (apply_modifiers E (r_element (e_content e)) (s_mods sg))
    | nx :: _ =>
        match s_type nx with
        | SAttr =>
            match attr_lookup E cs key (s_value nx) e with
            | Some v => wret (apply_modifiers E (r_attribute v) (s_mods nx))
            | None => wret r_null
            end
        | SText => wret (apply_modifiers E (r_text (e_content e)) (s_mods nx))
        | SField => lfield_extract_opts E cs key [e] nx
        | _ => rec (child_key site_query e key) false (e_content e) rest
        end
    end.

  (** get.go:2132-2253; see [process_all_opts]. *)
  Definition lprocess_all_opts (key : list nat) (l : list elem) (sg : seg) (rest : list seg)
    : W result :=
    match rest with
    | [] => wret (apply_modifiers E (r_array (map (fun e => r_element (e_content e)) l)) (s_mods sg))
    | nx :: _ =>
        let finish all :=
          match all with
          | [] => wret r_null
          | _ :: _ => wret (apply_modifiers E (package all) (s_mods nx))
          end in
        match s_type nx with
        | SField => lfield_extract_opts E cs key l nx
        | SAttr =>
            finish (flat_map (fun e => map r_attribute (attr_lookup_all E cs key (s_value nx) e)) l)
        | SText => finish (map (fun e => r_text (e_content e)) l)
        | _ => let! all := wquery_each rec key l rest in finish all
        end
    end.

  (** get.go:2008-2020, 2036-2044; see [route_matches_opts]. *)
  Definition lroute_matches_opts (key : list nat) (l : list elem) (sg : seg) (rest : list seg)
    : W result :=
    match l with
    | [] => wret r_null
    | e :: _ => if s_all sg then lprocess_all_opts key l sg rest else lprocess_first_opts key e sg rest
    end.

  (** get.go:1276-1376: no distinction between an empty array and no result; see [handle_wildcard_opts]. *)
  Definition lhandle_wildcard_opts (key : list nat) (l : list elem) (rest : list seg) : W result :=
    match rest with
    | [] => wret (package (map (fun e => r_element (e_content e)) l))
    | nx :: more =>
        let finish all :=
          match all with
          | [] => wret r_null
          | _ :: _ => wret (apply_modifiers E (package all) (s_mods nx))
          end in
        match s_type nx with
        | SAttr =>
            finish (match more with
                    | [] => flat_map (fun e => map r_attribute
                                                   (attr_lookup_all E cs key (s_value nx) e)) l
                    | _ :: _ => []
                    end)
        | SText => finish (map (fun e => r_text (e_content e)) l)
        | _ => let! all := wquery_each rec key l rest in finish all
        end
    end.

  (** get.go:1438-1490; see [search_add_opts]. *)
  Definition lsearch_add_opts (key : list nat) (e : elem) (rest : list seg) : W (list result) :=
    match rest with
    | [] => wret [r_element (e_content e)]
    | nx :: more =>
        match s_type nx with
        | SAttr =>
            wret (match more with
                | [] => map r_attribute (attr_lookup_all E cs key (s_value nx) e)
                | _ :: _ => []
                end)
        | SText => wret [r_text (e_content e)]
        | _ =>
            let! r := rec (child_key site_query e key) false (e_content e) rest in
            wret (flatten1 r)
        end
    end.
  (** get.go:1405-1492; see [rsearch_opts]. *)
  Fixpoint lrsearch_opts (n : nat) (key : list nat) (target : seg) (rest : list seg)
           (st : N * list result) (s : bytes) : W (N * list result) :=
    wtick (
    let ops := (fst st + 1)%N in
    match n with
    | O => wret (ops, snd st)
    | S n' =>
        if Nat.leb MaxWildcardResults (List.length (snd st)) || (MaxRecursiveOperations <=? ops)%N
        then wret (ops, snd st)
        else
          let! es := lscan E key s in
          (fix go (es : list elem) (st : N * list result) : W (N * list result) :=
             match es with
             | [] => wret st
             | e :: es' =>
                 let! st1 :=
                   (match e_content e with
                    | [] => wret st
                    | _ :: _ =>
                        lrsearch_opts n' (child_key site_search e key) target rest st (e_content e)
                    end) in
                 if (MaxRecursiveOperations <=? fst st1)%N then wret st1
                 else if seg_matches_opts cs target (e_name e) then
                   if Nat.leb MaxWildcardResults (List.length (snd st1)) then wret st1
                   else
                     let! add := lsearch_add_opts key e rest in
                     go es' (fst st1, snd st1 ++ add)
                 else go es' st1
             end) es (ops, snd st)
    end).
  (** get.go:1379-1402; see [handle_recursive_opts]. *)
  Definition lhandle_recursive_opts (key : list nat) (rest : list seg) (s : bytes) : W result :=
    match rest with
    | [] => wret r_null
    | target :: rest' =>
        let! st := lrsearch_opts (S MaxNestingDepth) key target rest' (0%N, []) s in
        match snd st with
        | [] => wret r_null
        | l => wret (package l)
        end
    end.

  (** get.go:929-993; see [root_array_opts]. *)
  Definition lroot_array_opts (key : list nat) (l : list elem) (nx : seg) (more : list seg)
    : W result :=
    match l with
    | [] => wret r_null
    | _ :: _ =>
        match s_type nx with
        | SField => lfield_extract_opts E cs key l nx
        | SIndex =>
            match nth_elem l (s_index nx) with
            | None => wret r_null
            | Some e =>
                match more with
                | [] => wret (r_element (e_content e))
                | n2 :: _ =>
                    match s_type n2 with
                    | SAttr =>
                        wret (match map_get (s_value n2) (e_attrs e) with
                            | Some v => r_attribute v
                            | None => r_null
                            end)
                    | SText => wret (r_text (e_content e))
                    | _ => rec (child_key site_query e key) false (e_content e) more
                    end
                end
            end
        | _ => wret (r_count (List.length l))
        end
    end.

  (** get.go:1211-1270: no modifiers; see [array_op_opts]. *)
  Definition larray_op_opts (key : list nat) (l : list elem) (nx : seg) (more : list seg)
    : W result :=
    match l with
    | [] => wret r_null
    | _ :: _ =>
        match s_type nx with
        | SIndex =>
            match nth_elem l (s_index nx) with
            | None => wret r_null
            | Some e =>
                match more with
                | [] => wret (r_element (e_content e))
                | n2 :: _ =>
                    match s_type n2 with
                    | SAttr =>
                        wret (match attr_lookup E cs key (s_value n2) e with
                            | Some v => r_attribute v
                            | None => r_null
                            end)
                    | _ => rec (child_key site_query e key) false (e_content e) more
                    end
                end
            end
        | _ => wret (r_count (List.length l))
        end
    end.

  (** get.go:1134-1203: no modifiers; see [first_loop_opts]. *)
  Fixpoint lfirst_loop_opts (key : list nat) (l : list elem) (sg : seg) (rest : list seg)
    : W result :=
    match l with
    | [] => wret r_null
    | e :: l' =>
        match rest with
        | [] => wret (r_element (e_content e))
        | nx :: more =>
            match s_type nx with
            | SAttr =>
                match attr_lookup E cs key (s_value nx) e, more with
                | Some v, [] => wret (r_attribute v)
                | _, _ => wret r_null
                end
            | SText => wret (r_text (e_content e))
            | _ =>
                let! r := rec (child_key site_query e key) false (e_content e) rest in
                if is_null r then lfirst_loop_opts key l' sg rest else wret r
            end
        end
    end.

  (** get.go:1005-1273 for an element segment; see [exec_element_opts]. *)
  Definition lexec_element_opts (key : list nat) (es : list elem) (sg : seg) (rest : list seg)
    : W result :=
    let ms := filter (fun e => seg_matches_opts cs sg (e_name e)) es in
    let capped := firstn MaxWildcardResults ms in
    match rest with
    | [] => lfirst_loop_opts key ms sg rest
    | nx :: more =>
        match s_type nx with
        | SField => lfield_extract_opts E cs key capped nx
        | SFilter =>
            let! l := wfilter_elems E plain key (s_filter nx) capped in
            lroute_matches_opts key l nx more
        | SIndex | SCount => larray_op_opts key capped nx more
        | _ => lfirst_loop_opts key ms sg rest
        end
    end.

  (** get.go:915-1273; see [exec_body_opts]. *)
  Definition lexec_body_opts (key : list nat) (root : bool) (s : bytes) (segs : list seg)
    : W result :=
    match segs with
    | [] => wret r_null
    | sg :: rest =>
        let! es := wlift (scan_res E key s) in
        let pass m := wcost (1 + N.of_nat (List.length es)) m in
        match s_type sg with
        | SElem =>
            pass
              (match root && cs, rest with
               | true, nx :: more =>
                   match s_type nx with
                   | SIndex | SCount | SField =>
                       lroot_array_opts key
                         (firstn MaxWildcardResults
                            (filter (fun e => bytes_eqb (e_name e) (s_value sg)) es)) nx more
                   | _ => lexec_element_opts key es sg rest
                   end
               | _, _ => lexec_element_opts key es sg rest
               end)
        | SFilter =>
            pass
              (let! l := wfilter_elems_upto MaxWildcardResults E plain key (s_filter sg) es in
               lroute_matches_opts key l sg rest)
        | SField => wret (r_array [])
        | SIndex | SCount | SText | SAttr => pass (wret r_null)
        | SWild =>
            if s_wild sg then lhandle_recursive_opts key rest s
            else
              pass
                (match firstn MaxWildcardResults es with
                 | [] => wret r_null
                 | ms => lhandle_wildcard_opts key ms rest
                 end)
        end
    end.
End LoadOpts.

(** executeQueryWithOptions (get.go:915-1273) with recursion fuel; see [exec_opts]. *)
Fixpoint lexec_opts (E : env) (cs : bool) (fuel : nat) (key : list nat) (root : bool) (s : bytes)
         (segs : list seg) : W result :=
  match fuel with
  | O => OutOfFuel
  | S f => lexec_body_opts E cs (lexec E f) (lexec_opts E cs f) key root s segs
  end.

(** get.go:857-885; GetWithOptions and GetStringWithOptions (get.go:844-852) only
    convert their argument. A nil options pointer behaves as default options; see [get_opts]. *)
Definition lget_opts (E : env) (o : options) (xml path : bytes) : W result :=
  if (MaxDocumentSize <? blen xml)%N then wret r_null
  else if is_default_options o then
    let! segs := wlift (parse_path path) in
    match segs with
    | [] => wret r_null
    | _ :: _ => lexec E (query_fuel path) [] true xml segs
    end
  else
    let! segs := wlift (parse_path_opts o path) in
    match segs with
    | [] => wret r_null
    | _ :: _ => lexec_opts E (o_case o) (query_fuel path) [] true xml segs
    end.
