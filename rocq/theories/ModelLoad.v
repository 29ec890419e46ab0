(** Query evaluation of ModelQuery.v with a count of the elements that are met: every pass over
    a text by a loop over skipToNextElement (/repo/parser.go:402) counts 1 and the number of
    elements it finds, and every call of recursiveSearchWithContext (/repo/get.go:711) counts 1.
    Erasing the count gives the functions of ModelQuery.v (ProofLoad.v). The loops of the
    library stop where they have what they need; a pass is counted here in full, so the count
    is an upper bound. Reading the text of an element (`%`) is not counted; queries under
    options are counted in ModelLoadOpts.v. The functions without passes of their own are those
    of ModelWork.v. *)
From Coq Require Import List Ascii String NArith ZArith Bool Lia SpecFloat.
From Verif Require Import GoStr ModelParser ModelPattern ModelPath ModelPretty ModelResult ModelQuery ModelWork.
Import ListNotations.

(** Cost of what follows (no counterpart in /repo). *)
Definition wcost {A} (c : N) (m : W A) : W A := let* p := m in Ok (fst p, (c + snd p)%N).
(** A pass over a text by a loop over skipToNextElement (parser.go:402). *)
Definition lscan (E : env) (key : list nat) (s : bytes) : W (list elem) :=
  let* es := scan_res E key s in Ok (es, (1 + N.of_nat (List.length es))%N).

(** get.go:1551-1580; see [field_children]. *)
Fixpoint lfield_children (E : env) (key : list nat) (field : bytes) (l : list elem)
  : W (list result) :=
  match l with
  | [] => wret []
  | e :: l' =>
      let! cs := lscan E (child_key site_field e key) (e_content e) in
      let! r := lfield_children E key field l' in
      wret (map (fun c => r_element (e_content c))
                (filter (fun c => bytes_eqb (e_name c) field) cs) ++ r)
  end.
(** get.go:1500-1601; see [field_extract]. *)
Definition lfield_extract (E : env) (key : list nat) (l : list elem) (sg : seg) : W result :=
  match s_field sg with
  | [] => wret r_null
  | c :: name =>
      let! all :=
        (if Ascii.eqb c "@" then
           wret (flat_map (fun e => match map_get name (e_attrs e) with
                                    | Some v => [r_attribute v]
                                    | None => [] end) l)
         else if bytes_eqb (s_field sg) (bs "%") then
           wret (flat_map (fun e => match extract_direct (e_content e) with
                                    | [] => []
                                    | t => [mkR RString t (unescape_xml t) f64_zero []] end) l)
         else lfield_children E key (s_field sg) l) in
      match firstn MaxWildcardResults all with
      | [] => wret (r_array [])
      | rs => wret (apply_modifiers E (r_array rs) (s_mods sg))
      end
  end.

Section Load.
  Variable E : env.
  Variable rec : wrec.

  (** get.go:1785-1846; see [process_first]. *)
  Definition lprocess_first (key : list nat) (e : elem) (sg : seg) (rest : list seg) : W result :=
    match rest with
    | [] => wret (apply_modifiers E (r_element (e_content e)) (s_mods sg))
    | nx :: _ =>
        match s_type nx with
        | SAttr =>
            match map_get (s_value nx) (e_attrs e) with
            | Some v => wret (apply_modifiers E (r_attribute v) (s_mods nx))
            | None => wret r_null
            end
        | SText => wret (apply_modifiers E (r_text (e_content e)) (s_mods nx))
        | SField => lfield_extract E key [e] nx
        | _ => rec (child_key site_query e key) false (e_content e) rest
        end
    end.

  (** get.go:1849-1949; see [process_all]. *)
  Definition lprocess_all (key : list nat) (l : list elem) (sg : seg) (rest : list seg)
    : W result :=
    match rest with
    | [] => wret (apply_modifiers E (r_array (map (fun e => r_element (e_content e)) l)) (s_mods sg))
    | nx :: _ =>
        let finish all :=
          match all with
          | [] => wret r_null
          | _ :: _ => wret (apply_modifiers E (package all) (s_mods nx))
          end in
        match s_type nx with
        | SField => lfield_extract E key l nx
        | SAttr =>
            finish (flat_map (fun e => match map_get (s_value nx) (e_attrs e) with
                                       | Some v => [r_attribute v]
                                       | None => [] end) l)
        | SText => finish (map (fun e => r_text (e_content e)) l)
        | _ => let! all := wquery_each rec key l rest in finish all
        end
    end.

  (** get.go:1769-1781 and 1965-1976; see [route_matches]. *)
  Definition lroute_matches (key : list nat) (l : list elem) (sg : seg) (rest : list seg)
    : W result :=
    match l with
    | [] => wret r_null
    | e :: _ => if s_all sg then lprocess_all key l sg rest else lprocess_first key e sg rest
    end.

  (** get.go:761-804; see [search_add]. *)
  Definition lsearch_add (key : list nat) (e : elem) (rest : list seg) : W (list result) :=
    match rest with
    | [] => wret [r_element (e_content e)]
    | nx :: more =>
        match s_type nx with
        | SAttr =>
            wret (match map_get (s_value nx) (e_attrs e), more with
                  | Some v, [] => [r_attribute v]
                  | _, _ => []
                  end)
        | SText => wret [r_text (e_content e)]
        | SField =>
            let! r := lfield_extract E key [e] nx in
            wret (match r_type r with RArray => r_results r | _ => [] end)
        | _ =>
            let! r := rec (child_key site_query e key) false (e_content e) rest in
            wret (flatten1 r)
        end
    end.
  (** get.go:711-809; see [rsearch]. *)
  Fixpoint lrsearch (n : nat) (key : list nat) (target : seg) (rest : list seg)
           (st : N * list result) (s : bytes) : W (N * list result) :=
    wtick (
    let ops := (fst st + 1)%N in
    match n with
    | O => wret (ops, snd st)
    | S n' =>
        if Nat.leb MaxWildcardResults (List.length (snd st)) || (MaxRecursiveOperations <=? ops)%N
        then wret (ops, snd st)
        else
          let! es := lscan E key s in
          (fix go (es : list elem) (st : N * list result) : W (N * list result) :=
             match es with
             | [] => wret st
             | e :: es' =>
                 let! st1 :=
                   (match e_content e with
                    | [] => wret st
                    | _ :: _ => lrsearch n' (child_key site_search e key) target rest st (e_content e)
                    end) in
                 if (MaxRecursiveOperations <=? fst st1)%N then wret st1
                 else if seg_matches target (e_name e) then
                   if Nat.leb MaxWildcardResults (List.length (snd st1)) then wret st1
                   else
                     let! add := lsearch_add key e rest in
                     go es' (fst st1, snd st1 ++ add)
                 else go es' st1
             end) es (ops, snd st)
    end).
  (** get.go:682-707; see [handle_recursive]. *)
  Definition lhandle_recursive (key : list nat) (rest : list seg) (s : bytes) : W result :=
    match rest with
    | [] => wret r_null
    | target :: rest' =>
        let! st := lrsearch (S MaxNestingDepth) key target rest' (0%N, []) s in
        match snd st with
        | [] => wret r_null
        | l => wret (package l)
        end
    end.

  (** get.go:194-236; see [root_array]. *)
  Definition lroot_array (key : list nat) (l : list elem) (nx : seg) (more : list seg)
    : W result :=
    match l with
    | [] => wret r_null
    | _ :: _ =>
        match s_type nx with
        | SField => lfield_extract E key l nx
        | SIndex =>
            match nth_elem l (s_index nx) with
            | None => wret r_null
            | Some e =>
                match more with
                | [] => wret (r_element (e_content e))
                | n2 :: _ =>
                    match s_type n2 with
                    | SAttr =>
                        wret (match map_get (s_value n2) (e_attrs e) with
                              | Some v => r_attribute v
                              | None => r_null
                              end)
                    | SText => wret (r_text (e_content e))
                    | _ => rec (child_key site_query e key) false (e_content e) more
                    end
                end
            end
        | _ => wret (r_count (List.length l))
        end
    end.

  (** get.go:240-562; see [exec_element]. *)
  Definition lexec_element (key : list nat) (es : list elem) (sg : seg) (rest : list seg)
    : W result :=
    let ms := matching sg es in
    let capped := firstn MaxWildcardResults ms in
    match rest with
    | [] => wfirst_loop E rec key ms sg rest
    | nx :: more =>
        match s_type nx with
        | SField => lfield_extract E key capped nx
        | SFilter =>
            let! l := wfilter_elems E rec key (s_filter nx) capped in
            lroute_matches key l nx more
        | SIndex | SCount => warray_op E rec key capped nx more
        | _ => wfirst_loop E rec key ms sg rest
        end
    end.

  (** get.go:165-563; see [exec_body]. *)
  Definition lexec_body (key : list nat) (root : bool) (s : bytes) (segs : list seg) : W result :=
    match segs with
    | [] => wret r_null
    | sg :: rest =>
        let! es := wlift (scan_res E key s) in
        let pass m := wcost (1 + N.of_nat (List.length es)) m in
        match s_type sg with
        | SElem =>
            pass
              (match root, rest with
               | true, nx :: more =>
                   match s_type nx with
                   | SIndex | SCount | SField =>
                       lroot_array key
                         (firstn MaxWildcardResults
                            (filter (fun e => bytes_eqb (e_name e) (s_value sg)) es)) nx more
                   | _ => lexec_element key es sg rest
                   end
               | _, _ => lexec_element key es sg rest
               end)
        | SFilter =>
            pass
              (let! l := wfilter_elems_upto MaxWildcardResults E rec key (s_filter sg) es in
               lroute_matches key l sg rest)
        | SField => wret (r_array [])
        | SIndex | SCount | SText | SAttr => pass (wret r_null)
        | SWild =>
            if s_wild sg then lhandle_recursive key rest s
            else
              pass
                (match firstn MaxWildcardResults es with
                 | [] => wret r_null
                 | ms =>
                     let! r := whandle_wildcard E rec key ms rest in
                     wret (match rest with
                           | [] => apply_modifiers E r (s_mods sg)
                           | _ :: _ => r
                           end)
                 end)
        end
    end.
End Load.

(** executeQuery (get.go:165-563); see [exec]. *)
Fixpoint lexec (E : env) (fuel : nat) (key : list nat) (root : bool) (s : bytes) (segs : list seg)
  : W result :=
  match fuel with
  | O => OutOfFuel
  | S f => lexec_body E (lexec E f) key root s segs
  end.

(** get.go:78-95; see [get]. *)
Definition lget (E : env) (xml path : bytes) : W result :=
  if (MaxDocumentSize <? blen xml)%N then wret r_null
  else
    let! segs := wlift (parse_path path) in
    match segs with
    | [] => wret r_null
    | _ :: _ => lexec E (query_fuel path) [] true xml segs
    end.
