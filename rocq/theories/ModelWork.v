(** Query evaluation of ModelQuery.v with a count of operations: the number of calls of
    recursiveSearchWithContext (/repo/get.go:711), each of which increments ctx.operations
    of its own search (get.go:713). Erasing the count gives the functions of ModelQuery.v
    (ProofWork.v). Queries under options (get.go:1402-1500) are counted in ModelLoadOpts.v. *)
From Coq Require Import List Ascii String NArith ZArith Bool Lia SpecFloat.
From Verif Require Import GoStr ModelParser ModelPattern ModelPath ModelPretty ModelResult ModelQuery.
Import ListNotations.

(** A computation with the number of operations it performs (no counterpart in /repo). *)
Definition W (A : Type) : Type := Res (A * N).
Definition wret {A} (x : A) : W A := Ok (x, 0%N).
Definition wlift {A} (m : Res A) : W A := bind m wret.
Definition wbind {A B} (m : W A) (f : A -> W B) : W B :=
  let* p := m in let* q := f (fst p) in Ok (fst q, (snd p + snd q)%N).
(** One operation (get.go:713). *)
Definition wtick {A} (m : W A) : W A := let* p := m in Ok (fst p, (1 + snd p)%N).
Notation "'let!' x := m 'in' f" := (wbind m (fun x => f))
  (at level 200, x pattern, right associativity).

(** A recursive call of executeQuery, as [qrec]. *)
Definition wrec := list nat -> bool -> bytes -> list seg -> W result.

(** filter.go:243-357 with depth 0; see [eval_filter]. *)
Definition weval_filter (E : env) (rec : wrec) (key : list nat) (f : filt) (e : elem) : W bool :=
  match f_path f with
  | c :: name =>
      if Ascii.eqb c "@" then
        match map_get name (e_attrs e) with
        | Some v => wret (filter_decide E (f_op f) true v (f_value f))
        | None => wret (filter_decide E (f_op f) false [] (f_value f))
        end
      else
        let! segs := wlift (parse_path (f_path f)) in
        let! r := rec (child_key site_filter e key) true (e_content e) segs in
        wret (filter_decide E (f_op f) (r_exists r) (r_string r) (f_value f))
  | [] =>
      let! segs := wlift (parse_path (f_path f)) in
      let! r := rec (child_key site_filter e key) true (e_content e) segs in
      wret (filter_decide E (f_op f) (r_exists r) (r_string r) (f_value f))
  end.
(** filter.go:244-246 *)
Definition weval_filter_opt (E : env) (rec : wrec) (key : list nat) (f : option filt) (e : elem)
  : W bool :=
  match f with None => wret true | Some f => weval_filter E rec key f e end.

(** get.go:1741-1767 and 1958-1963; see [filter_elems]. *)
Fixpoint wfilter_elems (E : env) (rec : wrec) (key : list nat) (f : option filt) (l : list elem)
  : W (list elem) :=
  match l with
  | [] => wret []
  | e :: l' =>
      let! b := weval_filter_opt E rec key f e in
      let! r := wfilter_elems E rec key f l' in
      wret (if b then e :: r else r)
  end.
(** get.go:1741-1767; see [filter_elems_upto]. *)
Fixpoint wfilter_elems_upto (n : nat) (E : env) (rec : wrec) (key : list nat) (f : option filt)
         (l : list elem) : W (list elem) :=
  match l with
  | [] => wret []
  | e :: l' =>
      let! b := weval_filter_opt E rec key f e in
      if b then
        match n with
        | S (S n') =>
            let! r := wfilter_elems_upto (S n') E rec key f l' in wret (e :: r)
        | _ => wret [e]
        end
      else wfilter_elems_upto n E rec key f l'
  end.

Section Exec.
  Variable E : env.
  Variable rec : wrec.

  (** get.go:1785-1846; see [process_first]. *)
  Definition wprocess_first (key : list nat) (e : elem) (sg : seg) (rest : list seg) : W result :=
    match rest with
    | [] => wret (apply_modifiers E (r_element (e_content e)) (s_mods sg))
    | nx :: _ =>
        match s_type nx with
        | SAttr =>
            match map_get (s_value nx) (e_attrs e) with
            | Some v => wret (apply_modifiers E (r_attribute v) (s_mods nx))
            | None => wret r_null
            end
        | SText => wret (apply_modifiers E (r_text (e_content e)) (s_mods nx))
        | SField => wlift (field_extract E key [e] nx)
        | _ => rec (child_key site_query e key) false (e_content e) rest
        end
    end.

  (** get.go:1913-1922; see [query_each]. *)
  Fixpoint wquery_each (key : list nat) (l : list elem) (rest : list seg) : W (list result) :=
    match l with
    | [] => wret []
    | e :: l' =>
        let! r := rec (child_key site_query e key) false (e_content e) rest in
        let! rs := wquery_each key l' rest in
        wret (flatten1 r ++ rs)
    end.

  (** get.go:1849-1949; see [process_all]. *)
  Definition wprocess_all (key : list nat) (l : list elem) (sg : seg) (rest : list seg)
    : W result :=
    match rest with
    | [] => wret (apply_modifiers E (r_array (map (fun e => r_element (e_content e)) l)) (s_mods sg))
    | nx :: _ =>
        let finish all :=
          match all with
          | [] => wret r_null
          | _ :: _ => wret (apply_modifiers E (package all) (s_mods nx))
          end in
        match s_type nx with
        | SField => wlift (field_extract E key l nx)
        | SAttr =>
            finish (flat_map (fun e => match map_get (s_value nx) (e_attrs e) with
                                       | Some v => [r_attribute v]
                                       | None => [] end) l)
        | SText => finish (map (fun e => r_text (e_content e)) l)
        | _ => let! all := wquery_each key l rest in finish all
        end
    end.

  (** get.go:1769-1781 and 1965-1976; see [route_matches]. *)
  Definition wroute_matches (key : list nat) (l : list elem) (sg : seg) (rest : list seg)
    : W result :=
    match l with
    | [] => wret r_null
    | e :: _ => if s_all sg then wprocess_all key l sg rest else wprocess_first key e sg rest
    end.

  (** get.go:622-643; see [wild_each]. *)
  Fixpoint wwild_each (key : list nat) (l : list elem) (rest : list seg)
    : W (list result * bool) :=
    match l with
    | [] => wret ([], false)
    | e :: l' =>
        let! r := rec (child_key site_query e key) false (e_content e) rest in
        let! rs := wwild_each key l' rest in
        let empty := match r_type r, r_results r with RArray, [] => true | _, _ => false end in
        wret (flatten1 r ++ fst rs, empty || snd rs)
    end.
  (** get.go:566-678; see [handle_wildcard]. *)
  Definition whandle_wildcard (key : list nat) (l : list elem) (rest : list seg) : W result :=
    match rest with
    | [] => wret (package (map (fun e => r_element (e_content e)) l))
    | nx :: more =>
        let finish all empty :=
          match all with
          | [] => wret (if empty : bool then r_array [] else r_null)
          | _ :: _ => wret (apply_modifiers E (package all) (s_mods nx))
          end in
        match s_type nx with
        | SAttr =>
            finish (match more with
                    | [] => flat_map (fun e => match map_get (s_value nx) (e_attrs e) with
                                               | Some v => [r_attribute v]
                                               | None => [] end) l
                    | _ :: _ => []
                    end) false
        | SText => finish (map (fun e => r_text (e_content e)) l) false
        | _ => let! p := wwild_each key l rest in finish (fst p) (snd p)
        end
    end.

  (** get.go:761-804; see [search_add]. *)
  Definition wsearch_add (key : list nat) (e : elem) (rest : list seg) : W (list result) :=
    match rest with
    | [] => wret [r_element (e_content e)]
    | nx :: more =>
        match s_type nx with
        | SAttr =>
            wret (match map_get (s_value nx) (e_attrs e), more with
                  | Some v, [] => [r_attribute v]
                  | _, _ => []
                  end)
        | SText => wret [r_text (e_content e)]
        | SField =>
            let! r := wlift (field_extract E key [e] nx) in
            wret (match r_type r with RArray => r_results r | _ => [] end)
        | _ =>
            let! r := rec (child_key site_query e key) false (e_content e) rest in
            wret (flatten1 r)
        end
    end.
  (** get.go:711-809; see [rsearch]. *)
  Fixpoint wrsearch (n : nat) (key : list nat) (target : seg) (rest : list seg)
           (st : N * list result) (s : bytes) : W (N * list result) :=
    wtick (
    let ops := (fst st + 1)%N in
    match n with
    | O => wret (ops, snd st)
    | S n' =>
        if Nat.leb MaxWildcardResults (List.length (snd st)) || (MaxRecursiveOperations <=? ops)%N
        then wret (ops, snd st)
        else
          let! es := wlift (scan_res E key s) in
          (fix go (es : list elem) (st : N * list result) : W (N * list result) :=
             match es with
             | [] => wret st
             | e :: es' =>
                 let! st1 :=
                   (match e_content e with
                    | [] => wret st
                    | _ :: _ => wrsearch n' (child_key site_search e key) target rest st (e_content e)
                    end) in
                 if (MaxRecursiveOperations <=? fst st1)%N then wret st1
                 else if seg_matches target (e_name e) then
                   if Nat.leb MaxWildcardResults (List.length (snd st1)) then wret st1
                   else
                     let! add := wsearch_add key e rest in
                     go es' (fst st1, snd st1 ++ add)
                 else go es' st1
             end) es (ops, snd st)
    end).
  (** get.go:682-707; see [handle_recursive]. *)
  Definition whandle_recursive (key : list nat) (rest : list seg) (s : bytes) : W result :=
    match rest with
    | [] => wret r_null
    | target :: rest' =>
        let! st := wrsearch (S MaxNestingDepth) key target rest' (0%N, []) s in
        match snd st with
        | [] => wret r_null
        | l => wret (package l)
        end
    end.

  (** get.go:194-236; see [root_array]. *)
  Definition wroot_array (key : list nat) (l : list elem) (nx : seg) (more : list seg)
    : W result :=
    match l with
    | [] => wret r_null
    | _ :: _ =>
        match s_type nx with
        | SField => wlift (field_extract E key l nx)
        | SIndex =>
            match nth_elem l (s_index nx) with
            | None => wret r_null
            | Some e =>
                match more with
                | [] => wret (r_element (e_content e))
                | n2 :: _ =>
                    match s_type n2 with
                    | SAttr =>
                        wret (match map_get (s_value n2) (e_attrs e) with
                              | Some v => r_attribute v
                              | None => r_null
                              end)
                    | SText => wret (r_text (e_content e))
                    | _ => rec (child_key site_query e key) false (e_content e) more
                    end
                end
            end
        | _ => wret (r_count (List.length l))
        end
    end.

  (** get.go:490-557; see [array_op]. *)
  Definition warray_op (key : list nat) (l : list elem) (nx : seg) (more : list seg) : W result :=
    match l with
    | [] => wret r_null
    | _ :: _ =>
        match s_type nx with
        | SIndex =>
            match nth_elem l (s_index nx) with
            | None => wret r_null
            | Some e =>
                match more with
                | [] => wret (apply_modifiers E (r_element (e_content e)) (s_mods nx))
                | n2 :: more2 =>
                    match s_type n2 with
                    | SAttr =>
                        wret (match map_get (s_value n2) (e_attrs e) with
                              | Some v =>
                                  match more2 with
                                  | [] => apply_modifiers E (r_attribute v) (s_mods n2)
                                  | _ :: _ => r_attribute v
                                  end
                              | None => r_null
                              end)
                    | _ => rec (child_key site_query e key) false (e_content e) more
                    end
                end
            end
        | _ => wret (apply_modifiers E (r_count (List.length l)) (s_mods nx))
        end
    end.

  (** get.go:427-478; see [first_loop]. *)
  Fixpoint wfirst_loop (key : list nat) (l : list elem) (sg : seg) (rest : list seg) : W result :=
    match l with
    | [] => wret r_null
    | e :: l' =>
        match rest with
        | [] => wret (apply_modifiers E (r_element (e_content e)) (s_mods sg))
        | nx :: more =>
            match s_type nx with
            | SAttr =>
                match map_get (s_value nx) (e_attrs e), more with
                | Some v, [] => wret (apply_modifiers E (r_attribute v) (s_mods nx))
                | _, _ => wret r_null
                end
            | SText => wret (apply_modifiers E (r_text (e_content e)) (s_mods nx))
            | _ =>
                let! r := rec (child_key site_query e key) false (e_content e) rest in
                if is_null r then wfirst_loop key l' sg rest else wret r
            end
        end
    end.

  (** get.go:240-562; see [exec_element]. *)
  Definition wexec_element (key : list nat) (es : list elem) (sg : seg) (rest : list seg)
    : W result :=
    let ms := matching sg es in
    let capped := firstn MaxWildcardResults ms in
    match rest with
    | [] => wfirst_loop key ms sg rest
    | nx :: more =>
        match s_type nx with
        | SField => wlift (field_extract E key capped nx)
        | SFilter =>
            let! l := wfilter_elems E rec key (s_filter nx) capped in
            wroute_matches key l nx more
        | SIndex | SCount => warray_op key capped nx more
        | _ => wfirst_loop key ms sg rest
        end
    end.

  (** get.go:165-563; see [exec_body]. *)
  Definition wexec_body (key : list nat) (root : bool) (s : bytes) (segs : list seg) : W result :=
    match segs with
    | [] => wret r_null
    | sg :: rest =>
        let! es := wlift (scan_res E key s) in
        match s_type sg with
        | SElem =>
            match root, rest with
            | true, nx :: more =>
                match s_type nx with
                | SIndex | SCount | SField =>
                    wroot_array key
                      (firstn MaxWildcardResults
                         (filter (fun e => bytes_eqb (e_name e) (s_value sg)) es)) nx more
                | _ => wexec_element key es sg rest
                end
            | _, _ => wexec_element key es sg rest
            end
        | SFilter =>
            let! l := wfilter_elems_upto MaxWildcardResults E rec key (s_filter sg) es in
            wroute_matches key l sg rest
        | SField => wret (r_array [])
        | SIndex | SCount | SText | SAttr => wret r_null
        | SWild =>
            if s_wild sg then whandle_recursive key rest s
            else
              match firstn MaxWildcardResults es with
              | [] => wret r_null
              | ms =>
                  let! r := whandle_wildcard key ms rest in
                  wret (match rest with
                        | [] => apply_modifiers E r (s_mods sg)
                        | _ :: _ => r
                        end)
              end
        end
    end.
End Exec.

(** executeQuery (get.go:165-563); see [exec]. *)
Fixpoint wexec (E : env) (fuel : nat) (key : list nat) (root : bool) (s : bytes) (segs : list seg)
  : W result :=
  match fuel with
  | O => OutOfFuel
  | S f => wexec_body E (wexec E f) key root s segs
  end.

(** get.go:78-95; see [get]. *)
Definition wget (E : env) (xml path : bytes) : W result :=
  if (MaxDocumentSize <? blen xml)%N then wret r_null
  else
    let! segs := wlift (parse_path path) in
    match segs with
    | [] => wret r_null
    | _ :: _ => wexec E (query_fuel path) [] true xml segs
    end.
