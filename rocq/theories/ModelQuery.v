(** Model of /repo/get.go (query evaluation, default options) and of filter
    evaluation in /repo/filter.go:243-393. *)
From Coq Require Import List Ascii String NArith ZArith Bool Lia SpecFloat.
From Verif Require Import GoStr ModelParser ModelPattern ModelPath ModelPretty ModelResult.
Import ListNotations.

(** get.go:97-105 *)
Definition MaxWildcardResults : nat := 1000.
Definition MaxRecursiveOperations : N := 10000.

(** filter.go:366-393; [i0] is true at index 0. *)
Fixpoint numeric_loop (i0 has_digit has_dot : bool) (s : bytes) : bool :=
  match s with
  | [] => has_digit
  | c :: s' =>
      if is_digit c then numeric_loop false true has_dot s'
      else if Ascii.eqb c "." then
        if has_dot then false else numeric_loop false has_digit true s'
      else if Ascii.eqb c "-" || Ascii.eqb c "+" then
        if i0 then numeric_loop false has_digit has_dot s' else false
      else if Ascii.eqb c "e" || Ascii.eqb c "E" then has_digit
      else false
  end.
Definition is_numeric_value (s : bytes) : bool :=
  match s with [] => false | _ :: _ => numeric_loop true false false s end.

(** math.IsInf(f, 0) || math.IsNaN(f) (filter.go:302) *)
Definition f64_special (f : f64) : bool :=
  match f with S754_infinity _ | S754_nan => true | _ => false end.

(** filter.go:309-320 *)
Definition num_cmp (op : fop) (a b : f64) : bool :=
  match op with
  | OpLt => SFltb a b
  | OpGt => SFltb b a
  | OpLe => SFleb a b
  | OpGe => SFleb b a
  | _ => false
  end.
(** filter.go:290-325 *)
Definition ordered_compare (E : env) (op : fop) (actual value : bytes) : bool :=
  if negb (is_numeric_value actual) || negb (is_numeric_value value) then false
  else
    match e_parse_float E actual, e_parse_float E value with
    | Some a, Some b => if f64_special a || f64_special b then false else num_cmp op a b
    | _, _ => false
    end.

Definition glob_chars : bytes := ["*"%char; "?"%char; backslash].
(** filter.go:327-354; [neg] for [!%]. *)
Definition pattern_compare (neg : bool) (actual pat : bytes) : bool :=
  if negb (contains_any glob_chars pat) then xorb neg (bytes_eqb actual pat)
  else
    let '(matched, stopped) := pattern_match actual pat MaxPatternIterations in
    if stopped then false else xorb neg matched.

(** filter.go:269-356: the decision once the value has been looked up. *)
Definition filter_decide (E : env) (op : fop) (exi : bool) (actual value : bytes) : bool :=
  match op with
  | OpExists => exi
  | _ =>
      if negb exi then false
      else
        match op with
        | OpEq => bytes_eqb actual value
        | OpNe => negb (bytes_eqb actual value)
        | OpLt | OpGt | OpLe | OpGe => ordered_compare E op actual value
        | OpMatch => pattern_compare false actual value
        | OpNotMatch => pattern_compare true actual value
        | OpExists => exi
        end
  end.

(** Keys of the scanners created for the content of an element, see [order]. *)
Definition site_filter : nat := 0.
Definition site_query : nat := 1.
Definition site_search : nat := 2.
Definition site_field : nat := 3.
Definition child_key (site : nat) (e : elem) (key : list nat) : list nat :=
  site :: List.length (e_start e) :: key.

(** A recursive call of executeQuery: scanner key, segIndex == 0, data, remaining
    segments [segments[segIndex:]]. *)
Definition qrec := list nat -> bool -> bytes -> list seg -> Res result.

Definition scan_res (E : env) (key : list nat) (s : bytes) : Res (list elem) :=
  match scan (e_ord E) key s with Some l => Ok l | None => OutOfFuel end.

(** filter.go:243-357 with depth 0. *)
Definition eval_filter (E : env) (rec : qrec) (key : list nat) (f : filt) (e : elem) : Res bool :=
  match f_path f with
  | c :: name =>
      if Ascii.eqb c "@" then
        match map_get name (e_attrs e) with
        | Some v => Ok (filter_decide E (f_op f) true v (f_value f))
        | None => Ok (filter_decide E (f_op f) false [] (f_value f))
        end
      else
        let* segs := parse_path (f_path f) in
        let* r := rec (child_key site_filter e key) true (e_content e) segs in
        Ok (filter_decide E (f_op f) (r_exists r) (r_string r) (f_value f))
  | [] =>
      let* segs := parse_path (f_path f) in
      let* r := rec (child_key site_filter e key) true (e_content e) segs in
      Ok (filter_decide E (f_op f) (r_exists r) (r_string r) (f_value f))
  end.
(** filter.go:244-246: a nil filter accepts. *)
Definition eval_filter_opt (E : env) (rec : qrec) (key : list nat) (f : option filt) (e : elem)
  : Res bool :=
  match f with None => Ok true | Some f => eval_filter E rec key f e end.

(** get.go:1741-1767 and 1958-1963: keep the elements accepted by the filter. *)
Fixpoint filter_elems (E : env) (rec : qrec) (key : list nat) (f : option filt) (l : list elem)
  : Res (list elem) :=
  match l with
  | [] => Ok []
  | e :: l' =>
      let* b := eval_filter_opt E rec key f e in
      let* r := filter_elems E rec key f l' in
      Ok (if b then e :: r else r)
  end.
(** get.go:1741-1767: stops at [n] = MaxWildcardResults accepted elements. *)
Fixpoint filter_elems_upto (n : nat) (E : env) (rec : qrec) (key : list nat) (f : option filt)
         (l : list elem) : Res (list elem) :=
  match l with
  | [] => Ok []
  | e :: l' =>
      let* b := eval_filter_opt E rec key f e in
      if b then
        match n with
        | S (S n') =>
            let* r := filter_elems_upto (S n') E rec key f l' in Ok (e :: r)
        | _ => Ok [e]
        end
      else filter_elems_upto n E rec key f l'
  end.

(** get.go:1551-1580: children named exactly [field]. *)
Fixpoint field_children (E : env) (key : list nat) (field : bytes) (l : list elem)
  : Res (list result) :=
  match l with
  | [] => Ok []
  | e :: l' =>
      let* cs := scan_res E (child_key site_field e key) (e_content e) in
      let* r := field_children E key field l' in
      Ok (map (fun c => r_element (e_content c))
              (filter (fun c => bytes_eqb (e_name c) field) cs) ++ r)
  end.
(** get.go:1500-1601. The running limit on totalExtracted is a truncation of the
    list of extracted values to MaxWildcardResults. *)
Definition field_extract (E : env) (key : list nat) (l : list elem) (sg : seg) : Res result :=
  match s_field sg with
  | [] => Ok r_null
  | c :: name =>
      let* all :=
        (if Ascii.eqb c "@" then
           Ok (flat_map (fun e => match map_get name (e_attrs e) with
                                  | Some v => [r_attribute v]
                                  | None => [] end) l)
         else if bytes_eqb (s_field sg) (bs "%") then
           Ok (flat_map (fun e => match extract_direct (e_content e) with
                                  | [] => []
                                  | t => [mkR RString t (unescape_xml t) f64_zero []] end) l)
         else field_children E key (s_field sg) l) in
      match firstn MaxWildcardResults all with
      | [] => Ok (r_array [])
      | rs => Ok (apply_modifiers E (r_array rs) (s_mods sg))
      end
  end.

(** Packaging used by get.go:656-667, 696-706, 1931-1940: one result stands for
    itself, several form an array. *)
Definition package (l : list result) : result :=
  match l with [x] => x | _ => r_array l end.
(** get.go:636-642 and elsewhere: arrays are flattened, Null contributes nothing. *)
Definition flatten1 (r : result) : list result :=
  match r_type r with
  | RNull => []
  | RArray => r_results r
  | _ => [r]
  end.

Section Exec.
  Variable E : env.
  Variable rec : qrec.

  (** get.go:1785-1846; [segs] is segments[segIndex:]. *)
  Definition process_first (key : list nat) (e : elem) (sg : seg) (rest : list seg) : Res result :=
    match rest with
    | [] => Ok (apply_modifiers E (r_element (e_content e)) (s_mods sg))
    | nx :: _ =>
        match s_type nx with
        | SAttr =>
            match map_get (s_value nx) (e_attrs e) with
            | Some v => Ok (apply_modifiers E (r_attribute v) (s_mods nx))
            | None => Ok r_null
            end
        | SText => Ok (apply_modifiers E (r_text (e_content e)) (s_mods nx))
        | SField => field_extract E key [e] nx
        | _ => rec (child_key site_query e key) false (e_content e) rest
        end
    end.

  (** The recursive calls of get.go:1913-1922 for each match, flattened. *)
  Fixpoint query_each (key : list nat) (l : list elem) (rest : list seg) : Res (list result) :=
    match l with
    | [] => Ok []
    | e :: l' =>
        let* r := rec (child_key site_query e key) false (e_content e) rest in
        let* rs := query_each key l' rest in
        Ok (flatten1 r ++ rs)
    end.

  (** get.go:1849-1949 *)
  Definition process_all (key : list nat) (l : list elem) (sg : seg) (rest : list seg)
    : Res result :=
    match rest with
    | [] => Ok (apply_modifiers E (r_array (map (fun e => r_element (e_content e)) l)) (s_mods sg))
    | nx :: _ =>
        let finish all :=
          match all with
          | [] => Ok r_null
          | _ :: _ => Ok (apply_modifiers E (package all) (s_mods nx))
          end in
        match s_type nx with
        | SField => field_extract E key l nx
        | SAttr =>
            finish (flat_map (fun e => match map_get (s_value nx) (e_attrs e) with
                                       | Some v => [r_attribute v]
                                       | None => [] end) l)
        | SText => finish (map (fun e => r_text (e_content e)) l)
        | _ => let* all := query_each key l rest in finish all
        end
    end.

  (** get.go:1769-1781 and 1965-1976 *)
  Definition route_matches (key : list nat) (l : list elem) (sg : seg) (rest : list seg)
    : Res result :=
    match l with
    | [] => Ok r_null
    | e :: _ => if s_all sg then process_all key l sg rest else process_first key e sg rest
    end.

  (** get.go:622-643: recursive calls of handleWildcardMatches; the boolean is
      hasFieldExtraction. *)
  Fixpoint wild_each (key : list nat) (l : list elem) (rest : list seg)
    : Res (list result * bool) :=
    match l with
    | [] => Ok ([], false)
    | e :: l' =>
        let* r := rec (child_key site_query e key) false (e_content e) rest in
        let* rs := wild_each key l' rest in
        let empty := match r_type r, r_results r with RArray, [] => true | _, _ => false end in
        Ok (flatten1 r ++ fst rs, empty || snd rs)
    end.
  (** get.go:566-678 *)
  Definition handle_wildcard (key : list nat) (l : list elem) (rest : list seg) : Res result :=
    match rest with
    | [] => Ok (package (map (fun e => r_element (e_content e)) l))
    | nx :: more =>
        let finish all empty :=
          match all with
          | [] => Ok (if empty : bool then r_array [] else r_null)
          | _ :: _ => Ok (apply_modifiers E (package all) (s_mods nx))
          end in
        match s_type nx with
        | SAttr =>
            finish (match more with
                    | [] => flat_map (fun e => match map_get (s_value nx) (e_attrs e) with
                                               | Some v => [r_attribute v]
                                               | None => [] end) l
                    | _ :: _ => []
                    end) false
        | SText => finish (map (fun e => r_text (e_content e)) l) false
        | _ => let* p := wild_each key l rest in finish (fst p) (snd p)
        end
    end.

  (** get.go:761-804: what one matching element contributes to a ** search;
      [rest] is segments[segIndex+1:]. *)
  Definition search_add (key : list nat) (e : elem) (rest : list seg) : Res (list result) :=
    match rest with
    | [] => Ok [r_element (e_content e)]
    | nx :: more =>
        match s_type nx with
        | SAttr =>
            Ok (match map_get (s_value nx) (e_attrs e), more with
                | Some v, [] => [r_attribute v]
                | _, _ => []
                end)
        | SText => Ok [r_text (e_content e)]
        | SField =>
            let* r := field_extract E key [e] nx in
            Ok (match r_type r with RArray => r_results r | _ => [] end)
        | _ =>
            let* r := rec (child_key site_query e key) false (e_content e) rest in
            Ok (flatten1 r)
        end
    end.
  (** get.go:711-809. [n] is MaxNestingDepth + 1 - depth; the state is
      (ctx.operations, *ctx.results). *)
  Fixpoint rsearch (n : nat) (key : list nat) (target : seg) (rest : list seg)
           (st : N * list result) (s : bytes) : Res (N * list result) :=
    let ops := (fst st + 1)%N in
    match n with
    | O => Ok (ops, snd st)
    | S n' =>
        if Nat.leb MaxWildcardResults (List.length (snd st)) || (MaxRecursiveOperations <=? ops)%N
        then Ok (ops, snd st)
        else
          let* es := scan_res E key s in
          (fix go (es : list elem) (st : N * list result) : Res (N * list result) :=
             match es with
             | [] => Ok st
             | e :: es' =>
                 let* st1 :=
                   (match e_content e with
                    | [] => Ok st
                    | _ :: _ => rsearch n' (child_key site_search e key) target rest st (e_content e)
                    end) in
                 if (MaxRecursiveOperations <=? fst st1)%N then Ok st1
                 else if seg_matches target (e_name e) then
                   if Nat.leb MaxWildcardResults (List.length (snd st1)) then Ok st1
                   else
                     let* add := search_add key e rest in
                     go es' (fst st1, snd st1 ++ add)
                 else go es' st1
             end) es (ops, snd st)
    end.
  (** get.go:682-707 *)
  Definition handle_recursive (key : list nat) (rest : list seg) (s : bytes) : Res result :=
    match rest with
    | [] => Ok r_null
    | target :: rest' =>
        let* st := rsearch (S MaxNestingDepth) key target rest' (0%N, []) s in
        match snd st with
        | [] => Ok r_null
        | l => Ok (package l)
        end
    end.

  (** matches[idx] for 0 <= idx < len(matches) *)
  Definition nth_elem (l : list elem) (idx : Z) : option elem :=
    if ((0 <=? idx) && (idx <? Z.of_nat (List.length l)))%Z
    then nth_error l (Z.to_nat idx) else None.

  (** get.go:194-236: array operation on the roots of a fragment. *)
  Definition root_array (key : list nat) (l : list elem) (nx : seg) (more : list seg)
    : Res result :=
    match l with
    | [] => Ok r_null
    | _ :: _ =>
        match s_type nx with
        | SField => field_extract E key l nx
        | SIndex =>
            match nth_elem l (s_index nx) with
            | None => Ok r_null
            | Some e =>
                match more with
                | [] => Ok (r_element (e_content e))
                | n2 :: _ =>
                    match s_type n2 with
                    | SAttr =>
                        Ok (match map_get (s_value n2) (e_attrs e) with
                            | Some v => r_attribute v
                            | None => r_null
                            end)
                    | SText => Ok (r_text (e_content e))
                    | _ => rec (child_key site_query e key) false (e_content e) more
                    end
                end
            end
        | _ => Ok (r_count (List.length l))
        end
    end.

  (** get.go:490-557: index or count on collected matches. *)
  Definition array_op (key : list nat) (l : list elem) (nx : seg) (more : list seg) : Res result :=
    match l with
    | [] => Ok r_null
    | _ :: _ =>
        match s_type nx with
        | SIndex =>
            match nth_elem l (s_index nx) with
            | None => Ok r_null
            | Some e =>
                match more with
                | [] => Ok (apply_modifiers E (r_element (e_content e)) (s_mods nx))
                | n2 :: more2 =>
                    match s_type n2 with
                    | SAttr =>
                        Ok (match map_get (s_value n2) (e_attrs e) with
                            | Some v =>
                                match more2 with
                                | [] => apply_modifiers E (r_attribute v) (s_mods n2)
                                | _ :: _ => r_attribute v
                                end
                            | None => r_null
                            end)
                    | _ => rec (child_key site_query e key) false (e_content e) more
                    end
                end
            end
        | _ => Ok (apply_modifiers E (r_count (List.length l)) (s_mods nx))
        end
    end.

  (** get.go:427-478: first-match processing of the generic loop, over the matching
      elements in order. *)
  Fixpoint first_loop (key : list nat) (l : list elem) (sg : seg) (rest : list seg) : Res result :=
    match l with
    | [] => Ok r_null
    | e :: l' =>
        match rest with
        | [] => Ok (apply_modifiers E (r_element (e_content e)) (s_mods sg))
        | nx :: more =>
            match s_type nx with
            | SAttr =>
                match map_get (s_value nx) (e_attrs e), more with
                | Some v, [] => Ok (apply_modifiers E (r_attribute v) (s_mods nx))
                | _, _ => Ok r_null
                end
            | SText => Ok (apply_modifiers E (r_text (e_content e)) (s_mods nx))
            | _ =>
                let* r := rec (child_key site_query e key) false (e_content e) rest in
                if is_null r then first_loop key l' sg rest else Ok r
            end
        end
    end.

  Definition matching (sg : seg) (es : list elem) : list elem :=
    filter (fun e => seg_matches sg (e_name e)) es.

  (** get.go:240-562 for an element segment below the fragment-root case. *)
  Definition exec_element (key : list nat) (es : list elem) (sg : seg) (rest : list seg)
    : Res result :=
    let ms := matching sg es in
    let capped := firstn MaxWildcardResults ms in
    match rest with
    | [] => first_loop key ms sg rest
    | nx :: more =>
        match s_type nx with
        | SField => field_extract E key capped nx
        | SFilter =>
            let* l := filter_elems E rec key (s_filter nx) capped in
            route_matches key l nx more
        | SIndex | SCount => array_op key capped nx more
        | _ => first_loop key ms sg rest
        end
    end.

  (** get.go:165-563. A segment of type attribute makes the loop at get.go:372-381
      skip every element, so the result is Null. *)
  Definition exec_body (key : list nat) (root : bool) (s : bytes) (segs : list seg) : Res result :=
    match segs with
    | [] => Ok r_null
    | sg :: rest =>
        let* es := scan_res E key s in
        match s_type sg with
        | SElem =>
            match root, rest with
            | true, nx :: more =>
                match s_type nx with
                | SIndex | SCount | SField =>
                    root_array key
                      (firstn MaxWildcardResults
                         (filter (fun e => bytes_eqb (e_name e) (s_value sg)) es)) nx more
                | _ => exec_element key es sg rest
                end
            | _, _ => exec_element key es sg rest
            end
        | SFilter =>
            let* l := filter_elems_upto MaxWildcardResults E rec key (s_filter sg) es in
            route_matches key l sg rest
        | SField => Ok (r_array [])
        | SIndex | SCount | SText | SAttr => Ok r_null
        | SWild =>
            if s_wild sg then handle_recursive key rest s
            else
              match firstn MaxWildcardResults es with
              | [] => Ok r_null
              | ms =>
                  let* r := handle_wildcard key ms rest in
                  Ok (match rest with
                      | [] => apply_modifiers E r (s_mods sg)
                      | _ :: _ => r
                      end)
              end
        end
    end.
End Exec.

(** executeQuery (get.go:165-563) with recursion fuel. *)
Fixpoint exec (E : env) (fuel : nat) (key : list nat) (root : bool) (s : bytes) (segs : list seg)
  : Res result :=
  match fuel with
  | O => OutOfFuel
  | S f => exec_body E (exec E f) key root s segs
  end.

(** Fuel that suffices for a path of the given length (proved in ProofFuel.v). *)
Definition query_fuel (path : bytes) : nat := 2 * List.length path + 2.

(** get.go:78-95. Get, GetString and GetBytes (get.go:61-73) only convert their
    argument to a byte slice and are this function. *)
Definition get (E : env) (xml path : bytes) : Res result :=
  if (MaxDocumentSize <? blen xml)%N then Ok r_null
  else
    let* segs := parse_path path in
    match segs with
    | [] => Ok r_null
    | _ :: _ => exec E (query_fuel path) [] true xml segs
    end.
(** get.go:817-823 *)
Fixpoint get_many (E : env) (xml : bytes) (paths : list bytes) : Res (list result) :=
  match paths with
  | [] => Ok []
  | p :: ps => let* r := get E xml p in let* rs := get_many E xml ps in Ok (r :: rs)
  end.

(** A deterministic environment used only in examples: identity map order, no
    custom modifiers, a decimal-integer float parser. *)
Definition env0 : env :=
  mkEnv (fun _ l => l)
        (fun s => match parse_int64 s with inl v => Some (f64_of_Z v) | inr _ => None end)
        (fun _ l => l) no_codec to_lower_ascii (fun _ => None).
