(** Model of the methods of Result that query again: /repo/result.go:151-170, 270-786. *)
From Coq Require Import List Ascii String NArith ZArith Bool Lia SpecFloat.
From Verif Require Import GoStr ModelParser ModelPath ModelResult ModelQuery ModelBuilder ModelQueryOpts.
Import ListNotations.

(** result.go:722-786. [prev] is xml[i-1], [roots] rootCount, [depth] the nesting
    depth (it may become negative). *)
Fixpoint multi_loop (prev : option ascii) (roots : nat) (depth : Z) (in_tag self : bool) (s : bytes)
  : bool :=
  match s with
  | [] => false
  | c :: s' =>
      if negb in_tag then
        if Ascii.eqb c "<" then
          match s' with
          | [] => multi_loop (Some c) roots depth true false s'
          | n :: _ =>
              if Ascii.eqb n "/" || Ascii.eqb n "!" || Ascii.eqb n "?"
              then multi_loop (Some c) roots depth true false s'
              else if (depth =? 0)%Z then
                match roots with
                | O => multi_loop (Some c) 1 (depth + 1) true false s'
                | S _ => true
                end
              else multi_loop (Some c) roots (depth + 1) true false s'
          end
        else multi_loop (Some c) roots depth in_tag self s'
      else
        let slash_gt := Ascii.eqb c "/" && match s' with n :: _ => Ascii.eqb n ">" | [] => false end in
        let after_lt := match prev with Some p => Ascii.eqb p "<" | None => false end in
        let '(in_tag', self', d1) :=
          if slash_gt then (true, true, depth)
          else if Ascii.eqb c ">" then (false, false, if self then (depth - 1)%Z else depth)
          else (true, self, depth) in
        let d2 := if Ascii.eqb c "/" && after_lt then (d1 - 1)%Z else d1 in
        multi_loop (Some c) roots d2 in_tag' self' s'
  end.
Definition is_multi_root (s : bytes) : bool := multi_loop None 0 0 false false s.

(** result.go:294-297 *)
Definition wrap_open : bytes := bs "<_xmldot_root>".
Definition wrap_close : bytes := bs "</_xmldot_root>".
Definition wrap_path (p : bytes) : bytes := bs "_xmldot_root." ++ p.
Definition wrap (s : bytes) : bytes := wrap_open ++ s ++ wrap_close.

(** result.go:288-301 for an Element result. *)
Definition get_raw (E : env) (raw path : bytes) : Res result :=
  if is_multi_root raw then get E (wrap raw) (wrap_path path) else get E raw path.
(** result.go:270-302 *)
Fixpoint r_get (E : env) (r : result) (path : bytes) : Res result :=
  match r with
  | mkR t raw _ _ l =>
      match t with
      | RElement => get_raw E raw path
      | RArray => match l with x :: _ => r_get E x path | [] => Ok r_null end
      | _ => Ok r_null
      end
  end.
(** result.go:323-337 *)
Fixpoint r_get_each (E : env) (r : result) (paths : list bytes) : Res (list result) :=
  match paths with
  | [] => Ok []
  | p :: ps => let* x := r_get E r p in let* xs := r_get_each E r ps in Ok (x :: xs)
  end.
Definition r_get_many (E : env) (r : result) (paths : list bytes) : Res (list result) :=
  match r_type r with
  | RElement | RArray => r_get_each E r paths
  | _ => Ok (map (fun _ => r_null) paths)
  end.

(** result.go:392-405 for an Element result and non-default options. *)
Definition get_raw_opts (E : env) (o : options) (raw path : bytes) : Res result :=
  if is_multi_root raw then get_opts E o (wrap raw) (wrap_path path) else get_opts E o raw path.
Fixpoint r_get_custom (E : env) (o : options) (r : result) (path : bytes) : Res result :=
  match r with
  | mkR t raw _ _ l =>
      match t with
      | RElement => get_raw_opts E o raw path
      | RArray => match l with x :: _ => r_get_custom E o x path | [] => Ok r_null end
      | _ => Ok r_null
      end
  end.
(** result.go:364-406 *)
Definition r_get_opts (E : env) (o : options) (r : result) (path : bytes) : Res result :=
  if is_default_options o then r_get E r path else r_get_custom E o r path.

(** result.go:686-708 *)
Definition add_child (name : bytes) (child : result) (m : smap result) : smap result :=
  match map_get name m with
  | None => map_set name child m
  | Some x =>
      map_set name (if r_is_array x then r_array (r_results x ++ [child]) else r_array [x; child]) m
  end.
(** result.go:574-604 and 640-679; [keyf] is the identity or strings.ToLower. *)
Fixpoint add_children (keyf : bytes -> bytes) (m : smap result) (l : list elem) : smap result :=
  match l with
  | [] => m
  | e :: l' => add_children keyf (add_child (keyf (e_name e)) (r_element (e_content e)) m) l'
  end.
(** result.go:543-605 and 609-680 *)
Definition map_children (E : env) (keyf : bytes -> bytes) (s : bytes) : Res (smap result) :=
  if (MaxDocumentSize <? blen s)%N then Ok []
  else
    match s with
    | [] => Ok []
    | _ :: _ =>
        let m0 := match extract_direct s with
                  | [] => []
                  | t => [(bs "%", mkR RString t (unescape_xml t) f64_zero [])]
                  end in
        let* es := scan_res E [] s in
        Ok (add_children keyf m0 (firstn MaxWildcardResults es))
    end.
(** result.go:475-491 *)
Fixpoint r_map_with (E : env) (keyf : bytes -> bytes) (r : result) : Res (smap result) :=
  match r with
  | mkR t raw _ _ l =>
      match t with
      | RElement => map_children E keyf raw
      | RArray => match l with x :: _ => r_map_with E keyf x | [] => Ok [] end
      | _ => Ok []
      end
  end.
Definition r_map (E : env) (r : result) : Res (smap result) := r_map_with E (fun x => x) r.
(** result.go:517-538 *)
Definition r_map_opts (E : env) (o : options) (r : result) : Res (smap result) :=
  if is_default_options o then r_map E r
  else r_map_with E (if o_case o then (fun x => x) else e_to_lower E) r.

(** result.go:151-168 *)
Inductive govalue := GNil | GBool (b : bool) | GFloat (f : f64) | GStr (s : bytes) | GResults (l : list result).
Definition r_value (r : result) : govalue :=
  match r_type r with
  | RNull => GNil
  | RTrue => GBool true
  | RFalse => GBool false
  | RNumber => GFloat (r_num r)
  | RString | RElement | RAttribute => GStr (r_str r)
  | RArray => GResults (r_results r)
  end.
