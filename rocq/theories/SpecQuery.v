(** Queries on element trees; independent of the model of the library except
    for the type of results and their String(). *)
From Coq Require Import List Ascii String NArith ZArith Bool.
From Verif Require Import GoStr SpecText SpecPath SpecTree ModelResult.
Import ListNotations.

(** ** Text of a tree *)
(** All text in document order, and the text outside the child elements. *)
Fixpoint node_chars (nd : node) : bytes :=
  match nd with
  | Elem _ _ _ kids => flat_map node_chars kids
  | Text t => t
  | Misc _ => []
  end.
Definition all_text (F : list node) : bytes := flat_map node_chars F.
Definition own_text (F : list node) : bytes :=
  flat_map (fun nd => match nd with Text t => t | _ => [] end) F.

(** ** Names *)
Fixpoint split_colon (s : bytes) : option (bytes * bytes) :=
  match s with
  | [] => None
  | c :: s' =>
      if Ascii.eqb c ":" then Some ([], s')
      else match split_colon s' with Some (p, l) => Some (c :: p, l) | None => None end
  end.
(** A step without a prefix selects the names with that local part (the prefix has at
    most 256 bytes); a step with a prefix selects itself. *)
Definition selects (step name : bytes) : bool :=
  bytes_eqb name step ||
  match split_colon step, split_colon name with
  | None, Some (p, l) => Nat.leb (List.length p) 256 && bytes_eqb l step
  | _, _ => false
  end.
(** Names that can be used as steps. *)
Definition step_name (n : bytes) : Prop :=
  plain_name n /\ (~ In ":"%char n \/ exists p l, p <> [] /\ good_prefix p /\ n = qualified p l).

(** ** Queries *)
Definition is_elem (nd : node) : bool := match nd with Elem _ _ _ _ => true | _ => false end.
Definition elems (F : list node) : list node := filter is_elem F.
Definition kids_of (nd : node) : list node := match nd with Elem _ _ _ k => k | _ => [] end.
Definition attrs_of (nd : node) : list (bytes * bytes) := match nd with Elem _ a _ _ => a | _ => [] end.
Definition called (f : bytes -> bool) (F : list node) : list node :=
  filter (fun nd => match nd with Elem n _ _ _ => f n | _ => false end) F.
(** The value of an attribute. *)
Fixpoint attr_value (x : bytes) (a : list (bytes * bytes)) : option bytes :=
  match a with
  | [] => None
  | (n, v) :: a' => if bytes_eqb x n then Some v else attr_value x a'
  end.

(** A path: names with optional indexes, and what is asked for at the end. *)
Inductive final := TheElement | TheAttribute (a : bytes) | TheText | TheCount | TheChildren.
Definition tstep : Type := bytes * option bytes.
Definition tstep_steps (s : tstep) : list step :=
  match s with (n, None) => [Name n] | (n, Some ds) => [Name n; Nth ds] end.
Definition final_steps (fin : final) : list step :=
  match fin with
  | TheElement => [] | TheAttribute a => [Attr a] | TheText => [TextOf] | TheCount => [CountOf]
  | TheChildren => [AnyChild]
  end.
Definition tpath_steps (steps : list tstep) (fin : final) : list step :=
  flat_map tstep_steps steps ++ final_steps fin.
Definition tpath (steps : list tstep) (fin : final) : bytes :=
  steps_text (map (fun s => (s, [])) (tpath_steps steps fin)).
Definition good_tstep (s : tstep) : Prop :=
  step_name (fst s) /\ match snd s with Some ds => ds <> [] /\ Forall digit ds | None => True end.
Definition ends_in_index (steps : list tstep) : Prop := exists a n ds, steps = a ++ [(n, Some ds)].
(** Attribute names in a path have no modifier separator; text and counts are asked of
    names, not of indexed elements. *)
Definition good_final (steps : list tstep) (fin : final) : Prop :=
  match fin with
  | TheElement => steps <> []
  | TheAttribute a => ~ In "|"%char a /\ steps <> []
  | TheText | TheCount => ~ ends_in_index steps /\ steps <> []
  | TheChildren => True
  end.
Record good_tpath (steps : list tstep) (fin : final) : Prop := {
  gt_steps : Forall good_tstep steps;
  gt_final : good_final steps fin;
  gt_length : (List.length (tpath_steps steps fin) <= 100)%nat
}.

Inductive answer :=
| Nothing
| Element (kids : list node)
| Attribute (v : bytes)
| TextAnswer (kids : list node)
| Count (n : nat)
| Elements (l : list (list node)).
Definition final_answer (fin : final) (nd : node) : answer :=
  match fin with
  | TheElement => Element (kids_of nd)
  | TheAttribute x => match attr_value x (attrs_of nd) with Some v => Attribute v | None => Nothing end
  | TheText => TextAnswer (kids_of nd)
  | _ => Nothing
  end.
Fixpoint first_answer (f : node -> answer) (l : list node) : answer :=
  match l with
  | [] => Nothing
  | nd :: l' => match f nd with Nothing => first_answer f l' | a => a end
  end.
Definition list_answer (l : list node) : answer :=
  match l with
  | [] => Nothing
  | [nd] => Element (kids_of nd)
  | _ => Elements (map kids_of l)
  end.
Definition count_answer (n : nat) : answer := match n with 0 => Nothing | _ => Count n end.
(** The walk over the tree: the first match that leads to an answer. At most 1000
    siblings are counted, indexed or listed. A name followed by an index or a count at the
    top level is compared literally. *)
Fixpoint query (top : bool) (steps : list tstep) (fin : final) (F : list node) : answer :=
  match steps with
  | [] => match fin with TheChildren => list_answer (firstn 1000 (elems F)) | _ => Nothing end
  | (n, idx) :: rest =>
      let last := match rest, fin with [], TheChildren => false | [], _ => true | _, _ => false end in
      let at_elem := fun nd => if last then final_answer fin nd else query false rest fin (kids_of nd) in
      let exactly := firstn 1000 (called (if top then bytes_eqb n else selects n) F) in
      match idx with
      | Some ds =>
          match nth_error exactly (N.to_nat (decimal_value ds)) with
          | Some nd => at_elem nd
          | None => Nothing
          end
      | None =>
          if last then
            match fin with
            | TheCount => count_answer (List.length exactly)
            | _ => match called (selects n) F with nd :: _ => final_answer fin nd | [] => Nothing end
            end
          else first_answer at_elem (called (selects n) F)
      end
  end.

(** ** What a result says *)
(** The result is the element with these children; Raw may list the attributes of the
    descendants in another order. *)
Definition is_element (kids : list node) (r : result) : Prop :=
  r_type r = RElement /\ Decodes (trim_space (all_text kids)) (r_string r) /\ 
  exists kids', Forall2 same kids kids' /\ r_raw r = forest_text kids'.
Definition describes (r : result) (a : answer) : Prop :=
  match a with
  | Nothing => r_type r = RNull
  | Element kids => is_element kids r
  | Attribute v => r_type r = RAttribute /\ r_string r = v
  | TextAnswer kids => r_type r = RString /\ Decodes (trim_space (own_text kids)) (r_string r)
  | Count n =>
      r_type r = RNumber /\ r_num r = f64_of_Z (Z.of_nat n) /\ 
      Forall digit (r_string r) /\ decimal_value (r_string r) = N.of_nat n
  | Elements l => r_type r = RArray /\ Forall2 is_element l (r_results r)
  end.
(** Two results with the same kind, text, number and entries. *)
Definition alike (r1 r2 : result) : Prop :=
  r_type r1 = r_type r2 /\ r_string r1 = r_string r2 /\ r_num r1 = r_num r2 /\
  Forall2 (fun x y => r_type x = r_type y /\ r_string x = r_string y) (r_results r1) (r_results r2).
(** The first name of the path is not followed by an index or a count. *)
Definition no_array_start (steps : list tstep) (fin : final) : Prop :=
  match steps with
  | [] => True
  | (_, Some _) :: _ => False
  | (_, None) :: rest => rest <> [] \/ fin <> TheCount
  end.
