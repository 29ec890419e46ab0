(** Queries with wildcards, searches, conditions and field lists, as walks over the element
    tree; independent of the model of the library except for the types of results and
    operators. *)
From Coq Require Import List Ascii String NArith ZArith Bool.
From Verif Require Import GoStr SpecText SpecPath SpecTree SpecQuery SpecEdit SpecContent SpecFilter ModelPath ModelResult.
Import ListNotations.

(** ** Syntax *)
(** A condition: what it is about, an operator and a literal. *)
Inductive subject := OfAttr (x : bytes) | OfPath (steps : list tstep) (fin : final).
Record condition := mkCond { c_about : subject; c_op : fop; c_lit : bytes }.
Definition subject_text (s : subject) : bytes :=
  match s with OfAttr x => "@"%char :: x | OfPath steps fin => tpath steps fin end.
Definition op_symbol (op : fop) : bytes :=
  match op with
  | OpEq => bs "==" | OpNe => bs "!=" | OpLt => bs "<" | OpGt => bs ">" | OpLe => bs "<="
  | OpGe => bs ">=" | OpMatch => bs "%" | OpNotMatch => bs "!%" | OpExists => []
  end.
Definition condition_text (c : condition) : bytes :=
  subject_text (c_about c) ++
  match c_op c with OpExists => [] | op => op_symbol op ++ [squote] ++ c_lit c ++ [squote] end.

(** Which of the children with a name: one that leads on, one by number, those (or the
    first) satisfying a condition. *)
Inductive which := Leading | Number (ds : bytes) | Where (c : condition) (all : bool).
Inductive qstep :=
| Child (n : bytes) (w : which)
(** Any child: * *)
| AnyKid
(** Any child satisfying a condition: #(c) or #(c)# after a step other than a name *)
| Kid (c : condition) (all : bool)
(** Any descendant, or any with a name: **.* and **.n *)
| Descendant (n : option bytes).
Inductive field := FieldName (n : bytes) | FieldAttr (x : bytes) | FieldText.
Inductive qend := EElement | EAttr (x : bytes) | EText | ECount | EField (f : field).

Definition where_text (c : condition) (all : bool) : bytes :=
  bs "#(" ++ condition_text c ++ bs ")" ++ (if all then bs "#" else []).
Definition qstep_parts (s : qstep) : list bytes :=
  match s with
  | Child n Leading => [n]
  | Child n (Number ds) => [n; ds]
  | Child n (Where c all) => [n; where_text c all]
  | AnyKid => [bs "*"]
  | Kid c all => [where_text c all]
  | Descendant (Some n) => [bs "**"; n]
  | Descendant None => [bs "**"; bs "*"]
  end.
Definition field_text (f : field) : bytes :=
  match f with FieldName n => n | FieldAttr x => "@"%char :: x | FieldText => bs "%" end.
Definition qend_parts (e : qend) : list bytes :=
  match e with
  | EElement => [] | EAttr x => ["@"%char :: x] | EText => [bs "%"] | ECount => [bs "#"]
  | EField f => [bs "#"; field_text f]
  end.
Definition query_parts (steps : list qstep) (e : qend) : list bytes := flat_map qstep_parts steps ++ qend_parts e.
Definition query_text (steps : list qstep) (e : qend) : bytes := path_text (query_parts steps e).

Definition good_subject (s : subject) : Prop :=
  operand (subject_text s) /\ op_free (subject_text s) /\
  match s with OfAttr _ => True | OfPath steps fin => good_tpath steps fin /\ fin <> TheChildren end.
Definition good_condition (c : condition) : Prop :=
  good_subject (c_about c) /\ ~ In "|"%char (condition_text c) /\ (List.length (condition_text c) <= 256)%nat /\
  no_control (c_lit c) /\ (c_op c = OpExists -> c_lit c = []) /\
  (In (c_op c) [OpLt; OpGt; OpMatch] -> ~ In "="%char (c_lit c) /\ ~ In "!"%char (c_lit c)).
Definition good_which (w : which) : Prop :=
  match w with Leading => True | Number ds => ds <> [] /\ Forall digit ds | Where c _ => good_condition c end.
Definition good_qstep (s : qstep) : Prop :=
  match s with
  | Child n w => step_name n /\ good_which w
  | AnyKid | Descendant None => True
  | Kid c _ => good_condition c
  | Descendant (Some n) => step_name n
  end.
(** Names of fields are identifiers of at most 256 bytes. *)
Definition field_name (n : bytes) : Prop :=
  (exists c r, n = c :: r /\ (letter c \/ c = "_"%char)) /\
  (forall c, In c n -> letter c \/ digit c \/ In c (bs "-_:")) /\ (List.length n < 256)%nat.
Definition good_field (f : field) : Prop :=
  match f with FieldName n => field_name n | FieldAttr x => field_name x | FieldText => True end.
(** A condition directly after a name belongs to the name. *)
Fixpoint well_split (steps : list qstep) : Prop :=
  match steps with
  | Child _ Leading :: Kid _ _ :: _ => False
  | _ :: rest => well_split rest
  | [] => True
  end.
(** Counts are asked of names, fields of names, conditions and searches, texts not of
    numbered children. *)
Definition good_qend (steps : list qstep) (e : qend) : Prop :=
  match e with
  | EElement => True
  | EAttr x => ~ In "|"%char x
  | EText => forall a n ds, steps <> a ++ [Child n (Number ds)]
  | ECount => exists a n, steps = a ++ [Child n Leading]
  | EField f => good_field f /\ forall a, steps <> a ++ [AnyKid] /\ forall n ds, steps <> a ++ [Child n (Number ds)]
  end.
Record good_query (steps : list qstep) (e : qend) : Prop := {
  gq_some : steps <> [];
  gq_steps : Forall good_qstep steps;
  gq_split : well_split steps;
  gq_end : good_qend steps e;
  gq_length : (List.length (query_parts steps e) <= 100)%nat
}.

(** ** Meaning *)
Inductive item :=
| AnElement (kids : list node)
| AnAttribute (v : bytes)
| AText (kids : list node)
| ACount (n : nat).
Inductive reply := NoReply | One (i : item) | Many (l : list item).
Definition items (r : reply) : list item := match r with NoReply => [] | One i => [i] | Many l => l end.
Definition pack (l : list item) : reply := match l with [] => NoReply | [i] => One i | _ => Many l end.
Definition element (nd : node) : item := AnElement (kids_of nd).
Definition attribute (x : bytes) (nd : node) : list item :=
  match attr_value x (attrs_of nd) with Some v => [AnAttribute v] | None => [] end.
(** At most 1000 fields: the children with the very name, the attributes, the texts. *)
Definition fields_of (f : field) (nd : node) : list item :=
  match f with
  | FieldName n => map element (called (bytes_eqb n) (kids_of nd))
  | FieldAttr x => attribute x nd
  | FieldText => match trim_space (own_text (kids_of nd)) with [] => [] | _ => [AText (kids_of nd)] end
  end.
Definition fields (f : field) (l : list node) : reply := Many (firstn 1000 (flat_map (fields_of f) l)).
Definition leaf (e : qend) (nd : node) : reply :=
  match e with
  | EElement => One (element nd)
  | EAttr x => pack (attribute x nd)
  | EText => One (AText (kids_of nd))
  | ECount => NoReply
  | EField f => fields f [nd]
  end.
Fixpoint first_reply (f : node -> reply) (l : list node) : reply :=
  match l with
  | [] => NoReply
  | nd :: l' => match f nd with NoReply => first_reply f l' | r => r end
  end.
(** The elements below, children before their parents. *)
Fixpoint post_node (nd : node) : list node :=
  match nd with Elem _ _ _ kids => flat_map post_node kids ++ [nd] | _ => [] end.
Definition post (F : list node) : list node := flat_map post_node F.
(** Contributions are collected until there are 1000 entries. *)
Definition gather (l : list (list item)) : list item :=
  fold_left (fun acc c => if Nat.leb 1000 (List.length acc) then acc else acc ++ c) l [].
Definition is_empty_list (r : reply) : bool := match r with Many [] => true | _ => false end.

Section Meaning.
  (** Which nodes satisfy which conditions. *)
  Variable sat : condition -> node -> bool.
  Variable e : qend.

  Fixpoint ask (top : bool) (steps : list qstep) (F : list node) : reply :=
    match steps with
    | [] => NoReply
    | s :: rest =>
        let go_on := fun nd => match rest with [] => leaf e nd | _ => ask false rest (kids_of nd) end in
        (* the first of the nodes, or all of them *)
        let chosen := fun (all : bool) l =>
          match l with
          | [] => NoReply
          | nd :: _ =>
              if all then
                match rest, e with
                | [], EElement => Many (map element l)
                | [], EField f => fields f l
                | _, _ => pack (flat_map (fun nd => items (go_on nd)) l)
                end
              else go_on nd
          end in
        match s with
        | Child n w =>
            let named := called (selects n) F in
            (* at the top level, lists of children are made by literal names *)
            let listed := firstn 1000 (called (if top then bytes_eqb n else selects n) F) in
            match w with
            | Number ds => match nth_error listed (N.to_nat (decimal_value ds)) with Some nd => go_on nd | None => NoReply end
            | Where c all => chosen all (filter (sat c) (firstn 1000 named))
            | Leading =>
                match rest, e with
                | [], ECount => match listed with [] => NoReply | _ => One (ACount (List.length listed)) end
                | [], EField f => match listed with [] => if top then NoReply else Many [] | _ => fields f listed end
                | [], _ => match named with nd :: _ => go_on nd | [] => NoReply end
                | _, _ => first_reply go_on named
                end
            end
        | AnyKid =>
            let replies := map go_on (firstn 1000 (elems F)) in
            match flat_map items replies with
            | [] => if existsb is_empty_list replies then Many [] else NoReply
            | l => pack l
            end
        | Kid c all => chosen all (firstn 1000 (filter (sat c) (elems F)))
        | Descendant n =>
            pack (gather (map (fun nd => items (go_on nd))
              (called (match n with Some n => selects n | None => fun _ => true end) (post F))))
        end
    end.
End Meaning.

(** ** Truth of conditions *)
(** The text of a plain answer; None if there is none. *)
Inductive told : answer -> option bytes -> Prop :=
| told_nothing : told Nothing None
| told_element : forall kids t, Decodes (trim_space (all_text kids)) t -> told (Element kids) (Some t)
| told_attribute : forall v, told (Attribute v) (Some v)
| told_text : forall kids t, Decodes (trim_space (own_text kids)) t -> told (TextAnswer kids) (Some t)
| told_count : forall n, told (Count n) (Some (decimal (Z.of_nat n))).
Definition about (s : subject) (nd : node) (o : option bytes) : Prop :=
  match s with
  | OfAttr x => o = attr_value x (attrs_of nd)
  | OfPath steps fin => told (query true steps fin (kids_of nd)) o
  end.
Definition true_of (pf : bytes -> option f64) (c : condition) (nd : node) : Prop :=
  exists o, about (c_about c) nd o /\ holds pf (c_op c) o (c_lit c).

(** ** What a result says *)
Definition item_is (i : item) (r : result) : Prop :=
  match i with
  | AnElement kids => describes r (Element kids)
  | AnAttribute v => describes r (Attribute v)
  | AText kids => describes r (TextAnswer kids)
  | ACount n => describes r (Count n) /\ r_string r = decimal (Z.of_nat n)
  end.
Definition says (r : result) (a : reply) : Prop :=
  match a with
  | NoReply => r_type r = RNull
  | One i => item_is i r
  | Many l => r_type r = RArray /\ Forall2 item_is l (r_results r)
  end.
(** The number of elements. *)
Definition elements (F : list node) : N := N.of_nat (List.length (post F)).

(** Two results a caller cannot tell apart by kind, text and entries. *)
Definition same_reading (r1 r2 : result) : Prop :=
  r_type r1 = r_type r2 /\ (r_type r1 <> RNull -> r_type r1 <> RArray -> r_string r1 = r_string r2) /\
  (r_type r1 = RArray ->
   Forall2 (fun x y => r_type x = r_type y /\ r_string x = r_string y) (r_results r1) (r_results r2)).
(** The elements of a forest at any depth. *)
Inductive inside (nd : node) : list node -> Prop :=
| inside_here : forall F, In nd F -> is_elem nd = true -> inside nd F
| inside_below : forall F k, In k F -> inside nd (kids_of k) -> inside nd F.
(** [l] keeps exactly the nodes of a list that satisfy a predicate, in order. *)
Inductive sublist_by (P : node -> Prop) : list node -> list node -> Prop :=
| sub_nil : sublist_by P [] []
| sub_keep : forall x l l', P x -> sublist_by P l l' -> sublist_by P (x :: l) (x :: l')
| sub_drop : forall x l l', ~ P x -> sublist_by P l l' -> sublist_by P (x :: l) l'.
