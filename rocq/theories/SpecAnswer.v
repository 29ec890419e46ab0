(** The answer to every query on every text; independent of the model of the library except
    for the types of results, operators and elements, and for String() of a result. The
    relation allows for the order of attributes, which is not fixed. *)
From Coq Require Import List Ascii String NArith ZArith Bool SpecFloat Permutation.
From Verif Require Import GoStr ModelParser ModelPath ModelResult SpecText SpecPath SpecTree SpecContent SpecFilter
  SpecGrammar SpecScan.
Import ListNotations.

(** ** Text of an element *)
(** A prefix after which no tag is open. *)
Definition outside (p : bytes) : Prop := forall a b, p = a ++ "<"%char :: b -> In ">"%char b.
Definition angle (c : ascii) : Prop := c = "<"%char \/ c = ">"%char.
(** The characters outside tags whose prefix satisfies [P]. *)
Inductive chars (P : bytes -> Prop) : bytes -> bytes -> bytes -> Prop :=
| chars_end : forall p, chars P p [] []
| chars_keep : forall p c s t, ~ angle c -> outside p -> P p -> chars P (p ++ [c]) s t -> chars P p (c :: s) (c :: t)
| chars_drop : forall p c s t, angle c \/ ~ outside p \/ ~ P p -> chars P (p ++ [c]) s t -> chars P p (c :: s) t.
(** How many elements are open after a prefix, judged by neighbouring characters. *)
Definition neighbours (p : bytes) : list (ascii * ascii) := combine p (tl p).
Definition tally (f : ascii * ascii -> bool) (p : bytes) : Z := Z.of_nat (List.length (filter f (neighbours p))).
Definition opening_pair (x : ascii * ascii) : bool :=
  Ascii.eqb (fst x) "<" && negb (existsb (Ascii.eqb (snd x)) (bs "/!?")).
Definition closing_pair (x : ascii * ascii) : bool := Ascii.eqb (fst x) "<" && Ascii.eqb (snd x) "/".
Definition empty_pair (x : ascii * ascii) : bool := Ascii.eqb (fst x) "/" && Ascii.eqb (snd x) ">".
Definition depth (p : bytes) : Z := (tally opening_pair p - tally closing_pair p - tally empty_pair p)%Z.
Definition all_chars (s t : bytes) : Prop := chars (fun _ => True) [] s t.
Definition own_chars (s t : bytes) : Prop := chars (fun p => depth p = 0%Z) [] s t.

(** ** Results *)
Definition nil_num : f64 := S754_zero false.
Definition null : result := mkR RNull [] [] nil_num [].
Definition array (l : list result) : result := mkR RArray [] [] nil_num l.
Definition attribute (v : bytes) : result := mkR RAttribute v v nil_num [].
Definition number (n : nat) : result := mkR RNumber [] (decimal (Z.of_nat n)) (f64_of_Z (Z.of_nat n)) [].
Definition element_of (e : elem) (r : result) : Prop :=
  exists t u, all_chars (e_content e) t /\ Decodes (trim_space t) u /\ r = mkR RElement (e_content e) u nil_num [].
Definition text_of (e : elem) (r : result) : Prop :=
  exists t u, own_chars (e_content e) t /\ Decodes (trim_space t) u /\ r = mkR RString (e_content e) u nil_num [].
(** The values a result stands for, and the result for a list of values. *)
Definition values (r : result) : list result :=
  match r_type r with RNull => [] | RArray => r_results r | _ => [r] end.
Definition bundle (l : list result) : result := match l with [x] => x | _ => array l end.

Section Answers.
  (** The elements of a text ([SpecScan.sees], or one of the orders of attributes). *)
  Variable sight : bytes -> list elem -> Prop.
  (** Reading of numbers, and the modifiers by name. *)
  Variable pf : bytes -> option f64.
  Variable mods : bytes -> option (result -> result).

  (** ** Modifiers *)
  (** At most 20, from left to right; an unknown one yields nothing, and nothing ends the
      chain. *)
  Inductive through : list bytes -> result -> result -> Prop :=
  | through_end : forall r, through [] r r
  | through_unknown : forall m ms r, mods m = None -> through (m :: ms) r null
  | through_null : forall m ms r f, mods m = Some f -> r_type (f r) = RNull -> through (m :: ms) r (f r)
  | through_more : forall m ms r f r', mods m = Some f -> r_type (f r) <> RNull -> through ms (f r) r' -> through (m :: ms) r r'.
  Inductive modified (ms : list bytes) (r : result) : result -> Prop :=
  | modified_by : forall r', (List.length ms <= 20)%nat -> through ms r r' -> modified ms r r'
  | modified_long : (20 < List.length ms)%nat -> modified ms r null.

  (** ** Two ways of asking *)
  (** Without options, or under options with or without respect for case. *)
  Inductive dialect := Plain | Under (cs : bool).
  Variable D : dialect.
  Definition without : Prop := D = Plain.
  Definition strict : bool := match D with Plain => true | Under cs => cs end.
  Definition fold (s : bytes) : bytes := if strict then s else map lower_case s.
  (** Under options many modifiers are ignored. *)
  Definition modified_plainly (ms : list bytes) (r r' : result) : Prop :=
    match D with Plain => modified ms r r' | Under _ => r' = r end.

  (** ** Names *)
  (** A name consists of a prefix and a local part; a step without a prefix selects every
      prefix. *)
  Inductive parted_name : bytes -> bytes -> bytes -> Prop :=
  | parted_prefix : forall p l, good_prefix p -> parted_name (qualified p l) p l
  | parted_none : forall n, (forall p l, good_prefix p -> n <> qualified p l) -> parted_name n [] n.
  Definition bears (n : bytes) (e : elem) : Prop :=
    exists p l p' l', parted_name n p l /\ parted_name (e_name e) p' l' /\ fold l = fold l' /\ (p = [] \/ fold p = fold p').
  Definition exactly (n : bytes) (e : elem) : Prop := e_name e = n.
  Definition folded (n : bytes) (e : elem) : Prop := fold (e_name e) = fold n.
  (** The members of a list with a property. *)
  Inductive only {A} (P : A -> Prop) : list A -> list A -> Prop :=
  | only_nil : only P [] []
  | only_yes : forall x l l', P x -> only P l l' -> only P (x :: l) (x :: l')
  | only_no : forall x l l', ~ P x -> only P l l' -> only P (x :: l) l'.

  (** ** Attributes *)
  (** The value of an attribute, if there is one. *)
  Definition has_attr (x : bytes) (e : elem) (o : option bytes) : Prop :=
    match o with
    | Some v => exists y, In (y, v) (e_attrs e) /\ fold y = fold x
    | None => forall y v, In (y, v) (e_attrs e) -> fold y <> fold x
    end.
  (** All values of attributes that differ in case. *)
  Definition has_attrs (x : bytes) (e : elem) (vs : list bytes) : Prop :=
    exists m m', Permutation (e_attrs e) m /\ only (fun a => fold (fst a) = fold x) m m' /\ vs = map snd m'.
  Definition attr_exactly (x : bytes) (e : elem) (o : option bytes) : Prop :=
    match o with Some v => In (x, v) (e_attrs e) | None => ~ In x (map fst (e_attrs e)) end.
  Definition entry (o : option bytes) : list result := match o with Some v => [attribute v] | None => [] end.
  Definition entry_or_null (o : option bytes) : result := match o with Some v => attribute v | None => null end.

  (** ** Fields *)
  Inductive field_values : bytes -> elem -> list result -> Prop :=
  | values_attr : forall x e o, has_attr x e o -> field_values ("@"%char :: x) e (entry o)
  | values_text : forall e t u, own_chars (e_content e) t -> trim_space t <> [] -> Decodes (trim_space t) u ->
      field_values (bs "%") e [mkR RString (trim_space t) u nil_num []]
  | values_blank : forall e t, own_chars (e_content e) t -> trim_space t = [] -> field_values (bs "%") e []
  | values_named : forall n e es l rs, (forall x, n <> "@"%char :: x) -> n <> bs "%" ->
      sight (e_content e) es -> only (folded n) es l -> Forall2 element_of l rs -> field_values n e rs.
  (** At most 1000. *)
  Inductive fields (f : bytes) (ms : list bytes) (l : list elem) : result -> Prop :=
  | fields_none : forall rss, Forall2 (field_values f) l rss -> List.concat rss = [] -> fields f ms l (array [])
  | fields_some : forall rss r, Forall2 (field_values f) l rss -> List.concat rss <> [] ->
      modified ms (array (firstn 1000 (List.concat rss))) r -> fields f ms l r.

  (** ** Walking on *)
  Notation steps := (list (gstep * list bytes)).
  (** The answers to the shorter queries: on content below, and for conditions. *)
  Variable below : bytes -> steps -> result -> Prop.
  Variable tested : bytes -> steps -> result -> Prop.

  (** Truth of a condition on an element. *)
  Inductive judged (path : bytes) (op : fop) (v : bytes) (e : elem) : bool -> Prop :=
  | judged_attr : forall x o b, path = "@"%char :: x -> attr_exactly x e o -> (b = true <-> holds pf op o v) -> judged path op v e b
  | judged_path : forall l r b, (forall x, path <> "@"%char :: x) ->
      path_means path (Steps l) \/ (path_means path Unusable /\ l = []) -> tested (e_content e) l r ->
      (b = true <-> holds pf op (match r_type r with RNull => None | _ => Some (r_string r) end) v) -> judged path op v e b.
  (** The first [n] elements that satisfy it. *)
  Inductive sifted (J : elem -> bool -> Prop) : nat -> list elem -> list elem -> Prop :=
  | sifted_end : forall n, sifted J n [] []
  | sifted_full : forall l, sifted J 0 l []
  | sifted_no : forall n e l l', J e false -> sifted J n l l' -> sifted J n (e :: l) l'
  | sifted_yes : forall n e l l', J e true -> sifted J n l l' -> sifted J (S n) (e :: l) (e :: l').

  (** Steps that are followed on the content of an element. *)
  Definition deeper (s : gstep) : Prop :=
    match s with GAttr _ | GText | GField _ => False | _ => True end.
  (** What is made of a list of collected values. *)
  Definition collected (ms : list bytes) (l : list result) (r : result) : Prop :=
    (l = [] /\ r = null) \/ (l <> [] /\ modified ms (bundle l) r).

  (** One element, found by its name. *)
  Inductive leaf : elem -> steps -> result -> Prop :=
  | leaf_attr : forall e x ms o, has_attr x e o -> forall r, (o = None -> r = null) -> (o <> None -> modified_plainly ms (entry_or_null o) r) ->
      leaf e [(GAttr x, ms)] r
  | leaf_attr_more : forall e x ms st more, leaf e ((GAttr x, ms) :: st :: more) null
  | leaf_text : forall e ms more r r', text_of e r -> modified_plainly ms r r' -> leaf e ((GText, ms) :: more) r'.
  (** The first of the elements from which the rest of the path leads somewhere. *)
  Inductive first_way (rest : steps) : list elem -> result -> Prop :=
  | way_none : first_way rest [] null
  | way_found : forall e l r, below (e_content e) rest r -> r_type r <> RNull -> first_way rest (e :: l) r
  | way_next : forall e l r0 r, below (e_content e) rest r0 -> r_type r0 = RNull -> first_way rest l r -> first_way rest (e :: l) r.

  (** Elements satisfying a condition: one, or all. *)
  Inductive one (ms : list bytes) (e : elem) : steps -> result -> Prop :=
  | one_here : forall r r', element_of e r -> modified ms r r' -> one ms e [] r'
  | one_attr : forall x ms' more o r, has_attr x e o -> (o = None -> r = null) -> (o <> None -> modified ms' (entry_or_null o) r) ->
      one ms e ((GAttr x, ms') :: more) r
  | one_text : forall ms' more r r', text_of e r -> modified ms' r r' -> one ms e ((GText, ms') :: more) r'
  | one_field : forall f ms' more r, fields f ms' [e] r -> one ms e ((GField f, ms') :: more) r
  | one_deeper : forall st ms' more r, deeper st -> below (e_content e) ((st, ms') :: more) r -> one ms e ((st, ms') :: more) r.
  Inductive every (ms : list bytes) (l : list elem) : steps -> result -> Prop :=
  | every_here : forall rs r, Forall2 element_of l rs -> modified ms (array rs) r -> every ms l [] r
  | every_attr : forall x ms' more vss r, Forall2 (has_attrs x) l vss -> collected ms' (map attribute (List.concat vss)) r ->
      every ms l ((GAttr x, ms') :: more) r
  | every_text : forall ms' more rs r, Forall2 text_of l rs -> collected ms' rs r -> every ms l ((GText, ms') :: more) r
  | every_field : forall f ms' more r, fields f ms' l r -> every ms l ((GField f, ms') :: more) r
  | every_deeper : forall st ms' more rs r, deeper st -> Forall2 (fun e => below (e_content e) ((st, ms') :: more)) l rs ->
      collected ms' (List.concat (map values rs)) r -> every ms l ((st, ms') :: more) r.
  Inductive routed (all : bool) (ms : list bytes) (rest : steps) : list elem -> result -> Prop :=
  | routed_none : routed all ms rest [] null
  | routed_one : forall e l r, all = false -> one ms e rest r -> routed all ms rest (e :: l) r
  | routed_all : forall e l r, all = true -> every ms (e :: l) rest r -> routed all ms rest (e :: l) r.

  (** All children. *)
  Inductive spread (ms : list bytes) (l : list elem) : steps -> result -> Prop :=
  | spread_here : forall rs r, Forall2 element_of l rs -> modified_plainly ms (bundle rs) r -> spread ms l [] r
  | spread_attr : forall x ms' vss r, Forall2 (has_attrs x) l vss -> collected ms' (map attribute (List.concat vss)) r ->
      spread ms l [(GAttr x, ms')] r
  | spread_attr_more : forall x ms' st more, spread ms l ((GAttr x, ms') :: st :: more) null
  | spread_text : forall ms' more rs r, Forall2 text_of l rs -> collected ms' rs r -> spread ms l ((GText, ms') :: more) r
  | spread_deeper : forall st ms' more rs r, (deeper st \/ exists f, st = GField f) -> Forall2 (fun e => below (e_content e) ((st, ms') :: more)) l rs ->
      (List.concat (map values rs) <> [] \/ ~ Exists (fun r => r_type r = RArray) rs \/ ~ without) -> collected ms' (List.concat (map values rs)) r ->
      spread ms l ((st, ms') :: more) r
  (** Empty lists are an empty list. *)
  | spread_empty : forall st ms' more rs, without -> (deeper st \/ exists f, st = GField f) -> Forall2 (fun e => below (e_content e) ((st, ms') :: more)) l rs ->
      List.concat (map values rs) = [] -> Exists (fun r => r_type r = RArray) rs -> spread ms l ((st, ms') :: more) (array []).

  (** Searches. What an element that is found adds. *)
  Inductive adds (e : elem) : steps -> list result -> Prop :=
  | adds_here : forall r, element_of e r -> adds e [] [r]
  | adds_attr : forall x ms vs, has_attrs x e vs -> adds e [(GAttr x, ms)] (map attribute vs)
  | adds_attr_more : forall x ms st more, adds e ((GAttr x, ms) :: st :: more) []
  | adds_text : forall ms more r, text_of e r -> adds e ((GText, ms) :: more) [r]
  | adds_field : forall f ms more r, without -> fields f ms [e] r -> adds e ((GField f, ms) :: more) (match r_type r with RArray => r_results r | _ => [] end)
  | adds_deeper : forall st ms more r, (deeper st \/ exists f, st = GField f /\ ~ without) -> below (e_content e) ((st, ms) :: more) r ->
      adds e ((st, ms) :: more) (values r).
  Definition target (st : gstep) (e : elem) : Prop :=
    match st with GName n => bears n e | GAny | GDeep => True | _ => False end.
  (** A search visits the content of each element before the element. It counts the texts
      visited: beyond 100 levels, with 1000 results or at the 10000th text nothing more
      is looked at. *)
  Inductive search (st : gstep) (rest : steps) : nat -> bytes + list elem -> N * list result -> N * list result -> Prop :=
  | search_deep : forall s ops acc, search st rest 0 (inl s) (ops, acc) ((ops + 1)%N, acc)
  | search_full : forall k s ops acc, (1000 <= List.length acc)%nat \/ (10000 <= ops + 1)%N ->
      search st rest (S k) (inl s) (ops, acc) ((ops + 1)%N, acc)
  | search_text : forall k s es ops acc z, (List.length acc < 1000)%nat -> (ops + 1 < 10000)%N -> sight s es ->
      search st rest k (inr es) ((ops + 1)%N, acc) z -> search st rest (S k) (inl s) (ops, acc) z
  | search_end : forall k a, search st rest k (inr []) a a
  | search_stop : forall k e es a b, visited st rest k e a b -> (10000 <= fst b)%N -> search st rest k (inr (e :: es)) a b
  | search_enough : forall k e es a b, visited st rest k e a b -> (fst b < 10000)%N -> target st e -> (1000 <= List.length (snd b))%nat ->
      search st rest k (inr (e :: es)) a b
  | search_found : forall k e es a b rs z, visited st rest k e a b -> (fst b < 10000)%N -> target st e -> (List.length (snd b) < 1000)%nat ->
      adds e rest rs -> search st rest k (inr es) (fst b, snd b ++ rs) z -> search st rest k (inr (e :: es)) a z
  | search_pass : forall k e es a b z, visited st rest k e a b -> (fst b < 10000)%N -> ~ target st e ->
      search st rest k (inr es) b z -> search st rest k (inr (e :: es)) a z
  with visited (st : gstep) (rest : steps) : nat -> elem -> N * list result -> N * list result -> Prop :=
  | visited_empty : forall k e a, e_content e = [] -> visited st rest k e a a
  | visited_content : forall k e a b, e_content e <> [] -> search st rest k (inl (e_content e)) a b -> visited st rest k e a b.

  (** Numbers and counts. *)
  Definition at_place (l : list elem) (i : Z) (e : elem) : Prop := (0 <= i)%Z /\ nth_error l (Z.to_nat i) = Some e.
  Definition no_place (l : list elem) (i : Z) : Prop := (i < 0 \/ Z.of_nat (List.length l) <= i)%Z.
  Inductive numbered (i : Z) (ms : list bytes) (l : list elem) : steps -> result -> Prop :=
  | numbered_none : forall more, no_place l i -> numbered i ms l more null
  | numbered_here : forall e r r', at_place l i e -> element_of e r -> modified_plainly ms r r' -> numbered i ms l [] r'
  | numbered_attr : forall e x ms' o r, at_place l i e -> has_attr x e o -> (o = None -> r = null) ->
      (o <> None -> modified_plainly ms' (entry_or_null o) r) -> numbered i ms l [(GAttr x, ms')] r
  | numbered_attr_more : forall e x ms' st more o, at_place l i e -> has_attr x e o -> numbered i ms l ((GAttr x, ms') :: st :: more) (entry_or_null o)
  | numbered_deeper : forall e st ms' more r, at_place l i e -> (forall x, st <> GAttr x) -> below (e_content e) ((st, ms') :: more) r ->
      numbered i ms l ((st, ms') :: more) r.
  (** The same on the roots of a fragment: names are literal, and modifiers are ignored. *)
  Inductive root_numbered (i : Z) (l : list elem) : steps -> result -> Prop :=
  | root_none : forall more, no_place l i -> root_numbered i l more null
  | root_here : forall e r, at_place l i e -> element_of e r -> root_numbered i l [] r
  | root_attr : forall e x ms' more o, at_place l i e -> attr_exactly x e o -> root_numbered i l ((GAttr x, ms') :: more) (entry_or_null o)
  | root_text : forall e ms' more r, at_place l i e -> text_of e r -> root_numbered i l ((GText, ms') :: more) r
  | root_deeper : forall e st ms' more r, at_place l i e -> (deeper st \/ exists f, st = GField f) -> below (e_content e) ((st, ms') :: more) r ->
      root_numbered i l ((st, ms') :: more) r.
  Definition special (st : gstep) : Prop := match st with GNth _ | GCount | GField _ => True | _ => False end.

  (** ** The answer *)
  (** [answer top s l r]: [r] is an answer to the steps [l] on the text [s]; [top] at the
      beginning of a path. *)
  Inductive answer (top : bool) (s : bytes) : steps -> result -> Prop :=
  | answer_nothing : answer top s [] null
  (* a name *)
  | answer_missing : forall n ms rest es, sight s es -> Forall (fun e => ~ bears n e) es ->
      rest = [] \/ (exists st ms' more, rest = (st, ms') :: more /\ ~ special st /\ forall all p op v, st <> GWhere all p op v) ->
      answer top s ((GName n, ms) :: rest) null
  | answer_element : forall n ms es e l r r', sight s es -> only (bears n) es (e :: l) -> element_of e r -> modified_plainly ms r r' ->
      answer top s [(GName n, ms)] r'
  | answer_leaf : forall n ms st ms' more es e l r, sight s es -> only (bears n) es (e :: l) -> leaf e ((st, ms') :: more) r ->
      answer top s ((GName n, ms) :: (st, ms') :: more) r
  | answer_way : forall n ms st ms' more es l r, sight s es -> only (bears n) es l ->
      match st with GName _ | GAny | GDeep => True | _ => False end -> first_way ((st, ms') :: more) l r ->
      answer top s ((GName n, ms) :: (st, ms') :: more) r
  | answer_where : forall n ms all p op v ms' more es l l' r, sight s es -> only (bears n) es l ->
      sifted (judged p op v) 1000 (firstn 1000 l) l' -> routed all ms' more l' r ->
      answer top s ((GName n, ms) :: (GWhere all p op v, ms') :: more) r
  | answer_field : forall n ms f ms' more es l r, top && strict = false -> sight s es -> only (bears n) es l -> fields f ms' (firstn 1000 l) r ->
      answer top s ((GName n, ms) :: (GField f, ms') :: more) r
  | answer_count : forall n ms ms' more es l r, top && strict = false -> sight s es -> only (bears n) es l ->
      (l = [] -> r = null) -> (l <> [] -> modified_plainly ms' (number (List.length (firstn 1000 l))) r) ->
      answer top s ((GName n, ms) :: (GCount, ms') :: more) r
  | answer_nth : forall n ms i ms' more es l r, top && strict = false -> sight s es -> only (bears n) es l ->
      numbered i ms' (firstn 1000 l) more r -> answer top s ((GName n, ms) :: (GNth i, ms') :: more) r
  (* a name at the beginning, followed by a list operation *)
  | answer_roots_none : forall n ms st ms' more es, top && strict = true -> special st -> sight s es -> Forall (fun e => ~ exactly n e) es ->
      answer top s ((GName n, ms) :: (st, ms') :: more) null
  | answer_roots_field : forall n ms f ms' more es l r, top && strict = true -> sight s es -> only (exactly n) es l -> l <> [] ->
      fields f ms' (firstn 1000 l) r -> answer top s ((GName n, ms) :: (GField f, ms') :: more) r
  | answer_roots_count : forall n ms ms' more es l, top && strict = true -> sight s es -> only (exactly n) es l -> l <> [] ->
      answer top s ((GName n, ms) :: (GCount, ms') :: more) (number (List.length (firstn 1000 l)))
  | answer_roots_nth : forall n ms i ms' more es l r, top && strict = true -> sight s es -> only (exactly n) es l -> l <> [] ->
      root_numbered i (firstn 1000 l) more r -> answer top s ((GName n, ms) :: (GNth i, ms') :: more) r
  (* anything else *)
  | answer_sift : forall all p op v ms rest es l r, sight s es -> sifted (judged p op v) 1000 es l -> routed all ms rest l r ->
      answer top s ((GWhere all p op v, ms) :: rest) r
  | answer_list : forall f ms rest, answer top s ((GField f, ms) :: rest) (array [])
  | answer_dead : forall st ms rest, match st with GNth _ | GCount | GText | GAttr _ => True | _ => False end -> answer top s ((st, ms) :: rest) null
  | answer_any_none : forall ms rest, sight s [] -> answer top s ((GAny, ms) :: rest) null
  | answer_any : forall ms rest es r, sight s es -> es <> [] -> spread ms (firstn 1000 es) rest r -> answer top s ((GAny, ms) :: rest) r
  | answer_deep_end : forall ms, answer top s [(GDeep, ms)] null
  | answer_deep : forall ms st ms' rest z, search st rest 101 (inl s) (0%N, []) z ->
      answer top s ((GDeep, ms) :: (st, ms') :: rest) (match snd z with [] => null | l => bundle l end).
End Answers.

(** Queries within queries: [k] bounds how often. Conditions are asked without options. *)
Fixpoint answers (sight : bytes -> list elem -> Prop) (pf : bytes -> option f64) (mods : bytes -> option (result -> result))
  (k : nat) (D : dialect) (top : bool) (s : bytes) (l : list (gstep * list bytes)) (r : result) : Prop :=
  match k with
  | O => False
  | S k' => answer sight pf mods D (answers sight pf mods k' D false) (answers sight pf mods k' Plain true) top s l r
  end.
