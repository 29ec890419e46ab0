(** C54-C57: the query language on canonical documents. *)
From Coq Require Import List Ascii String NArith ZArith Bool Lia Permutation.
From Verif Require Import GoStr ModelParser ModelPath ModelResult ModelQuery SpecText SpecPath SpecTree SpecQuery SpecValid SpecEdit SpecContent SpecFilter SpecLang
  ProofBase ProofPath ProofTree ProofTree2 ProofTree3 ProofTree4 ProofTree5 ProofTree8 ProofMono ProofLang ProofLang2 ProofLang3 ProofLang4 ProofLang5 PropTree.
Import ListNotations.

(** ** C54. Every query of the language, on every canonical document, returns what the
    walk over the tree designates. *)
Theorem C54_language : forall E sat p F steps e,
  (forall k l, Permutation l (e_ord E k l)) ->
  (forall c nd, good nd -> (sat c nd = true <-> true_of (e_parse_float E) c nd)) ->
  prolog p -> Forall good F -> shallow F -> (elements F < 9999)%N ->
  (blen (p ++ forest_text F) <= 10485760)%N -> good_query steps e ->
  exists r, get E (p ++ forest_text F) (query_text steps e) = Ok r /\ says r (ask sat e true steps F).
Proof.
  intros E sat p F steps e Ho Hs Hp HG H1 H2 HL HQ. eapply get_ask; eauto.
  - intros f ->. apply (gq_end _ _ HQ).
  - split; [|split; auto]. apply reads_text; auto using skippable_prolog, same_all_refl.
Qed.
Print Assumptions C54_language.
(** Truth of conditions can be decided, so the first hypothesis can be met. *)
Theorem C54_conditions_decided : forall E, exists sat, forall c nd, sat c nd = true <-> true_of (e_parse_float E) c nd.
Proof. intros E. exists (decide_sat E). apply decide_sat_ok. Qed.
Print Assumptions C54_conditions_decided.

Definition shop : list node :=
  [Elem (bs "shop") [] false
     [Elem (bs "item") [(bs "id", bs "1")] false
        [Elem (bs "name") [] false [Text (bs "pen")]; Elem (bs "price") [] false [Text (bs "3")]; Elem (bs "tag") [] false [Text (bs "red")]; Elem (bs "tag") [] false [Text (bs "new")]];
      Elem (bs "item") [(bs "id", bs "2")] false
        [Elem (bs "name") [] false [Text (bs "book")]; Elem (bs "price") [] false [Text (bs "12")]];
      Elem (bs "box") [] false
        [Elem (bs "item") [(bs "id", bs "3")] false [Elem (bs "name") [] false [Text (bs "cup")]; Elem (bs "price") [] false [Text (bs "7")]]]]].
Lemma shop_good : Forall good shop.
Proof. apply forest_b_ok. vm_compute. reflexivity. Qed.
Lemma shop_shallow : shallow shop.
Proof. repeat constructor. Qed.
Definition dear : condition := mkCond (OfPath [(bs "price", None)] TheElement) OpGt (bs "5").
Definition first_id : condition := mkCond (OfAttr (bs "id")) OpEq (bs "1").
Definition priced : condition := mkCond (OfPath [(bs "item", None); (bs "price", None)] TheElement) OpExists [].
Ltac query_ok := apply query_b_ok; [discriminate|vm_compute; reflexivity|vm_compute; reflexivity|vm_compute; reflexivity|vm_compute; reflexivity].
Definition said (steps : list qstep) (e : qend) : reply := ask (decide_sat env0) e true steps shop.
Example C54_example :
  let q1 := [Child (bs "shop") Leading; Child (bs "item") (Where dear true); Child (bs "name") Leading] in
  let q2 := [Child (bs "shop") Leading; Child (bs "item") (Where first_id false); Child (bs "tag") (Number (bs "1"))] in
  let q3 := [Descendant (Some (bs "item"))] in
  let q4 := [AnyKid; AnyKid; Descendant None] in
  let q5 := [AnyKid; Kid priced true; Child (bs "item") Leading] in
  let q6 := [Child (bs "shop") Leading; Child (bs "item") Leading] in
  Forall good shop /\ shallow shop /\ (elements shop <? 9999)%N = true /\
  (blen (sample_prolog ++ forest_text shop) <=? 10485760)%N = true /\
  good_query q1 EText /\ query_text q1 EText = bs "shop.item.#(price>'5')#.name.%" /\
  said q1 EText = One (AText [Text (bs "book")]) /\
  good_query q2 EElement /\ query_text q2 EElement = bs "shop.item.#(@id=='1').tag.1" /\
  said q2 EElement = One (AnElement [Text (bs "new")]) /\
  good_query q3 (EAttr (bs "id")) /\ query_text q3 (EAttr (bs "id")) = bs "**.item.@id" /\
  said q3 (EAttr (bs "id")) = Many [AnAttribute (bs "1"); AnAttribute (bs "2"); AnAttribute (bs "3")] /\
  good_query q4 EElement /\ query_text q4 EElement = bs "*.*.**.*" /\ List.length (items (said q4 EElement)) = 9 /\
  good_query q5 ECount /\ query_text q5 ECount = bs "*.#(item\.price)#.item.#" /\ said q5 ECount = One (ACount 1) /\
  good_query q6 (EField (FieldName (bs "tag"))) /\ query_text q6 (EField (FieldName (bs "tag"))) = bs "shop.item.#.tag" /\
  said q6 (EField (FieldName (bs "tag"))) = Many [AnElement [Text (bs "red")]; AnElement [Text (bs "new")]].
Proof.
  cbv zeta. split; [apply shop_good|]. split; [apply shop_shallow|]. do 2 (split; [vm_compute; reflexivity|]).
  do 5 (split; [query_ok|]; do 2 (split; [vm_compute; reflexivity|])).
  split; [query_ok|]. split; vm_compute; reflexivity.
Qed.

(** ** C55. A search finds the elements with the name at any depth, children before their
    parents and otherwise in document order, at most 1000. *)
Theorem C55_search : forall E p F n,
  (forall k l, Permutation l (e_ord E k l)) -> prolog p -> Forall good F -> shallow F -> (elements F < 9999)%N ->
  (blen (p ++ forest_text F) <= 10485760)%N -> step_name n ->
  exists r, get E (p ++ forest_text F) (path_text [bs "**"; n]) = Ok r /\
    says r (pack (map element (firstn 1000 (called (selects n) (post F))))).
Proof.
  intros E p F n Ho Hp HG H1 H2 HL Hn.
  destruct (C54_language E (decide_sat E) p F [Descendant (Some n)] EElement Ho (fun c nd _ => decide_sat_ok E c nd) Hp HG H1 H2 HL) as [r [R1 R2]].
  { constructor; [discriminate|constructor; auto|exact I|exact I|vm_compute; lia]. }
  exists r. split; auto. cbn [ask leaf items] in R2. rewrite <- firstn_map, <- gather_ones, map_map. exact R2.
Qed.
Print Assumptions C55_search.
(** Nothing is left out, nothing else is found. *)
Theorem C55_everywhere : forall F n m a self kids,
  In (Elem m a self kids) (called (selects n) (post F)) <-> inside (Elem m a self kids) F /\ selects n m = true.
Proof. intros. unfold called. rewrite filter_In, post_inside. reflexivity. Qed.
Print Assumptions C55_everywhere.
Theorem C55_order : (forall F G, post (F ++ G) = post F ++ post G) /\
  (forall n a self kids, post [Elem n a self kids] = post kids ++ [Elem n a self kids]).
Proof. split; [intros; apply flat_map_app|]. intros. unfold post at 1. cbn [flat_map post_node]. now rewrite app_nil_r. Qed.
Print Assumptions C55_order.
Example C55_example : step_name (bs "item") /\ path_text [bs "**"; bs "item"] = bs "**.item" /\
  map attrs_of (called (selects (bs "item")) (post shop)) = [[(bs "id", bs "1")]; [(bs "id", bs "2")]; [(bs "id", bs "3")]].
Proof. split; [apply step_name_b_ok; vm_compute; reflexivity|]. vm_compute. split; reflexivity. Qed.

(** ** C56. A condition selects exactly the children that satisfy it. *)
Theorem C56_selected : forall E p F m nd n c all l,
  (forall k l, Permutation l (e_ord E k l)) -> prolog p -> Forall good F -> shallow F -> (elements F < 9999)%N ->
  (blen (p ++ forest_text F) <= 10485760)%N -> step_name m -> step_name n -> good_condition c ->
  called (selects m) F = [nd] ->
  sublist_by (true_of (e_parse_float E) c) (firstn 1000 (called (selects n) (kids_of nd))) l ->
  exists r, get E (p ++ forest_text F) (path_text [m; n; where_text c all]) = Ok r /\
    says r (match l with [] => NoReply | x :: _ => if all then Many (map element l) else One (element x) end).
Proof.
  intros E p F m nd n c all l Ho Hp HG H1 H2 HL Hm Hn Hc HF HS.
  destruct (C54_language E (decide_sat E) p F [Child m Leading; Child n (Where c all)] EElement Ho (fun c nd _ => decide_sat_ok E c nd) Hp HG H1 H2 HL) as [r [R1 R2]].
  { constructor; [discriminate| |exact I|exact I|vm_compute; lia].
    apply Forall_cons; [split; [exact Hm|exact I]|]. apply Forall_cons; [split; [exact Hn|exact Hc]|constructor]. }
  exists r. split; auto. cbn [ask] in R2. rewrite HF in R2. cbn [first_reply] in R2.
  rewrite (sublist_filter _ _ _ _ (decide_sat_ok E c) HS) in R2. destruct l as [|x l]; auto. destruct all; exact R2.
Qed.
Print Assumptions C56_selected.
Example C56_example :
  let items_ := called (selects (bs "item")) (kids_of (nth 0 shop (Text []))) in
  good_condition dear /\ path_text [bs "shop"; bs "item"; where_text dear true] = bs "shop.item.#(price>'5')#" /\
  called (selects (bs "shop")) shop = [nth 0 shop (Text [])] /\ List.length items_ = 2 /\
  sublist_by (true_of (e_parse_float env0) dear) items_ [nth 1 items_ (Text [])].
Proof.
  cbv zeta. split; [apply condition_b_ok; vm_compute; reflexivity|]. split; [vm_compute; reflexivity|]. split; [vm_compute; reflexivity|].
  split; [vm_compute; reflexivity|]. set (l := called _ _).
  replace [nth 1 l (Text [])] with (filter (decide_sat env0 dear) l) by (vm_compute; reflexivity). apply filter_sublist. apply decide_sat_ok.
Qed.

(** ** C57. [n.#.f] lists the fields of the elements with the name, in document order. *)
Theorem C57_fields : forall E p F m nd n f,
  (forall k l, Permutation l (e_ord E k l)) -> prolog p -> Forall good F -> shallow F -> (elements F < 9999)%N ->
  (blen (p ++ forest_text F) <= 10485760)%N -> step_name m -> step_name n -> good_field f ->
  called (selects m) F = [nd] ->
  exists r, get E (p ++ forest_text F) (path_text [m; n; bs "#"; field_text f]) = Ok r /\ r_type r = RArray /\
    Forall2 item_is (firstn 1000 (flat_map (fields_of f) (firstn 1000 (called (selects n) (kids_of nd))))) (r_results r).
Proof.
  intros E p F m nd n f Ho Hp HG H1 H2 HL Hm Hn Hf HF.
  destruct (C54_language E (decide_sat E) p F [Child m Leading; Child n Leading] (EField f) Ho (fun c nd _ => decide_sat_ok E c nd) Hp HG H1 H2 HL) as [r [R1 R2]].
  { constructor; [discriminate| |exact I| |vm_compute; lia].
    { apply Forall_cons; [split; [exact Hm|exact I]|]. apply Forall_cons; [split; [exact Hn|exact I]|constructor]. }
    split; auto. intros a.
    split; [intros K|intros n0 ds K]; (destruct a as [|? [|? [|? a]]]; cbn [app] in K; try discriminate K; injection K; discriminate). }
  exists r. split; auto. cbn [ask] in R2. rewrite HF in R2. cbn [first_reply] in R2.
  destruct (firstn 1000 (called (selects n) (kids_of nd))) as [|x l]; exact R2.
Qed.
Print Assumptions C57_fields.
Example C57_example : good_field (FieldAttr (bs "id")) /\ good_field FieldText /\
  called (selects (bs "shop")) shop = [nth 0 shop (Text [])] /\
  flat_map (fields_of (FieldAttr (bs "id"))) (called (selects (bs "item")) (kids_of (nth 0 shop (Text [])))) = [AnAttribute (bs "1"); AnAttribute (bs "2")].
Proof. split; [apply field_name_b_ok; vm_compute; reflexivity|]. split; [exact I|]. vm_compute. split; reflexivity. Qed.

(** ** C43 for the whole language: map iteration order, the order of attributes in the
    document and the prolog have no influence. *)
Theorem C43_any_query : forall E1 E2 p1 p2 F F' steps e,
  (forall k l, Permutation l (e_ord E1 k l)) -> (forall k l, Permutation l (e_ord E2 k l)) ->
  (forall s, e_parse_float E1 s = e_parse_float E2 s) ->
  prolog p1 -> prolog p2 -> Forall good F -> Forall2 same F F' -> shallow F -> (elements F < 9999)%N ->
  (blen (p1 ++ forest_text F) <= 10485760)%N -> (blen (p2 ++ forest_text F') <= 10485760)%N -> good_query steps e ->
  exists r1 r2, get E1 (p1 ++ forest_text F) (query_text steps e) = Ok r1 /\
    get E2 (p2 ++ forest_text F') (query_text steps e) = Ok r2 /\ same_reading r1 r2.
Proof.
  intros E1 E2 p1 p2 F F' steps e Ho1 Ho2 HPF Hp1 Hp2 HG HS H1 H2 HL1 HL2 HQ.
  destruct (C54_language E1 (decide_sat E1) p1 F steps e Ho1 (fun c nd _ => decide_sat_ok E1 c nd) Hp1 HG H1 H2 HL1 HQ) as [r1 [A1 A2]].
  destruct (get_ask E2 Ho2 (decide_sat E1)) with (q := e) (s := p2 ++ forest_text F') (F := F) (steps := steps) as [r2 [B1 B2]]; auto.
  - intros c nd _. rewrite decide_sat_ok. now apply true_of_ext.
  - intros f ->. apply (gq_end _ _ HQ).
  - split; [|split; auto]. apply reads_text; auto using skippable_prolog.
  - exists r1, r2. split; auto. split; auto. eapply says_alike; eauto.
Qed.
Print Assumptions C43_any_query.
Example C43_any_query_example :
  let F := [Elem (bs "a") [(bs "x", bs "1"); (bs "y", bs "2")] false [Elem (bs "b") [(bs "u", bs "3"); (bs "v", bs "4")] false [Text (bs "t")]]] in
  let F' := [Elem (bs "a") [(bs "y", bs "2"); (bs "x", bs "1")] false [Elem (bs "b") [(bs "v", bs "4"); (bs "u", bs "3")] false [Text (bs "t")]]] in
  Forall good F /\ Forall2 same F F' /\ shallow F /\ prolog sample_prolog /\
  (forall k l, Permutation l (e_ord env_rev k l)) /\ (forall s, e_parse_float env0 s = e_parse_float env_rev s) /\
  get env0 (forest_text F) (bs "**.b.@v") = Ok (r_attribute (bs "4")).
Proof.
  cbv zeta. split; [apply forest_b_ok; vm_compute; reflexivity|]. split.
  { constructor; [|constructor]. constructor; [apply perm_swap|]. constructor; [|constructor]. constructor; [apply perm_swap|]. repeat constructor. }
  split; [repeat constructor|]. split; [apply sample_prolog_ok|]. split; [intros; apply Permutation_rev|]. split; [reflexivity|vm_compute; reflexivity].
Qed.
