(** C58: case-insensitive queries on canonical documents. *)
From Coq Require Import List Ascii String NArith ZArith Bool Lia Permutation.
From Verif Require Import GoStr ModelParser ModelPath ModelResult ModelQuery ModelBuilder ModelQueryOpts SpecText SpecPath SpecTree SpecQuery SpecValid SpecEdit SpecContent SpecFilter SpecLang SpecCase
  ProofBase ProofPath ProofTree ProofTree2 ProofTree3 ProofTree4 ProofTree5 ProofTree8 ProofMono ProofLang ProofLang2 ProofLang3 ProofLang4 ProofLang5 ProofCase ProofCase2 ProofCase3 ProofCase4 PropTree PropLang.
Import ListNotations.

(** ** C58. Without CaseSensitive, every query of the language returns what the walk over
    the tree designates that compares names after folding their case. *)
Theorem C58_any_case : forall E sat o p F steps e,
  (forall k l, Permutation l (e_ord E k l)) ->
  (forall c nd, good nd -> (sat c nd = true <-> true_of (e_parse_float E) c nd)) ->
  o_case o = false -> prolog p -> Forall good F -> apart F -> shallow F -> (elements F < 9999)%N ->
  (blen (p ++ forest_text F) <= 10485760)%N -> good_query steps e ->
  exists r, get_opts E o (p ++ forest_text F) (query_text steps e) = Ok r /\ says r (ask_ci sat e steps F).
Proof.
  intros E sat o p F steps e Ho Hs Hc Hp HG HA H1 H2 HL HQ. eapply get_ask_ci; eauto.
  - intros f ->. apply (gq_end _ _ HQ).
  - split; auto. split; [|split; auto]. apply reads_text; auto using skippable_prolog, same_all_refl.
Qed.
Print Assumptions C58_any_case.

(** The case of the names in the query, the other options, map iteration order, the order
    of attributes and the prolog have no influence. *)
Theorem C58_spelling : forall E1 E2 o1 o2 p1 p2 F F' steps steps' e e',
  (forall k l, Permutation l (e_ord E1 k l)) -> (forall k l, Permutation l (e_ord E2 k l)) ->
  (forall s, e_parse_float E1 s = e_parse_float E2 s) ->
  o_case o1 = false -> o_case o2 = false -> prolog p1 -> prolog p2 ->
  Forall good F -> Forall2 same F F' -> apart F -> shallow F -> (elements F < 9999)%N ->
  (blen (p1 ++ forest_text F) <= 10485760)%N -> (blen (p2 ++ forest_text F') <= 10485760)%N ->
  good_query steps e -> good_query steps' e' -> Forall2 spelled_step steps steps' -> spelled_end e e' ->
  exists r1 r2, get_opts E1 o1 (p1 ++ forest_text F) (query_text steps e) = Ok r1 /\
    get_opts E2 o2 (p2 ++ forest_text F') (query_text steps' e') = Ok r2 /\ same_reading r1 r2.
Proof.
  intros E1 E2 o1 o2 p1 p2 F F' steps steps' e e' Ho1 Ho2 HPF Hc1 Hc2 Hp1 Hp2 HG HS HA H1 H2 HL1 HL2 HQ HQ' SS SE.
  destruct (C58_any_case E1 (decide_sat E1) o1 p1 F steps e Ho1 (fun c nd _ => decide_sat_ok E1 c nd) Hc1 Hp1 HG HA H1 H2 HL1 HQ) as [r1 [A1 A2]].
  destruct (get_ask_ci E2 Ho2 (decide_sat E1)) with (q := e') (o := o2) (s := p2 ++ forest_text F') (F := F) (steps := steps') as [r2 [B1 B2]]; auto.
  - intros c nd _. rewrite decide_sat_ok. now apply true_of_ext.
  - intros f ->. apply (gq_end _ _ HQ').
  - split; auto. split; [|split; auto]. apply reads_text; auto using skippable_prolog.
  - exists r1, r2. split; auto. split; auto. rewrite <- (ask_spelled _ e e' SE steps steps' SS) in B2. eapply says_alike; eauto.
Qed.
Print Assumptions C58_spelling.

(** Attributes whose names differ in case only make answers depend on map iteration order. *)
Theorem C58_ambiguous_refuted : exists E1 E2 xml path, (forall k l, Permutation l (e_ord E1 k l)) /\ (forall k l, Permutation l (e_ord E2 k l)) /\
  match get_opts E1 (mkOpts false [] false None) xml path, get_opts E2 (mkOpts false [] false None) xml path with
  | Ok r1, Ok r2 => r_string r1 <> r_string r2 | _, _ => False end.
Proof.
  exists env0, env_rev, (bs "<a x=""1"" X=""2""/>"), (bs "a.@x"). split; [reflexivity|]. split; [intros; apply Permutation_rev|]. vm_compute. discriminate.
Qed.
Print Assumptions C58_ambiguous_refuted.
(** Conditions keep distinguishing case. *)
Theorem C58_conditions_refuted : exists xml path path',
  match get_opts env0 (mkOpts false [] false None) xml path, get_opts env0 (mkOpts false [] false None) xml path' with
  | Ok r1, Ok r2 => r_exists r1 = true /\ r_exists r2 = false | _, _ => False end.
Proof. exists (bs "<r><a><b>1</b></a></r>"), (bs "R.A.#(b==1)"), (bs "R.A.#(B==1)"). vm_compute. auto. Qed.
Print Assumptions C58_conditions_refuted.
(** Searches list no fields, though they do with CaseSensitive and default options. *)
Theorem C58_search_fields_refuted : exists xml path,
  match get_opts env0 (mkOpts false [] false None) xml path, get env0 xml path with
  | Ok r1, Ok r2 => r_exists r1 = false /\ r_exists r2 = true | _, _ => False end.
Proof. exists (bs "<r><a><b>1</b></a></r>"), (bs "**.a.#.b"). vm_compute. auto. Qed.
Print Assumptions C58_search_fields_refuted.

Definition stock : list node :=
  [Elem (bs "Shop") [] false
     [Elem (bs "ITEM") [(bs "ID", bs "1")] false [Elem (bs "Name") [] false [Text (bs "pen")]; Elem (bs "price") [] false [Text (bs "3")]];
      Elem (bs "s:Item") [(bs "Id", bs "2")] false [Elem (bs "name") [] false [Text (bs "book")]; Elem (bs "price") [] false [Text (bs "12")]];
      Elem (bs "box") [] false [Elem (bs "item") [(bs "id", bs "3")] true []]]].
Lemma stock_apart : apart stock.
Proof.
  intros nd H. apply post_inside in H. vm_compute in H.
  repeat (destruct H as [<-|H]; [vm_compute; repeat constructor; intros []|]). destruct H.
Qed.
Definition said_ci (steps : list qstep) (e : qend) : reply := ask_ci (decide_sat env0) e steps stock.
Example C58_example :
  let q1 := [Child (bs "SHOP") Leading; Child (bs "item") (Where dear true); Child (bs "NAME") Leading] in
  let q2 := [Descendant (Some (bs "iTem"))] in
  let q3 := [Child (bs "shop") Leading; Child (bs "Item") (Number (bs "1"))] in
  let q4 := [Child (bs "shop") Leading; Child (bs "Item") Leading] in
  Forall good stock /\ apart stock /\ shallow stock /\ (elements stock <? 9999)%N = true /\
  (blen (sample_prolog ++ forest_text stock) <=? 10485760)%N = true /\
  good_query q1 EText /\ query_text q1 EText = bs "SHOP.item.#(price>'5')#.NAME.%" /\ said_ci q1 EText = One (AText [Text (bs "book")]) /\
  good_query q2 (EAttr (bs "iD")) /\ query_text q2 (EAttr (bs "iD")) = bs "**.iTem.@iD" /\
  said_ci q2 (EAttr (bs "iD")) = Many [AnAttribute (bs "1"); AnAttribute (bs "2"); AnAttribute (bs "3")] /\
  good_query q3 (EAttr (bs "id")) /\ query_text q3 (EAttr (bs "id")) = bs "shop.Item.1.@id" /\ said_ci q3 (EAttr (bs "id")) = One (AnAttribute (bs "2")) /\
  good_query q4 (EField (FieldName (bs "name"))) /\ query_text q4 (EField (FieldName (bs "name"))) = bs "shop.Item.#.name" /\
  said_ci q4 (EField (FieldName (bs "name"))) = Many [AnElement [Text (bs "pen")]; AnElement [Text (bs "book")]].
Proof.
  cbv zeta. split; [apply forest_b_ok; vm_compute; reflexivity|]. split; [apply stock_apart|]. split; [repeat constructor|].
  do 2 (split; [vm_compute; reflexivity|]).
  do 3 (split; [query_ok|]; do 2 (split; [vm_compute; reflexivity|])).
  split; [query_ok|]. split; vm_compute; reflexivity.
Qed.
Example C58_spelling_example :
  let s1 := [Child (bs "SHOP") Leading; Descendant (Some (bs "Item"))] in
  let s2 := [Child (bs "shop") Leading; Descendant (Some (bs "iteM"))] in
  good_query s1 (EAttr (bs "ID")) /\ good_query s2 (EAttr (bs "id")) /\ Forall2 spelled_step s1 s2 /\ spelled_end (EAttr (bs "ID")) (EAttr (bs "id")) /\
  match get_opts env0 (mkOpts false [] false None) (forest_text stock) (query_text s2 (EAttr (bs "id"))) with
  | Ok r => r_string r = bs "[""1"",""2"",""3""]" | _ => False end.
Proof.
  cbv zeta. split; [query_ok|]. split; [query_ok|]. split; [repeat constructor|]. split; [now constructor|]. vm_compute. reflexivity.
Qed.
