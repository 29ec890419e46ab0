(** C61: edits of canonical documents under options. *)
From Coq Require Import List Ascii String NArith ZArith Bool Lia Permutation.
From Verif Require Import GoStr ModelParser ModelPath ModelResult ModelQuery ModelValidate ModelBuilder ModelQueryOpts SpecText SpecPath SpecTree SpecQuery SpecEdit SpecValid SpecContent SpecFilter SpecLang SpecCase SpecHistory SpecOptions
  ProofBase ProofPath ProofTree ProofTree2 ProofTree3 ProofTree4 ProofTree5 ProofTree7 ProofTree8 ProofEdit ProofEdit2 ProofEdit3 ProofEdit4 ProofEdit5 ProofEdit6 ProofLang5 ProofOpt ProofOpt2 ProofOpt3 ProofOpt4 ProofOpt5 ProofRaw2 ProofRaw3 PropTree PropCase.
Import ListNotations.

(** ** C61. An edit under options designates an element by names compared as [CaseSensitive]
    says, replaces exactly its content, and lays out new elements with [Indent]. *)
(** With [CaseSensitive], the element is the one of the edits without options. *)
Theorem C61_designated : forall steps F A nd B, designated true steps F A nd B <-> located steps F A nd B.
Proof. intros. split; induction 1; constructor; auto. Qed.
Print Assumptions C61_designated.
(** At most one element is designated, and the rest of the document is around it. *)
Theorem C61_unique : forall exact steps F A nd B A' nd' B',
  designated exact steps F A nd B -> designated exact steps F A' nd' B' ->
  A' = A /\ nd' = nd /\ B' = B /\ forest_text F = A ++ node_text nd ++ B.
Proof.
  intros exact steps F A nd B A' nd' B' H H'. destruct (designated_unique _ _ _ _ _ _ H _ _ _ H') as [-> [-> ->]]. repeat split; auto. eapply designated_text; eauto.
Qed.
Print Assumptions C61_unique.

Theorem C61_set : forall E fmt_g o p F steps A n a self kids B v xv,
  (forall k l, Permutation l (e_ord E k l)) -> prolog p -> Forall good F -> valid (p ++ forest_text F) = true ->
  good_tpath steps TheElement -> designated (o_case o) steps F A (Elem n a self kids) B ->
  written fmt_g v xv -> (blen xv <= 5242880)%N ->
  set_opts E fmt_g o (p ++ forest_text F) (tpath steps TheElement) v =
    Ok (p ++ A ++ start_tag n a self ++ xv ++ (if self then [] else end_tag n) ++ B, None).
Proof.
  intros E fmt_g o p F steps A n a self kids B v xv Ho Hp HG HV GT L W SZ.
  assert (NN : v <> VNil) by (destruct W; discriminate).
  assert (Q : value_to_xml fmt_g v = inr xv) by (destruct W; cbn [value_to_xml]; rewrite ?esc_escape, ?ProofRaw2.fmt_int_decimal; reflexivity).
  apply (set_found_opt E fmt_g Ho o p F Hp HG (valid_size _ HV) HV steps A n a self kids B v xv); auto.
Qed.
Print Assumptions C61_set.
Theorem C61_set_attribute : forall E fmt_g o p F steps A n a self kids B x v,
  (forall k l, Permutation l (e_ord E k l)) -> prolog p -> Forall good F -> valid (p ++ forest_text F) = true ->
  good_tpath steps (TheAttribute x) -> designated (o_case o) steps F A (Elem n a self kids) B -> (blen (esc v) <= 5242880)%N ->
  exists a', Permutation a' (put_attrs (o_case o) x v a) /\ sorted_by_name a' /\
  set_opts E fmt_g o (p ++ forest_text F) (tpath steps (TheAttribute x)) (VStr v) =
    Ok (p ++ A ++ start_tag n a' self ++ (if self then [] else forest_text kids ++ end_tag n) ++ B, None).
Proof. intros E fmt_g o p F steps A n a self kids B x v Ho Hp HG HV GT L SZ. now apply set_attr_found_opt; auto using valid_size. Qed.
Print Assumptions C61_set_attribute.
Theorem C61_delete : forall E o p F steps A nd B,
  (forall k l, Permutation l (e_ord E k l)) -> prolog p -> Forall good F -> valid (p ++ forest_text F) = true ->
  good_tpath steps TheElement -> designated (o_case o) steps F A nd B -> p ++ A ++ B <> [] ->
  delete_opts E o (p ++ forest_text F) (tpath steps TheElement) = Ok (p ++ A ++ B, None).
Proof.
  intros E o p F steps A nd B Ho Hp HG HV GT L NE. rewrite (delete_found_opt E Ho o p F Hp HG (valid_size _ HV) HV steps A nd B GT L).
  destruct (p ++ A ++ B); [contradiction|reflexivity].
Qed.
Print Assumptions C61_delete.
Theorem C61_delete_attribute : forall E o p F steps A n a self kids B x,
  (forall k l, Permutation l (e_ord E k l)) -> prolog p -> Forall good F -> valid (p ++ forest_text F) = true ->
  good_tpath steps (TheAttribute x) -> designated (o_case o) steps F A (Elem n a self kids) B ->
  ((exists y w, In (y, w) a /\ attr_is (o_case o) x y = true) ->
   exists a', Permutation a' (drop_attrs (o_case o) x a) /\ sorted_by_name a' /\
   delete_opts E o (p ++ forest_text F) (tpath steps (TheAttribute x)) =
     Ok (p ++ A ++ start_tag n a' self ++ (if self then [] else forest_text kids ++ end_tag n) ++ B, None)) /\
  ((forall y w, In (y, w) a -> attr_is (o_case o) x y = false) ->
   delete_opts E o (p ++ forest_text F) (tpath steps (TheAttribute x)) = Ok (p ++ forest_text F, None)).
Proof.
  intros E o p F steps A n a self kids B x Ho Hp HG HV GT L.
  pose proof (delete_attr_found_opt E Ho o p F Hp HG (valid_size _ HV) HV steps A n a self kids B x GT L) as D.
  split; intros H; destruct (existsb (fun q => attr_is (o_case o) x (fst q)) a) eqn:Q; auto.
  - destruct H as [y [w [I M]]]. assert (T : existsb (fun q => attr_is (o_case o) x (fst q)) a = true) by (apply existsb_exists; exists (y, w); auto). congruence.
  - apply existsb_exists in Q. destruct Q as [[y w] [I M]]. cbn [fst] in M. rewrite (H y w I) in M. discriminate.
Qed.
Print Assumptions C61_delete_attribute.
Theorem C61_delete_missing : forall E o p F steps fin,
  (forall k l, Permutation l (e_ord E k l)) -> prolog p -> Forall good F -> valid (p ++ forest_text F) = true ->
  good_tpath steps fin -> fin = TheElement \/ (exists x, fin = TheAttribute x) ->
  (forall A nd B, ~ designated (o_case o) steps F A nd B) ->
  delete_opts E o (p ++ forest_text F) (tpath steps fin) = Ok (p ++ forest_text F, None).
Proof. intros E o p F steps fin Ho Hp HG HV GT HF NL. apply delete_missing_opt; auto using valid_size. Qed.
Print Assumptions C61_delete_missing.

(** ** New elements *)
Theorem C61_create : forall E fmt_g o p F pre m ms A n a self kids B v,
  (forall k l, Permutation l (e_ord E k l)) -> prolog p -> Forall good F -> valid (p ++ forest_text F) = true ->
  good_tpath (pre ++ by_name (m :: ms)) TheElement -> designated (o_case o) pre F A (Elem n a self kids) B ->
  called (finds (o_case o) m) kids = [] -> (blen (esc v) <= 5242880)%N ->
  exists a', Permutation a a' /\ (self = false -> a' = a) /\
  set_opts E fmt_g o (p ++ forest_text F) (tpath (pre ++ by_name (m :: ms)) TheElement) (VStr v) =
    Ok (p ++ A ++ node_text (Elem n a' false (kids ++ new_chain (o_case o) (o_indent o) (m :: ms) [] [Text (esc v)])) ++ B, None).
Proof. intros E fmt_g o p F pre m ms A n a self kids B v Ho Hp HG HV. now apply set_below_opt. Qed.
Print Assumptions C61_create.
Theorem C61_create_root : forall E fmt_g o p F m ms v,
  (forall k l, Permutation l (e_ord E k l)) -> prolog p -> Forall good F -> valid (p ++ forest_text F) = true ->
  good_tpath (by_name (m :: ms)) TheElement -> called (finds (o_case o) m) F = [] -> (blen (esc v) <= 5242880)%N ->
  set_opts E fmt_g o (p ++ forest_text F) (tpath (by_name (m :: ms)) TheElement) (VStr v) =
    Ok (p ++ forest_text (F ++ new_chain (o_case o) (o_indent o) (m :: ms) [] [Text (esc v)]), None).
Proof. intros E fmt_g o p F m ms v Ho Hp HG HV. now apply set_root_opt. Qed.
Print Assumptions C61_create_root.
Theorem C61_create_document : forall E fmt_g o m ms v,
  (forall k l, Permutation l (e_ord E k l)) -> good_tpath (by_name (m :: ms)) TheElement -> (blen (esc v) <= 5242880)%N ->
  set_opts E fmt_g o [] (tpath (by_name (m :: ms)) TheElement) (VStr v) =
    Ok (forest_text (new_chain (o_case o) (o_indent o) (m :: ms) [] [Text (esc v)]), None).
Proof. intros E fmt_g o m ms v Ho. now apply set_empty_opt. Qed.
Print Assumptions C61_create_document.
(** New elements with an attribute; the size limit applies before the attribute is added. *)
Theorem C61_create_attribute : forall E fmt_g o p F pre m ms A n a self kids B x v,
  (forall k l, Permutation l (e_ord E k l)) -> prolog p -> Forall good F -> valid (p ++ forest_text F) = true ->
  good_tpath (pre ++ by_name (m :: ms)) (TheAttribute x) -> designated (o_case o) pre F A (Elem n a self kids) B ->
  called (finds (o_case o) m) kids = [] -> (blen (esc v) <= 5242880)%N -> Forall xml_name (m :: ms) -> no_angle (o_indent o) ->
  exists a', Permutation a a' /\ (self = false -> a' = a) /\
  ((blen (p ++ A ++ node_text (Elem n a' false (kids ++ new_chain (o_case o) (o_indent o) (m :: ms) [] [])) ++ B) <= 10485760)%N ->
   set_opts E fmt_g o (p ++ forest_text F) (tpath (pre ++ by_name (m :: ms)) (TheAttribute x)) (VStr v) =
     Ok (p ++ A ++ node_text (Elem n a' false (kids ++ new_chain (o_case o) (o_indent o) (m :: ms) [(spelled (o_case o) x, v)] [])) ++ B, None)).
Proof. intros E fmt_g o p F pre m ms A n a self kids B x v Ho Hp HG HV. now apply attr_missing_below. Qed.
Print Assumptions C61_create_attribute.
Theorem C61_create_attribute_root : forall E fmt_g o p F m ms x v,
  (forall k l, Permutation l (e_ord E k l)) -> prolog p -> Forall good F -> valid (p ++ forest_text F) = true ->
  good_tpath (by_name (m :: ms)) (TheAttribute x) -> called (finds (o_case o) m) F = [] -> (blen (esc v) <= 5242880)%N ->
  Forall xml_name (m :: ms) -> no_angle (o_indent o) ->
  (blen (p ++ forest_text (F ++ new_chain (o_case o) (o_indent o) (m :: ms) [] [])) <= 10485760)%N ->
  set_opts E fmt_g o (p ++ forest_text F) (tpath (by_name (m :: ms)) (TheAttribute x)) (VStr v) =
    Ok (p ++ forest_text (F ++ new_chain (o_case o) (o_indent o) (m :: ms) [(spelled (o_case o) x, v)] []), None).
Proof. intros E fmt_g o p F m ms x v Ho Hp HG HV. now apply attr_missing_root. Qed.
Print Assumptions C61_create_attribute_root.
Theorem C61_create_attribute_document : forall E fmt_g o m ms x v,
  (forall k l, Permutation l (e_ord E k l)) -> good_tpath (by_name (m :: ms)) (TheAttribute x) -> (blen (esc v) <= 5242880)%N ->
  Forall xml_name (m :: ms) -> no_angle (o_indent o) ->
  (blen (forest_text (new_chain (o_case o) (o_indent o) (m :: ms) [] [])) <= 10485760)%N ->
  set_opts E fmt_g o [] (tpath (by_name (m :: ms)) (TheAttribute x)) (VStr v) =
    Ok (forest_text (new_chain (o_case o) (o_indent o) (m :: ms) [(spelled (o_case o) x, v)] []), None).
Proof. intros E fmt_g o m ms x v Ho. now apply attr_empty_opt. Qed.
Print Assumptions C61_create_attribute_document.

(** ** Appending: after the last child with the name, on a line of its own unless nothing
    precedes it; one indentation for each component of the parent's path. *)
Theorem C61_append : forall E fmt_g o p F steps A n a kids B m v K1 K2,
  (forall k l, Permutation l (e_ord E k l)) -> prolog p -> Forall good F -> valid (p ++ forest_text F) = true ->
  Forall good_tstep (steps ++ [(m, None)]) -> (List.length (flat_map tstep_steps (steps ++ [(m, None)])) < 100)%nat ->
  designated (o_case o) steps F A (Elem n a false kids) B -> parted (finds (o_case o) m) kids K1 K2 -> (blen (esc v) <= 5242880)%N ->
  let line := line_after K1 (o_indent o) (List.length (flat_map tstep_steps steps)) in
  let new := p ++ A ++ node_text (Elem n a false (K1 ++ line ++ [Elem (spelled (o_case o) m) [] false [Text (esc v)]] ++ K2)) ++ B in
  set_opts E fmt_g o (p ++ forest_text F) (tpath (steps ++ [(m, None)]) TheElement ++ bs ".-1") (VStr v) =
    Ok (if (10485760 <? blen new)%N then (p ++ forest_text F, Some ErrInvalidValue) else (new, None)).
Proof. intros E fmt_g o p F steps A n a kids B m v K1 K2 Ho Hp HG HV. now apply append_found_tree. Qed.
Print Assumptions C61_append.
Theorem C61_append_self_closing : forall E fmt_g o p F steps A n a kids B m v,
  (forall k l, Permutation l (e_ord E k l)) -> prolog p -> Forall good F -> valid (p ++ forest_text F) = true ->
  Forall good_tstep (steps ++ [(m, None)]) -> (List.length (flat_map tstep_steps (steps ++ [(m, None)])) < 100)%nat ->
  designated (o_case o) steps F A (Elem n a true kids) B -> (blen (esc v) <= 5242880)%N ->
  exists a', Permutation a' a /\ sorted_by_name a' /\
  set_opts E fmt_g o (p ++ forest_text F) (tpath (steps ++ [(m, None)]) TheElement ++ bs ".-1") (VStr v) =
    Ok (p ++ A ++ node_text (Elem n a' false [Elem (spelled (o_case o) m) [] false [Text (esc v)]]) ++ B, None).
Proof. intros E fmt_g o p F steps A n a kids B m v Ho Hp HG HV. now apply append_self_tree. Qed.
Print Assumptions C61_append_self_closing.
Theorem C61_append_root : forall E fmt_g o p F m v F1 F2,
  (forall k l, Permutation l (e_ord E k l)) -> prolog p -> Forall good F -> valid (p ++ forest_text F) = true ->
  step_name m -> parted (finds (o_case o) m) F F1 F2 -> (blen (esc v) <= 5242880)%N ->
  let new := p ++ forest_text (F1 ++ [Elem (spelled (o_case o) m) [] false [Text (esc v)]] ++ F2) in
  set_opts E fmt_g o (p ++ forest_text F) (tpath [(m, None)] TheElement ++ bs ".-1") (VStr v) =
    Ok (if (10485760 <? blen new)%N then (p ++ forest_text F, Some ErrInvalidValue) else (new, None)).
Proof. intros E fmt_g o p F m v F1 F2 Ho Hp HG HV. now apply append_top_tree. Qed.
Print Assumptions C61_append_root.
(** The place is found for every list of children. *)
Theorem C61_append_place : forall f F, exists F1 F2, parted f F F1 F2.
Proof.
  intros f F. destruct (insert_split f F) as [F1 [F2 [H1 [_ [H3 [H4 H5]]]]]]. destruct (called f F) as [|y l] eqn:Q.
  - exists F, []. now constructor.
  - destruct (H5 ltac:(discriminate)) as [G [nd [-> N]]]. exists (G ++ [nd]), F2. rewrite H1, <- app_assoc. now constructor.
Qed.
Print Assumptions C61_append_place.

(** ** What is written in one spelling is read in any. *)
Theorem C61_get_after_set : forall E fmt_g o p F steps steps' A n a kids B v,
  (forall k l, Permutation l (e_ord E k l)) -> o_case o = false -> prolog p -> Forall good F -> valid (p ++ forest_text F) = true ->
  apart F -> shallow F -> (elements F < 9999)%N ->
  good_tpath steps TheElement -> designated false steps F A (Elem n a false kids) B -> (blen (esc v) <= 5242880)%N ->
  Forall2 respelled steps steps' -> Forall early steps -> good_tpath steps' TheElement ->
  let new := p ++ A ++ start_tag n a false ++ esc v ++ end_tag n ++ B in (blen new <= 10485760)%N ->
  set_opts E fmt_g o (p ++ forest_text F) (tpath steps TheElement) (VStr v) = Ok (new, None) /\
  exists r, get_opts E o new (tpath steps' TheElement) = Ok r /\ r_type r = RElement /\ r_string r = trim_space v.
Proof. intros E fmt_g o p F steps steps' A n a kids B v Ho Hc Hp HG HV HA HS HE. now apply set_read_opt. Qed.
Print Assumptions C61_get_after_set.
Theorem C61_get_after_set_attribute : forall E fmt_g o p F steps steps' A n a self kids B x x' v,
  (forall k l, Permutation l (e_ord E k l)) -> o_case o = false -> prolog p -> Forall good F -> valid (p ++ forest_text F) = true ->
  apart F -> shallow F -> (elements F < 9999)%N ->
  good_tpath steps (TheAttribute x) -> designated false steps F A (Elem n a self kids) B -> (blen (esc v) <= 5242880)%N ->
  Forall2 respelled steps steps' -> folded x = folded x' -> Forall early steps -> good_tpath steps' (TheAttribute x') ->
  good_attrs (put_attrs false x v a) ->
  exists a', Permutation a' (put_attrs false x v a) /\ sorted_by_name a' /\
  let new := p ++ A ++ start_tag n a' self ++ (if self then [] else forest_text kids ++ end_tag n) ++ B in
  set_opts E fmt_g o (p ++ forest_text F) (tpath steps (TheAttribute x)) (VStr v) = Ok (new, None) /\
  ((blen new <= 10485760)%N ->
   exists r, get_opts E o new (tpath steps' (TheAttribute x')) = Ok r /\ r_type r = RAttribute /\ r_string r = v).
Proof. intros E fmt_g o p F steps steps' A n a self kids B x x' v Ho Hc Hp HG HV HA HS HE. now apply set_attr_read_opt. Qed.
Print Assumptions C61_get_after_set_attribute.

(** New elements are not spelled as in the path: without [CaseSensitive] their names are
    written in lower case, so that a case-sensitive Get of the same path finds nothing. *)
Theorem C61_spelling_refuted : exists o xml path new,
  set_opts env0 (fun _ => []) o xml path (VStr (bs "1")) = Ok (new, None) /\
  match get env0 new path with Ok r => r_exists r = false | _ => False end.
Proof. exists (mkOpts false [] false None), (bs "<Shop/>"), (bs "Shop.Item"), (bs "<Shop><item>1</item></Shop>"). vm_compute. auto. Qed.
Print Assumptions C61_spelling_refuted.

Definition ci2 : options := mkOpts false (bs "  ") false None.
Definition third : list tstep := [(bs "shop", None); (bs "ITEM", Some (bs "1"))].
Example C61_example :
  let d := sample_prolog ++ forest_text stock in
  let item := Elem (bs "s:Item") [(bs "Id", bs "2")] false [Elem (bs "name") [] false [Text (bs "book")]; Elem (bs "price") [] false [Text (bs "12")]] in
  let before := bs "<Shop><ITEM ID=""1""><Name>pen</Name><price>3</price></ITEM>" in
  let after := bs "<box><item id=""3""/></box></Shop>" in
  valid d = true /\ designated false third stock before item after /\ good_tpath third TheElement /\
  set_opts env0 (fun _ => []) ci2 d (bs "shop.ITEM.1") (VStr (bs "a<b")) = Ok (sample_prolog ++ before ++ bs "<s:Item Id=""2"">a&lt;b</s:Item>" ++ after, None) /\
  set_opts env0 (fun _ => []) ci2 d (bs "shop.ITEM.1.@ID") (VStr (bs "9")) =
    Ok (sample_prolog ++ before ++ bs "<s:Item Id=""9""><name>book</name><price>12</price></s:Item>" ++ after, None) /\
  delete_opts env0 ci2 d (bs "shop.ITEM.1") = Ok (sample_prolog ++ before ++ after, None) /\
  set_opts env0 (fun _ => []) ci2 d (bs "shop.ITEM.1.Stock.Left") (VStr (bs "4")) =
    Ok (sample_prolog ++ before ++ bs "<s:Item Id=""2""><name>book</name><price>12</price>" ++
        [lf] ++ bs "<stock>" ++ [lf] ++ bs "  <left>4</left></stock></s:Item>" ++ after, None) /\
  set_opts env0 (fun _ => []) ci2 d (bs "shop.ITEM.1.NAME.-1") (VStr (bs "x")) =
    Ok (sample_prolog ++ before ++ bs "<s:Item Id=""2""><name>book</name>" ++ [lf] ++ bs "      <name>x</name><price>12</price></s:Item>" ++ after, None).
Proof.
  cbv zeta. split; [vm_compute; reflexivity|]. split.
  - pose (i1 := Elem (bs "ITEM") [(bs "ID", bs "1")] false [Elem (bs "Name") [] false [Text (bs "pen")]; Elem (bs "price") [] false [Text (bs "3")]]).
    pose (i2 := Elem (bs "s:Item") [(bs "Id", bs "2")] false [Elem (bs "name") [] false [Text (bs "book")]; Elem (bs "price") [] false [Text (bs "12")]]).
    pose (i3 := Elem (bs "box") [] false [Elem (bs "item") [(bs "id", bs "3")] true []]).
    exact (des_down false (bs "shop") None [(bs "ITEM", Some (bs "1"))] [] (bs "Shop") [] [i1; i2; i3] [] _ i2 _ eq_refl eq_refl
      (des_here false (bs "ITEM") (Some (bs "1")) [i1] i2 [i3] eq_refl eq_refl)).
  - split; [apply tpath_b_ok; vm_compute; reflexivity|]. repeat (split; [vm_compute; reflexivity|]). vm_compute. reflexivity.
Qed.
Example C61_read_example :
  apart stock /\ shallow stock /\ (elements stock <? 9999)%N = true /\ Forall early third /\
  Forall2 respelled third [(bs "SHOP", None); (bs "Item", Some (bs "1"))] /\
  good_tpath [(bs "SHOP", None); (bs "Item", Some (bs "1"))] TheElement /\
  match set_opts env0 (fun _ => []) ci2 (forest_text stock) (bs "shop.ITEM.1") (VStr (bs " a<b")) with
  | Ok (new, None) => match get_opts env0 ci2 new (bs "SHOP.Item.1") with Ok r => r_string r = bs "a<b" | _ => False end
  | _ => False
  end.
Proof.
  split; [apply stock_apart|]. split; [repeat constructor|]. split; [vm_compute; reflexivity|]. split; [repeat constructor|]. split; [repeat constructor|].
  split; [apply tpath_b_ok; vm_compute; reflexivity|]. vm_compute. reflexivity.
Qed.
Example C61_create_example :
  set_opts env0 (fun _ => []) ci2 [] (bs "A.B.@C") (VStr (bs "1")) = Ok ([lf] ++ bs "<a>" ++ [lf] ++ bs "  <b c=""1""></b></a>", None) /\
  good_tpath (by_name [bs "A"; bs "B"]) (TheAttribute (bs "C")) /\
  forest_text (new_chain false (bs "  ") [bs "A"; bs "B"] [(spelled false (bs "C"), bs "1")] []) = [lf] ++ bs "<a>" ++ [lf] ++ bs "  <b c=""1""></b></a>".
Proof. split; [vm_compute; reflexivity|]. split; [apply tpath_b_ok; vm_compute; reflexivity|]. vm_compute. reflexivity. Qed.
