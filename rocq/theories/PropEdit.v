(** C02-C08: Set and Delete on canonical documents. *)
From Coq Require Import List Ascii String NArith ZArith Bool Lia Permutation.
From Verif Require Import GoStr ModelParser ModelPath ModelResult ModelQuery ModelValidate ModelBuilder ModelApi SpecText SpecPath SpecTree SpecQuery SpecEdit SpecContent SpecHistory
  ProofBase ProofPath ProofTree ProofTree8 ProofEdit ProofEdit2 ProofEdit3 ProofEdit4 ProofEdit5 ProofEdit6 ProofEdit7 ProofRaw2 PropTree.
Import ListNotations.

(** C03. When the path designates an element with separate start and end tag, Set replaces
    exactly the bytes between the two tags. *)
Theorem C03_set_content : forall E fmt_g p F steps A n a kids B v,
  (forall k l, Permutation l (e_ord E k l)) -> prolog p -> Forall good F -> valid (p ++ forest_text F) = true ->
  good_tpath steps TheElement -> located steps F A (Elem n a false kids) B -> (blen (esc v) <= 5242880)%N ->
  forest_text F = A ++ start_tag n a false ++ forest_text kids ++ end_tag n ++ B /\
  set E fmt_g (p ++ forest_text F) (tpath steps TheElement) (VStr v) =
    Ok (p ++ A ++ start_tag n a false ++ esc v ++ end_tag n ++ B, None).
Proof.
  intros E fmt_g p F steps A n a kids B v Ho Hp HG HV GT L SZ. split.
  - rewrite (located_text _ _ _ _ _ L), node_elem, <- !app_assoc. reflexivity.
  - apply (set_text_ok E fmt_g Ho p F Hp HG HV steps A n a kids B v GT L SZ).
Qed.
Print Assumptions C03_set_content.
(** The same for every kind of value: the content becomes what the value is written as. *)
Theorem C03_set_value : forall E fmt_g p F steps A n a kids B v xv,
  (forall k l, Permutation l (e_ord E k l)) -> prolog p -> Forall good F -> valid (p ++ forest_text F) = true ->
  good_tpath steps TheElement -> located steps F A (Elem n a false kids) B ->
  written fmt_g v xv -> (blen xv <= 5242880)%N ->
  set E fmt_g (p ++ forest_text F) (tpath steps TheElement) v =
    Ok (p ++ A ++ start_tag n a false ++ xv ++ end_tag n ++ B, None).
Proof.
  intros E fmt_g p F steps A n a kids B v xv Ho Hp HG HV GT L W SZ.
  assert (NN : v <> VNil) by (destruct W; discriminate).
  assert (Q : value_to_xml fmt_g v = inr xv) by (destruct W; cbn [value_to_xml]; rewrite ?esc_escape, ?fmt_int_decimal; reflexivity).
  apply (set_found E fmt_g Ho p F Hp HG (valid_size _ HV) HV steps A n a false kids B v xv GT L); auto.
Qed.
Print Assumptions C03_set_value.
Definition ab1 : list tstep := [(bs "r", None); (bs "a", Some (bs "1")); (bs "b", Some (bs "1"))].
Example C03_example :
  prolog sample_prolog /\ Forall good sample /\ valid (sample_prolog ++ forest_text sample) = true /\
  good_tpath ab1 TheElement /\ tpath ab1 TheElement = bs "r.a.1.b.1" /\
  located ab1 sample (bs "<r> <a/><!--note--><a k=""1&lt;2"" x:y=""z""><b> one </b>")
    (Elem (bs "p:b") [(bs "m", bs "u"); (bs "n", bs "v")] false [Text (bs "t&amp;u"); Elem (bs "c") [] true []])
    (bs "</a><d>tail</d></r>") /\
  set env0 (fun _ => []) (sample_prolog ++ forest_text sample) (bs "r.a.1.b.1") (VStr (bs "<new>")) =
    Ok (sample_prolog ++ bs "<r> <a/><!--note--><a k=""1&lt;2"" x:y=""z""><b> one </b><p:b m=""u"" n=""v"">&lt;new&gt;</p:b></a><d>tail</d></r>", None).
Proof.
  split; [apply sample_prolog_ok|]. split; [apply sample_good|]. split; [vm_compute; reflexivity|].
  split; [apply tpath_b_ok; vm_compute; reflexivity|]. split; [reflexivity|]. split; [apply locate_ok; vm_compute; reflexivity|]. vm_compute. reflexivity.
Qed.

(** C02. What was set is read back, trimmed. *)
Theorem C02_get_after_set : forall E fmt_g p F steps A n a kids B v new,
  (forall k l, Permutation l (e_ord E k l)) -> prolog p -> Forall good F -> valid (p ++ forest_text F) = true ->
  good_tpath steps TheElement -> readable steps F -> located steps F A (Elem n a false kids) B -> (blen (esc v) <= 5242880)%N ->
  set E fmt_g (p ++ forest_text F) (tpath steps TheElement) (VStr v) = Ok (new, None) -> (blen new <= 10485760)%N ->
  exists r, get E new (tpath steps TheElement) = Ok r /\ r_type r = RElement /\ r_string r = trim_space v.
Proof.
  intros E fmt_g p F steps A n a kids B v new Ho Hp HG HV GT RD L SZ S SN.
  destruct (set_text_ok E fmt_g Ho p F Hp HG HV steps A n a kids B v GT L SZ) as [S1 S2]. rewrite S in S1. injection S1 as ->. now apply S2.
Qed.
Print Assumptions C02_get_after_set.
Example C02_example :
  readable ab1 sample /\
  exists new, set env_rev (fun _ => []) (sample_prolog ++ forest_text sample) (bs "r.a.1.b.1") (VStr (bs " x&y ")) = Ok (new, None) /\
    match get env_rev new (bs "r.a.1.b.1") with Ok r => bytes_eqb (r_string r) (bs "x&y") | _ => false end = true.
Proof.
  split; [split; [constructor; [exact I|constructor; [reflexivity|constructor; [reflexivity|constructor]]]|exact I]|].
  exists (sample_prolog ++ bs "<r> <a/><!--note--><a k=""1&lt;2"" x:y=""z""><b> one </b><p:b m=""u"" n=""v""> x&amp;y </p:b></a><d>tail</d></r>").
  split; vm_compute; reflexivity.
Qed.
(** On a self-closing target the value is written after the tag and is not read back. *)
Theorem C02_self_closing_refuted : exists xml path v new,
  valid xml = true /\ set env0 (fun _ => []) xml path (VStr v) = Ok (new, None) /\ new = bs "<r><a/>v</r>" /\
  match get env0 new path with Ok r => negb (bytes_eqb (r_string r) v) | _ => false end = true.
Proof.
  exists (bs "<r><a/></r>"), (bs "r.a"), (bs "v"), (bs "<r><a/>v</r>"). vm_compute. repeat split; reflexivity.
Qed.
(** With a space inside a closing tag, Set corrupts the document. *)
Theorem C03_spaced_end_tag_refuted : exists xml path v new,
  valid xml = true /\ set env0 (fun _ => []) xml path (VStr v) = Ok (new, None) /\ valid new = false.
Proof.
  exists (bs "<r><a>x</a ><b>y</b></r>"), (bs "r.b"), (bs "v"), (bs "<r><a>x</a ><bvy</b></r>"). vm_compute. repeat split; reflexivity.
Qed.

(** C04. A missing element is created, with the missing names nested, as the last child of
    the deepest existing element of the path; that element is written with separate tags if
    it was self-closing, and nothing else changes.  The value is read back. *)
Theorem C04_create_below : forall E fmt_g p F pre m ms A n a self kids B v,
  (forall k l, Permutation l (e_ord E k l)) -> prolog p -> Forall good F -> valid (p ++ forest_text F) = true ->
  good_tpath (pre ++ by_name (m :: ms)) TheElement -> located pre F A (Elem n a self kids) B ->
  called (selects m) kids = [] -> (blen (esc v) <= 5242880)%N ->
  exists a', Permutation a a' /\ (self = false -> a' = a) /\
  let new := p ++ A ++ node_text (Elem n a' false (kids ++ chain_of (m :: ms) v)) ++ B in
  set E fmt_g (p ++ forest_text F) (tpath (pre ++ by_name (m :: ms)) TheElement) (VStr v) = Ok (new, None) /\
  (readable pre F -> Forall xml_name (m :: ms) -> (blen new <= 10485760)%N ->
   exists r, get E new (tpath (pre ++ by_name (m :: ms)) TheElement) = Ok r /\ r_type r = RElement /\ r_string r = trim_space v).
Proof. intros E fmt_g p F pre m ms A n a self kids B v Ho Hp HG HV. now apply create_ok. Qed.
Print Assumptions C04_create_below.
Theorem C04_create_root : forall E fmt_g p F m ms v,
  (forall k l, Permutation l (e_ord E k l)) -> prolog p -> Forall good F -> valid (p ++ forest_text F) = true ->
  good_tpath (by_name (m :: ms)) TheElement -> called (selects m) F = [] -> (blen (esc v) <= 5242880)%N ->
  let new := p ++ forest_text (F ++ chain_of (m :: ms) v) in
  set E fmt_g (p ++ forest_text F) (tpath (by_name (m :: ms)) TheElement) (VStr v) = Ok (new, None) /\
  (Forall xml_name (m :: ms) -> (blen new <= 10485760)%N ->
   exists r, get E new (tpath (by_name (m :: ms)) TheElement) = Ok r /\ r_type r = RElement /\ r_string r = trim_space v).
Proof. intros E fmt_g p F m ms v Ho Hp HG HV. now apply create_top_ok. Qed.
Print Assumptions C04_create_root.
Theorem C04_create_document : forall E fmt_g m ms v, (forall k l, Permutation l (e_ord E k l)) ->
  good_tpath (by_name (m :: ms)) TheElement -> (blen (esc v) <= 5242880)%N ->
  let new := forest_text (chain_of (m :: ms) v) in
  set E fmt_g [] (tpath (by_name (m :: ms)) TheElement) (VStr v) = Ok (new, None) /\
  (Forall xml_name (m :: ms) -> (blen new <= 10485760)%N ->
   exists r, get E new (tpath (by_name (m :: ms)) TheElement) = Ok r /\ r_type r = RElement /\ r_string r = trim_space v).
Proof. intros E fmt_g m ms v Ho. now apply create_empty_ok. Qed.
Print Assumptions C04_create_document.
Example C04_example :
  let pre := [(bs "r", None); (bs "a", None)] in
  good_tpath (pre ++ by_name [bs "x"; bs "y"]) TheElement /\
  located pre sample (bs "<r> ") (Elem (bs "a") [] true [])
    (bs "<!--note--><a k=""1&lt;2"" x:y=""z""><b> one </b><p:b m=""u"" n=""v"">t&amp;u<c/></p:b></a><d>tail</d></r>") /\
  readable pre sample /\ Forall xml_name [bs "x"; bs "y"] /\
  set env0 (fun _ => []) (sample_prolog ++ forest_text sample) (bs "r.a.x.y") (VStr (bs "v")) =
    Ok (sample_prolog ++ bs "<r> <a><x><y>v</y></x></a><!--note--><a k=""1&lt;2"" x:y=""z""><b> one </b><p:b m=""u"" n=""v"">t&amp;u<c/></p:b></a><d>tail</d></r>", None) /\
  set env0 (fun _ => []) (bs "<r/>") (bs "s.t") (VStr (bs "v")) = Ok (bs "<r/><s><t>v</t></s>", None) /\
  set env0 (fun _ => []) [] (bs "s.t") (VStr (bs "v")) = Ok (bs "<s><t>v</t></s>", None).
Proof.
  cbv zeta. split; [apply tpath_b_ok; vm_compute; reflexivity|]. split; [apply locate_ok; vm_compute; reflexivity|].
  split; [split; [constructor; [exact I|constructor; [exact I|constructor]]|exact I]|].
  split; [constructor; [apply xml_name_b_ok; reflexivity|constructor; [apply xml_name_b_ok; reflexivity|constructor]]|]. vm_compute. repeat split; reflexivity.
Qed.
(** A missing index, unlike a missing name, makes Set write an element without a name. *)
Theorem C04_missing_index_refuted : exists xml path new,
  valid xml = true /\ set env0 (fun _ => []) xml path (VStr (bs "v")) = Ok (new, None) /\ new = bs "<r><a>x<>v</></a></r>" /\ valid new = false.
Proof.
  exists (bs "<r><a>x</a></r>"), (bs "r.a.1"). eexists. split; [reflexivity|]. split; [vm_compute; reflexivity|]. vm_compute. split; reflexivity.
Qed.

(** C05. Setting an attribute rewrites only the start tag; the attribute and all other
    attributes are read back exactly. *)
Theorem C05_set_attribute : forall E fmt_g p F steps A n a self kids B x v,
  (forall k l, Permutation l (e_ord E k l)) -> prolog p -> Forall good F -> valid (p ++ forest_text F) = true ->
  good_tpath steps (TheAttribute x) -> located steps F A (Elem n a self kids) B -> (blen (esc v) <= 5242880)%N ->
  exists a', Permutation a' (put_attr x v a) /\
  let new := p ++ A ++ start_tag n a' self ++ (if self then [] else forest_text kids ++ end_tag n) ++ B in
  set E fmt_g (p ++ forest_text F) (tpath steps (TheAttribute x)) (VStr v) = Ok (new, None) /\
  (readable steps F -> good_attrs (put_attr x v a) -> (blen new <= 10485760)%N ->
   (exists r, get E new (tpath steps (TheAttribute x)) = Ok r /\ r_type r = RAttribute /\ r_string r = v) /\
   forall y w, y <> x -> ~ In "|"%char y -> attr_value y a = Some w ->
     exists r, get E new (tpath steps (TheAttribute y)) = Ok r /\ r_type r = RAttribute /\ r_string r = w).
Proof. intros E fmt_g p F steps A n a self kids B x v Ho Hp HG HV. now apply set_attr_ok. Qed.
Print Assumptions C05_set_attribute.
Definition a1 : list tstep := [(bs "r", None); (bs "a", Some (bs "1"))].
Example C05_example :
  good_tpath a1 (TheAttribute (bs "k")) /\
  located a1 sample (bs "<r> <a/><!--note-->")
    (Elem (bs "a") [(bs "k", bs "1<2"); (bs "x:y", bs "z")] false
        [Elem (bs "b") [] false [Text (bs " one ")]; Elem (bs "p:b") [(bs "m", bs "u"); (bs "n", bs "v")] false [Text (bs "t&amp;u"); Elem (bs "c") [] true []]])
    (bs "<d>tail</d></r>") /\
  readable a1 sample /\ good_attrs (put_attr (bs "k") (bs "say ""hi""") [(bs "k", bs "1<2"); (bs "x:y", bs "z")]) /\
  set env0 (fun _ => []) (sample_prolog ++ forest_text sample) (bs "r.a.1.@k") (VStr (bs "say ""hi""")) =
    Ok (sample_prolog ++ bs "<r> <a/><!--note--><a k=""say &quot;hi&quot;"" x:y=""z""><b> one </b><p:b m=""u"" n=""v"">t&amp;u<c/></p:b></a><d>tail</d></r>", None).
Proof.
  split; [apply tpath_b_ok; vm_compute; reflexivity|]. split; [apply locate_ok; vm_compute; reflexivity|].
  split; [split; [constructor; [exact I|constructor; [reflexivity|constructor]]|exact I]|]. split; [apply attrs_b_ok; vm_compute; reflexivity|]. vm_compute. reflexivity.
Qed.
(** On a missing element the elements are created first, the innermost with the attribute. *)
Theorem C05_create_with_attribute : forall E fmt_g p F pre m ms A n a self kids B x v,
  (forall k l, Permutation l (e_ord E k l)) -> prolog p -> Forall good F -> valid (p ++ forest_text F) = true ->
  good_tpath (pre ++ by_name (m :: ms)) (TheAttribute x) -> located pre F A (Elem n a self kids) B ->
  called (selects m) kids = [] -> (blen (esc v) <= 5242880)%N -> Forall xml_name (m :: ms) ->
  exists a', Permutation a a' /\ (self = false -> a' = a) /\
  let new := p ++ A ++ node_text (Elem n a' false (kids ++ nest (removelast (m :: ms)) [Elem (last ms m) [(x, v)] false []])) ++ B in
  ((blen (p ++ A ++ node_text (Elem n a' false (kids ++ nest (m :: ms) [])) ++ B) <= 10485760)%N ->
   set E fmt_g (p ++ forest_text F) (tpath (pre ++ by_name (m :: ms)) (TheAttribute x)) (VStr v) = Ok (new, None)).
Proof. intros E fmt_g p F pre m ms A n a self kids B x v Ho Hp HG HV. now apply set_attr_missing. Qed.
Print Assumptions C05_create_with_attribute.
Example C05_create_example :
  good_tpath ([(bs "r", None)] ++ by_name [bs "x"; bs "y"]) (TheAttribute (bs "k")) /\
  set env0 (fun _ => []) (sample_prolog ++ forest_text sample) (bs "r.x.y.@k") (VStr (bs "v")) =
    Ok (sample_prolog ++ bs "<r> <a/><!--note--><a k=""1&lt;2"" x:y=""z""><b> one </b><p:b m=""u"" n=""v"">t&amp;u<c/></p:b></a><d>tail</d><x><y k=""v""></y></x></r>", None).
Proof. split; [apply tpath_b_ok; vm_compute; reflexivity|]. vm_compute. reflexivity. Qed.

(** C06. Delete removes exactly the bytes of the element it designates, provided something
    remains. *)
Theorem C06_delete_element : forall E p F steps A nd B,
  (forall k l, Permutation l (e_ord E k l)) -> prolog p -> Forall good F -> valid (p ++ forest_text F) = true ->
  good_tpath steps TheElement -> located steps F A nd B ->
  forest_text F = A ++ node_text nd ++ B /\
  (p ++ A ++ B <> [] -> delete E (p ++ forest_text F) (tpath steps TheElement) = Ok (p ++ A ++ B, None)).
Proof.
  intros E p F steps A nd B Ho Hp HG HV GT L. split; [now apply located_text with (steps := steps)|]. intros NE.
  rewrite (delete_found E Ho p F Hp HG (valid_size _ HV) HV steps A nd B GT L). destruct (p ++ A ++ B); [contradiction|reflexivity].
Qed.
Print Assumptions C06_delete_element.
(** Deleting an attribute rewrites only the start tag, without the attribute. *)
Theorem C06_delete_attribute : forall E p F steps A n a self kids B x w,
  (forall k l, Permutation l (e_ord E k l)) -> prolog p -> Forall good F -> valid (p ++ forest_text F) = true ->
  good_tpath steps (TheAttribute x) -> located steps F A (Elem n a self kids) B -> attr_value x a = Some w ->
  exists a', Permutation a' (drop_attr x a) /\ delete E (p ++ forest_text F) (tpath steps (TheAttribute x)) =
    Ok (p ++ A ++ start_tag n a' self ++ (if self then [] else forest_text kids ++ end_tag n) ++ B, None).
Proof.
  intros E p F steps A n a self kids B x w Ho Hp HG HV GT L AV.
  pose proof (delete_attr_found E Ho p F Hp HG (valid_size _ HV) HV steps A n a self kids B x GT L) as D. now rewrite AV in D.
Qed.
Print Assumptions C06_delete_attribute.
Example C06_example :
  located ab1 sample (bs "<r> <a/><!--note--><a k=""1&lt;2"" x:y=""z""><b> one </b>")
    (Elem (bs "p:b") [(bs "m", bs "u"); (bs "n", bs "v")] false [Text (bs "t&amp;u"); Elem (bs "c") [] true []])
    (bs "</a><d>tail</d></r>") /\
  delete env0 (sample_prolog ++ forest_text sample) (bs "r.a.1.b.1") =
    Ok (sample_prolog ++ bs "<r> <a/><!--note--><a k=""1&lt;2"" x:y=""z""><b> one </b></a><d>tail</d></r>", None) /\
  delete env0 (sample_prolog ++ forest_text sample) (bs "r.a.1.@k") =
    Ok (sample_prolog ++ bs "<r> <a/><!--note--><a x:y=""z""><b> one </b><p:b m=""u"" n=""v"">t&amp;u<c/></p:b></a><d>tail</d></r>", None).
Proof. split; [apply locate_ok; vm_compute; reflexivity|]. vm_compute. split; reflexivity. Qed.
(** Deleting the only element of a document without prolog does nothing, successfully. *)
Theorem C06_sole_root_refuted : exists xml path,
  valid xml = true /\ match get env0 xml path with Ok r => r_exists r | _ => false end = true /\ delete env0 xml path = Ok (xml, None).
Proof. exists (bs "<r>x</r>"), (bs "r"). vm_compute. repeat split; reflexivity. Qed.
(** An element that Get finds behind a sibling without it is not deleted. *)
Theorem C06_later_sibling_refuted : exists xml path,
  valid xml = true /\ match get env0 xml path with Ok r => r_exists r | _ => false end = true /\ delete env0 xml path = Ok (xml, None).
Proof. exists (bs "<r><a/><a><b>1</b></a></r>"), (bs "r.a.b"). vm_compute. repeat split; reflexivity. Qed.

(** C07. On a canonical document, Delete of a path that designates nothing changes nothing. *)
Theorem C07_canonical : forall E p F steps fin,
  (forall k l, Permutation l (e_ord E k l)) -> prolog p -> Forall good F -> valid (p ++ forest_text F) = true ->
  good_tpath steps fin -> fin = TheElement \/ (exists x, fin = TheAttribute x) -> (forall A nd B, ~ located steps F A nd B) ->
  delete E (p ++ forest_text F) (tpath steps fin) = Ok (p ++ forest_text F, None).
Proof. intros E p F steps fin Ho Hp HG HV GT HF NL. apply delete_missing; auto using valid_size. Qed.
Print Assumptions C07_canonical.
Theorem C07_canonical_attribute : forall E p F steps A n a self kids B x,
  (forall k l, Permutation l (e_ord E k l)) -> prolog p -> Forall good F -> valid (p ++ forest_text F) = true ->
  good_tpath steps (TheAttribute x) -> located steps F A (Elem n a self kids) B -> attr_value x a = None ->
  delete E (p ++ forest_text F) (tpath steps (TheAttribute x)) = Ok (p ++ forest_text F, None).
Proof.
  intros E p F steps A n a self kids B x Ho Hp HG HV GT L AV.
  pose proof (delete_attr_found E Ho p F Hp HG (valid_size _ HV) HV steps A n a self kids B x GT L) as D. now rewrite AV in D.
Qed.
Print Assumptions C07_canonical_attribute.
Example C07_canonical_example :
  (forall A nd B, ~ located [(bs "r", None); (bs "zz", Some (bs "0"))] sample A nd B) /\
  delete env0 (sample_prolog ++ forest_text sample) (bs "r.zz.0") = Ok (sample_prolog ++ forest_text sample, None) /\
  delete env0 (sample_prolog ++ forest_text sample) (bs "r.a.1.@zz") = Ok (sample_prolog ++ forest_text sample, None).
Proof.
  split.
  - intros A nd B L. destruct (located_edit _ (fun _ => []) _ _ _ _ L) as [F' Q]. vm_compute in Q. discriminate.
  - vm_compute. split; reflexivity.
Qed.

(** C08. Appending inserts one element after the last child of that name (or as last child);
    it is read back under the next index, and the count grows by one. *)
Theorem C08_append : forall E fmt_g p F steps A n a kids B m v,
  (forall k l, Permutation l (e_ord E k l)) -> prolog p -> Forall good F -> valid (p ++ forest_text F) = true ->
  Forall good_tstep (steps ++ [(m, None)]) -> (List.length (flat_map tstep_steps (steps ++ [(m, None)])) < 100)%nat ->
  located steps F A (Elem n a false kids) B -> (blen (esc v) <= 5242880)%N ->
  let new := p ++ A ++ node_text (Elem n a false (insert_last (selects m) (Elem m [] false [Text (esc v)]) kids)) ++ B in
  let k := List.length (called (selects m) kids) in
  (blen new <= 10485760)%N ->
  set E fmt_g (p ++ forest_text F) (tpath (steps ++ [(m, None)]) TheElement ++ bs ".-1") (VStr v) = Ok (new, None) /\
  (readable steps F -> xml_name m -> (k < 1000)%nat ->
   (forall ds, ds <> [] -> Forall digit ds -> decimal_value ds = N.of_nat k ->
     exists r, get E new (tpath (steps ++ [(m, Some ds)]) TheElement) = Ok r /\ r_type r = RElement /\ r_string r = trim_space v) /\
   exists r, get E new (tpath (steps ++ [(m, None)]) TheCount) = Ok r /\ describes r (Count (S k))).
Proof.
  intros E fmt_g p F steps A n a kids B m v Ho Hp HG HV GS LN L SZ new k SN. split.
  - apply (append_ok E fmt_g Ho p F Hp HG HV steps A n a kids B m v GS LN L SZ SN).
  - intros RD XN LT. apply (append_read E Ho p F Hp HG HV steps A n a false kids B m v a GS LN L (Permutation_refl a) SN RD XN LT).
Qed.
Print Assumptions C08_append.
Theorem C08_append_self_closing : forall E fmt_g p F steps A n a kids B m v,
  (forall k l, Permutation l (e_ord E k l)) -> prolog p -> Forall good F -> valid (p ++ forest_text F) = true ->
  Forall good_tstep (steps ++ [(m, None)]) -> (List.length (flat_map tstep_steps (steps ++ [(m, None)])) < 100)%nat ->
  located steps F A (Elem n a true kids) B -> (blen (esc v) <= 5242880)%N ->
  exists a', Permutation a a' /\
  let new := p ++ A ++ node_text (Elem n a' false [Elem m [] false [Text (esc v)]]) ++ B in
  set E fmt_g (p ++ forest_text F) (tpath (steps ++ [(m, None)]) TheElement ++ bs ".-1") (VStr v) = Ok (new, None) /\
  ((blen new <= 10485760)%N -> readable steps F -> xml_name m ->
   (exists r, get E new (tpath (steps ++ [(m, Some (bs "0"))]) TheElement) = Ok r /\ r_type r = RElement /\ r_string r = trim_space v) /\
   exists r, get E new (tpath (steps ++ [(m, None)]) TheCount) = Ok r /\ describes r (Count 1)).
Proof.
  intros E fmt_g p F steps A n a kids B m v Ho Hp HG HV GS LN L SZ.
  destruct (append_self_ok E fmt_g Ho p F Hp HG HV steps A n a kids B m v GS LN L SZ) as [a' [PA S]]. exists a'. split; auto.
  assert (K : kids = []). { destruct (located_good _ _ _ _ _ L HG) as [GE _]. inversion GE; auto. } subst kids.
  split; [exact S|]. intros SN RD XN.
  destruct (append_read E Ho p F Hp HG HV steps A n a true [] B m v a' GS LN L PA SN RD XN) as [R1 R2]; [cbn; lia|]. split; auto.
  apply R1; [discriminate|constructor; [apply digit_b_ok; reflexivity|constructor]|reflexivity].
Qed.
Print Assumptions C08_append_self_closing.
Theorem C08_append_root : forall E fmt_g p F m v,
  (forall k l, Permutation l (e_ord E k l)) -> prolog p -> Forall good F -> valid (p ++ forest_text F) = true ->
  step_name m -> (blen (esc v) <= 5242880)%N ->
  let new := p ++ forest_text (insert_last (selects m) (Elem m [] false [Text (esc v)]) F) in
  let k := List.length (called (selects m) F) in
  (blen new <= 10485760)%N ->
  set E fmt_g (p ++ forest_text F) (tpath [(m, None)] TheElement ++ bs ".-1") (VStr v) = Ok (new, None) /\
  (xml_name m -> (k < 1000)%nat -> (forall n a s ks, In (Elem n a s ks) F -> selects m n = bytes_eqb m n) ->
   (forall ds, ds <> [] -> Forall digit ds -> decimal_value ds = N.of_nat k ->
     exists r, get E new (tpath [(m, Some ds)] TheElement) = Ok r /\ r_type r = RElement /\ r_string r = trim_space v) /\
   exists r, get E new (tpath [(m, None)] TheCount) = Ok r /\ describes r (Count (S k))).
Proof. intros E fmt_g p F m v Ho Hp HG HV. now apply append_top_ok. Qed.
Print Assumptions C08_append_root.
Example C08_example :
  Forall good_tstep ([(bs "r", None)] ++ [(bs "a", None)]) /\
  located [(bs "r", None)] sample [] (Elem (bs "r") [] false (kids_of (hd (Text []) sample))) [] /\ readable [(bs "r", None)] sample /\ xml_name (bs "a") /\
  set env0 (fun _ => []) (sample_prolog ++ forest_text sample) (bs "r.a.-1") (VStr (bs "v")) =
    Ok (sample_prolog ++ bs "<r> <a/><!--note--><a k=""1&lt;2"" x:y=""z""><b> one </b><p:b m=""u"" n=""v"">t&amp;u<c/></p:b></a><a>v</a><d>tail</d></r>", None) /\
  set env0 (fun _ => []) (bs "<r/>") (bs "r.a.-1") (VStr (bs "v")) = Ok (bs "<r><a>v</a></r>", None) /\
  set env0 (fun _ => []) (bs "<r/><!--c-->") (bs "r.-1") (VStr (bs "v")) = Ok (bs "<r/><r>v</r><!--c-->", None).
Proof.
  split.
  { assert (G : good_tpath ([(bs "r", None)] ++ [(bs "a", None)]) TheElement) by (apply tpath_b_ok; vm_compute; reflexivity). apply G. }
  split; [apply locate_ok; vm_compute; reflexivity|].
  split; [split; [constructor; [exact I|constructor]|exact I]|]. split; [apply xml_name_b_ok; reflexivity|]. vm_compute. repeat split; reflexivity.
Qed.

(** C43. The document that Set produces depends on the order in which the runtime
    enumerates attribute maps, when it gives content to an empty element tag. *)
Theorem C43_set_refuted : exists xml path v new1 new2,
  (forall k l, Permutation l (e_ord env0 k l)) /\ (forall k l, Permutation l (e_ord env_rev k l)) /\
  set env0 (fun _ => []) xml path v = Ok (new1, None) /\ set env_rev (fun _ => []) xml path v = Ok (new2, None) /\
  new1 <> new2.
Proof.
  exists (bs "<a x='1' y='2'/>"), (bs "a.b"), (VStr (bs "v")),
    (bs "<a x=""1"" y=""2""><b>v</b></a>"), (bs "<a y=""2"" x=""1""><b>v</b></a>").
  split; [intros k l; apply Permutation_refl|]. split; [intros k l; apply Permutation_rev|].
  vm_compute. split; [reflexivity|]. split; [reflexivity|]. discriminate.
Qed.
Print Assumptions C43_set_refuted.
