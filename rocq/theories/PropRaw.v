(** C20, C52: SetRaw. C53: numbers and truth values. *)
From Coq Require Import List Ascii String NArith ZArith Bool Lia Permutation.
From Verif Require Import GoStr ModelParser ModelPath ModelResult ModelQuery ModelValidate ModelBuilder ModelApi SpecText SpecPath SpecTree SpecQuery SpecEdit
  SpecMod SpecContent SpecValid SpecRaw SpecHistory ProofBase ProofTree ProofTree8 ProofEdit ProofEdit2 ProofEdit7 ProofRaw ProofRaw2 ProofRaw3 PropTree PropEdit PropHistory PropMod.
Import ListNotations.

(** C20. SetRaw takes exactly the fragments of the grammar: those it inserts like Set inserts
    the bytes, all others it refuses and leaves the document alone. *)
Theorem C20_exact : forall E fmt_g xml path raw,
  (fragment [] raw -> set_raw E fmt_g xml path raw = set E fmt_g xml path (VBytes raw)) /\
  (~ fragment [] raw -> set_raw E fmt_g xml path raw = Ok (xml, Some ErrInvalidValue)).
Proof.
  intros E g xml path raw. unfold set_raw. pose proof (validate_raw_spec raw) as S. destruct (validate_raw raw).
  - split; [reflexivity|]. intros N. exfalso. now apply N, S.
  - split; [|reflexivity]. intros F. apply S in F. discriminate.
Qed.
Print Assumptions C20_exact.
(** Every canonical forest is taken; behind one, or behind one inside open tags, no DOCTYPE
    and no ENTITY is, no end tag without its start tag, no other end tag than that of the
    innermost open tag, and no end of the text inside an element. *)
Theorem C20_canonical : forall F, Forall good F -> fragment [] (forest_text F).
Proof. exact forest_fragment. Qed.
Print Assumptions C20_canonical.
Theorem C20_declarations : forall st F x r, Forall good F -> In x [bs "<!DOCTYPE"; bs "<!ENTITY"] -> ~ fragment st (forest_text F ++ x ++ r).
Proof. intros st F x r G I H. apply forest_fragment_inv in H; auto. revert H. now apply no_declaration. Qed.
Print Assumptions C20_declarations.
Theorem C20_balanced : forall F n a s, Forall good F -> xml_name n -> good_attrs a ->
  ~ fragment [] (forest_text F ++ bs "</" ++ s) /\
  forall st, (fragment st (start_tag n a false ++ s) -> fragment (n :: st) s) /\
  ~ fragment (n :: st) (forest_text F) /\
  (forall m r, xml_name m -> fragment (n :: st) (forest_text F ++ end_tag m ++ r) -> m = n).
Proof.
  intros F n a s G Hn Ha. pose proof (xml_tag_name n Hn) as TN. destruct (attrs_rest a Ha) as [TR NE]. split; [|intros st; split; [|split]].
  - intros H. apply forest_fragment_inv in H; auto. now apply no_stray_end in H.
  - intros H. unfold start_tag in H. rewrite <- !app_assoc in H. now apply no_open_end in H.
  - intros H. rewrite <- (app_nil_r (forest_text F)) in H. apply forest_fragment_inv in H; auto. apply fragment_nil in H. discriminate.
  - intros m r Hm H. apply forest_fragment_inv in H; auto. unfold end_tag in H. rewrite <- !app_assoc in H. symmetry. eapply end_matches; [|exact H].
    intros c Hc Q. destruct (xml_tag_name m Hm) as [_ TM]. apply (TM c Hc). cbn in Q |- *. tauto.
Qed.
Print Assumptions C20_balanced.
Definition inserted : list node := [Text (bs "t"); Elem (bs "u") [(bs "w", bs "1<2")] false [Misc (bs "--c--"); Elem (bs "v") [] true []]].
Lemma inserted_good : Forall good inserted.
Proof. repeat (apply Forall_cons; [apply good_b_ok; vm_compute; reflexivity|]). apply Forall_nil. Qed.
Example C20_example :
  Forall good inserted /\ forest_text inserted = bs "t<u w=""1&lt;2""><!--c--><v/></u>" /\
  set_raw env0 (fun _ => []) (bs "<r><a>x</a></r>") (bs "r.a") (forest_text inserted) = Ok (bs "<r><a>t<u w=""1&lt;2""><!--c--><v/></u></a></r>", None) /\
  forall raw, In raw [bs "t<u><!DOCTYPE x></u>"; bs "t</u>"; bs "<u>t"; bs "<u><v></u></v>"; bs "<u><!--</u>"; bs "<![CDATA[<![CDATA[]]>"] ->
    set_raw env0 (fun _ => []) (bs "<r><a>x</a></r>") (bs "r.a") raw = Ok (bs "<r><a>x</a></r>", Some ErrInvalidValue).
Proof.
  split; [exact inserted_good|]. split; [reflexivity|]. split; [vm_compute; reflexivity|].
  intros raw H. cbn [In] in H. repeat (destruct H as [<-|H]; [vm_compute; reflexivity|]). destruct H.
Qed.
(** The grammar admits declarations in lower case, and also an end tag cut short and illegal
    tags, with which the document is not valid afterwards. *)
Theorem C20_lower_case_refuted : fragment [] (bs "<!doctype x>") /\ fragment [] (bs "<!entity x 'y'>").
Proof. split; apply validate_raw_spec; vm_compute; reflexivity. Qed.
Theorem C20_lax_refuted : exists xml path, valid xml = true /\
  forall raw, In raw [bs "<b></b"; bs "<b c></b>"; bs "<b c=1></b>"; bs "<1/>"] ->
  fragment [] raw /\ exists new, set_raw env0 (fun _ => []) xml path raw = Ok (new, None) /\ valid new = false.
Proof.
  exists (bs "<r><a>x</a></r>"), (bs "r.a"). split; [reflexivity|]. intros raw H. cbn [In] in H.
  repeat (destruct H as [<-|H]; [split; [apply validate_raw_spec; vm_compute; reflexivity|]|]); try destruct H;
    match goal with |- exists new, ?x = _ /\ _ => let y := eval vm_compute in x in match y with Ok (?n, _) => exists n end end; split; vm_compute; reflexivity.
Qed.

(** C52. SetRaw puts the fragment, byte for byte, between the tags of the element. *)
Theorem C52_set_raw : forall E fmt_g p F steps A n a kids B raw,
  (forall k l, Permutation l (e_ord E k l)) -> prolog p -> Forall good F -> valid (p ++ forest_text F) = true ->
  good_tpath steps TheElement -> located steps F A (Elem n a false kids) B ->
  fragment [] raw -> (blen raw <= 5242880)%N ->
  set_raw E fmt_g (p ++ forest_text F) (tpath steps TheElement) raw = Ok (p ++ A ++ start_tag n a false ++ raw ++ end_tag n ++ B, None).
Proof.
  intros E g p F steps A n a kids B raw Ho Hp HG HV GT L FR SZ. rewrite (proj1 (C20_exact E g _ _ raw) FR).
  eapply C03_set_value; eauto. constructor.
Qed.
Print Assumptions C52_set_raw.
(** The tree of a canonical fragment becomes the content of the element (last clause of the
    history theorem, for one call): the result is valid and every query answers from it. *)
Theorem C52_tree : forall E fmt_g p F steps K F',
  (forall k l, Permutation l (e_ord E k l)) -> prolog p -> strict_prolog p ->
  Forall good F -> Forall top_node F -> shallow F -> room p F ->
  legal (SetContent steps (AsForest K)) -> apply_edit (SetContent steps (AsForest K)) F = Some F' -> room p F' ->
  exists new, set_raw E fmt_g (p ++ forest_text F) (tpath steps TheElement) (forest_text K) = Ok (new, None) /\ valid new = true /\
    forall steps' fin, good_tpath steps' fin ->
      exists r, get E new (tpath steps' fin) = Ok r /\ describes r (query true steps' fin F').
Proof.
  intros E g p F steps K F' Ho Hp SP HG HT HS HR L A R.
  destruct (C47_history E g p F [SetContent steps (AsForest K)] F' Ho Hp SP HG HT HS HR) as [G [C [S [V Q]]]].
  - econstructor; eauto. constructor.
  - exists (p ++ forest_text G). split; [|split; auto]. cbn [calls call set_content] in C.
    destruct (set_raw E g (p ++ forest_text F) (tpath steps TheElement) (forest_text K)) as [[d' [e|]]| |]; try discriminate. exact C.
Qed.
Print Assumptions C52_tree.
Example C52_example :
  legal (SetContent at_ab1 (AsForest inserted)) /\
  match apply_edit (SetContent at_ab1 (AsForest inserted)) sample with
  | Some F' => existsb is_elem F' && match query true (at_ab1 ++ [(bs "u", None)]) (TheAttribute (bs "w")) F' with Attribute v => bytes_eqb v (bs "1<2") | _ => false end
  | None => false end = true /\
  set_raw env0 (fun _ => []) (sample_prolog ++ forest_text sample) (bs "r.a.1.b.1") (forest_text inserted) =
    Ok (sample_prolog ++ bs "<r> <a/><!--note--><a k=""1&lt;2"" x:y=""z""><b> one </b><p:b m=""u"" n=""v"">t<u w=""1&lt;2""><!--c--><v/></u></p:b></a><d>tail</d></r>", None).
Proof.
  split; [|vm_compute; split; reflexivity]. split; [apply tpath_b_ok; vm_compute; reflexivity|].
  repeat match goal with
    | |- _ /\ _ => split
    | |- good_content _ => split; [exact inserted_good|vm_compute; discriminate]
    | |- Forall xml_name _ => cbn [map fst at_ab1]; repeat (apply Forall_cons; [apply xml_name_b_ok; vm_compute; reflexivity|]); apply Forall_nil
    | |- _ => vm_compute; lia
    end.
Qed.
(** A fragment put into an attribute is not escaped: it can end the attribute. *)
Theorem C52_attribute_refuted : exists xml path raw new,
  valid xml = true /\ fragment [] raw /\ set_raw env0 (fun _ => []) xml path raw = Ok (new, None) /\
  new = bs "<r x=""a"" admin=""1""></r>".
Proof.
  exists (bs "<r></r>"), (bs "r.@x"), (bs "a"" admin=""1"), (bs "<r x=""a"" admin=""1""></r>").
  split; [reflexivity|]. split; [apply validate_raw_spec; vm_compute; reflexivity|]. vm_compute. split; reflexivity.
Qed.

(** Nor does a fragment stay within its element: the check looks for the end of a tag without
    regard to quotes.  Here a fragment for the first element makes the second one vanish, and
    the document is valid before and afterwards. *)
Theorem C52_escape_refuted : exists xml path raw new r,
  valid xml = true /\ fragment [] raw /\ set_raw env0 (fun _ => []) xml path raw = Ok (new, None) /\ valid new = true /\
  path = bs "r.t.0" /\ get env0 xml (bs "r.t.1.t") = Ok r /\ r_type r = RElement /\ get env0 new (bs "r.t.1.t") = Ok r_null /\ get env0 new (bs "r.t.1") = Ok r_null.
Proof.
  exists (bs "<r><t>x</t><t><t>5"" > 4""</t></t></r>"), (bs "r.t.0"), (bs "<t k=""/>"), (bs "<r><t><t k=""/></t><t><t>5"" > 4""</t></t></r>"), (r_element (bs "5"" > 4""")).
  split; [vm_compute; reflexivity|]. split; [apply validate_raw_spec; vm_compute; reflexivity|]. vm_compute. repeat split; reflexivity.
Qed.
Print Assumptions C52_escape_refuted.

(** C53. On every document and path, Set of an integer or a truth value does what Set of its
    decimal notation or of its name does. *)
Theorem C53_as_text : forall E fmt_g xml path,
  (forall z, set E fmt_g xml path (VInt z) = set E fmt_g xml path (VStr (decimal z))) /\
  (forall b, set E fmt_g xml path (VBool b) = set E fmt_g xml path (VStr (if b then bs "true" else bs "false"))).
Proof.
  intros E g xml path. split; intros x; unfold set; eapply set_written; try constructor.
  - rewrite <- (esc_decimal x) at 2. constructor.
  - destruct x; apply (wr_str g).
Qed.
Print Assumptions C53_as_text.
(** Read back, an integer of Go's range is the integer, a truth value the truth value. *)
Theorem C53_int_read_back : forall E fmt_g p F steps A n a kids B z new,
  (forall k l, Permutation l (e_ord E k l)) -> prolog p -> Forall good F -> valid (p ++ forest_text F) = true ->
  good_tpath steps TheElement -> readable steps F -> located steps F A (Elem n a false kids) B -> (- 2 ^ 63 <= z < 2 ^ 63)%Z ->
  set E fmt_g (p ++ forest_text F) (tpath steps TheElement) (VInt z) = Ok (new, None) -> (blen new <= 10485760)%N ->
  exists r, get E new (tpath steps TheElement) = Ok r /\ r_string r = decimal z /\ r_int r = z.
Proof.
  intros E g p F steps A n a kids B z new Ho Hp HG HV GT RD L RZ S SN. rewrite (proj1 (C53_as_text E g _ _)) in S.
  destruct (C02_get_after_set E g p F steps A n a kids B (decimal z) new Ho Hp HG HV GT RD L) as [r [R1 [R2 R3]]]; auto.
  { rewrite esc_decimal. now apply decimal_len. }
  rewrite trim_decimal in R3. exists r. split; [exact R1|]. split; [exact R3|].
  apply C39_int; [right; left; exact R2| |exact RZ]. destruct r as [t nm s num rs]. cbn [r_type] in R2. subst t. cbn [r_string] in R3. cbn [r_str]. rewrite R3. apply decimal_numeral.
Qed.
Print Assumptions C53_int_read_back.
Theorem C53_bool_read_back : forall E fmt_g p F steps A n a kids B b new,
  (forall k l, Permutation l (e_ord E k l)) -> prolog p -> Forall good F -> valid (p ++ forest_text F) = true ->
  good_tpath steps TheElement -> readable steps F -> located steps F A (Elem n a false kids) B ->
  set E fmt_g (p ++ forest_text F) (tpath steps TheElement) (VBool b) = Ok (new, None) -> (blen new <= 10485760)%N ->
  exists r, get E new (tpath steps TheElement) = Ok r /\ r_bool r = b.
Proof.
  intros E g p F steps A n a kids B b new Ho Hp HG HV GT RD L S SN. rewrite (proj2 (C53_as_text E g _ _)) in S.
  destruct (C02_get_after_set E g p F steps A n a kids B (if b then bs "true" else bs "false") new Ho Hp HG HV GT RD L) as [r [R1 [R2 R3]]]; auto.
  { destruct b; vm_compute; discriminate. }
  exists r. split; [exact R1|]. destruct r as [t nm s num rs]. cbn [r_type] in R2. subst t. cbn [r_string] in R3. unfold r_bool. cbn [r_type r_str]. subst s. destruct b; vm_compute; reflexivity.
Qed.
Print Assumptions C53_bool_read_back.
(** The same for attributes. *)
Theorem C53_attribute_read_back : forall E fmt_g p F steps A n a self kids B x,
  (forall k l, Permutation l (e_ord E k l)) -> prolog p -> Forall good F -> valid (p ++ forest_text F) = true ->
  good_tpath steps (TheAttribute x) -> readable steps F -> located steps F A (Elem n a self kids) B ->
  (forall z new, (- 2 ^ 63 <= z < 2 ^ 63)%Z -> good_attrs (put_attr x (decimal z) a) ->
     set E fmt_g (p ++ forest_text F) (tpath steps (TheAttribute x)) (VInt z) = Ok (new, None) -> (blen new <= 10485760)%N ->
     exists r, get E new (tpath steps (TheAttribute x)) = Ok r /\ r_int r = z) /\
  (forall (b : bool) new, good_attrs (put_attr x (if b then bs "true" else bs "false") a) ->
     set E fmt_g (p ++ forest_text F) (tpath steps (TheAttribute x)) (VBool b) = Ok (new, None) -> (blen new <= 10485760)%N ->
     exists r, get E new (tpath steps (TheAttribute x)) = Ok r /\ r_bool r = b).
Proof.
  intros E g p F steps A n a self kids B x Ho Hp HG HV GT RD L. split.
  - intros z new RZ GA S SN. rewrite (proj1 (C53_as_text E g _ _)) in S.
    destruct (C05_set_attribute E g p F steps A n a self kids B x (decimal z) Ho Hp HG HV GT L) as [a' [P [S' K]]]; [rewrite esc_decimal; now apply decimal_len|].
    rewrite S in S'. injection S' as ->. destruct (K RD GA SN) as [[r [R1 [R2 R3]]] _]. exists r. split; [exact R1|].
    apply C39_int; [right; right; exact R2| |exact RZ]. destruct r as [t nm s num rs]. cbn [r_type] in R2. subst t. cbn [r_string] in R3. cbn [r_str]. rewrite R3. apply decimal_numeral.
  - intros b new GA S SN. rewrite (proj2 (C53_as_text E g _ _)) in S.
    destruct (C05_set_attribute E g p F steps A n a self kids B x (if b then bs "true" else bs "false") Ho Hp HG HV GT L) as [a' [P [S' K]]]; [destruct b; vm_compute; discriminate|].
    rewrite S in S'. injection S' as ->. destruct (K RD GA SN) as [[r [R1 [R2 R3]]] _]. exists r. split; [exact R1|].
    destruct r as [t nm s num rs]. cbn [r_type] in R2. subst t. cbn [r_string] in R3. unfold r_bool. cbn [r_type r_str]. subst s. destruct b; vm_compute; reflexivity.
Qed.
Print Assumptions C53_attribute_read_back.
Example C53_example :
  decimal (-9223372036854775808) = bs "-9223372036854775808" /\ readable ab1 sample /\
  set env0 (fun _ => []) (sample_prolog ++ forest_text sample) (bs "r.a.1.b.1") (VInt (-40)) =
    Ok (sample_prolog ++ bs "<r> <a/><!--note--><a k=""1&lt;2"" x:y=""z""><b> one </b><p:b m=""u"" n=""v"">-40</p:b></a><d>tail</d></r>", None) /\
  good_attrs (put_attr (bs "k") (decimal 7) [(bs "k", bs "1<2"); (bs "x:y", bs "z")]) /\
  match set env0 (fun _ => []) (sample_prolog ++ forest_text sample) (bs "r.a.1.@k") (VInt 7) with
  | Ok (new, None) => match get env0 new (bs "r.a.1.@k") with Ok r => Z.eqb (r_int r) 7 | _ => false end | _ => false end = true /\
  match set env0 (fun _ => []) (sample_prolog ++ forest_text sample) (bs "r.a.1.b.1") (VBool true) with
  | Ok (new, None) => match get env0 new (bs "r.a.1.b.1") with Ok r => r_bool r | _ => false end | _ => false end = true.
Proof.
  split; [reflexivity|]. split; [apply C02_example|]. split; [vm_compute; reflexivity|]. split.
  { assert (G : good (Elem (bs "a") (put_attr (bs "k") (decimal 7) [(bs "k", bs "1<2"); (bs "x:y", bs "z")]) true [])) by (apply good_b_ok; vm_compute; reflexivity). now inversion G. }
  split; vm_compute; reflexivity.
Qed.
