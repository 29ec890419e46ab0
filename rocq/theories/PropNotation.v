(** C60: how the tags of a document are written has no influence on queries. *)
From Coq Require Import List Ascii String NArith ZArith Bool Lia Permutation.
From Verif Require Import GoStr ModelParser ModelPath ModelResult ModelQuery ModelValidate ModelBuilder ModelQueryOpts SpecText SpecPath SpecTree SpecQuery SpecValid SpecEdit SpecContent SpecFilter SpecLang SpecCase SpecWhole SpecNotation
  ProofBase ProofPath ProofTree ProofTree2 ProofTree3 ProofTree4 ProofTree5 ProofTree8 ProofMono ProofLang ProofLang2 ProofLang3 ProofLang4 ProofLang5 ProofCase ProofCase2 ProofCase3 ProofCase4
  ProofWhole ProofWhole2 ProofWhole3 ProofNotation ProofNotation2 PropTree PropValid PropLang PropCase PropWhole.
Import ListNotations.

(** The canonical text is one way to write a tree, so the following theorems include
    those about canonical documents. *)
Theorem C60_canonical : forall F, Forall good F -> written_all F (forest_text F).
Proof. exact forest_written. Qed.
Print Assumptions C60_canonical.

(** Paths of names and indexes (C28). *)
Theorem C60_tree_query : forall E p F x steps fin,
  (forall k l, Permutation l (e_ord E k l)) -> prolog p -> Forall good F -> written_all F x ->
  (blen (p ++ x) <= 10485760)%N -> good_tpath steps fin ->
  exists r, get E (p ++ x) (tpath steps fin) = Ok r /\ describes r (query true steps fin F).
Proof.
  intros E p F x steps fin Ho Hp HG HW HL HP.
  destruct (get_query E Ho (p ++ x) F steps fin (reads_written E Ho p F x Hp HW HG) HL HP) as [r [R1 R2]].
  exists r. split; auto. apply denotes_describes; auto. now apply query_good.
Qed.
Print Assumptions C60_tree_query.

(** Every query of the language (C54). *)
Theorem C60_language : forall E sat p F x steps e,
  (forall k l, Permutation l (e_ord E k l)) ->
  (forall c nd, good nd -> (sat c nd = true <-> true_of (e_parse_float E) c nd)) ->
  prolog p -> Forall good F -> shallow F -> (elements F < 9999)%N -> written_all F x ->
  (blen (p ++ x) <= 10485760)%N -> good_query steps e ->
  exists r, get E (p ++ x) (query_text steps e) = Ok r /\ says r (ask sat e true steps F).
Proof.
  intros E sat p F x steps e Ho Hs Hp HG H1 H2 HW HL HQ. eapply get_ask; eauto.
  - intros f ->. apply (gq_end _ _ HQ).
  - split; [|split; auto]. now apply reads_written.
Qed.
Print Assumptions C60_language.

(** Case-insensitive queries (C58). *)
Theorem C60_any_case : forall E sat o p F x steps e,
  (forall k l, Permutation l (e_ord E k l)) ->
  (forall c nd, good nd -> (sat c nd = true <-> true_of (e_parse_float E) c nd)) ->
  o_case o = false -> prolog p -> Forall good F -> apart F -> shallow F -> (elements F < 9999)%N -> written_all F x ->
  (blen (p ++ x) <= 10485760)%N -> good_query steps e ->
  exists r, get_opts E o (p ++ x) (query_text steps e) = Ok r /\ says r (ask_ci sat e steps F).
Proof.
  intros E sat o p F x steps e Ho Hs Hc Hp HG HA H1 H2 HW HL HQ. eapply get_ask_ci; eauto.
  - intros f ->. apply (gq_end _ _ HQ).
  - split; auto. split; [|split; auto]. now apply reads_written.
Qed.
Print Assumptions C60_any_case.

(** Queries that end in modifiers (C59). *)
Theorem C60_chain : forall E sat p F x steps e ms,
  (forall k l, Permutation l (e_ord E k l)) ->
  (forall c nd, good nd -> (sat c nd = true <-> true_of (e_parse_float E) c nd)) ->
  (forall lt l, Permutation l (e_sort E lt l)) ->
  prolog p -> Forall good F -> shallow F -> (elements F < 9999)%N -> written_all F x ->
  (blen (p ++ x) <= 10485760)%N -> good_query steps e -> whole steps e ->
  Forall (fun m => In m [bs "reverse"; bs "first"; bs "last"; bs "flatten"]) ms -> (List.length ms <= 20)%nat ->
  exists r, get E (p ++ x) (query_text steps e ++ mods_text ms) = Ok r /\ says r (acts ms (ask sat e true steps F)).
Proof.
  intros E sat p F x steps e ms Ho Hs Hsort Hp HG H1 H2 HW HL HQ HWh Hm Hl.
  destruct (C60_language E sat p F x steps e Ho Hs Hp HG H1 H2 HW HL HQ) as (r & G & S).
  assert (T : Forall (fun m => In m tame) ms). { eapply Forall_impl; [|exact Hm]. intros m K. unfold tame. cbn [In] in *. tauto. }
  destruct (C59_built_in E ms Hsort T Hl) as [B1 B2].
  eexists. split; [rewrite get_whole, G; auto; reflexivity|]. apply says_acts; auto. eapply get_solid; eauto.
Qed.
Print Assumptions C60_chain.

(** Two documents with the same tree up to the order of attributes answer every query alike,
    whatever their notation, their prologs and the order of map iteration. *)
Theorem C60_same : forall E1 E2 p1 p2 F F' x1 x2 steps e,
  (forall k l, Permutation l (e_ord E1 k l)) -> (forall k l, Permutation l (e_ord E2 k l)) ->
  (forall s, e_parse_float E1 s = e_parse_float E2 s) ->
  prolog p1 -> prolog p2 -> Forall good F -> Forall2 same F F' -> shallow F -> (elements F < 9999)%N ->
  written_all F x1 -> written_all F' x2 ->
  (blen (p1 ++ x1) <= 10485760)%N -> (blen (p2 ++ x2) <= 10485760)%N -> good_query steps e ->
  exists r1 r2, get E1 (p1 ++ x1) (query_text steps e) = Ok r1 /\
    get E2 (p2 ++ x2) (query_text steps e) = Ok r2 /\ same_reading r1 r2.
Proof.
  intros E1 E2 p1 p2 F F' x1 x2 steps e Ho1 Ho2 HPF Hp1 Hp2 HG HS H1 H2 HW1 HW2 HL1 HL2 HQ.
  destruct (C60_language E1 (decide_sat E1) p1 F x1 steps e Ho1 (fun c nd _ => decide_sat_ok E1 c nd) Hp1 HG H1 H2 HW1 HL1 HQ) as [r1 [A1 A2]].
  destruct (get_ask E2 Ho2 (decide_sat E1)) with (q := e) (s := p2 ++ x2) (F := F) (steps := steps) as [r2 [B1 B2]]; auto.
  - intros c nd _. rewrite decide_sat_ok. now apply true_of_ext.
  - intros f ->. apply (gq_end _ _ HQ).
  - split; [|split; auto]. apply (reads_same E2 F F'); auto. apply reads_written; auto. eapply same_good_all; eauto.
  - exists r1, r2. split; auto. split; auto. eapply says_alike; eauto.
Qed.
Print Assumptions C60_same.

(** Valid accepts every way to write the tags (C17). *)
Theorem C60_valid : forall p F x, strict_prolog p -> Forall good F -> Forall top_node F -> has_element F -> shallow F ->
  written_all F x -> (N.of_nat (List.length (p ++ x)) <= 10485760)%N -> valid (p ++ x) = true.
Proof. intros p F x P G T H S W L. now apply (written_valid p F x). Qed.
Print Assumptions C60_valid.

Definition notes : list node :=
  [Elem (bs "notes") [(bs "by", bs "A>""B")] false
     [Elem (bs "note") [(bs "id", bs "1"); (bs "k", bs "it's")] true [];
      Elem (bs "note") [(bs "id", bs "2")] false [Text (bs "two")]]].
Definition notes_text : bytes :=
  bs "<notes by = 'A>""B' ><note id='1' k='it&apos;s' /><note   id=""2""" ++ [lf] ++ bs ">two</note ></notes >".
Lemma notes_written : written_all notes notes_text.
Proof.
  assert (B : forall s, forallb is_ws s = true -> blanks s).
  { intros s H. apply Forall_forall. intros c Hc. rewrite forallb_forall in H. specialize (H c Hc). unfold is_ws in H.
    unfold blank. cbn [In]. repeat (apply orb_true_iff in H; destruct H as [H|H]; [|apply Ascii.eqb_eq in H; subst; auto]). apply Ascii.eqb_eq in H; subst; auto. }
  assert (D : forall a b, unescape_xml a = b -> Decodes a b) by (intros a b <-; apply ProofEscape.unescape_decodes).
  assert (NI : forall c (s : bytes), forallb (fun x => negb (Ascii.eqb x c)) s = true -> ~ In c s).
  { intros c s H K. rewrite forallb_forall in H. specialize (H c K). now rewrite Ascii.eqb_refl in H. }
  change notes_text with ((bs "<" ++ bs "notes" ++ bs " by = 'A>""B' " ++ bs ">" ++
    ((bs "<" ++ bs "note" ++ bs " id='1' k='it&apos;s' " ++ bs "/>") ++
     (bs "<" ++ bs "note" ++ (bs "   id=""2""" ++ [lf]) ++ bs ">" ++ (bs "two" ++ []) ++ bs "</" ++ bs "note" ++ bs " " ++ bs ">") ++ []) ++
    bs "</" ++ bs "notes" ++ bs " " ++ bs ">") ++ []).
  apply wa_cons; [|apply wa_nil]. apply wr_elem; [| |now apply B|vm_compute; discriminate].
  - split; [|right; eexists _, _; split; [reflexivity|now left]].
    apply (aa_one (bs "by") (bs "A>""B") [] (bs " ") (bs " ") (bs " ") squote (bs "A>""B") (bs " "));
      try (now apply B); try (now right); try (now apply NI); try (now apply D); [vm_compute; discriminate|]. constructor. now apply B.
  - apply wa_cons; [|apply wa_cons; [|apply wa_nil]].
    + apply wr_self. split; [|right; eexists _, _; split; [reflexivity|now left]].
      apply (aa_one (bs "id") (bs "1") [(bs "k", bs "it's")] (bs " ") [] [] squote (bs "1") (bs " k='it&apos;s' "));
        try (now apply B); try (now right); try (now apply NI); try (now apply D); [vm_compute; discriminate|].
      apply (aa_one (bs "k") (bs "it's") [] (bs " ") [] [] squote (bs "it&apos;s") (bs " "));
        try (now apply B); try (now right); try (now apply NI); try (now apply D); [vm_compute; discriminate|]. constructor. now apply B.
    + apply wr_elem; [| |now apply B|vm_compute; discriminate].
      * split; [|right; eexists _, _; split; [reflexivity|now left]].
        apply (aa_one (bs "id") (bs "2") [] (bs "   ") [] [] dquote (bs "2") [lf]);
          try (now apply B); try (now left); try (now apply NI); try (now apply D); [vm_compute; discriminate|]. constructor. now apply B.
      * apply wa_cons; constructor.
Qed.
Lemma notes_apart : apart notes.
Proof.
  intros nd H. apply post_inside in H. vm_compute in H.
  repeat (destruct H as [<-|H]; [vm_compute; repeat constructor; cbn [In]; intuition discriminate|]). destruct H.
Qed.
Example C60_example :
  Forall good notes /\ Forall top_node notes /\ has_element notes /\ shallow notes /\ (elements notes <? 9999)%N = true /\ apart notes /\
  prolog sample_prolog /\ strict_prolog sample_prolog /\ written_all notes notes_text /\
  (blen (sample_prolog ++ notes_text) <=? 10485760)%N = true /\ notes_text <> forest_text notes /\
  good_query [Child (bs "notes") Leading; Child (bs "note") (Number (bs "0"))] (EAttr (bs "k")) /\
  ask (decide_sat env0) (EAttr (bs "k")) true [Child (bs "notes") Leading; Child (bs "note") (Number (bs "0"))] notes = One (AnAttribute (bs "it's")) /\
  get env0 notes_text (bs "notes.note.0.@k") = Ok (r_attribute (bs "it's")) /\
  get env0 notes_text (bs "notes.note.1") = Ok (r_element (bs "two")) /\
  get env0 notes_text (bs "notes.@by") = Ok (r_attribute (bs "A>""B")) /\ valid notes_text = true.
Proof.
  split; [apply forest_b_ok; vm_compute; reflexivity|]. split; [repeat constructor|]. split; [eexists _, _, _, _; left; reflexivity|].
  split; [repeat constructor|]. split; [vm_compute; reflexivity|]. split; [apply notes_apart|].
  split; [apply sample_prolog_ok|]. split; [apply sample_strict|]. split; [apply notes_written|].
  split; [vm_compute; reflexivity|]. split; [vm_compute; discriminate|]. split; [query_ok|]. vm_compute. repeat split; reflexivity.
Qed.

(** Edits do depend on it: white space inside the tag of an earlier sibling makes Set write
    into the start tag of its target; the result is not a document any more, and no error is
    reported. *)
Theorem C60_set_refuted : exists xml path new, valid xml = true /\
  set env0 (fun _ => []) xml path (VStr (bs "NEW")) = Ok (new, None) /\ valid new = false.
Proof.
  exists (bs "<r><a x=""1"" /><b>t</b></r>"), (bs "r.b"), (bs "<r><a x=""1"" /><bNEWt</b></r>"). vm_compute. repeat split; reflexivity.
Qed.
Print Assumptions C60_set_refuted.
(** So does an apostrophe or a greater-than sign in the value of an attribute of an earlier
    sibling. *)
Theorem C60_delete_refuted : exists xml path new, valid xml = true /\
  delete env0 xml path = Ok (new, None) /\ valid new = false.
Proof.
  exists (bs "<r><a x=""1>0""/><b>t</b><c/></r>"), (bs "r.b"), (bs "<r><a x=""1>0""/><b>></r>"). vm_compute. repeat split; reflexivity.
Qed.
Print Assumptions C60_delete_refuted.

(** The limits of C28, C54 and C60, on documents that Valid accepts. A greater-than sign in
    text is dropped from the value, *)
Theorem C28_greater_refuted : exists xml path r, valid xml = true /\ get env0 xml path = Ok r /\
  xml = bs "<r>1 > 0</r>" /\ path = bs "r" /\ r_string r = bs "1  0".
Proof. exists (bs "<r>1 > 0</r>"), (bs "r"), (r_element (bs "1 > 0")). vm_compute. repeat split; reflexivity. Qed.
Print Assumptions C28_greater_refuted.
(** the text of CDATA sections too, while elements written inside them are found, *)
Theorem C28_cdata_refuted : exists x1 x2 r1 r2, valid x1 = true /\ valid x2 = true /\
  x1 = bs "<r><![CDATA[text]]></r>" /\ get env0 x1 (bs "r") = Ok r1 /\ r_string r1 = [] /\
  x2 = bs "<r><![CDATA[<a>text</a>]]></r>" /\ get env0 x2 (bs "r.a") = Ok r2 /\ r_string r2 = bs "text".
Proof. exists (bs "<r><![CDATA[text]]></r>"), (bs "<r><![CDATA[<a>text</a>]]></r>"), (r_element (bs "<![CDATA[text]]>")), (r_element (bs "text")). vm_compute. repeat split; reflexivity. Qed.
Print Assumptions C28_cdata_refuted.
(** an end tag inside a comment ends the element, *)
Theorem C42_comment_refuted : exists xml path, valid xml = true /\ xml = bs "<r><!-- </r> --><a>x</a></r>" /\ path = bs "r.a" /\
  get env0 xml path = Ok r_null.
Proof. exists (bs "<r><!-- </r> --><a>x</a></r>"), (bs "r.a"). vm_compute. repeat split; reflexivity. Qed.
Print Assumptions C42_comment_refuted.
(** and processing instructions inside an element are rewritten in its Raw text. *)
Theorem C42_instruction_refuted : exists xml r, valid xml = true /\ xml = bs "<r><?go fast?><a>x</a></r>" /\
  get env0 xml (bs "r") = Ok r /\ r_raw r = bs "<?go><a>x</a>".
Proof. exists (bs "<r><?go fast?><a>x</a></r>"), (r_element (bs "<?go><a>x</a>")). vm_compute. repeat split; reflexivity. Qed.
Print Assumptions C42_instruction_refuted.
