(** C90: what follows the element a path leads to has no influence on the answer. *)
From Coq Require Import List Ascii String NArith ZArith Bool Lia Permutation.
From Verif Require Import GoStr ModelParser ModelPath ModelResult ModelQuery ModelBuilder ModelQueryOpts ModelValidate SpecText SpecPath SpecTree SpecQuery SpecEdit SpecHistory SpecFilter SpecLang SpecCase SpecOptions SpecTail
  ProofBase ProofPath ProofTree ProofTree2 ProofTree4 ProofTree5 ProofTree7 ProofTree8 ProofTail PropTree.
Import ListNotations.

Lemma inside_good : forall rest fin nd, good nd -> good_answer (inside rest fin nd).
Proof. intros rest fin nd G. rewrite inside_eq. destruct (is_last rest fin); [now apply final_good|]. apply query_good. now apply good_kids. Qed.

(** C90. Take a document cut off behind an element, with any bytes in place of the rest:
    a query that leads to that element, and finds something in it, gives the answer it
    gives on the whole document. *)
Theorem C90_tail : forall E p F steps before nd after rest fin tail,
  (forall k l, Permutation l (e_ord E k l)) -> prolog p -> Forall good F ->
  designated true steps F before nd after -> Forall early steps -> match steps with (_, Some _) :: _ => False | _ => True end ->
  good_tpath (steps ++ rest) fin -> inside rest fin nd <> Nothing ->
  (blen (p ++ before ++ node_text nd ++ tail) <= 10485760)%N ->
  exists r, get E (p ++ before ++ node_text nd ++ tail) (tpath (steps ++ rest) fin) = Ok r /\ describes r (inside rest fin nd).
Proof.
  intros E p F steps before nd after rest fin tail Ho Hp HG HD EY ST HP NN HL.
  pose proof (designated_leads _ _ _ _ _ tail HD HG) as H.
  destruct (get_leads E Ho p steps _ nd rest fin H Hp HP EY NN ST HL) as [r [R1 R2]]. exists r. split; [exact R1|].
  apply denotes_describes; auto. apply inside_good. eapply leads_good; eauto.
Qed.
Print Assumptions C90_tail.

(** Two documents that begin alike answer alike, however they go on, and whatever the map
    iteration orders. *)
Theorem C90_alike : forall E1 E2 p F steps before nd after rest fin tail1 tail2,
  (forall k l, Permutation l (e_ord E1 k l)) -> (forall k l, Permutation l (e_ord E2 k l)) -> prolog p -> Forall good F ->
  designated true steps F before nd after -> Forall early steps -> match steps with (_, Some _) :: _ => False | _ => True end ->
  good_tpath (steps ++ rest) fin -> inside rest fin nd <> Nothing ->
  (blen (p ++ before ++ node_text nd ++ tail1) <= 10485760)%N -> (blen (p ++ before ++ node_text nd ++ tail2) <= 10485760)%N ->
  exists r1 r2, get E1 (p ++ before ++ node_text nd ++ tail1) (tpath (steps ++ rest) fin) = Ok r1 /\
    get E2 (p ++ before ++ node_text nd ++ tail2) (tpath (steps ++ rest) fin) = Ok r2 /\ SpecQuery.alike r1 r2.
Proof.
  intros E1 E2 p F steps before nd after rest fin tail1 tail2 Ho1 Ho2 Hp HG HD EY ST HP NN HL1 HL2.
  pose proof (designated_leads _ _ _ _ _ tail1 HD HG) as H1. pose proof (designated_leads _ _ _ _ _ tail2 HD HG) as H2.
  destruct (get_leads E1 Ho1 p steps _ nd rest fin H1 Hp HP EY NN ST HL1) as [r1 [R1 D1]].
  destruct (get_leads E2 Ho2 p steps _ nd rest fin H2 Hp HP EY NN ST HL2) as [r2 [R2 D2]].
  exists r1, r2. split; [exact R1|]. split; [exact R2|]. eapply denotes_alike; eauto. apply inside_good. eapply leads_good; eauto.
Qed.
Print Assumptions C90_alike.

(** The element itself must be complete: an element that is not closed takes in whatever
    follows it. *)
Theorem C90_open_refuted : exists xml xml' path, (exists t, xml' = xml ++ t) /\
  match get env0 xml path, get env0 xml' path with
  | Ok r, Ok r' => r_exists r = true /\ r_string r <> r_string r' | _, _ => False end.
Proof.
  exists (bs "<r><a>1"), (bs "<r><a>1<b>2</b>"), (bs "r.a"). split; [exists (bs "<b>2</b>"); reflexivity|]. vm_compute. split; [reflexivity|discriminate].
Qed.
Print Assumptions C90_open_refuted.
(** What stands before the element does matter: an element that is not closed hides it. *)
Theorem C90_before_refuted : exists xml xml' path,
  match get env0 xml path, get env0 xml' path with
  | Ok r, Ok r' => r_exists r = true /\ r_exists r' = false | _, _ => False end /\ xml = bs "<r><a>1</a></r>" /\ xml' = bs "<r><x><a>1</a></r>".
Proof. exists (bs "<r><a>1</a></r>"), (bs "<r><x><a>1</a></r>"), (bs "r.a"). vm_compute. auto. Qed.
Print Assumptions C90_before_refuted.
(** A count is not determined by the beginning of a document. *)
Theorem C90_count_refuted : exists xml xml' path, (exists t t', xml = bs "<r><a/>" ++ t /\ xml' = bs "<r><a/>" ++ t') /\
  match get env0 xml path, get env0 xml' path with
  | Ok r, Ok r' => r_exists r = true /\ r_string r <> r_string r' | _, _ => False end.
Proof.
  exists (bs "<r><a/></r>"), (bs "<r><a/><a/></r>"), (bs "r.a.#"). split; [exists (bs "</r>"), (bs "<a/></r>"); split; reflexivity|]. vm_compute. split; [reflexivity|discriminate].
Qed.
Print Assumptions C90_count_refuted.

Definition junk : bytes := bs "</a>]]></zzz><a k='" ++ [dquote] ++ bs "<!-- <b>two</b> <r><a><b/></a".
Definition head_text : bytes := bs "<r> <a/><!--note--><a k=""1&lt;2"" x:y=""z""><b> one </b>".
Definition second_b : node := Elem (bs "p:b") [(bs "m", bs "u"); (bs "n", bs "v")] false [Text (bs "t&amp;u"); Elem (bs "c") [] true []].
Example C90_example :
  let steps := [(bs "r", None); (bs "a", Some (bs "1")); (bs "b", Some (bs "1"))] in
  Forall good sample /\ (exists after, designated true steps sample head_text second_b after) /\
  Forall early steps /\ good_tpath (steps ++ []) (TheAttribute (bs "n")) /\ inside [] (TheAttribute (bs "n")) second_b = Attribute (bs "v") /\
  good_tpath (steps ++ [(bs "c", None)]) TheCount /\ inside [(bs "c", None)] TheCount second_b = Count 1 /\
  valid (head_text ++ node_text second_b ++ junk) = false /\
  (let* r := get env0 (sample_prolog ++ head_text ++ node_text second_b ++ junk) (bs "r.a.1.b.1.@n") in Ok (r_string r)) = Ok (bs "v") /\
  (let* r := get env0 (sample_prolog ++ head_text ++ node_text second_b ++ junk) (bs "r.a.1.b.1.c.#") in Ok (r_string r)) = Ok (bs "1").
Proof.
  cbv zeta. split; [exact sample_good|]. split.
  - eexists. 
    change head_text with (forest_text [] ++ start_tag (bs "r") [] false ++
      forest_text [Text (bs " "); Elem (bs "a") [] true []; Misc (bs "--note--")] ++ start_tag (bs "a") [(bs "k", bs "1<2"); (bs "x:y", bs "z")] false ++ forest_text [Elem (bs "b") [] false [Text (bs " one ")]]).
    apply (des_down true (bs "r") None _ []); [reflexivity|reflexivity|].
    apply (des_down true (bs "a") (Some (bs "1")) _ [Text (bs " "); Elem (bs "a") [] true []; Misc (bs "--note--")]); [reflexivity|vm_compute; reflexivity|].
    apply (des_here true (bs "b") (Some (bs "1")) [Elem (bs "b") [] false [Text (bs " one ")]] second_b []); vm_compute; reflexivity.
  - split; [repeat constructor|]. split; [apply tpath_b_ok; vm_compute; reflexivity|]. split; [reflexivity|]. split; [apply tpath_b_ok; vm_compute; reflexivity|].
    split; [reflexivity|]. split; [vm_compute; reflexivity|]. split; vm_compute; reflexivity.
Qed.
