(** C91: copying the content of an element through Raw and SetRaw. *)
From Coq Require Import List Ascii String NArith ZArith Bool Lia Permutation.
From Verif Require Import GoStr ModelParser ModelPath ModelResult ModelQuery ModelValidate ModelBuilder ModelApi SpecText SpecPath SpecTree SpecQuery SpecEdit SpecContent SpecValid SpecHistory SpecOptions SpecRaw SpecTail
  ProofBase ProofPath ProofTree ProofTree4 ProofTree5 ProofTree7 ProofTree8 ProofEdit ProofEdit5 ProofEdit6 ProofEdit9 ProofRaw2 ProofTail ProofCopy PropTree PropRaw PropTail.
Import ListNotations.

(** C91. The Raw of an element, given to SetRaw for another element, of the same or another
    document, makes that element's content a copy: what a query finds below the one it finds
    below the other. *)
Theorem C91_copy : forall E fmt_g p1 F1 s1 A1 nd B1 p2 F2 s2 A2 n a kids B2,
  (forall k l, Permutation l (e_ord E k l)) -> prolog p1 -> prolog p2 -> Forall good F1 -> Forall good F2 ->
  located s1 F1 A1 nd B1 -> located s2 F2 A2 (Elem n a false kids) B2 ->
  good_tpath s1 TheElement -> good_tpath s2 TheElement -> Forall early s1 -> Forall early s2 ->
  match s1 with (_, Some _) :: _ => False | _ => True end -> match s2 with (_, Some _) :: _ => False | _ => True end ->
  (blen (p1 ++ forest_text F1) <= 10485760)%N -> valid (p2 ++ forest_text F2) = true ->
  (blen (forest_text (kids_of nd)) <= 5242880)%N -> (blen (p2 ++ forest_text F2) + blen (forest_text (kids_of nd)) <= 10485760)%N ->
  exists r new, get E (p1 ++ forest_text F1) (tpath s1 TheElement) = Ok r /\ r_type r = RElement /\
    set_raw E fmt_g (p2 ++ forest_text F2) (tpath s2 TheElement) (r_raw r) = Ok (new, None) /\
    new = p2 ++ A2 ++ start_tag n a false ++ r_raw r ++ end_tag n ++ B2 /\
    forall rest fin, good_tpath (s1 ++ rest) fin -> good_tpath (s2 ++ rest) fin -> (rest = [] -> forall x, fin <> TheAttribute x) ->
      inside rest fin nd <> Nothing ->
      exists r1 r2, get E (p1 ++ forest_text F1) (tpath (s1 ++ rest) fin) = Ok r1 /\ get E new (tpath (s2 ++ rest) fin) = Ok r2 /\
        SpecQuery.alike r1 r2 /\ describes r1 (inside rest fin nd) /\ describes r2 (inside rest fin nd).
Proof.
  intros E g p1 F1 s1 A1 nd B1 p2 F2 s2 A2 n a kids B2 Ho P1 P2 G1 G2 L1 L2 T1 T2 E1 E2 ST1 ST2 Z1 V2 ZR Z2.
  assert (GN : good nd) by (eapply located_good; [exact L1|exact G1]).
  assert (GM : good (Elem n a false kids)) by (eapply located_good; [exact L2|exact G2]).
  assert (EL : is_elem nd = true) by (clear -L1; induction L1; auto; destruct nd; auto; discriminate).
  assert (TX1 : forest_text F1 = A1 ++ node_text nd ++ B1) by (eapply located_text; eauto).
  assert (TX2 : forest_text F2 = A2 ++ node_text (Elem n a false kids) ++ B2) by (eapply located_text; eauto).
  assert (LD : forall x, leads s1 (A1 ++ node_text nd ++ x) nd) by (intros x; eapply located_leads; eauto).
  assert (NN : inside [] TheElement nd <> Nothing) by (cbn [inside final_answer]; discriminate).
  destruct (get_leads E Ho p1 s1 _ nd [] TheElement (LD B1) P1) as [r [R1 R2]]; rewrite ?app_nil_r; auto; [now rewrite <- TX1|].
  rewrite app_nil_r, <- TX1 in R1. cbn [inside final_answer denotes] in R2. destruct R2 as [K [SK RK]].
  assert (GK : Forall good K) by (eapply same_good_all; eauto; now apply good_kids).
  assert (RAW : r_raw r = forest_text K) by (rewrite RK; reflexivity).
  assert (LK : List.length (forest_text K) = List.length (forest_text (kids_of nd))) by (symmetry; now apply same_length_all).
  exists r, (p2 ++ A2 ++ start_tag n a false ++ r_raw r ++ end_tag n ++ B2). split; [exact R1|]. split; [now rewrite RK|]. split.
  - rewrite RAW. eapply C52_set_raw; eauto; [now apply forest_fragment|]. unfold blen in *. now rewrite LK.
  - split; [reflexivity|]. intros rest fin GP1 GP2 NA NI.
    destruct (get_leads E Ho p1 s1 _ nd rest fin (LD B1) P1 GP1 E1 NI ST1) as [r1 [Q1 Q2]]; [now rewrite <- TX1|]. rewrite <- TX1 in Q1.
    assert (IK : inside rest fin (Elem n a false (kids_of nd)) = inside rest fin nd) by (apply inside_kids; auto).
    inversion GM as [? ? ? ? N A S KD| |]; subst.
    assert (GN' : good (Elem n a false K)) by (constructor; auto; discriminate).
    destruct (get_leads_same E Ho p2 s2 (A2 ++ node_text (Elem n a false K) ++ B2) (Elem n a false K) (Elem n a false (kids_of nd)) rest fin) as [r2 [Q3 Q4]]; auto.
    + eapply located_leads; eauto.
    + constructor; auto.
    + constructor; auto; [discriminate|now apply good_kids].
    + now rewrite IK.
    + rewrite TX2 in Z2. cbn [node_text] in *. unfold blen in *. rewrite !app_length in *. unfold forest_text in LK, Z2. rewrite LK. lia.
    + rewrite IK in Q4. exists r1, r2. split; [exact Q1|]. split; [|split; [eapply denotes_alike; eauto; now apply inside_good|split; apply denotes_describes; auto; now apply inside_good]].
      cbn [node_text] in Q3. rewrite RAW. unfold forest_text. rewrite <- !app_assoc in Q3. exact Q3.
Qed.
Print Assumptions C91_copy.

(** Raw is the content of an element only: its attributes are not copied. *)
Theorem C91_attributes_refuted : exists xml p q new, valid xml = true /\ p = bs "r.a" /\ q = bs "r.c" /\
  (let* r := get env0 xml p in set_raw env0 (fun _ => []) xml q (r_raw r)) = Ok (new, None) /\
  match get env0 xml (p ++ bs ".@k"), get env0 new (q ++ bs ".@k") with Ok r1, Ok r2 => r_exists r1 = true /\ r_exists r2 = false | _, _ => False end.
Proof.
  exists (bs "<r><a k=""1"">x</a><c></c></r>"), (bs "r.a"), (bs "r.c"), (bs "<r><a k=""1"">x</a><c>x</c></r>"). vm_compute. repeat split; reflexivity.
Qed.
Print Assumptions C91_attributes_refuted.
(** Outside canonical documents Raw is not faithful: of a valid document whose comment holds
    a sign `<`, part of the comment is lost, and the copy is written over a start tag. *)
Theorem C91_comment_refuted : exists xml p q r new, valid xml = true /\ p = bs "r.a" /\ q = bs "r.c" /\ xml = bs "<r><a><!-- x < y --></a><c>x</c></r>" /\
  get env0 xml p = Ok r /\ r_raw r = bs "<!-- x <-->" /\
  set_raw env0 (fun _ => []) xml q (r_raw r) = Ok (new, None) /\ new = bs "<r><a><!-- x < y --></a><!-- x <-->c>x</c></r>" /\ valid new = false.
Proof.
  exists (bs "<r><a><!-- x < y --></a><c>x</c></r>"), (bs "r.a"), (bs "r.c"), (r_element (bs "<!-- x <-->")), (bs "<r><a><!-- x < y --></a><!-- x <-->c>x</c></r>").
  vm_compute. repeat split; reflexivity.
Qed.
Print Assumptions C91_comment_refuted.

Example C91_example :
  let s1 := [(bs "r", None); (bs "a", Some (bs "1"))] in let s2 := [(bs "r", None); (bs "d", None)] in
  Forall good sample /\ (exists A nd B, located s1 sample A nd B /\ inside [(bs "b", Some (bs "1"))] (TheAttribute (bs "n")) nd = Attribute (bs "v")) /\
  (exists A B, located s2 sample A (Elem (bs "d") [] false [Text (bs "tail")]) B) /\
  good_tpath (s1 ++ [(bs "b", Some (bs "1"))]) (TheAttribute (bs "n")) /\ good_tpath (s2 ++ [(bs "b", Some (bs "1"))]) (TheAttribute (bs "n")) /\
  valid (sample_prolog ++ forest_text sample) = true /\
  (let* r := get env0 (sample_prolog ++ forest_text sample) (tpath s1 TheElement) in
   let* x := set_raw env0 (fun _ => []) (sample_prolog ++ forest_text sample) (tpath s2 TheElement) (r_raw r) in
   let* q := get env0 (fst x) (tpath (s2 ++ [(bs "b", Some (bs "1"))]) (TheAttribute (bs "n"))) in Ok (r_string q)) = Ok (bs "v").
Proof.
  cbv zeta. split; [exact sample_good|]. split; [|split].
  - eexists _, _, _. split.
    + apply (loc_down (bs "r") None _ []); [reflexivity|reflexivity|].
      apply (loc_here (bs "a") (Some (bs "1")) [Text (bs " "); Elem (bs "a") [] true []; Misc (bs "--note--")]); vm_compute; reflexivity.
    + vm_compute. reflexivity.
  - eexists _, _. apply (loc_down (bs "r") None _ []); [reflexivity|reflexivity|].
    apply (loc_here (bs "d") None [Text (bs " "); Elem (bs "a") [] true []; Misc (bs "--note--");
      Elem (bs "a") [(bs "k", bs "1<2"); (bs "x:y", bs "z")] false
        [Elem (bs "b") [] false [Text (bs " one ")]; Elem (bs "p:b") [(bs "m", bs "u"); (bs "n", bs "v")] false [Text (bs "t&amp;u"); Elem (bs "c") [] true []]]]); vm_compute; reflexivity.
  - split; [apply tpath_b_ok; vm_compute; reflexivity|]. split; [apply tpath_b_ok; vm_compute; reflexivity|]. split; vm_compute; reflexivity.
Qed.
