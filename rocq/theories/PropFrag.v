(** C81: documents one after the other form a document, and queries on it. *)
From Coq Require Import List Ascii String NArith ZArith Bool Lia Permutation.
From Verif Require Import GoStr ModelParser ModelPath ModelResult ModelQuery ModelValidate SpecText SpecPath SpecTree SpecQuery SpecValid SpecGrammar SpecNotation SpecPlain SpecAnswer
  ProofBase ProofScan ProofFuel ProofPath ProofTree ProofTree2 ProofTree4 ProofTree5 ProofTree8 ProofMono ProofGrammar2 ProofNotation ProofFrag ProofAnswer PropTree PropValid.
Import ListNotations.
Notation get := ModelQuery.get.
Notation query := SpecQuery.query.

(** Valid documents one after the other are valid, up to the limit on the size. *)
Theorem C81_valid : forall a b, valid a = true -> valid b = true -> (N.of_nat (List.length (a ++ b)) <= 10485760)%N -> valid (a ++ b) = true.
Proof.
  intros a b A B L. apply C16_grammar in A as [A _]. apply C16_grammar in B as [B _]. apply C16_grammar. split; [|exact L].
  apply accepted_app; auto. now apply accepted_found in B.
Qed.
Print Assumptions C81_valid.

(** What a path finds in an ordinary document, it finds also when any text follows, well-formed
    or not. *)
Theorem C81_found : forall E p F x b steps fin, (forall k l, Permutation l (e_ord E k l)) -> prolog p -> Forall good F -> written_all F x ->
  (blen (p ++ x ++ b) <= 10485760)%N -> good_tpath steps fin -> steps <> [] -> (forall n, steps = [(n, None)] -> fin <> TheCount) ->
  query true steps fin F <> SpecQuery.Nothing -> exists r, get E (p ++ x ++ b) (tpath steps fin) = Ok r /\ describes r (query true steps fin F).
Proof.
  intros E p F x b steps fin P Hp G W L HP NE NC Q. pose proof (segs_parse _ _ HP) as PP.
  destruct steps as [|[n idx] rest]; [now destruct NE|].
  destruct (scan_total (e_ord E) [] b) as [lb B]. destruct (scan_app E P [] F x b lb W G B) as (es & SC & SH).
  assert (SC' : scan (e_ord E) [] (p ++ x ++ b) = Some (es ++ lb)) by (rewrite scan_skip; auto using skippable_prolog).
  assert (SG : segs_of ((n, idx) :: rest) fin = elem_seg n :: tl (segs_of ((n, idx) :: rest) fin)) by (destruct idx; reflexivity).
  set (fuel := Nat.max (cost (segs_of ((n, idx) :: rest) fin)) (List.length (segs_of ((n, idx) :: rest) fin))).
  rewrite (get_exec E _ _ _ (S fuel) L PP); [|intros Z; pose proof (eq_trans (eq_sym SG) Z); discriminate|apply Nat.lt_succ_r; apply Nat.le_max_l].
  destruct HP as [H1 H2 _]. destruct (exec_on_query E P n idx rest fin H1 H2 fuel [] es F SH) as (r & R1 & R2); [apply Nat.lt_succ_r; apply Nat.le_max_r|].
  exists r. split.
  - match goal with |- exec _ _ _ _ _ ?l = _ => replace l with (elem_seg n :: tl (segs_of ((n, idx) :: rest) fin)) by (symmetry; exact SG) end.
    rewrite (exec_on E fuel [] _ _ _ _ SC') by reflexivity. apply body_forward; auto.
    + destruct idx as [ds|]; [exact I|]. destruct rest as [|[n' [ds'|]] rest]; try exact I. destruct fin; try exact I. exact (NC n eq_refl eq_refl).
    + apply denotes_null in R2. intros T. unfold is_null in R2. rewrite T in R2. destruct (query _ _ _ _); try discriminate. now destruct Q.
  - apply denotes_describes; auto. now apply query_good.
Qed.
Print Assumptions C81_found.

(** An ordinary document in front without an element of the name makes no difference to
    the path, whatever the text is. *)
Theorem C81_skip : forall E p F x b path n ms rest, (forall k l, Permutation l (e_ord E k l)) -> prolog p -> Forall good F -> written_all F x ->
  (blen (p ++ x ++ b) <= 10485760)%N -> path_means path (Steps ((GName n, ms) :: rest)) -> step_name n -> called (selects n) F = [] ->
  get E (p ++ x ++ b) path = get E b path.
Proof.
  intros E p F x b path n ms rest P Hp G W L M N C. pose proof (path_means_res _ _ M) as PP. cbn [meaning_res map] in PP.
  destruct (scan_total (e_ord E) [] b) as [lb B]. destruct (scan_app E P [] F x b lb W G B) as (es & SC & SH).
  assert (SC' : scan (e_ord E) [] (p ++ x ++ b) = Some (es ++ lb)) by (rewrite scan_skip; auto using skippable_prolog).
  assert (L' : (blen b <= 10485760)%N) by (unfold blen in *; rewrite !app_length in L; lia).
  set (fuel := cost (seg_of (GName n, ms) :: map seg_of rest)).
  rewrite (get_exec E _ _ _ (S fuel) L PP), (get_exec E _ _ _ (S fuel) L' PP) by (first [discriminate|unfold fuel; lia]).
  rewrite (exec_on E fuel [] _ _ _ _ SC'), (exec_on E fuel [] _ _ _ _ B) by reflexivity. eapply body_skip; eauto.
Qed.
Print Assumptions C81_skip.

(** The numbers of elements of a name are added. *)
Definition counted (k : nat) : result := match Nat.min k 1000 with O => null | m => SpecAnswer.number m end.
Theorem C81_count : forall E p F x b path n ms ms' more, (forall k l, Permutation l (e_ord E k l)) -> prolog p -> Forall good F -> written_all F x ->
  (blen (p ++ x ++ b) <= 10485760)%N -> path_means path (Steps ((GName n, ms) :: (GCount, ms') :: more)) ->
  exists k, get E b path = Ok (counted k) /\ get E (p ++ x ++ b) path = Ok (counted (List.length (called (bytes_eqb n) F) + k)).
Proof.
  intros E p F x b path n ms ms' more P Hp G W L M. pose proof (path_means_res _ _ M) as PP. cbn [meaning_res map] in PP.
  destruct (scan_total (e_ord E) [] b) as [lb B]. destruct (scan_app E P [] F x b lb W G B) as (es & SC & SH).
  assert (SC' : scan (e_ord E) [] (p ++ x ++ b) = Some (es ++ lb)) by (rewrite scan_skip; auto using skippable_prolog).
  assert (L' : (blen b <= 10485760)%N) by (unfold blen in *; rewrite !app_length in L; lia).
  set (fuel := cost (seg_of (GName n, ms) :: seg_of (GCount, ms') :: map seg_of more)).
  rewrite (get_exec E _ _ _ (S fuel) L PP), (get_exec E _ _ _ (S fuel) L' PP) by (first [discriminate|unfold fuel; lia]).
  rewrite (exec_on E fuel [] _ _ _ _ SC'), (exec_on E fuel [] _ _ _ _ B) by reflexivity.
  set (cb := filter (fun e => bytes_eqb (e_name e) n) lb). exists (List.length cb).
  assert (CA : List.length (called (bytes_eqb n) F) = List.length (filter (fun e => bytes_eqb (e_name e) n) es)).
  { rewrite called_elems. apply f2_length with (R := shows). apply (shows_filter (bytes_eqb n) (fun m => bytes_eqb m n)); auto. intros; apply bytes_eqb_sym. }
  assert (X : forall l, root_array E (exec E fuel) [] (firstn MaxWildcardResults l) (seg_of (GCount, ms')) (map seg_of more) = Ok (counted (List.length l))).
  { intros l. rewrite wild_max. unfold counted. rewrite Nat.min_comm, <- firstn_length. destruct (firstn 1000 l) as [|e0 l0]; [reflexivity|].
    unfold root_array. cbn [seg_of fst snd s_type]. f_equal. cbn [List.length]. apply count_is. }
  unfold body_on. cbn [seg_of fst snd s_type s_value]. rewrite filter_app. rewrite CA, <- app_length. split; apply X.
Qed.
Print Assumptions C81_count.

(** The fragment of the documentation (README.md:431-460): three users, here followed by text
    that is not well-formed, and preceded by an element of another name. *)
Definition user (i name : string) : node := Elem (bs "user") [(bs "id", bs i)] false [Elem (bs "name") [] false [Text (bs name)]].
Definition users : list node := [user "1" "Alice"; Text [lf]; user "2" "Bob"; Text [lf]; user "3" "Carol"].
Example C81_example : let b := bs "<user id='4'><name>Dan</name><user><" in let a := [Elem (bs "item") [] false [Text (bs "x")]] in
  Forall good users /\ written_all users (forest_text users) /\ Forall good a /\ written_all a (forest_text a) /\ prolog sample_prolog /\
  good_tpath [(bs "user", Some (bs "1")); (bs "name", None)] TheElement /\ step_name (bs "user") /\ called (selects (bs "user")) a = [] /\
  path_means (bs "user.#") (Steps [(GName (bs "user"), []); (GCount, [])]) /\ path_means (bs "user.@id") (Steps [(GName (bs "user"), []); (GAttr (bs "id"), [])]) /\
  query true [(bs "user", Some (bs "1")); (bs "name", None)] TheElement users = SpecQuery.Element [Text (bs "Bob")] /\
  valid (forest_text users) = true /\ valid (forest_text a) = true /\ valid (forest_text users ++ forest_text a) = true /\ valid (forest_text users ++ b) = false /\
  get env0 (forest_text users ++ b) (bs "user.1.name") = Ok (r_element (bs "Bob")) /\
  get env0 (forest_text a ++ b) (bs "user.@id") = Ok (r_attribute (bs "4")) /\ get env0 b (bs "user.@id") = Ok (r_attribute (bs "4")) /\
  get env0 b (bs "user.#") = Ok (counted 1) /\ get env0 (forest_text users ++ b) (bs "user.#") = Ok (counted 4).
Proof.
  cbv zeta. assert (GU : Forall good users) by (apply forest_b_ok; vm_compute; reflexivity).
  assert (GA : Forall good [Elem (bs "item") [] false [Text (bs "x")]]) by (apply forest_b_ok; vm_compute; reflexivity).
  split; [exact GU|]. split; [now apply forest_written|]. split; [exact GA|]. split; [now apply forest_written|]. split; [apply sample_prolog_ok|].
  assert (T : good_tpath [(bs "user", Some (bs "1")); (bs "name", None)] TheElement) by (apply tpath_b_ok; vm_compute; reflexivity).
  split; [exact T|]. split; [destruct T as [T _ _]; inversion T as [|? ? [K _] _]; exact K|]. split; [reflexivity|].
  split; [apply path_means_stored; [discriminate|vm_compute; reflexivity]|]. split; [apply path_means_stored; [discriminate|vm_compute; reflexivity]|].
  vm_compute. repeat split; reflexivity.
Qed.

(** C43: in a valid document with a section of literal characters, the value of an attribute can
    depend on the unspecified order of a map: the content of an element is written anew before
    it is searched, and what looks like a tag in the section is written with its attributes in
    the order of the map, also where it stands in the value of an attribute. *)
Theorem C43_cdata_refuted : exists xml path,
  (forall k l, Permutation l (e_ord env0 k l)) /\ (forall k l, Permutation l (e_ord env_rev k l)) /\ valid xml = true /\
  exists v1 v2, get env0 xml path = Ok (r_attribute v1) /\ get env_rev xml path = Ok (r_attribute v2) /\ v1 <> v2.
Proof.
  exists (bs "<r><![CDATA[<c x=1 foo k='<a y=1 z=2>'/>]]></r>"), (bs "r.c.@k"). split; [intros; apply Permutation_refl|]. split; [intros; apply Permutation_rev|].
  split; [vm_compute; reflexivity|]. exists (bs "<a y=""1"" z=""2"">"), (bs "<a z=""2"" y=""1"">").
  split; [vm_compute; reflexivity|]. split; [vm_compute; reflexivity|]. discriminate.
Qed.
Print Assumptions C43_cdata_refuted.
