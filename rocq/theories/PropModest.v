(** C79: limits on what a query returns, and where the documentation promises others. *)
From Coq Require Import List Ascii String NArith ZArith Bool Lia SpecFloat Permutation.
From Verif Require Import GoStr ModelParser ModelPath ModelResult ModelQuery ModelValidate ModelBuilder ModelQueryOpts SpecText SpecPath SpecTree SpecContent
  SpecFilter SpecGrammar SpecScan SpecAnswer SpecModest ProofBase ProofScan ProofFuel ProofGrammar2 ProofSight3 PropAnswer ProofModest.
Import ListNotations.
Notation get := ModelQuery.get.

(** Whatever the text, every value in the answer to a query without modifiers is modest:
    text is not longer than what it is read from, an attribute has at most 1 MiB and one
    byte, a count is between 1 and 1000. *)
Theorem C79_modest : forall E o xml path l, (forall k m, Permutation m (e_ord E k m)) -> path_means path (Steps l) -> Forall (fun st => snd st = []) l ->
  exists r, get_opts E o xml path = Ok r /\ modest_answer r.
Proof.
  intros E o xml path l P M B. destruct (get_total E o xml path l M) as [r H]. exists r. split; [exact H|].
  destruct (N.leb_spec (blen xml) 10485760) as [L|L].
  - destruct (C67_options E o xml path l P L M) as (r' & k & H' & A). rewrite H in H'. injection H' as <-. eapply answers_modest; eauto.
  - unfold get_opts in H. replace (MaxDocumentSize <? blen xml)%N with true in H by (symmetry; apply N.ltb_lt; exact L). injection H as <-. cbn. auto.
Qed.
Print Assumptions C79_modest.

(** No matter how many attributes an element is given, at most 100 of them are found, not
    even in different runs of the program. *)
Theorem C79_attributes : forall xml n xs, (blen xml <= 10485760)%N -> NoDup xs ->
  (forall x, In x xs -> exists E path r, (forall k m, Permutation m (e_ord E k m)) /\ path_means path (Steps [(GName n, []); (GAttr x, [])]) /\
     get E xml path = Ok r /\ r_type r <> RNull) ->
  (List.length xs <= 100)%nat.
Proof.
  intros xml n xs B N H.
  assert (G : forall x, In x xs -> exists es e l, sees xml es /\ only (bears Plain n) es (e :: l) /\ In x (map fst (e_attrs e))).
  { intros x I. destruct (H x I) as (E & path & r & P & M & Q & T). destruct (C67_answer E xml path _ P B M) as (r' & k & H' & A).
    rewrite Q in H'. injection H' as <-. eapply attr_query; eauto. }
  destruct xs as [|x0 xs]; [cbn; lia|]. destruct (G x0 (or_introl eq_refl)) as (es & e & l & S & O & _).
  pose proof (sees_modest _ _ S) as F. rewrite Forall_forall in F. assert (I : In e es) by (apply (only_in _ _ _ _ O); now left).
  destruct (F e I) as (L & _ & _). rewrite <- (map_length fst) in L. eapply Nat.le_trans; [|exact L]. apply NoDup_incl_length; [exact N|].
  intros x J. destruct (G x J) as (es' & e' & l' & S' & O' & K). pose proof (sees_det _ _ S _ S') as SS.
  destruct (first_same _ _ _ _ SS _ _ _ _ O O') as (_ & Pm & _). eapply Permutation_in; [apply Permutation_sym; apply Permutation_map; exact Pm|exact K].
Qed.
Print Assumptions C79_attributes.

(** The conditions of a path contain no NUL; those with an operator contain no tab, line
    feed or carriage return either. *)
Theorem C79_control : forall path l all p op v ms, path_means path (Steps l) -> In (GWhere all p op v, ms) l ->
  ~ In (ascii_of_N 0) p /\ (op <> OpExists -> ~ controlled p) /\ ~ controlled v.
Proof. exact path_clean. Qed.
Print Assumptions C79_control.

(** A list of fields, and a count of items, in a text that breaks off. *)
Example C79_example :
  path_means (bs "r.a.#.@k") (Steps [(GName (bs "r"), []); (GName (bs "a"), []); (GField (bs "@k"), [])]) /\
  get_opts env0 (mkOpts false [] false None) (bs "<r><a k='&lt;'>x &amp; y</a><A K=2>y<c") (bs "r.a.#.@k") =
    Ok (array [attribute (bs "<"); attribute (bs "2")]) /\
  path_means (bs "r.a.#") (Steps [(GName (bs "r"), []); (GName (bs "a"), []); (GCount, [])]) /\
  get env0 (bs "<r><a k='&lt;'>x &amp; y</a><a K=2>y<c") (bs "r.a.#") = Ok (SpecAnswer.number 2) /\
  path_means (bs "r.#(a<1).b") (Steps [(GName (bs "r"), []); (GWhere false (bs "a") OpLt (bs "1"), []); (GName (bs "b"), [])]).
Proof. repeat split; first [apply path_means_stored; [discriminate|vm_compute; reflexivity]|vm_compute; reflexivity]. Qed.

(** ** Where the documentation promises more *)
Definition many (n : nat) : bytes := flat_map (fun i => bs " a" ++ itoa i ++ bs "='" ++ itoa i ++ bs "'") (seq 0 n).
Definition flooded : bytes := bs "<item" ++ many 103 ++ bs ">value</item>".
(** docs/security.md:195-226: excess attributes are silently ignored. They become text. *)
Theorem C79_ignored_refuted : exists xml r, get env0 xml (bs "item") = Ok r /\ xml = flooded /\
  r_string r = bs "a100='100' a101='101' a102='102'value" /\ r_string r <> bs "value".
Proof. exists flooded, (r_element (bs "a100='100' a101='101' a102='102'>value")). repeat split; [vm_compute; reflexivity..|vm_compute; discriminate]. Qed.
(** Of its attributes the first hundred are found. *)
Example C79_attributes_example :
  forallb (fun i => match get env0 flooded (bs "item.@a" ++ itoa i) with Ok r => Bool.eqb (r_exists r) (i <? 100)%nat | _ => false end) (seq 0 103) = true.
Proof. vm_compute. reflexivity. Qed.
(** docs/security.md:84-97: the text of an element that consists of an entity is empty. *)
Definition attack : bytes := bs "<!DOCTYPE foo [ <!ENTITY xxe SYSTEM ""file:///etc/passwd""> ]><data><value>&xxe;</value></data>".
Theorem C79_entity_refuted : exists xml r, get env0 xml (bs "data.value") = Ok r /\ xml = attack /\ r_string r = bs "&xxe;" /\ r_string r <> [].
Proof. exists attack, (r_element (bs "&xxe;")). repeat split; [vm_compute; reflexivity..|vm_compute; discriminate]. Qed.
(** docs/security.md:175-185: elements more than 100 levels deep are ignored. *)
Definition nested (n : nat) : bytes := flat_map (fun _ => bs "<a>") (seq 0 n) ++ bs "<x>v</x>" ++ flat_map (fun _ => bs "</a>") (seq 0 n).
Theorem C79_depth_refuted : exists xml path r, get env0 xml path = Ok r /\ xml = nested 150 /\ r_string r = bs "v".
Proof.
  exists (nested 150), (flat_map (fun _ => bs "a.") (seq 0 60) ++ bs "**.x"), (r_element (bs "v")). repeat split; vm_compute; reflexivity.
Qed.
(** docs/security.md:245-270: control characters are rejected before white space is removed. *)
Theorem C79_trimmed_refuted : exists path r, In (ascii_of_N 10) path /\ In (ascii_of_N 9) path /\
  get env0 (bs "<r><a><n>v</n></a></r>") path = Ok r /\ r_string r = bs "v".
Proof.
  exists (bs "r.a.#(" ++ [ascii_of_N 10] ++ bs "n==" ++ [ascii_of_N 9] ++ bs "v)"), (r_element (bs "<n>v</n>")). repeat split; try (vm_compute; reflexivity); cbn; tauto.
Qed.
(** A condition without an operator may contain them anywhere. *)
Theorem C79_exists_refuted : exists path l p ms, path_means path (Steps l) /\ In (GWhere false p OpExists [], ms) l /\ controlled p.
Proof.
  exists (bs "r.#(a" ++ [ascii_of_N 10] ++ bs "b)"), [(GName (bs "r"), []); (GWhere false (bs "a" ++ [ascii_of_N 10] ++ bs "b") OpExists [], [])],
    (bs "a" ++ [ascii_of_N 10] ++ bs "b"), []. split; [apply path_means_stored; [discriminate|vm_compute; reflexivity]|].
  split; [right; now left|]. exists (ascii_of_N 10). split; vm_compute; tauto.
Qed.
(** docs/security.md:228-246: a value of more than 1 MiB is truncated. It is lost, and what
    follows it becomes text. *)
Definition overlong : bytes := bs "<r a='" ++ N.iter 1048578 (cons "x"%char) [] ++ bs "' b='1'>v</r>".
Theorem C79_token_refuted : exists xml, xml = overlong /\ get env0 xml (bs "r.@a") = Ok (attribute []) /\ get env0 xml (bs "r.@b") = Ok null /\
  get env0 xml (bs "r") = Ok (r_element (bs "b='1'>v")) /\ r_string (r_element (bs "b='1'>v")) = bs "b='1'v".
Proof. exists overlong. apply conj; [exact (eq_refl overlong)|]. do 3 (apply conj; [vm_compute; exact eq_refl|]). vm_compute. exact eq_refl. Qed.
