(** C65: which error an edit reports, and when it reports none. *)
From Coq Require Import List Ascii String NArith ZArith Bool Lia.
From Verif Require Import GoStr ModelParser ModelPath ModelResult ModelQuery ModelValidate ModelBuilder ModelQueryOpts
  SpecPath SpecValid SpecGrammar SpecError ProofBase ProofGrammar ProofGrammar2 PropValid ProofError.
Import ListNotations.

(** Delete: ErrMalformedXML exactly for the documents that are not accepted,
    ErrInvalidPath exactly for the paths without steps and the lone attributes, no other
    error, and the document comes back unchanged with an error. *)
Theorem C65_delete : forall E o xml path new e, delete_opts E o xml path = Ok (new, e) ->
  (e = Some ErrMalformedXML <-> ~ accepted_document xml) /\
  (e = Some ErrInvalidPath <-> accepted_document xml /\ (pathless path \/ bare_attribute path)) /\
  e <> Some ErrInvalidValue /\ (e <> None -> new = xml).
Proof.
  intros E o xml path new e H. destruct (valid_dec xml) as [A|A].
  2:{ rewrite delete_refused_document in H; auto. injection H as <- <-. (split; [split|split; [split|split]]); auto; try discriminate; now intros [K _]. }
  destruct (path_means_ex path) as [m P].
  assert (C : pathless path \/ bare_attribute path \/ exists l, path_means path (Steps l) /\ l <> [] /\ forall n ms, l <> [(GAttr n, ms)]).
  { destruct m as [l| |].
    - destruct l as [|[st ms] l]; [left; now right|]. right. destruct l as [|y l].
      + destruct st; try (right; eexists; split; [exact P|]; split; discriminate). left. exists n, ms. exact P.
      + right. eexists. split; [exact P|]. split; discriminate.
    - left. now left.
    - exfalso. unfold delete_opts in H. rewrite (accepted_size _ A), (proj2 (C16_grammar _) A) in H. cbn [negb] in H.
      unfold parse_path_opts in H. rewrite (path_means_res _ _ P) in H. discriminate. }
  destruct C as [C|[C|(l & P' & NE & NB)]].
  - rewrite delete_pathless in H; auto. injection H as <- <-. (split; [split|split; [split|split]]); auto; try discriminate; try (intros K; now elim K).
  - rewrite delete_bare in H; auto. injection H as <- <-. (split; [split|split; [split|split]]); auto; try discriminate; try (intros K; now elim K).
  - pose proof (delete_fine _ _ _ _ _ _ _ A P' NE NB H) as ->. (split; [split|split; [split|split]]); try discriminate; try easy.
    intros [_ [[K|K]|(n & ms & K)]]; exfalso; pose proof (path_means_unique _ _ _ P' K) as X; try discriminate; injection X as X; try contradiction.
    exact (NB _ _ X).
Qed.
Print Assumptions C65_delete.
(** A nil value makes Set a Delete. *)
Theorem C65_set_nil : forall E g o xml path, set_opts E g o xml path VNil = delete_opts E o xml path.
Proof. exact set_nil. Qed.
Print Assumptions C65_set_nil.

(** Set with another value. The reasons for refusal, in the order in which they are
    found: the document, the path, the value, the indexes. *)
Theorem C65_set_document : forall E g o xml path v, ~ editable xml ->
  set_opts E g o xml path v = Ok (xml, Some ErrMalformedXML).
Proof. exact set_refused_document. Qed.
Print Assumptions C65_set_document.
Theorem C65_set_path : forall E g o xml path v, editable xml -> v <> VNil -> pathless path ->
  set_opts E g o xml path v = Ok (xml, Some ErrInvalidPath).
Proof. exact set_pathless. Qed.
Print Assumptions C65_set_path.
Theorem C65_set_value : forall E g o xml path v l, editable xml -> v <> VNil -> path_means path (Steps l) -> l <> [] ->
  unfit g v -> set_opts E g o xml path v = Ok (xml, Some ErrInvalidValue).
Proof. exact set_unfit. Qed.
Print Assumptions C65_set_value.
Theorem C65_set_index : forall E g o xml path v l, editable xml -> v <> VNil -> path_means path (Steps l) ->
  ~ unfit g v -> misplaced l \/ appends l /\ (forall n, ~ appends_named l n) ->
  set_opts E g o xml path v = Ok (xml, Some ErrInvalidPath).
Proof.
  intros E g o xml path v l A N P U [M|[AP NN]]; [eapply set_misplaced; eauto|].
  assert (D : misplaced l \/ ~ misplaced l).
  { pose proof (misplaced_bad o l) as X. pose proof (ProofSyntax.check_intents_err (lowered o l)) as Y.
    destruct (check_intents (lowered o l)); [right|right|left]; rewrite X, <- Y; congruence. }
  destruct D as [M|M]; [eapply set_misplaced; eauto|eapply set_append_unnamed; eauto].
Qed.
Print Assumptions C65_set_index.
(** Otherwise a new element is refused only because the document would become larger than
    10 MiB (ErrInvalidValue), and setting an element never fails, except in documents in
    which queries see no element (ErrMalformedXML). *)
Theorem C65_set_append : forall E g o xml path v l n new e t, editable xml -> v <> VNil -> path_means path (Steps l) ->
  ~ unfit g v -> ~ misplaced l -> appends_named l n -> value_to_xml g v = inr t ->
  set_opts E g o xml path v = Ok (new, e) ->
  e = None \/ e = Some ErrInvalidValue /\ (10485760 < room o l n t xml)%N \/ e = Some ErrMalformedXML /\ unreadable xml.
Proof. exact set_append_named. Qed.
Print Assumptions C65_set_append.
Theorem C65_set_element : forall E g o xml path v l new e, editable xml -> v <> VNil -> path_means path (Steps l) -> l <> [] ->
  ~ unfit g v -> ~ misplaced l -> ~ appends l -> ~ at_attribute l ->
  set_opts E g o xml path v = Ok (new, e) -> e = None \/ e = Some ErrMalformedXML /\ unreadable xml.
Proof. exact set_elsewhere. Qed.
Print Assumptions C65_set_element.
Theorem C65_set_attribute : forall E g o xml path v l new e, editable xml -> v <> VNil -> path_means path (Steps l) ->
  ~ unfit g v -> ~ misplaced l -> at_attribute l -> set_opts E g o xml path v = Ok (new, e) ->
  e <> Some ErrInvalidValue /\
  (bare_attribute path -> e = Some ErrInvalidPath \/ e = Some ErrMalformedXML /\ unreadable xml).
Proof. exact set_attribute. Qed.
Print Assumptions C65_set_attribute.
(** Batches of edits. *)
Theorem C65_many : forall E g xml paths values,
  ((10485760 < N.of_nat (List.length xml))%N ->
     set_many E g xml paths values = Ok (xml, Some ErrMalformedXML) /\ delete_many E xml paths = Ok (xml, Some ErrMalformedXML)) /\
  ((N.of_nat (List.length xml) <= 10485760)%N -> List.length paths <> List.length values ->
     set_many E g xml paths values = Ok (xml, Some ErrInvalidPath)).
Proof.
  intros E g xml paths values. unfold set_many, delete_many, blen. change MaxDocumentSize with 10485760%N. split.
  - intros L. now rewrite (proj2 (N.ltb_lt _ _) L).
  - intros L NE. rewrite (proj2 (N.ltb_ge _ _) L). now rewrite (proj2 (Nat.eqb_neq _ _) NE).
Qed.
Print Assumptions C65_many.
(** The documentation promises ErrMalformedXML for malformed documents; there are
    documents that Valid accepts and that Set calls malformed. *)
Theorem C65_malformed_refuted : exists xml path, valid xml = true /\
  set env0 (fun _ => []) xml path (VStr (bs "v")) = Ok (xml, Some ErrMalformedXML).
Proof. exists (bs "<!Doctype [><r/>"), (bs "*"). vm_compute. auto. Qed.
Print Assumptions C65_malformed_refuted.

Example C65_example :
  editable (bs "<r><a>1</a></r>") /\ ~ editable (bs "<r>") /\ pathless (bs "..") /\ bare_attribute (bs "@id") /\
  (exists l, path_means (bs "r.a.-2") (Steps l) /\ misplaced l) /\
  (exists l, path_means (bs "r.*.-1") (Steps l) /\ appends l /\ forall n, ~ appends_named l n) /\
  (exists l, path_means (bs "r.a.-1") (Steps l) /\ ~ misplaced l /\ appends_named l (bs "a")) /\
  unfit (fun _ => []) VOther /\ ~ unfit (fun _ => []) (VInt 5).
Proof.
  split; [right; apply C16_grammar; vm_compute; reflexivity|].
  split; [intros [K|K]; [discriminate|apply C16_grammar in K; vm_compute in K; discriminate]|].
  split; [apply path_means_none; vm_compute; reflexivity|].
  split; [exists (bs "id"), []; apply path_means_stored; [discriminate|vm_compute; reflexivity]|].
  split; [|split; [|split; [|split]]].
  - exists [(GName (bs "r"), []); (GName (bs "a"), []); (GNth (-2), [])]. split; [apply path_means_stored; [discriminate|vm_compute; reflexivity]|].
    exists [(GName (bs "r"), []); (GName (bs "a"), [])], (-2)%Z, [], []. split; auto. left. lia.
  - exists [(GName (bs "r"), []); (GAny, []); (GNth (-1), [])]. split; [apply path_means_stored; [discriminate|vm_compute; reflexivity]|].
    split; [exists [(GName (bs "r"), []); (GAny, [])], []; reflexivity|].
    intros n (pre & m0 & m & K). change [(GName (bs "r"), []); (GAny, []); (GNth (-1), [])] with ([(GName (bs "r"), @nil bytes)] ++ [(GAny, []); (GNth (-1), [])]) in K.
    destruct pre as [|x [|y pre]]; try discriminate. destruct pre as [|z pre]; [discriminate|destruct pre; discriminate].
  - exists [(GName (bs "r"), []); (GName (bs "a"), []); (GNth (-1), [])]. split; [apply path_means_stored; [discriminate|vm_compute; reflexivity]|].
    split; [|exists [(GName (bs "r"), [])], [], []; reflexivity].
    intros K. apply (misplaced_bad default_options) in K. apply ProofSyntax.check_intents_err in K. vm_compute in K. discriminate.
  - now left.
  - intros [K|(t & K & L)]; [discriminate|]. vm_compute in K. injection K as <-. vm_compute in L. discriminate.
Qed.
