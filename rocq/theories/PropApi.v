(** C07, C09-C13, C38, C41, C51: contracts of the public functions. *)
From Coq Require Import List Ascii String NArith ZArith Bool Lia.
From Verif Require Import GoStr ModelParser ModelPath ModelResult ModelQuery ModelValidate ModelBuilder
  ModelQueryOpts ModelApi SpecPath SpecApi ProofBase ProofPath ProofFuel2 ProofSyntax ProofApi ProofApi2 ProofApi3
  ProofOpts.
Import ListNotations.
Definition g0 : f64 -> bytes := fun _ => [].

(** C07. Deleting what Get does not find leaves the document alone, for paths of names
    that may end in an attribute. The map iteration order may be any function of the map
    but must not change between the two calls: re-serialised attributes of a nested
    element can otherwise hide or show markup in documents with unusual quotes. *)
Theorem C07_delete_absent_element : forall E xml names,
  (forall k k' l, e_ord E k l = e_ord E k' l) ->
  valid xml = true -> (blen xml <= 10485760)%N ->
  names <> [] -> Forall plain_name names -> (List.length names <= 100)%nat ->
  get E xml (path_text names) = Ok r_null -> delete E xml (path_text names) = Ok (xml, None).
Proof. exact delete_absent_names. Qed.
Print Assumptions C07_delete_absent_element.
Theorem C07_delete_absent_attribute : forall E xml names a,
  (forall k k' l, e_ord E k l = e_ord E k' l) ->
  valid xml = true -> (blen xml <= 10485760)%N ->
  names <> [] -> Forall plain_name names -> ~ In "|"%char a -> (List.length names < 100)%nat ->
  get E xml (path_text (names ++ ["@"%char :: a])) = Ok r_null ->
  delete E xml (path_text (names ++ ["@"%char :: a])) = Ok (xml, None).
Proof. exact delete_absent_attr. Qed.
Print Assumptions C07_delete_absent_attribute.
(** With an index the claim is false: at the top level Get compares whole names, Delete
    ignores the prefix. *)
Theorem C07_delete_absent_index_refuted : exists xml path, valid xml = true /\
  get env0 xml path = Ok r_null /\
  match delete env0 xml path with Ok (d, None) => d <> xml | _ => False end.
Proof.
  exists (bs "<x:a>1</x:a><b>2</b>"), (bs "a.0"). vm_compute. repeat split; discriminate.
Qed.
Print Assumptions C07_delete_absent_index_refuted.
Example C07_example :
  let xml := bs "<r><a x='1'/><b>2</b></r>" in
  valid xml = true /\ Forall plain_name [bs "r"; bs "c"] /\
  get env0 xml (bs "r.c") = Ok r_null /\ delete env0 xml (bs "r.c") = Ok (xml, None) /\
  get env0 xml (bs "r.a.@y") = Ok r_null /\ delete env0 xml (bs "r.a.@y") = Ok (xml, None) /\
  delete env0 xml (bs "r.a.@x") = Ok (bs "<r><a/><b>2</b></r>", None).
Proof.
  split; [vm_compute; reflexivity|]. split; [|vm_compute; repeat split; reflexivity].
  repeat constructor; try (intros; discriminate); try (vm_compute; intuition discriminate).
  - exists "r"%char. vm_compute. intuition (try discriminate).
  - exists "c"%char. vm_compute. intuition (try discriminate).
Qed.

(** C09. A reported error comes with the input document, byte for byte. *)
Theorem C09_failed_edit_changes_nothing : forall E g o xml path v d e,
  (set_opts E g o xml path v = Ok (d, Some e) -> d = xml) /\
  (delete_opts E o xml path = Ok (d, Some e) -> d = xml) /\
  (forall raw, set_raw E g xml path raw = Ok (d, Some e) -> d = xml) /\
  (forall paths vs, set_many E g xml paths vs = Ok (d, Some e) -> d = xml) /\
  (forall paths, delete_many E xml paths = Ok (d, Some e) -> d = xml).
Proof.
  intros E g o xml path v d e. exact (conj (set_err E g o xml path v d e) (conj (delete_err E o xml path d e)
    (conj (fun raw => set_raw_err E g xml path raw d e) (conj (fun ps vs => set_many_err E g xml ps vs d e)
    (fun ps => delete_many_err E xml ps d e))))).
Qed.
Print Assumptions C09_failed_edit_changes_nothing.
Theorem C09_failed_set_bytes_changes_nothing : forall E g o (xml : option bytes) path v d e,
  set_bytes_opts E g o xml path v = Ok (d, Some e) -> d = xml.
Proof. exact set_bytes_err. Qed.
Print Assumptions C09_failed_set_bytes_changes_nothing.
Example C09_example :
  set env0 g0 (bs "<r><a>1</r>") (bs "r.a") (VStr (bs "v")) = Ok (bs "<r><a>1</r>", Some ErrMalformedXML) /\
  set_many env0 g0 (bs "<r><a>1</a></r>") [bs "r.a"; bs "r.a.-2"] [VInt 5; VInt 6]
    = Ok (bs "<r><a>1</a></r>", Some ErrInvalidPath).
Proof. vm_compute. auto. Qed.

(** C10. SetMany succeeds exactly when the single Sets succeed one after the other, with
    the last document; the first failing Set makes it return the original document with
    that Set's error. *)
Definition set_step (E : env) (g : f64 -> bytes) (d : bytes) (op : bytes * value) (d' : bytes) : Prop :=
  set E g d (fst op) (snd op) = Ok (d', None).
Theorem C10_set_many_success : forall E g xml paths vs d,
  set_many E g xml paths vs = Ok (d, None) <->
  (blen xml <= 10485760)%N /\ List.length paths = List.length vs /\
  chain (set_step E g) xml (combine paths vs) d.
Proof.
  intros E g xml paths vs d. unfold set_many, set_step. rewrite <- set_seq_chain.
  destruct (N.ltb_spec MaxDocumentSize (blen xml)) as [L|L].
  - split; [discriminate|]. intros [H _]. exfalso. change 10485760%N with MaxDocumentSize in H. lia.
  - destruct (Nat.eqb_spec (List.length paths) (List.length vs)) as [Q|Q]; cbn [negb].
    + rewrite set_each_ok. tauto.
    + split; [discriminate|]. tauto.
Qed.
Print Assumptions C10_set_many_success.
Theorem C10_set_many_failure : forall E g xml paths vs d e,
  (blen xml <= 10485760)%N -> List.length paths = List.length vs ->
  (set_many E g xml paths vs = Ok (d, Some e) <->
   d = xml /\ exists before op after d1 d2, combine paths vs = before ++ op :: after /\
     chain (set_step E g) xml before d1 /\ set E g d1 (fst op) (snd op) = Ok (d2, Some e)).
Proof.
  intros E g xml paths vs d e L Q. unfold set_many, set_step. change 10485760%N with MaxDocumentSize in L.
  rewrite (proj2 (N.ltb_ge _ _) L), (proj2 (Nat.eqb_eq _ _) Q). cbn [negb]. rewrite set_each_fail.
  split; intros [H1 H2]; split; auto.
  - destruct H2 as [a [p [v [b [d1 [H3 [H4 [d2 H5]]]]]]]]. exists a, (p, v), b, d1, d2.
    rewrite <- set_seq_chain. auto.
  - destruct H2 as [a [[p v] [b [d1 [d2 [H3 [H4 H5]]]]]]]. exists a, p, v, b, d1. rewrite set_seq_chain. eauto.
Qed.
Print Assumptions C10_set_many_failure.
Theorem C10_set_many_refused : forall E g xml paths vs,
  ((10485760 < blen xml)%N -> set_many E g xml paths vs = Ok (xml, Some ErrMalformedXML)) /\
  ((blen xml <= 10485760)%N -> List.length paths <> List.length vs ->
   set_many E g xml paths vs = Ok (xml, Some ErrInvalidPath)) /\
  ((blen xml <= 10485760)%N -> set_many E g xml [] [] = Ok (xml, None)).
Proof.
  intros E g xml paths vs. unfold set_many. change 10485760%N with MaxDocumentSize. repeat split; intros H.
  - now rewrite (proj2 (N.ltb_lt _ _) H).
  - intros Q. rewrite (proj2 (N.ltb_ge _ _) H). now rewrite (proj2 (Nat.eqb_neq _ _) Q).
  - now rewrite (proj2 (N.ltb_ge _ _) H).
Qed.
Print Assumptions C10_set_many_refused.
Example C10_example :
  set_many env0 g0 (bs "<r><a>1</a></r>") [bs "r.a"; bs "r.b"] [VInt 5; VStr (bs "<")]
    = Ok (bs "<r><a>5</a><b>&lt;</b></r>", None).
Proof. vm_compute. reflexivity. Qed.

(** C11. DeleteMany deletes the distinct paths in the order of their first occurrence. *)
Definition delete_step (E : env) (d : bytes) (path : bytes) (d' : bytes) : Prop :=
  delete E d path = Ok (d', None).
Theorem C11_delete_many_success : forall E xml paths d,
  delete_many E xml paths = Ok (d, None) <->
  (blen xml <= 10485760)%N /\ exists ps, firsts paths ps /\ chain (delete_step E) xml ps d.
Proof.
  intros E xml paths d. unfold delete_many, delete_step.
  destruct (N.ltb_spec MaxDocumentSize (blen xml)) as [L|L].
  - split; [discriminate|]. intros [H _]. exfalso. change 10485760%N with MaxDocumentSize in H. lia.
  - rewrite delete_each_ok. split.
    + intros H. split; auto. exists (dedupe [] paths). split; [apply dedupe_firsts|]. now apply delete_seq_chain.
    + intros [_ [ps [H1 H2]]]. rewrite (firsts_fun _ _ _ (dedupe_firsts paths) H1). now apply delete_seq_chain.
Qed.
Print Assumptions C11_delete_many_success.
Theorem C11_delete_many_failure : forall E xml paths d e, (blen xml <= 10485760)%N ->
  (delete_many E xml paths = Ok (d, Some e) <->
   d = xml /\ exists ps before p after d1 d2, firsts paths ps /\ ps = before ++ p :: after /\
     chain (delete_step E) xml before d1 /\ delete E d1 p = Ok (d2, Some e)).
Proof.
  intros E xml paths d e L. unfold delete_many, delete_step. change 10485760%N with MaxDocumentSize in L.
  rewrite (proj2 (N.ltb_ge _ _) L), delete_each_fail. split; intros [H1 H2]; split; auto.
  - destruct H2 as [a [p [b [d1 [H3 [H4 [d2 H5]]]]]]]. exists (dedupe [] paths), a, p, b, d1, d2.
    rewrite <- delete_seq_chain. split; [apply dedupe_firsts|auto].
  - destruct H2 as [ps [a [p [b [d1 [d2 [H3 [H4 [H5 H6]]]]]]]]].
    rewrite (firsts_fun _ _ _ (dedupe_firsts paths) H3). exists a, p, b, d1. rewrite delete_seq_chain. eauto.
Qed.
Print Assumptions C11_delete_many_failure.
(** Such a list of first occurrences exists, is unique and has the same members. *)
Theorem C11_distinct_paths : forall paths, exists ps, firsts paths ps /\ NoDup ps /\
  (forall p, In p ps <-> In p paths) /\ forall ps', firsts paths ps' -> ps' = ps.
Proof.
  intros paths. exists (dedupe [] paths). pose proof (dedupe_firsts paths) as F.
  destruct (firsts_spec _ _ F) as [N I]. repeat split; try apply I; auto.
  intros ps' H. exact (firsts_fun _ _ _ H F).
Qed.
Print Assumptions C11_distinct_paths.
Example C11_example :
  delete_many env0 (bs "<r><a>1</a><a>2</a><b>3</b></r>") [bs "r.a"; bs "r.b"; bs "r.a"]
    = Ok (bs "<r><a>2</a></r>", None).
Proof. vm_compute. reflexivity. Qed.

(** C12. Setting nil is deleting, whatever the document and the options. *)
Theorem C12_set_nil_is_delete : forall E g o xml path,
  set_opts E g o xml path VNil = delete_opts E o xml path.
Proof. exact set_nil_delete. Qed.
Print Assumptions C12_set_nil_is_delete.
Example C12_example :
  set env0 g0 (bs "<r><a>1</a><b>2</b></r>") (bs "r.a") VNil = Ok (bs "<r><b>2</b></r>", None) /\
  set env0 g0 [] (bs "r.a") VNil = Ok ([], Some ErrMalformedXML).
Proof. vm_compute. auto. Qed.

(** C13. Refusals: malformed and oversize documents, oversize and unsupported values. *)
Theorem C13_delete_refuses : forall E o xml path,
  (10485760 < blen xml)%N \/ valid xml = false ->
  delete_opts E o xml path = Ok (xml, Some ErrMalformedXML).
Proof. exact delete_refuses. Qed.
Print Assumptions C13_delete_refuses.
Theorem C13_set_refuses : forall E g o xml path v,
  (10485760 < blen xml)%N \/ (xml <> [] /\ valid xml = false) ->
  set_opts E g o xml path v = Ok (xml, Some ErrMalformedXML).
Proof. exact set_refuses. Qed.
Print Assumptions C13_set_refuses.
Theorem C13_set_raw_refuses : forall E g xml path raw,
  (10485760 < blen xml)%N \/ (xml <> [] /\ valid xml = false) ->
  set_raw E g xml path raw = Ok (xml, Some ErrMalformedXML) \/
  set_raw E g xml path raw = Ok (xml, Some ErrInvalidValue).
Proof.
  intros E g xml path raw H. unfold set_raw, set. destruct (validate_raw raw); [left|right]; auto.
  now apply set_refuses.
Qed.
Print Assumptions C13_set_raw_refuses.
(** The text of a value: strings are escaped first, raw bytes are taken as they are. *)
Theorem C13_big_value_refused : forall E g o xml path segs v,
  (blen xml <= 10485760)%N -> xml = [] \/ valid xml = true ->
  parse_path path = Ok segs -> segs <> [] ->
  match v with
  | VStr s => (5242880 < blen (escape_xml s))%N
  | VBytes s => (5242880 < blen s)%N
  | VOther => True
  | _ => False
  end ->
  set_opts E g o xml path v = Ok (xml, Some ErrInvalidValue).
Proof.
  intros E g o xml path segs v Hx Hv Hp Hs H.
  assert (P : exists segs', parse_path_opts o path = Ok segs' /\ segs' <> []).
  { unfold parse_path_opts. rewrite Hp. cbn [bind]. destruct (o_case o); [eauto|].
    eexists. split; [reflexivity|]. destruct segs; [easy|discriminate]. }
  destruct P as [segs' [P1 P2]]. destruct v; try contradiction.
  - eapply set_big_value; eauto; [discriminate|reflexivity].
  - eapply set_big_value; eauto; [discriminate|reflexivity].
  - eapply set_unsupported; eauto.
Qed.
Print Assumptions C13_big_value_refused.
Example C13_example :
  valid (bs "<a><b></a>") = false /\
  set env0 g0 (bs "<a><b></a>") (bs "a") (VInt 1) = Ok (bs "<a><b></a>", Some ErrMalformedXML) /\
  set env0 g0 (bs "<a></a>") (bs "a") VOther = Ok (bs "<a></a>", Some ErrInvalidValue).
Proof. vm_compute. auto. Qed.

(** C38. The variants of the API agree. GetBytes, GetString and Get are one function of
    the model. *)
Theorem C38_get_many : forall E xml paths rs,
  get_many E xml paths = Ok rs <-> Forall2 (fun p r => get E xml p = Ok r) paths rs.
Proof. exact get_many_spec. Qed.
Print Assumptions C38_get_many.
Theorem C38_default_options : forall E g xml path v,
  get_opts E default_options xml path = get E xml path /\
  set_opts E g default_options xml path v = set E g xml path v /\
  delete_opts E default_options xml path = delete E xml path.
Proof. intros. repeat split. Qed.
Print Assumptions C38_default_options.
Theorem C38_set_bytes : forall E g o xml path v d e,
  set_bytes_opts E g o (Some xml) path v = Ok (d, e) <->
  exists d0, d = Some d0 /\ set_opts E g o xml path v = Ok (d0, e).
Proof.
  intros E g o xml path v d e. cbn [set_bytes_opts]. rewrite bind_ok. split.
  - intros [[d0 e0] [H1 H2]]. injection H2 as <- <-. eauto.
  - intros [d0 [-> H]]. exists (d0, e). auto.
Qed.
Print Assumptions C38_set_bytes.
Example C38_example :
  match get_many env0 (bs "<r><a>1</a></r>") [bs "r.a"; bs "r.z"] with
  | Ok [x; y] => r_string x = bs "1" /\ y = r_null | _ => False end.
Proof. vm_compute. auto. Qed.

(** C41. Oversize documents and empty paths yield Null. *)
Theorem C41_get_oversize : forall E o xml path, (10485760 < blen xml)%N ->
  get E xml path = Ok r_null /\ get_opts E o xml path = Ok r_null.
Proof.
  intros E o xml path H. unfold get, get_opts. change 10485760%N with MaxDocumentSize in H.
  now rewrite (proj2 (N.ltb_lt _ _) H).
Qed.
Print Assumptions C41_get_oversize.
Theorem C41_get_empty_path : forall E o xml,
  get E xml [] = Ok r_null /\ get_opts E o xml [] = Ok r_null.
Proof.
  intros E o xml. unfold get, get_opts, parse_path_opts, parse_path. cbn [bind].
  destruct (MaxDocumentSize <? blen xml)%N; auto. destruct (is_default_options o); auto. destruct (o_case o); auto.
Qed.
Print Assumptions C41_get_empty_path.
(** The same path on a document within the limit has an answer. *)
Example C41_example :
  match get env0 (bs "<r><a>1</a></r>") (bs "r.a") with Ok r => r_exists r = true | _ => False end.
Proof. vm_compute. reflexivity. Qed.

(** C51. With CaseSensitive set, no other option influences a query, for every path
    without modifiers that has no wildcard or no '#'. *)
Theorem C51_options_irrelevant : forall E o xml path, o_case o = true -> ~ In "|"%char path ->
  ~ In "*"%char path \/ ~ In "#"%char path -> get_opts E o xml path = get E xml path.
Proof. exact get_opts_plain. Qed.
Print Assumptions C51_options_irrelevant.
(** Both restrictions are needed. *)
Theorem C51_modifiers_refuted : exists o xml path, o_case o = true /\
  match get_opts env0 o xml path, get env0 xml path with
  | Ok r, Ok r' => r_string r <> r_string r' | _, _ => False end.
Proof.
  exists (mkOpts true [] true None), (bs "<r> <a>1</a> </r>"), (bs "r.a.0|@nosuch"). vm_compute.
  split; [reflexivity|discriminate].
Qed.
Print Assumptions C51_modifiers_refuted.
Theorem C51_wildcard_field_refuted : exists o xml path, o_case o = true /\
  match get_opts env0 o xml path, get env0 xml path with
  | Ok r, Ok r' => r_exists r = false /\ r_exists r' = true | _, _ => False end.
Proof.
  exists (mkOpts true [] true None), (bs "<r><a><b>1</b></a></r>"), (bs "r.*.#.b"). vm_compute. auto.
Qed.
Print Assumptions C51_wildcard_field_refuted.
Example C51_example :
  let o := mkOpts true (bs "  ") true None in
  match get_opts env0 o (bs "<r><a><b>1</b></a><a><b>2</b></a></r>") (bs "r.a.#(b==2).b") with
  | Ok r => r_string r = bs "2" | _ => False end /\
  match get_opts env0 o (bs "<r><a><b>1</b></a><a><b>2</b></a></r>") (bs "r.*.b") with
  | Ok r => r_string r = bs "[""1"",""2""]" | _ => False end.
Proof. vm_compute. auto. Qed.
