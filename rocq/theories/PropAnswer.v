(** C67: the answer to every query on every text. *)
From Coq Require Import List Ascii String NArith ZArith Bool Lia SpecFloat Permutation.
From Verif Require Import GoStr ModelParser ModelPath ModelResult ModelQuery ModelValidate ModelBuilder ModelQueryOpts SpecText SpecPath SpecTree SpecContent
  SpecFilter SpecGrammar SpecScan SpecAnswer ProofBase ProofScan ProofFuel ProofFuel2 ProofApi2 ProofGrammar2 ProofSight3 ProofAnswer ProofAnswer2 ProofAnswer3 ProofAnswer4
  ProofAnswer5.
Import ListNotations.
Notation get := ModelQuery.get.

Lemma seg_o_opts : forall o l, (if o_case o then map seg_of l else map lower_seg (map seg_of l)) = map (seg_o (o_case o)) l.
Proof.
  intros o l. destruct (o_case o); rewrite ?map_map; apply map_ext; intros [st ms]; destruct st; reflexivity.
Qed.
Lemma dialect_answers : forall E (sight : bytes -> list elem -> Prop), (forall k m, Permutation m (e_ord E k m)) ->
  (forall key s l, scan_res E key s = Ok l -> sight s l) -> forall o xml path l r, (blen xml <= 10485760)%N -> path_means path (Steps l) ->
  get_opts E o xml path = Ok r ->
  exists k, answers sight (e_parse_float E) (get_modifier E) k (if is_default_options o then Plain else Under (o_case o)) true xml l r.
Proof.
  intros E sight P Hs o xml path l r B M H. pose proof (path_fine _ _ M) as F. apply path_means_res in M. cbn [meaning_res] in M.
  unfold get_opts in H. replace (MaxDocumentSize <? blen xml)%N with false in H by (symmetry; apply N.ltb_ge; exact B).
  destruct (is_default_options o).
  - rewrite M in H. cbn [bind] in H. destruct l as [|x l].
    + injection H as <-. exists 1%nat. apply answer_nothing.
    + exists (query_fuel path). exact (answers_plain E sight P Hs _ _ _ _ _ _ F H).
  - unfold parse_path_opts in H. rewrite M in H. cbn [bind] in H. rewrite seg_o_opts in H. destruct l as [|x l].
    + injection H as <-. exists 1%nat. apply answer_nothing.
    + exists (query_fuel path). exact (answers_opts E sight _ P Hs _ _ _ _ _ _ F H).
Qed.
Lemma get_default : forall E xml path, get E xml path = get_opts E default_options xml path.
Proof. reflexivity. Qed.
Lemma get_total : forall E o xml path l, path_means path (Steps l) -> exists r, get_opts E o xml path = Ok r.
Proof.
  intros E o xml path l M. apply path_means_res in M. cbn [meaning_res] in M.
  apply (get_opts_ok E o xml path). rewrite M. eexists; reflexivity.
Qed.

(** What [Get] returns is an answer in the sense of [SpecAnswer], for every text and every
    path that has steps, whatever the order of attributes. *)
Theorem C67_answer : forall E xml path l, (forall k m, Permutation m (e_ord E k m)) -> (blen xml <= 10485760)%N -> path_means path (Steps l) ->
  exists r k, get E xml path = Ok r /\ answers sees (e_parse_float E) (get_modifier E) k Plain true xml l r.
Proof.
  intros E xml path l P B M. rewrite get_default. destruct (get_total E default_options xml path l M) as [r H]. 
  destruct (dialect_answers E sees P (fun key s l => scan_sees E key s l P) default_options xml path l r B M H) as [k A].
  exists r, k. split; auto.
Qed.
Print Assumptions C67_answer.
(** With options, the answer is in the dialect of the options. *)
Theorem C67_options : forall E o xml path l, (forall k m, Permutation m (e_ord E k m)) -> (blen xml <= 10485760)%N -> path_means path (Steps l) ->
  exists r k, get_opts E o xml path = Ok r /\
    answers sees (e_parse_float E) (get_modifier E) k (if is_default_options o then Plain else Under (o_case o)) true xml l r.
Proof.
  intros E o xml path l P B M. destruct (get_total E o xml path l M) as [r H].
  destruct (dialect_answers E sees P (fun key s l => scan_sees E key s l P) o xml path l r B M H) as [k A].
  exists r, k. split; auto.
Qed.
Print Assumptions C67_options.
(** When the order of attributes does not change from one reading to the next, texts are
    seen in one way, and there is no other answer than the one returned. *)
Theorem C67_only : forall E, (forall k m, Permutation m (e_ord E k m)) -> (forall k k' m, e_ord E k m = e_ord E k' m) ->
  exists sight : bytes -> list elem -> Prop,
    (forall s, exists es, sight s es /\ sees s es /\ forall es', sight s es' -> es' = es) /\
    forall o xml path l r, (blen xml <= 10485760)%N -> path_means path (Steps l) -> is_default_options o = true \/ o_case o = true ->
      get_opts E o xml path = Ok r <->
      exists k, answers sight (e_parse_float E) (get_modifier E) k (if is_default_options o then Plain else Under true) true xml l r.
Proof.
  intros E P U. exists (fun s es => scan_res E [] s = Ok es).
  assert (Q : forall key s l, scan_res E key s = Ok l -> scan_res E [] s = Ok l).
  { intros key s l H. rewrite <- H. apply scan_res_key. exact U. }
  split.
  - intros s. destruct (scan_res_ok E [] s) as [es H]. exists es. split; auto. split; [eapply scan_sees; eauto|]. intros es' H'. congruence.
  - intros o xml path l r B M C.
    assert (DD : (if is_default_options o then Plain else Under (o_case o)) = (if is_default_options o then Plain else Under true)).
    { destruct (is_default_options o); auto. destruct C as [C| ->]; [discriminate|auto]. }
    split.
    + intros H. rewrite <- DD. eapply dialect_answers; eauto.
    + intros [k A]. destruct (get_total E o xml path l M) as [r' H]. rewrite H. f_equal.
      destruct (dialect_answers E (fun s es => scan_res E [] s = Ok es) P Q o xml path l r' B M H) as [k' A']. rewrite DD in A'.
      refine (answers_det _ _ _ _ _ _ _ _ _ _ _ _ _ _ A A'); [intros; congruence|intros; eapply keyed_scan; eauto|].
      destruct (is_default_options o); reflexivity.
Qed.
Print Assumptions C67_only.

(** Two elements of one name in a text that is not well-formed, a condition on an attribute
    without quotes, and a modifier. *)
Example C67_example :
  path_means (bs "r.a.#(@k>0)#|@last") (Steps [(GName (bs "r"), []); (GName (bs "a"), []); (GWhere true (bs "@k") OpGt (bs "0"), [bs "last"])]) /\
  exists k, answers sees (e_parse_float env0) (get_modifier env0) k Plain true (bs "<r><a k=1>x</a><b/><a k=2>y<c></a>")
    [(GName (bs "r"), []); (GName (bs "a"), []); (GWhere true (bs "@k") OpGt (bs "0"), [bs "last"])]
    (r_element (bs "y<c>")).
Proof.
  assert (M : path_means (bs "r.a.#(@k>0)#|@last") (Steps [(GName (bs "r"), []); (GName (bs "a"), []); (GWhere true (bs "@k") OpGt (bs "0"), [bs "last"])])).
  { apply path_means_stored; [discriminate|vm_compute; reflexivity]. }
  split; [exact M|].
  destruct (C67_answer env0 (bs "<r><a k=1>x</a><b/><a k=2>y<c></a>") _ _ (fun _ _ => Permutation_refl _) ltac:(vm_compute; discriminate) M) as (r & k & H & A).
  vm_compute in H. injection H as <-. exists k. exact A.
Qed.
