(** C47: sequences of edits. C21: edits keep documents valid. C14: Set and Delete return on
    canonical documents. *)
From Coq Require Import List Ascii String NArith ZArith Bool Lia Permutation.
From Verif Require Import GoStr ModelParser ModelPath ModelResult ModelQuery ModelValidate ModelBuilder ModelQueryOpts ModelApi SpecText SpecPath SpecTree SpecQuery SpecEdit
  SpecContent SpecValid SpecHistory SpecGrammar ProofBase ProofPath ProofTree ProofTree5 ProofTree8 ProofFuel ProofFuel2 ProofEdit ProofEdit2 ProofEdit3 ProofEdit5 ProofEdit7 ProofEdit8 ProofEdit9 ProofEdit10 ProofEdit11 ProofValid2 ProofGrammar ProofGrammar2
  PropTree PropValid PropEdit.
Import ListNotations.

(** C47. After any sequence of edits the document is the text of the edited tree, with the
    attributes in some order, and every query answers from the edited tree. *)
Theorem C47_history : forall E fmt_g p F ops F',
  (forall k l, Permutation l (e_ord E k l)) -> prolog p -> strict_prolog p ->
  Forall good F -> Forall top_node F -> shallow F -> room p F -> history p ops F F' ->
  exists G, calls E fmt_g ops (p ++ forest_text F) = Ok (p ++ forest_text G, None) /\ Forall2 same F' G /\
    valid (p ++ forest_text G) = true /\
    forall steps fin, good_tpath steps fin ->
      exists r, get E (p ++ forest_text G) (tpath steps fin) = Ok r /\ describes r (query true steps fin F').
Proof.
  intros E fmt_g p F ops F' Ho Hp SP HG HT HS [HE HZ] HH.
  destruct (history_ok E fmt_g Ho p ops F F' Hp SP HH F HG HT (conj HE (conj HS HZ)) (same_all_refl F)) as [G [C [S [G' [T' FT]]]]].
  exists G. split; [exact C|]. split; [exact S|].
  assert (V : valid (p ++ forest_text G) = true).
  { apply state_valid; auto; [eapply same_good_all; eauto|eapply same_top; eauto|eapply same_fits; eauto]. }
  split; [exact V|]. intros steps fin GT.
  destruct (get_query_text E Ho p F' G steps fin Hp S G' (valid_size _ V) GT) as [r [R1 R2]]. exists r. split; auto.
  apply denotes_describes; auto. now apply query_good.
Qed.
Print Assumptions C47_history.
Definition at_ab1 : list tstep := [(bs "r", None); (bs "a", Some (bs "1")); (bs "b", Some (bs "1"))].
Definition edits : list edit :=
  [ SetText at_ab1 (bs "<new>");
    SetAttr [(bs "r", None); (bs "d", None)] (bs "id") (bs "7");
    SetText (by_name [bs "r"; bs "e"; bs "f"]) (bs "x & y");
    Append [(bs "r", None)] (bs "a") (AsText (bs "third"));
    SetContent (by_name [bs "r"; bs "n"]) (AsInt (-40));
    Append [(bs "r", None)] (bs "ok") (AsBool true);
    SetContent (by_name [bs "r"; bs "q"; bs "s"]) (AsForest [Text (bs "t"); Elem (bs "u") [(bs "w", bs "1<2")] true []; Misc (bs "--c--")]);
    SetAttr (by_name [bs "r"; bs "g"]) (bs "h") (bs "i");
    RemoveAttr [(bs "r", None); (bs "a", Some (bs "1"))] (bs "k");
    Remove [(bs "r", None); (bs "a", None)];
    Remove [(bs "r", None); (bs "zzz", None)] ].
Definition edited : bytes :=
  bs "<r> <!--note--><a x:y=""z""><b> one </b><p:b m=""u"" n=""v"">&lt;new&gt;</p:b></a><a>third</a><d id=""7"">tail</d><e><f>x &amp; y</f></e><n>-40</n><ok>true</ok><q><s>t<u w=""1&lt;2""/><!--c--></s></q><g h=""i""></g></r>".
Fixpoint run (ops : list edit) (F : list node) : option (list node) :=
  match ops with [] => Some F | o :: ops' => match apply_edit o F with Some F' => run ops' F' | None => None end end.
Fixpoint legal_all (ops : list edit) (F : list node) : Prop :=
  match ops with
  | [] => True
  | o :: ops' => legal o /\ match apply_edit o F with
      | Some F' => existsb is_elem F' = true /\ (N.of_nat (List.length (sample_prolog ++ forest_text F')) <=? 10485760)%N = true /\ legal_all ops' F'
      | None => False end
  end.
Lemma run_history : forall ops F F', run ops F = Some F' -> legal_all ops F -> history sample_prolog ops F F'.
Proof.
  induction ops as [|o ops IH]; intros F F' R L; cbn [run] in R; cbn [legal_all] in L; [injection R as <-; constructor|]. destruct L as [L1 L2].
  destruct (apply_edit o F) as [F1|] eqn:Q; [|discriminate]. destruct L2 as [L2 [L3 L4]]. econstructor; eauto. split; [|now apply N.leb_le].
  apply existsb_exists in L2. destruct L2 as [[n a s k| |] [IN K]]; try discriminate. now exists n, a, s, k.
Qed.
Example C47_example :
  exists F', run edits sample = Some F' /\ forest_text F' = edited /\ history sample_prolog edits sample F' /\
  (forall G, Forall2 same F' G -> query true (by_name [bs "r"; bs "d"]) (TheAttribute (bs "id")) F' = Attribute (bs "7")) /\
  calls env0 (fun _ => []) edits (sample_prolog ++ forest_text sample) = Ok (sample_prolog ++ edited, None).
Proof.
  destruct (run edits sample) as [F'|] eqn:R; [|vm_compute in R; discriminate R]. exists F'. split; [reflexivity|].
  assert (T : forest_text F' = edited) by (revert R; vm_compute; intros R; injection R as <-; reflexivity). split; [exact T|]. split; [|split].
  - apply run_history; auto. clear F' R T. unfold edits, legal_all. 
    repeat match goal with
    | |- True => exact I
    | |- context [apply_edit ?o ?F] => let x := eval vm_compute in (apply_edit o F) in change (apply_edit o F) with x; cbv iota
    | |- legal _ /\ _ => split
    | |- _ = true /\ _ => split; [vm_compute; reflexivity|]
    | |- legal _ => cbn [legal]
    | |- _ /\ _ => split
    | |- good_tpath _ _ => apply tpath_b_ok; vm_compute; reflexivity
    | |- xml_name _ => apply xml_name_b_ok; vm_compute; reflexivity
    | |- Forall good_tstep _ => eapply (fun l H => gt_steps l TheElement H); apply tpath_b_ok; vm_compute; reflexivity
    | |- Forall _ (_ :: _) => apply Forall_cons
    | |- Forall _ [] => apply Forall_nil
    | |- Forall xml_name _ => cbn [map fst by_name at_ab1]
    | |- _ < _ => vm_compute; lia
    | |- (_ <= _)%nat => vm_compute; lia
    | |- good_content _ => split; cbn [content_nodes]
    | |- good _ => apply good_b_ok; vm_compute; reflexivity
    | |- (_ <= _)%N => vm_compute; discriminate
    | |- small _ => vm_compute; discriminate
    end.
  - intros _ _. revert R. vm_compute. intros R. injection R as <-. reflexivity.
  - vm_compute. reflexivity.
Qed.

(** C21. An edit of a valid canonical document gives a valid document, provided it keeps an
    element and stays within 10 MiB.  It keeps an element unless it removes a top-level one. *)
Theorem C21_edit_keeps_valid : forall E fmt_g p F o F',
  (forall k l, Permutation l (e_ord E k l)) -> prolog p -> strict_prolog p ->
  Forall good F -> Forall top_node F -> shallow F -> room p F -> legal o -> apply_edit o F = Some F' -> room p F' ->
  exists new, call E fmt_g o (p ++ forest_text F) = Ok (new, None) /\ valid new = true.
Proof.
  intros E fmt_g p F o F' Ho Hp SP HG HT HS HR L A R.
  destruct (C47_history E fmt_g p F [o] F' Ho Hp SP HG HT HS HR) as [G [C [S [V _]]]].
  - econstructor; eauto. constructor.
  - exists (p ++ forest_text G). split; auto. cbn [calls] in C. destruct (call E fmt_g o (p ++ forest_text F)) as [[d' [e|]]| |] eqn:Q; try discriminate. exact C.
Qed.
Print Assumptions C21_edit_keeps_valid.
Theorem C21_edit_keeps_element : forall o F F',
  (forall s, o <> Remove [s]) -> apply_edit o F = Some F' -> has_element F -> has_element F'.
Proof.
  intros o F F' N A H. eapply apply_has; eauto. destruct o as [| |[|s [|]]| |]; auto. exfalso. now apply (N s).
Qed.
Print Assumptions C21_edit_keeps_element.
Theorem C21_edit_keeps_shallow : forall o F F', legal o -> apply_edit o F = Some F' -> shallow F -> shallow F'.
Proof. exact apply_shallow. Qed.
Print Assumptions C21_edit_keeps_shallow.
Example C21_example :
  let o := SetText at_ab1 (bs "<new>") in
  match apply_edit o sample, call env0 (fun _ => []) o (sample_prolog ++ forest_text sample) with
  | Some F', Ok (new, None) => existsb is_elem F' && (N.of_nat (List.length (sample_prolog ++ forest_text F')) <=? 10485760)%N && valid new
  | _, _ => false
  end = true.
Proof. vm_compute. reflexivity. Qed.
(** Elsewhere Set succeeds and its result is not valid: missing indexes, counts, text steps,
    names that are no XML names. *)
Theorem C21_bad_paths_refuted : exists xml, valid xml = true /\
  forall path, In path [bs "r.a.3"; bs "r.#"; bs "r.a.%"; bs "r.1x"; bs "r.x y"; bs "r.a.@1"; bs "r.a.#(b==1).c"] ->
  exists new, set env0 (fun _ => []) xml path (VStr (bs "v")) = Ok (new, None) /\ valid new = false.
Proof.
  exists (bs "<r><a>x</a></r>"). split; [reflexivity|].
  set (l := [bs "r.a.3"; _; _; _; _; _; _]).
  assert (K : forallb (fun path => match set env0 (fun _ => []) (bs "<r><a>x</a></r>") path (VStr (bs "v")) with Ok (new, None) => negb (valid new) | _ => false end) l = true)
    by (vm_compute; reflexivity).
  intros path IN. rewrite forallb_forall in K. apply K in IN. destruct (set _ _ _ path _) as [[new [e|]]| |]; try discriminate. exists new. split; auto. now destruct (valid new).
Qed.
Print Assumptions C21_bad_paths_refuted.
(** A path can put markup into the document although values are escaped. *)
Theorem C21_path_markup_refuted : exists xml path new, valid xml = true /\
  set env0 (fun _ => []) xml path (VStr (bs "v")) = Ok (new, None) /\ valid new = true /\
  new = bs "<r><a x=""1"" evil=""v"">x</a></r>".
Proof. exists (bs "<r><a>x</a></r>"), (bs "r.a.@x=""1"" evil"), (bs "<r><a x=""1"" evil=""v"">x</a></r>").
  repeat split; vm_compute; reflexivity. Qed.
Print Assumptions C21_path_markup_refuted.

(** C14. On canonical documents Delete returns for every path except those whose parsing
    brings the program down (the ones of C64_crash, for Get), and Set for every such path
    that does not end in an attribute, whatever the options and the value. *)
Theorem C14_delete_returns : forall E p F o path,
  (forall k l, Permutation l (e_ord E k l)) -> prolog p -> Forall good F ->
  ~ path_means path Fatal ->
  exists r, delete_opts E o (p ++ forest_text F) path = Ok r.
Proof.
  intros E p F o path Ho Hp HG NQ. destruct (parse_opts_returns o path) as [segs P].
  - intros K. apply NQ. now apply path_means_panic.
  - exact (delete_opts_returns E Ho p F Hp HG o path segs P).
Qed.
Print Assumptions C14_delete_returns.
Theorem C14_set_returns : forall E fmt_g p F o path v,
  (forall k l, Permutation l (e_ord E k l)) -> prolog p -> Forall good F ->
  ~ path_means path Fatal -> (forall l x ms, ~ path_means path (Steps (l ++ [(GAttr x, ms)]))) ->
  exists r, set_opts E fmt_g o (p ++ forest_text F) path v = Ok r.
Proof.
  intros E fmt_g p F o path v Ho Hp HG NQ NA. destruct (path_means_ex path) as [m M].
  pose proof (path_means_res _ _ M) as R. destruct m as [l| |]; [| |contradiction]; cbn [meaning_res] in R.
  - assert (P : parse_path_opts o path = Ok (map (fun y => if o_case o then seg_of y else lower_seg (seg_of y)) l)).
    { unfold parse_path_opts. rewrite R. cbn [bind]. destruct (o_case o); [reflexivity|]. now rewrite map_map. }
    apply (set_opts_returns E Ho p F Hp HG fmt_g o path v _ P). left.
    destruct l as [|y l _] using rev_ind; [discriminate|]. rewrite map_app. cbn [map]. rewrite last_last.
    destruct y as [st ms]. destruct st; try (destruct (o_case o); discriminate). exfalso. exact (NA _ _ _ M).
  - assert (P : parse_path_opts o path = Ok []) by (unfold parse_path_opts; rewrite R; cbn [bind]; now destruct (o_case o)).
    apply (set_opts_returns E Ho p F Hp HG fmt_g o path v _ P). left. discriminate.
Qed.
Print Assumptions C14_set_returns.
(** Setting an attribute of an element that exists, or whose missing ancestors have legal
    names, returns. *)
Theorem C14_set_attribute_returns : forall E fmt_g p F steps x v F',
  (forall k l, Permutation l (e_ord E k l)) -> prolog p -> strict_prolog p ->
  Forall good F -> Forall top_node F -> shallow F -> room p F ->
  legal (SetAttr steps x v) -> apply_edit (SetAttr steps x v) F = Some F' -> room p F' ->
  exists r, set E fmt_g (p ++ forest_text F) (tpath steps (TheAttribute x)) (VStr v) = Ok r.
Proof.
  intros E fmt_g p F steps x v F' Ho Hp SP HG HT HS HR L A R.
  destruct (C21_edit_keeps_valid E fmt_g p F (SetAttr steps x v) F' Ho Hp SP HG HT HS HR L A R) as [new [C _]]. cbn [call] in C. eauto.
Qed.
Print Assumptions C14_set_attribute_returns.
Example C14_canonical_example :
  let path := bs "r.a.#(@k=='1')#.**.b.-1" in
  path_means path (Steps [(GName (bs "r"), []); (GName (bs "a"), []); (GWhere true (bs "@k") OpEq (bs "1"), []); (GDeep, []); (GName (bs "b"), []); (GNth (-1), [])]) /\
  match set_opts env_rev (fun _ => []) (mkOpts false [] false None) (sample_prolog ++ forest_text sample) path (VInt 3), delete env_rev (sample_prolog ++ forest_text sample) path with
  | Ok (_, None), Ok (_, None) => true | _, _ => false end = true.
Proof.
  split; [apply path_means_stored; [discriminate|vm_compute; reflexivity]|vm_compute; reflexivity].
Qed.
