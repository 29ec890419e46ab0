(** C68: the outcome of every edit on every document. *)
From Coq Require Import List Ascii String NArith ZArith Bool Lia Permutation.
From Verif Require Import GoStr ModelParser ModelPath ModelResult ModelQuery ModelValidate ModelBuilder SpecText SpecPath SpecTree SpecEdit SpecContent SpecCase SpecOptions SpecHistory
  SpecValid SpecGrammar SpecScan SpecAnswer SpecError SpecOutcome ProofBase ProofScan ProofFuel ProofApi2 ProofRaw2 ProofEdit2 ProofGrammar2 ProofSight3 ProofError ProofAnswer2 ProofAnswer4
  PropValid ProofTree ProofOutcome ProofOutcome2 ProofOutcome3.
Import ListNotations.

Lemma conv_returned : forall d out, edit_of d (conv out) = returned d out.
Proof. intros d []; reflexivity. Qed.
Lemma written_value : forall g v t, written g v t -> v <> VNil /\ value_to_xml g v = inr t.
Proof. intros g v t W. destruct W; split; try discriminate; cbn [value_to_xml]; rewrite ?ProofTree.esc_escape, ?ProofRaw2.fmt_int_decimal; reflexivity. Qed.
Lemma set_outcomes : forall E (sight : bytes -> list elem -> Prop) (order : attrs -> attrs -> Prop) g o xml path l v t,
  (forall k m, Permutation m (e_ord E k m)) -> (forall key s es, scan_res E key s = Ok es -> sight s es) -> (forall key a, order a (e_ord E key a)) ->
  editable xml -> path_means path (Steps l) -> l <> [] -> written g v t -> (blen t <= 5242880)%N ->
  exists out, set_outcome sight order (o_case o) (o_indent o) xml l t out /\ set_opts E g o xml path v = returned xml out.
Proof.
  intros E sight order g o xml path l v t P Hs Ho A M NE W L. destruct (written_value _ _ _ W) as [NN V].
  assert (VS : (MaxValueSize <? blen t)%N = false) by (apply N.ltb_ge; exact L).
  destruct (set_is E sight order o P Hs Ho g xml l v t NE V VS (editable_size _ A)) as (out & SO & SE). exists out. split; auto.
  rewrite editable_open by auto. rewrite (parse_lowered o _ _ M), lowered_seg. cbn [bind]. rewrite SE, conv_returned. destruct l; [easy|reflexivity].
Qed.
Lemma delete_outcomes : forall E (sight : bytes -> list elem -> Prop) o xml path l,
  (forall k m, Permutation m (e_ord E k m)) -> (forall key s es, scan_res E key s = Ok es -> sight s es) ->
  accepted_document xml -> path_means path (Steps l) -> l <> [] ->
  exists out, delete_outcome sight (o_case o) xml l out /\ delete_opts E o xml path = returned xml out.
Proof.
  intros E sight o xml path l P Hs A M NE.
  destruct (delete_is E sight o P Hs xml l NE (accepted_size _ A)) as (out & SO & SE). exists out. split; auto.
  unfold delete_opts. rewrite (accepted_size _ A), (proj2 (C16_grammar _) A). cbn [negb].
  rewrite (parse_lowered o _ _ M), lowered_seg. cbn [bind]. rewrite SE, conv_returned. destruct l; [easy|reflexivity].
Qed.

(** What [Set] does with any document it accepts, any path with steps and any value: the new
    document, the error or the crash is the one [SpecOutcome] describes. *)
Theorem C68_set : forall E g o xml path l v t, (forall k m, Permutation m (e_ord E k m)) -> editable xml -> path_means path (Steps l) -> l <> [] ->
  written g v t -> (blen t <= 5242880)%N ->
  exists out, set_outcome sees (fun a a' => Permutation a a') (o_case o) (o_indent o) xml l t out /\ set_opts E g o xml path v = returned xml out.
Proof.
  intros E g o xml path l v t P. exact (set_outcomes E sees (fun a a' => Permutation a a') g o xml path l v t P (fun key s es => scan_sees E key s es P) P).
Qed.
Print Assumptions C68_set.
Theorem C68_delete : forall E o xml path l, (forall k m, Permutation m (e_ord E k m)) -> accepted_document xml -> path_means path (Steps l) -> l <> [] ->
  exists out, delete_outcome sees (o_case o) xml l out /\ delete_opts E o xml path = returned xml out.
Proof.
  intros E o xml path l P. exact (delete_outcomes E sees o xml path l P (fun key s es => scan_sees E key s es P)).
Qed.
Print Assumptions C68_delete.
(** Nothing sets like deletion. *)
Theorem C68_nil : forall E g o xml path, set_opts E g o xml path VNil = delete_opts E o xml path.
Proof. exact set_nil. Qed.
Print Assumptions C68_nil.
(** When attributes are always listed in the same order, there is one outcome only. *)
Theorem C68_only : forall E, (forall k m, Permutation m (e_ord E k m)) -> (forall k k' m, e_ord E k m = e_ord E k' m) ->
  exists (sight : bytes -> list elem -> Prop) (order : attrs -> attrs -> Prop),
    (forall s, exists es, sight s es /\ sees s es /\ forall es', sight s es' -> es' = es) /\
    (forall a, exists a', order a a' /\ Permutation a a' /\ forall b, order a b -> b = a') /\
    (forall g o xml path l v t out, editable xml -> path_means path (Steps l) -> l <> [] -> written g v t -> (blen t <= 5242880)%N ->
       set_opts E g o xml path v = returned xml out <->
       exists out', returned xml out' = returned xml out /\ set_outcome sight order (o_case o) (o_indent o) xml l t out') /\
    (forall o xml path l out, accepted_document xml -> path_means path (Steps l) -> l <> [] ->
       delete_opts E o xml path = returned xml out <->
       exists out', returned xml out' = returned xml out /\ delete_outcome sight (o_case o) xml l out').
Proof.
  intros E P U. exists (fun s es => scan_res E [] s = Ok es), (fun a a' => a' = e_ord E [] a).
  assert (Q : forall key s l, scan_res E key s = Ok l -> scan_res E [] s = Ok l).
  { intros key s l H. rewrite <- H. apply scan_res_key. exact U. }
  assert (D : forall s l l', scan_res E [] s = Ok l -> scan_res E [] s = Ok l' -> l' = l) by (intros; congruence).
  assert (K : forall s l, scan_res E [] s = Ok l -> Forall keyed l) by (intros; eapply keyed_scan; eauto).
  repeat apply conj.
  - intros s. destruct (scan_res_ok E [] s) as [es H]. exists es. split; auto. split; [eapply scan_sees; eauto|]. intros es' H'. congruence.
  - intros a. exists (e_ord E [] a). auto.
  - intros g o xml path l v t out A M NE W L.
    destruct (set_outcomes E _ (fun a a' => a' = e_ord E [] a) g o xml path l v t P Q (fun key a => U key [] a) A M NE W L) as (out1 & SO & SE). rewrite SE. split.
    + intros H. exists out1. auto.
    + intros (out2 & H & SO2). rewrite <- H.
      assert (X : out2 = out1). { refine (set_det _ _ _ _ D K _ _ _ _ _ _ SO SO2). intros; congruence. } now rewrite X.
  - intros o xml path l out A M NE.
    destruct (delete_outcomes E _ o xml path l P Q A M NE) as (out1 & SO & SE). rewrite SE. split.
    + intros H. exists out1. auto.
    + intros (out2 & H & SO2). rewrite <- H. assert (X : out2 = out1) by exact (delete_det _ _ D K _ _ _ _ SO SO2). now rewrite X.
Qed.
Print Assumptions C68_only.

Definition two_spaces : options := mkOpts true (bs "  ") false None.
Example C68_example :
  accepted_document (bs "<r><a k='1'/><b>t</b></r>") /\ path_means (bs "r.a.x.y") (Steps [(GName (bs "r"), []); (GName (bs "a"), []); (GName (bs "x"), []); (GName (bs "y"), [])]) /\
  written (fun _ => []) (VStr (bs "<")) (bs "&lt;") /\
  set_outcome sees (fun a a' => Permutation a a') true (bs "  ") (bs "<r><a k='1'/><b>t</b></r>")
    [(GName (bs "r"), []); (GName (bs "a"), []); (GName (bs "x"), []); (GName (bs "y"), [])] (bs "&lt;")
    (Done (bs "<r><a k=""1"">" ++ [lf] ++ bs "<x>" ++ [lf] ++ bs "  <y>&lt;</y></x></a><b>t</b></r>")).
Proof.
  assert (A : accepted_document (bs "<r><a k='1'/><b>t</b></r>")) by (apply C16_grammar; vm_compute; reflexivity).
  assert (M : path_means (bs "r.a.x.y") (Steps [(GName (bs "r"), []); (GName (bs "a"), []); (GName (bs "x"), []); (GName (bs "y"), [])])).
  { apply path_means_stored; [discriminate|vm_compute; reflexivity]. }
  assert (W : written (fun _ => []) (VStr (bs "<")) (bs "&lt;")) by exact (wr_str (fun _ => []) (bs "<")).
  split; [exact A|]. split; [exact M|]. split; [exact W|].
  destruct (C68_set env0 (fun _ => []) two_spaces _ _ _ _ _ (fun _ _ => Permutation_refl _) (or_intror A) M ltac:(discriminate) W ltac:(vm_compute; discriminate)) as (out & S & H).
  assert (X : set_opts env0 (fun _ => []) two_spaces (bs "<r><a k='1'/><b>t</b></r>") (bs "r.a.x.y") (VStr (bs "<")) =
    Ok (bs "<r><a k=""1"">" ++ [lf] ++ bs "<x>" ++ [lf] ++ bs "  <y>&lt;</y></x></a><b>t</b></r>", None)) by (vm_compute; reflexivity).
  rewrite X in H. destruct out as [d|e|]; try discriminate. cbn [returned] in H. injection H as H. cbn [two_spaces o_case o_indent] in S.
  replace d with (bs "<r><a k=""1"">" ++ [lf] ++ bs "<x>" ++ [lf] ++ bs "  <y>&lt;</y></x></a><b>t</b></r>") in S by (subst; vm_compute; congruence). exact S.
Qed.
(** White space in tags misplaces a deletion that follows in the same parent. *)
Example C68_drift_example :
  accepted_document (bs "<r><a >x</a ><b>t</b></r>") /\
  delete_outcome sees true (bs "<r><a >x</a ><b>t</b></r>") [(GName (bs "r"), []); (GName (bs "b"), [])] (Done (bs "<r><a >x</ab></r>")).
Proof.
  assert (A : accepted_document (bs "<r><a >x</a ><b>t</b></r>")) by (apply C16_grammar; vm_compute; reflexivity). split; [exact A|].
  assert (M : path_means (bs "r.b") (Steps [(GName (bs "r"), []); (GName (bs "b"), [])])) by (apply path_means_stored; [discriminate|vm_compute; reflexivity]).
  destruct (C68_delete env0 two_spaces _ _ _ (fun _ _ => Permutation_refl _) A M ltac:(discriminate)) as (out & S & H).
  vm_compute in H. 
  destruct out as [d|e|]; try discriminate. cbn [returned] in H. injection H as H. cbn [two_spaces o_case] in S. 
  rewrite <- H in S. exact S.
Qed.
