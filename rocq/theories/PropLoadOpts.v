(** C84: the work of a query under options grows linearly with the document. *)
From Coq Require Import List Ascii String NArith ZArith Bool Lia Permutation.
From Verif Require Import GoStr ModelParser ModelPath ModelResult ModelQuery ModelValidate ModelBuilder ModelQueryOpts ModelWork ModelLoad ModelLoadOpts SpecText SpecPath SpecTree SpecGrammar SpecWork SpecLoad
  ProofBase ProofFuel ProofGrammar2 PropAnswer ProofWork ProofWork2 ProofLoad ProofLoadOpts PropWork PropLoad.
Import ListNotations.
Open Scope nat_scope.

(** [lget_opts] answers what GetWithOptions answers, and counts on the way: every pass over a
    text counts 1 and the elements found in it, and so does every call of
    recursiveSearchWithContextAndOptions. *)
Theorem C84_count : forall E o xml path r, get_opts E o xml path = Ok r <-> exists c, lget_opts E o xml path = Ok (r, c).
Proof.
  intros E o xml path r. rewrite <- oerase_get. unfold erase. rewrite bind_ok. split.
  - intros ([r' c] & H & Q). cbn [fst] in Q. injection Q as ->. eauto.
  - intros [c H]. exists (r, c). auto.
Qed.
Print Assumptions C84_count.
Lemma lget_opts_some : forall E o xml path l, path_means path (Steps l) -> exists r c, lget_opts E o xml path = Ok (r, c).
Proof. intros E o xml path l M. destruct (get_total E o xml path l M) as [r H]. apply C84_count in H as [c H]. eauto. Qed.

(** Whatever the options are, the count is at most what the path asks for, times the number of
    `<` in the text; the text need not be well-formed. *)
Theorem C84_effort : forall E o xml path l n, (forall k m, Permutation m (e_ord E k m)) -> path_means path (Steps l) -> effort l n ->
  exists r c, lget_opts E o xml path = Ok (r, c) /\ (c <= n * (1 + brackets xml))%N.
Proof.
  intros E o xml path l n P M F. destruct (lget_opts_some E o xml path l M) as (r & c & H). exists r, c. split; auto.
  unfold lget_opts in H. destruct (_ <? _)%N; [apply wret_ok in H as [_ ->]; lia|]. apply path_means_res in M. cbn [meaning_res] in M. destruct (is_default_options o).
  - apply wbind_ok in H as (segs & c1 & c2 & H1 & H & ->). apply wlift_ok in H1 as [H1 ->]. rewrite M in H1. injection H1 as <-.
    destruct (map seg_of l) as [|sg rest] eqn:E1; [apply wret_ok in H as [_ ->]; lia|]. rewrite N.add_0_l.
    eapply (load_exec E P); [|exact H]. exists l. auto.
  - apply wbind_ok in H as (segs & c1 & c2 & H1 & H & ->). apply wlift_ok in H1 as [H1 ->]. unfold parse_path_opts in H1. rewrite M in H1. cbn [bind] in H1. assert (Q : segs = map (seg_under (o_case o)) l).
    { transitivity (if o_case o then map seg_of l else map lower_seg (map seg_of l)); [congruence|]. destruct (o_case o); [reflexivity|]. now rewrite map_map. }
    clear H1. destruct segs as [|sg rest]; [apply wret_ok in H as [_ ->]; lia|]. rewrite N.add_0_l.
    eapply (oload_exec E (o_case o) P); [|exact H]. exists l. auto.
Qed.
Print Assumptions C84_effort.
(** So it is at most twice the length of the path times the number of `<`, and every `**`
    multiplies it by at most 102. *)
Theorem C84_searches : forall E o xml path l k, (forall k m, Permutation m (e_ord E k m)) -> path_means path (Steps l) -> depths l k ->
  exists r c, lget_opts E o xml path = Ok (r, c) /\ (c <= 102 ^ N.of_nat k * (2 * blen path) * (1 + brackets xml))%N.
Proof.
  intros E o xml path l k P M D. destruct (effort_all _ l (le_n _)) as (n & k' & H1 & _ & _). destruct (C84_effort E o xml path l n P M H1) as (r & c & H & B). exists r, c. split; auto.
  eapply N.le_trans; [exact B|]. apply N.mul_le_mono_r. eapply N.le_trans; [eapply effort_bound; eauto|]. apply N.mul_le_mono_l. pose proof (where_cost _ _ M). unfold blen. lia.
Qed.
Print Assumptions C84_searches.
Theorem C84_linear : forall E o xml path l, (forall k m, Permutation m (e_ord E k m)) -> path_means path (Steps l) -> quiet l ->
  exists r c, lget_opts E o xml path = Ok (r, c) /\ (c <= 2 * blen path * (1 + brackets xml))%N.
Proof.
  intros E o xml path l P M Q. destruct (effort_all _ l (le_n _)) as (n & k & _ & H2 & H3). rewrite (H3 Q) in H2. destruct (C84_searches E o xml path l 0 P M H2) as (r & c & H & B).
  exists r, c. split; auto. change (102 ^ N.of_nat 0)%N with 1%N in B. now rewrite N.mul_1_l in B.
Qed.
Print Assumptions C84_linear.

(** A catalogue, read without regard to case: 16 against a bound of 95. *)
Example C84_example : let path := bs "C.*.#(p>3)#.@K" in let xml := bs "<c><g><b k='1'><p>2</p></b><b k='2'><p>5</p></b></g><g><b k='3'><p>9</p></b></g></c>" in
  exists l r, path_means path (Steps l) /\ effort l 5%N /\ brackets xml = 18%N /\
    lget_opts env0 (mkOpts false [] true None) xml path = Ok (r, 16%N) /\ List.length (r_results r) = 2 /\ r_type r = RArray.
Proof.
  intros path xml. set (l := [(GName (bs "C"), []); (GAny, []); (GWhere true (bs "p") OpGt (bs "3"), []); (GAttr (bs "K"), [])] : list (gstep * list bytes)).
  assert (M : path_means (bs "p") (Steps [(GName (bs "p"), [])])) by (apply path_means_stored; [discriminate|vm_compute; reflexivity]).
  exists l, (r_array [r_attribute (bs "2"); r_attribute (bs "3")]). split; [apply path_means_stored; [discriminate|vm_compute; reflexivity]|]. split.
  - unfold l. apply (eff_step _ _ _ 4); [discriminate|discriminate|]. apply (eff_step _ _ _ 3); [discriminate|discriminate|].
    eapply (eff_where _ _ _ _ _ _ 1 _ 1); [exact M|discriminate| |]; (apply (eff_step _ _ _ 0); [discriminate|discriminate|apply eff_none]).
  - split; [vm_compute; reflexivity|]. split; [vm_compute; reflexivity|]. split; vm_compute; reflexivity.
Qed.
(** And with `**` in the path. *)
Example C84_searches_example : let path := bs "C.**.B.p" in let xml := bs "<c><g><b k='1'><p>2</p></b><b k='2'><p>5</p></b></g><g><b k='3'><p>9</p></b></g></c>" in
  exists l r, path_means path (Steps l) /\ depths l 1 /\ quiet (skipn 2 l) /\ lget_opts env0 (mkOpts false [] true None) xml path = Ok (r, 34%N) /\ List.length (r_results r) = 3.
Proof.
  intros path xml. set (l := [(GName (bs "C"), []); (GDeep, []); (GName (bs "B"), []); (GName (bs "p"), [])] : list (gstep * list bytes)).
  exists l. eexists. split; [apply path_means_stored; [discriminate|vm_compute; reflexivity]|]. split.
  { unfold l. apply dp_step; [discriminate|discriminate|]. apply dp_deep. apply dp_step; [discriminate|discriminate|]. apply dp_step; [discriminate|discriminate|apply dp_none]. }
  split; [constructor; [intros ms I; cbn in I; intuition discriminate|intros all p op v ms l' I; cbn in I; intuition discriminate]|].
  split; vm_compute; reflexivity.
Qed.
