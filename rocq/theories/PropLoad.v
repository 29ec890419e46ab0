(** C82: the work of a query grows linearly with the document. *)
From Coq Require Import List Ascii String NArith ZArith Bool Lia Permutation.
From Verif Require Import GoStr ModelParser ModelPath ModelResult ModelQuery ModelValidate ModelBuilder ModelQueryOpts ModelWork ModelLoad SpecText SpecPath SpecTree SpecGrammar SpecWork SpecLoad
  ProofBase ProofFuel ProofTree2 ProofTree4 ProofTree6 ProofTree8 ProofGrammar2 ProofTree PropAnswer ProofWork ProofWork2 ProofLoad PropWork.
Import ListNotations.
Notation get := ModelQuery.get.
Open Scope nat_scope.

(** [lget] answers what Get answers, and counts on the way: every pass over a text counts 1
    and the elements found in it, and so does every call of recursiveSearchWithContext. *)
Theorem C82_count : forall E xml path r, get E xml path = Ok r <-> exists c, lget E xml path = Ok (r, c).
Proof.
  intros E xml path r. rewrite <- lerase_get. unfold erase. rewrite bind_ok. split.
  - intros ([r' c] & H & Q). cbn [fst] in Q. injection Q as ->. eauto.
  - intros [c H]. exists (r, c). auto.
Qed.
Print Assumptions C82_count.

Lemma lget_some : forall E xml path l, path_means path (Steps l) -> exists r c, lget E xml path = Ok (r, c).
Proof.
  intros E xml path l M. destruct (get_total E default_options xml path l M) as [r H]. rewrite <- get_default in H. apply C82_count in H as [c H]. eauto.
Qed.
(** The count is at most what the path asks for, times the number of `<` in the text; the text
    need not be well-formed. *)
Theorem C82_effort : forall E xml path l n, (forall k m, Permutation m (e_ord E k m)) -> path_means path (Steps l) -> effort l n ->
  exists r c, lget E xml path = Ok (r, c) /\ (c <= n * (1 + brackets xml))%N.
Proof.
  intros E xml path l n P M F. destruct (lget_some E xml path l M) as (r & c & H). exists r, c. split; auto.
  unfold lget in H. destruct (_ <? _)%N; [apply wret_ok in H as [_ ->]; lia|].
  apply wbind_ok in H as (segs & c1 & c2 & H1 & H & ->). apply wlift_ok in H1 as [H1 ->]. rewrite (path_means_res _ _ M) in H1. cbn [meaning_res] in H1. injection H1 as <-.
  destruct (map seg_of l) as [|sg rest] eqn:E1; [apply wret_ok in H as [_ ->]; lia|]. rewrite N.add_0_l.
  eapply (load_exec E P); [|exact H]. exists l. auto.
Qed.
Print Assumptions C82_effort.

(** Every path has an effort and a number of searches, and the effort is at most twice the
    length of the path, times 102 for every search. *)
Theorem C82_path : forall path l, path_means path (Steps l) ->
  exists n k, effort l n /\ depths l k /\ (quiet l -> k = 0) /\ (n <= 102 ^ N.of_nat k * (2 * blen path))%N.
Proof.
  intros path l M. destruct (effort_all _ l (le_n _)) as (n & k & H1 & H2 & H3). exists n, k. split; auto. split; auto. split; auto.
  eapply N.le_trans; [eapply effort_bound; eauto|]. apply N.mul_le_mono_l. pose proof (where_cost _ _ M). unfold blen. lia.
Qed.
Print Assumptions C82_path.
Theorem C82_searches : forall E xml path l k, (forall k m, Permutation m (e_ord E k m)) -> path_means path (Steps l) -> depths l k ->
  exists r c, lget E xml path = Ok (r, c) /\ (c <= 102 ^ N.of_nat k * (2 * blen path) * (1 + brackets xml))%N.
Proof.
  intros E xml path l k P M D. destruct (effort_all _ l (le_n _)) as (n & k' & H1 & _ & _). destruct (C82_effort E xml path l n P M H1) as (r & c & H & B). exists r, c. split; auto.
  eapply N.le_trans; [exact B|]. apply N.mul_le_mono_r. eapply N.le_trans; [eapply effort_bound; eauto|]. apply N.mul_le_mono_l. pose proof (where_cost _ _ M). unfold blen. lia.
Qed.
Print Assumptions C82_searches.
(** Without `**` the count is at most the length of the path times the number of `<`, twice. *)
Theorem C82_linear : forall E xml path l, (forall k m, Permutation m (e_ord E k m)) -> path_means path (Steps l) -> quiet l ->
  exists r c, lget E xml path = Ok (r, c) /\ (c <= 2 * blen path * (1 + brackets xml))%N.
Proof.
  intros E xml path l P M Q. destruct (effort_all _ l (le_n _)) as (n & k & _ & H2 & H3). rewrite (H3 Q) in H2. destruct (C82_searches E xml path l 0 P M H2) as (r & c & H & B).
  exists r, c. split; auto. change (102 ^ N.of_nat 0)%N with 1%N in B. now rewrite N.mul_1_l in B.
Qed.
Print Assumptions C82_linear.

(** A catalogue with a condition, a wildcard and an attribute: 16 against a bound of 95. *)
Example C82_example : let path := bs "c.*.#(p>3)#.@k" in let xml := bs "<c><g><b k='1'><p>2</p></b><b k='2'><p>5</p></b></g><g><b k='3'><p>9</p></b></g></c>" in
  exists l r, path_means path (Steps l) /\ quiet l /\ depths l 0 /\ effort l 5%N /\ brackets xml = 18%N /\ lget env0 xml path = Ok (r, 16%N) /\ List.length (r_results r) = 2.
Proof.
  intros path xml. set (l := [(GName (bs "c"), []); (GAny, []); (GWhere true (bs "p") OpGt (bs "3"), []); (GAttr (bs "k"), [])] : list (gstep * list bytes)).
  assert (M : path_means (bs "p") (Steps [(GName (bs "p"), [])])) by (apply path_means_stored; [discriminate|vm_compute; reflexivity]).
  exists l, (r_array [r_attribute (bs "2"); r_attribute (bs "3")]). split; [apply path_means_stored; [discriminate|vm_compute; reflexivity]|]. split; [|split; [|split]].
  - apply quiet_steps.
    + intros ms H. repeat (destruct H as [H|H]; [discriminate|]). destruct H.
    + intros all p op v ms l' H M' _. repeat (destruct H as [H|H]; [try discriminate|]); [|destruct H]. injection H as <- <- <- <- <-.
      pose proof (path_means_unique _ _ _ M M') as U. injection U as <-. apply quiet_steps.
      * intros ms H. destruct H as [H|H]; [discriminate|destruct H].
      * intros all p op v ms l' H. destruct H as [H|H]; [discriminate|destruct H].
  - unfold l. apply dp_step; [discriminate|discriminate|]. apply dp_step; [discriminate|discriminate|].
    eapply (dp_where _ _ _ _ _ _ 0 _ 0); [exact M|discriminate| |]; (apply dp_step; [discriminate|discriminate|apply dp_none]).
  - unfold l. apply (eff_step _ _ _ 4); [discriminate|discriminate|]. apply (eff_step _ _ _ 3); [discriminate|discriminate|].
    eapply (eff_where _ _ _ _ _ _ 1 _ 1); [exact M|discriminate| |]; (apply (eff_step _ _ _ 0); [discriminate|discriminate|apply eff_none]).
  - split; [vm_compute; reflexivity|]. split; vm_compute; reflexivity.
Qed.
(** And with `**` in the path. *)
Example C82_searches_example : let path := bs "c.**.b.p" in let xml := bs "<c><g><b k='1'><p>2</p></b><b k='2'><p>5</p></b></g><g><b k='3'><p>9</p></b></g></c>" in
  exists l r c, path_means path (Steps l) /\ depths l 1 /\ lget env0 xml path = Ok (r, c) /\ (c <= 102 * 16 * 19)%N.
Proof.
  intros path xml. set (l := [(GName (bs "c"), []); (GDeep, []); (GName (bs "b"), []); (GName (bs "p"), [])] : list (gstep * list bytes)).
  assert (M : path_means path (Steps l)) by (apply path_means_stored; [discriminate|vm_compute; reflexivity]).
  assert (D : depths l 1).
  { unfold l. apply dp_step; [discriminate|discriminate|]. apply dp_deep. apply dp_step; [discriminate|discriminate|]. apply dp_step; [discriminate|discriminate|apply dp_none]. }
  destruct (C82_searches env0 xml path l 1 (fun _ m => Permutation_refl m) M D) as (r & c & H & B). exists l, r, c. auto.
Qed.
