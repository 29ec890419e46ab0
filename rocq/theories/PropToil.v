(** C83: the work of an edit grows linearly with the document. *)
From Coq Require Import List Ascii String NArith ZArith Bool Lia SpecFloat Permutation.
From Verif Require Import GoStr ModelParser ModelPath ModelResult ModelQuery ModelValidate ModelBuilder ModelWork ModelLoad ModelToil SpecText SpecPath SpecTree SpecGrammar SpecWork
  ProofBase ProofFuel ProofGrammar2 ProofWork ProofWork2 ProofLoad ProofToil.
Import ListNotations.
Open Scope nat_scope.

(** [tset_opts] and [tdelete_opts] do what SetWithOptions and DeleteBytesWithOptions do, and count
    on the way: every pass over a text counts 1 and the elements found in it. *)
Theorem C83_count : forall E fmt_g o xml path v r,
  (set_opts E fmt_g o xml path v = Ok r <-> exists c, tset_opts E fmt_g o xml path v = Ok (r, c)) /\
  (delete_opts E o xml path = Ok r <-> exists c, tdelete_opts E o xml path = Ok (r, c)).
Proof.
  assert (X : forall A (m : W A) r, erase m = Ok r <-> exists c, m = Ok (r, c)).
  { intros A m r. unfold erase. rewrite bind_ok. split.
    - intros ([r' c] & H & Q). cbn [fst] in Q. injection Q as ->. eauto.
    - intros [c H]. exists (r, c). auto. }
  intros E g o xml path v r. rewrite <- terase_set, <- terase_delete. split; apply X.
Qed.
Print Assumptions C83_count.

Lemma steps_opts : forall o path l segs, path_means path (Steps l) -> parse_path_opts o path = Ok segs -> List.length segs = List.length l /\ (mass segs <= brackets path)%N /\ List.length segs <= 100.
Proof.
  intros o path l segs M H. apply opts_brackets in H as (segs' & H & L & B & C). rewrite (path_means_res _ _ M) in H. cbn [meaning_res] in H. injection H as <-. rewrite map_length in L. auto.
Qed.
Lemma toil_edit : forall k xml m, within k m -> within k (tedit_of xml m).
Proof. intros k xml m H. unfold tedit_of. apply within_then; auto. intros x. apply free_ret. Qed.
Lemma toil_delete : forall E o xml path n, (forall k m, Permutation m (e_ord E k m)) -> (forall segs, parse_path_opts o path = Ok segs -> (N.of_nat (List.length segs) <= n)%N) ->
  within (n + brackets xml) (tdelete_opts E o xml path).
Proof.
  intros E o xml path n P L. unfold tdelete_opts. destruct (_ <? _)%N; [apply within_ret|]. destruct (negb _); [apply within_ret|]. apply within_after; [apply free_lift|]. intros segs c H.
  apply wlift_ok in H as [H _]. apply L in H. destruct segs as [|sg segs]; [apply within_ret|]. apply toil_edit. eapply within_le; [apply (delete_toil E P)|]. cbn [List.length] in *. lia.
Qed.
Lemma toil_set : forall E fmt_g o xml path v n, (forall k m, Permutation m (e_ord E k m)) -> brackets (o_indent o) = 0%N -> (forall segs, parse_path_opts o path = Ok segs -> (N.of_nat (List.length segs) <= n)%N) ->
  within ((n + 6) * (n + brackets xml) + 2 * brackets path) (tset_opts E fmt_g o xml path v).
Proof.
  intros E g o xml path v n P I L.
  assert (D : within ((n + 6) * (n + brackets xml) + 2 * brackets path) (tdelete_opts E o xml path)) by (eapply within_le; [apply toil_delete; eauto|]; nia).
  unfold tset_opts. destruct (_ <? _)%N; [apply within_ret|]. destruct (match xml with [] => false | _ :: _ => _ end); [apply within_ret|].
  destruct v; try exact D; (apply within_after; [apply free_lift|]; intros segs c H; apply wlift_ok in H as [H _]; pose proof (L _ H) as LS; apply opts_brackets in H as (_ & _ & _ & B & _);
    destruct segs as [|sg segs]; [apply within_ret|]; apply toil_edit; eapply within_le; [apply (set_toil E P o I)|]; remember (sg :: segs) as l;
    apply N.add_le_mono; [apply N.mul_le_mono; lia|lia]).
Qed.

(** An edit of n steps: a removal counts at most n and the number of `<` in the document; a
    change at most n + 6 times that, and the `<` in the path. *)
Theorem C83_delete : forall E o xml path l r, (forall k m, Permutation m (e_ord E k m)) -> path_means path (Steps l) -> delete_opts E o xml path = Ok r ->
  exists c, tdelete_opts E o xml path = Ok (r, c) /\ (c <= N.of_nat (List.length l) + brackets xml)%N.
Proof.
  intros E o xml path l r P M H. apply (proj2 (C83_count E (fun _ => []) o xml path VNil r)) in H as [c H]. exists c. split; auto.
  eapply toil_delete; [exact P| |exact H]. intros segs Q. apply (steps_opts _ _ _ _ M) in Q. lia.
Qed.
Print Assumptions C83_delete.
Theorem C83_set : forall E fmt_g o xml path v l r, (forall k m, Permutation m (e_ord E k m)) -> path_means path (Steps l) -> brackets (o_indent o) = 0%N -> set_opts E fmt_g o xml path v = Ok r ->
  exists c, tset_opts E fmt_g o xml path v = Ok (r, c) /\ (c <= (N.of_nat (List.length l) + 6) * (N.of_nat (List.length l) + brackets xml) + 2 * brackets path)%N.
Proof.
  intros E g o xml path v l r P M I H. apply (proj1 (C83_count E g o xml path v r)) in H as [c H]. exists c. split; auto.
  eapply toil_set; [exact P|exact I| |exact H]. intros segs Q. apply (steps_opts _ _ _ _ M) in Q. lia.
Qed.
Print Assumptions C83_set.
(** Whatever the path, the count is linear in the document: no path has more than 100 steps. *)
Theorem C83_linear : forall E fmt_g o xml path v r, (forall k m, Permutation m (e_ord E k m)) -> brackets (o_indent o) = 0%N -> set_opts E fmt_g o xml path v = Ok r ->
  exists c, tset_opts E fmt_g o xml path v = Ok (r, c) /\ (c <= 106 * (100 + brackets xml) + 2 * brackets path)%N.
Proof.
  intros E g o xml path v r P I H. apply (proj1 (C83_count E g o xml path v r)) in H as [c H]. exists c. split; auto.
  eapply (toil_set E g o xml path v 100); [exact P|exact I| |exact H]. intros segs Q. apply opts_brackets in Q as (_ & _ & _ & _ & Q). lia.
Qed.
Print Assumptions C83_linear.

(** An attribute of an element that does not exist yet: 20 against a bound of 120. *)
Example C83_example : let path := bs "r.a.x.@k" in let xml := bs "<r><a><b/></a><a><c/></a></r>" in
  exists l r, path_means path (Steps l) /\ List.length l = 4 /\ brackets xml = 8%N /\ brackets (o_indent default_options) = 0%N /\
  set_opts env0 (fun _ => []) default_options xml path (VStr (bs "1")) = Ok (r, None) /\ tset_opts env0 (fun _ => []) default_options xml path (VStr (bs "1")) = Ok ((r, None), 20%N).
Proof.
  intros path xml. exists [(GName (bs "r"), []); (GName (bs "a"), []); (GName (bs "x"), []); (GAttr (bs "k"), [])], (bs "<r><a><b/><x k=""1""></x></a><a><c/></a></r>").
  split; [apply path_means_stored; [discriminate|vm_compute; reflexivity]|]. repeat (apply conj; [vm_compute; exact eq_refl|]). vm_compute; exact eq_refl.
Qed.
Example C83_delete_example : let path := bs "r.a.1.c" in let xml := bs "<r><a><b/></a><a><c/></a></r>" in
  exists l r, path_means path (Steps l) /\ delete_opts env0 default_options xml path = Ok (r, None) /\ tdelete_opts env0 default_options xml path = Ok ((r, None), 7%N).
Proof.
  intros path xml. exists [(GName (bs "r"), []); (GName (bs "a"), []); (GNth 1, []); (GName (bs "c"), [])], (bs "<r><a><b/></a><a></a></r>").
  split; [apply path_means_stored; [discriminate|vm_compute; reflexivity]|]. apply conj; vm_compute; exact eq_refl.
Qed.
