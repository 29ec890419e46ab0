(** C66: what is recognised as an element in any text. *)
From Coq Require Import List Ascii String NArith ZArith Bool Lia SpecFloat Permutation.
From Verif Require Import GoStr ModelParser ModelPath ModelResult ModelQuery ModelBuilder ModelQueryOpts SpecText SpecPath SpecTree SpecScan
  ProofBase ProofScan ProofFuel ProofSight ProofSight2 ProofSight3.
Import ListNotations.
Notation get := ModelQuery.get.

(** Every text, well-formed or not, has a list of elements, and reading it from left to
    right yields such a list whatever the order of attributes. *)
Theorem C66_seen : forall E key s, (forall k m, Permutation m (e_ord E k m)) ->
  exists l, scan (e_ord E) key s = Some l /\ sees s l.
Proof.
  intros E key s P. destruct (scan_total (e_ord E) key s) as [l H]. exists l. split; [exact H|].
  apply (scan_sees E key s l P). unfold scan_res. now rewrite H.
Qed.
Print Assumptions C66_seen.
(** The list is unique except for the order of attributes. *)
Theorem C66_one_sight : forall s l l', sees s l -> sees s l' -> Forall2 same_elem l l'.
Proof. intros s l l' H. exact (sees_det s l H l'). Qed.
Print Assumptions C66_one_sight.
(** The wildcard returns the contents of these elements, at most 1000 of them. *)
Theorem C66_children : forall E xml r, (forall k m, Permutation m (e_ord E k m)) -> (blen xml <= 10485760)%N ->
  get E xml (bs "*") = Ok r ->
  exists l, sees xml l /\
    match l with
    | [] => r_type r = RNull
    | [e] => r_type r = RElement /\ r_raw r = e_content e
    | _ => r_type r = RArray /\ map r_type (r_results r) = map (fun _ => RElement) (firstn 1000 l) /\
           map r_raw (r_results r) = map e_content (firstn 1000 l)
    end.
Proof.
  intros E xml r P B H. unfold get in H. replace (MaxDocumentSize <? blen xml)%N with false in H by (symmetry; apply N.ltb_ge; exact B).
  change (parse_path (bs "*")) with (Ok [mkSeg SWild [] 0 false None false [] []]) in H.
  cbn [bind] in H. change (query_fuel (bs "*")) with 4%nat in H. cbn [exec] in H. unfold exec_body in H.
  destruct (scan_res E [] xml) as [l| |] eqn:S; cbn [bind] in H; try discriminate. cbn [s_type s_wild] in H.
  exists l. split; [exact (scan_sees _ _ _ _ P S)|].
  assert (K : exists n, MaxWildcardResults = Datatypes.S (Datatypes.S n)) by (exists 998%nat; reflexivity).
  change 1000%nat with MaxWildcardResults. revert H. generalize dependent MaxWildcardResults. intros c [n ->] H.
  destruct l as [|e [|e' l]].
  - cbn [firstn] in H. injection H as <-. reflexivity.
  - cbn [firstn handle_wildcard bind map package apply_modifiers s_mods] in H. injection H as <-. split; reflexivity.
  - cbn [firstn handle_wildcard bind map package apply_modifiers s_mods] in H. injection H as <-.
    cbn. split; [reflexivity|]. rewrite !map_map. split; reflexivity.
Qed.
Print Assumptions C66_children.

(** A comment without content, an end tag without start, a value without quotes, a
    repeated attribute and an end tag that is missing. *)
Example C66_example : exists l, sees (bs "<!--></x><a k=1 k='2'/ ><b>t<c></b>") l /\
  map (fun e => (e_name e, e_attrs e, e_self e, e_content e)) l =
    [(bs "a", [(bs "k", bs "2")], true, []); (bs "b", [], false, bs "t<c>")].
Proof.
  destruct (C66_seen env0 [] (bs "<!--></x><a k=1 k='2'/ ><b>t<c></b>")) as [l [H S]]; [reflexivity|].
  exists l. split; [exact S|]. vm_compute in H. injection H as <-. reflexivity.
Qed.
