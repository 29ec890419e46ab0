(** Set with any value whose text is a forest. *)
From Coq Require Import List Ascii String NArith ZArith Bool Lia Permutation.
From Verif Require Import GoStr ModelParser ModelPath ModelResult ModelQuery ModelValidate ModelBuilder SpecText SpecPath SpecTree SpecQuery SpecEdit
  ProofBase ProofEscape ProofPath ProofScan ProofSyntax ProofApi2 ProofTree ProofTree2 ProofTree3 ProofTree4 ProofTree5 ProofTree7 ProofEdit ProofEdit2 ProofEdit3 ProofEdit4 ProofEdit5 ProofEdit6 ProofEdit7.
Import ListNotations.

Definition child_of (m : bytes) (K : list node) : node := Elem m [] false K.
Lemma child_good : forall m K, xml_name m -> Forall good K -> good (child_of m K).
Proof. intros m K H GK. constructor; auto; [|discriminate]. constructor; cbn [map List.length]; try constructor. lia. Qed.

Section Kids.
  Variable E : env.
  Variable fmt_g : f64 -> bytes.
  Hypothesis Hord : forall k l, Permutation l (e_ord E k l).
  Variable p : bytes.
  Variable F : list node.
  Hypothesis Hp : prolog p.
  Hypothesis Hg : Forall good F.
  Let d := p ++ forest_text F.
  Hypothesis Hv : valid d = true.
  Let Hd : (blen d <= 10485760)%N := valid_size d Hv.
  Variable v : value.
  Variable K : list node.
  Hypothesis NV : v <> VNil.
  Hypothesis VX : value_to_xml fmt_g v = inr (forest_text K).
  Hypothesis SZ : (blen (forest_text K) <= 5242880)%N.

  Lemma set_kids_ok : forall steps A n a kids B, good_tpath steps TheElement -> located steps F A (Elem n a false kids) B ->
    set E fmt_g d (tpath steps TheElement) v = Ok (p ++ A ++ node_text (Elem n a false K) ++ B, None).
  Proof.
    intros steps A n a kids B GT L. unfold d. rewrite (set_found E fmt_g Hord p F Hp Hg Hd Hv steps A n a false kids B v (forest_text K)); auto.
    rewrite node_elem. now rewrite <- !app_assoc.
  Qed.
  Lemma create_kids_ok : forall pre m ms A n a self kids B, good_tpath (pre ++ by_name (m :: ms)) TheElement -> located pre F A (Elem n a self kids) B ->
    called (selects m) kids = [] -> exists a', Permutation a a' /\ (self = false -> a' = a) /\
    set E fmt_g d (tpath (pre ++ by_name (m :: ms)) TheElement) v = Ok (p ++ A ++ node_text (Elem n a' false (kids ++ nest (m :: ms) K)) ++ B, None).
  Proof.
    intros pre m ms A n a self kids B GT L C. pose proof GT as [GS _ _].
    destruct (create_below E Hord p F Hp Hg Hd Hv pre m ms [4] (forest_text K) A n a self kids B GS L C) as [a' [PA [SA CE]]]. exists a'. split; auto. split; auto. fold d in CE.
    assert (T : p ++ A ++ node_text (Elem n a' false (kids ++ nest (m :: ms) K)) ++ B =
      (p ++ A) ++ start_tag n a' false ++ forest_text kids ++ fold_right (fun n0 t => start_tag n0 [] false ++ t ++ end_tag n0) (forest_text K) (m :: ms) ++ end_tag n ++ B).
    { rewrite node_elem, forest_app, nest_text. now rewrite <- !app_assoc. }
    rewrite T. unfold d. rewrite (set_missing_start E fmt_g Hord p F Hp Hg Hd Hv _ v (forest_text K) GT); auto.
    - fold d. rewrite CE. cbn [bind edit_of]. now rewrite get_result_some by apply start_tag_nonempty.
    - intros A' nd' B'. cbn [by_name map]. eapply absent_below; eauto.
  Qed.
  Lemma create_top_kids_ok : forall m ms, good_tpath (by_name (m :: ms)) TheElement -> called (selects m) F = [] ->
    set E fmt_g d (tpath (by_name (m :: ms)) TheElement) v = Ok (p ++ forest_text (F ++ nest (m :: ms) K), None).
  Proof.
    intros m ms GT C. pose proof GT as [GS _ _]. pose proof (create_root E Hord p F Hp Hg Hd Hv m ms [4] (forest_text K) GS C) as CE. fold d in CE.
    unfold d. rewrite (set_missing_start E fmt_g Hord p F Hp Hg Hd Hv _ v (forest_text K) GT); auto.
    - fold d. rewrite CE. cbn [bind edit_of]. rewrite get_result_some.
      + unfold d. rewrite forest_app, nest_text. now rewrite <- !app_assoc.
      + destruct (doc_nonempty p F Hd Hv) as [c [r Q]]. fold d in Q. rewrite Q. discriminate.
    - intros A nd B. cbn [by_name map]. now apply absent_here.
  Qed.
  Lemma append_kids_ok : forall steps A n a kids B m, Forall good_tstep (steps ++ [(m, None)]) -> len (flat_map tstep_steps (steps ++ [(m, None)])) < 100 ->
    located steps F A (Elem n a false kids) B ->
    let new := p ++ A ++ node_text (Elem n a false (insert_last (selects m) (child_of m K) kids)) ++ B in
    (blen new <= 10485760)%N -> set E fmt_g d (tpath (steps ++ [(m, None)]) TheElement ++ bs ".-1") v = Ok (new, None).
  Proof.
    intros steps A n a kids B m GS LN L new SN.
    destruct (append_found E fmt_g Hord p F Hp Hg Hv steps A n a kids B m v (forest_text K) GS LN L) as [K1 [K2 [EK [IL S]]]]; auto.
    cbv zeta in S.
    assert (T : new = p ++ A ++ start_tag n a false ++ forest_text K1 ++ (start_tag m [] false ++ forest_text K ++ end_tag m) ++ forest_text K2 ++ end_tag n ++ B).
    { unfold new. rewrite IL, node_elem, forest_app, forest_cons. unfold child_of. rewrite node_elem. now rewrite <- !app_assoc. }
    rewrite <- T in S. fold d in S. rewrite S. now rewrite (proj2 (N.ltb_ge _ _) SN).
  Qed.
  Lemma append_self_kids_ok : forall steps A n a kids B m, Forall good_tstep (steps ++ [(m, None)]) -> len (flat_map tstep_steps (steps ++ [(m, None)])) < 100 ->
    located steps F A (Elem n a true kids) B ->
    exists a', Permutation a a' /\ set E fmt_g d (tpath (steps ++ [(m, None)]) TheElement ++ bs ".-1") v =
      Ok (p ++ A ++ node_text (Elem n a' false (insert_last (selects m) (child_of m K) kids)) ++ B, None).
  Proof.
    intros steps A n a kids B m GS LN L.
    destruct (append_self E fmt_g Hord p F Hp Hg Hv steps A n a kids B m v (forest_text K) GS LN L) as [a' [PA S]]; auto.
    exists a'. split; [now symmetry|]. fold d in S. rewrite S. destruct (located_good _ _ _ _ _ L Hg) as [GE _]. inversion GE as [? ? ? ? GN GA GSf GK| |]; subst n0 a0 self kids0.
    rewrite (GSf eq_refl). cbn [insert_last]. rewrite node_elem, forest_one. unfold child_of. rewrite node_elem. now rewrite <- !app_assoc.
  Qed.
  Lemma append_top_kids_ok : forall m, step_name m ->
    let F' := insert_last (selects m) (child_of m K) F in let new := p ++ forest_text F' in
    (blen new <= 10485760)%N -> set E fmt_g d (tpath [(m, None)] TheElement ++ bs ".-1") v = Ok (new, None).
  Proof.
    intros m SM F' new SN.
    destruct (append_top E fmt_g Hord p F Hp Hg Hv m v (forest_text K) SM) as [F1 [F2 [EF [IL S]]]]; auto.
    cbv zeta in S. assert (T : new = p ++ forest_text F1 ++ (start_tag m [] false ++ forest_text K ++ end_tag m) ++ forest_text F2).
    { unfold new, F'. rewrite IL, forest_app, forest_cons. unfold child_of. rewrite node_elem. now rewrite <- !app_assoc. }
    rewrite <- T in S. fold d in S. rewrite S. now rewrite (proj2 (N.ltb_ge _ _) SN).
  Qed.
End Kids.
