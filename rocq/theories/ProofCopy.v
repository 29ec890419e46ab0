(** Copying the content of an element. *)
From Coq Require Import List Ascii String NArith ZArith Bool Lia Permutation.
From Verif Require Import GoStr ModelParser ModelPath ModelResult ModelQuery ModelValidate ModelBuilder SpecText SpecPath SpecTree SpecQuery SpecEdit SpecContent SpecValid SpecHistory SpecOptions SpecRaw SpecTail
  ProofBase ProofPath ProofScan ProofSyntax ProofTree ProofTree2 ProofTree3 ProofTree4 ProofTree5 ProofTree7 ProofMono ProofFuel ProofEdit ProofEdit2 ProofRaw2 ProofTail.
Import ListNotations.

Lemma located_leads : forall steps F A nd B, located steps F A nd B -> Forall good F -> forall nd' tail, good nd' -> is_elem nd' = true -> name_of nd' = name_of nd ->
  leads steps (A ++ node_text nd' ++ tail) nd'.
Proof.
  intros steps F A nd B H. induction H as [n idx F1 nd F2 H1 H2|n idx rest F1 m a kids F2 A nd B H1 H2 H IH]; intros G nd' tail G' EL NM; apply Forall_app in G; destruct G as [G1 G2]; inversion G2 as [|? ? G3 G4]; subst.
  - constructor; auto. destruct nd as [x ? ? ?| |]; try discriminate. destruct nd' as [y ? ? ?| |]; try discriminate. cbn [name_of named] in *. now subst.
  - inversion G3; subst. rewrite <- !app_assoc. constructor; auto.
Qed.
Lemma inside_kids : forall rest fin nd nd', kids_of nd = kids_of nd' -> (rest = [] -> forall x, fin <> TheAttribute x) -> inside rest fin nd = inside rest fin nd'.
Proof.
  intros rest fin nd nd' K H. destruct rest as [|s rest]; cbn [inside]; [|now rewrite K]. destruct fin; cbn [final_answer]; rewrite ?K; auto. exfalso. eapply H; reflexivity.
Qed.
Section Copy.
  Variable E : env.
  Hypothesis Hord : forall k l, Permutation l (e_ord E k l).
  Lemma get_leads_same : forall p steps s nd nd0 rest fin, leads steps s nd -> same nd0 nd -> good nd0 -> prolog p -> good_tpath (steps ++ rest) fin -> Forall early steps -> inside rest fin nd0 <> Nothing ->
    match steps with (_, Some _) :: _ => False | _ => True end -> (blen (p ++ s) <= 10485760)%N ->
    exists r, get E (p ++ s) (tpath (steps ++ rest) fin) = Ok r /\ denotes (inside rest fin nd0) r.
  Proof.
    intros p steps s nd nd0 rest fin H SM GD Hp HP EY NN ST HS. pose proof (segs_parse _ _ HP) as P.
    assert (NE : segs_of (steps ++ rest) fin <> []).
    { intros K. unfold segs_of in K. apply map_eq_nil in K. destruct HP as [_ Hf _]. unfold tpath_steps in K.
      apply app_eq_nil in K. destruct K as [K1 K2]. destruct (steps ++ rest) as [|[n [ds|]] l]; try discriminate.
      destruct fin; cbn [good_final] in Hf; try discriminate; tauto. }
    rewrite (get_exec E (p ++ s) _ _ (S (Nat.max (cost (segs_of (steps ++ rest) fin)) (len (segs_of (steps ++ rest) fin)))) HS P NE) by lia.
    destruct HP as [H1 H2 _]. eapply (exec_leads E Hord steps s nd H); eauto using skippable_prolog. lia.
  Qed.
End Copy.
