(** Lemmas for C111. *)
From Coq Require Import List Ascii String NArith ZArith Bool Lia Permutation.
From Verif Require Import GoStr ModelParser ModelPath ModelResult ModelQuery ModelValidate ModelBuilder SpecText SpecPath SpecTree SpecQuery SpecEdit SpecContent SpecValid SpecHistory SpecLaid SpecActor
  ProofBase ProofEscape ProofTree ProofTree3 ProofTree4 ProofTree5 ProofEdit ProofEdit2 ProofEdit5 ProofEdit8 ProofEdit9 ProofEdit10 ProofEdit11 ProofNotation ProofNotation2 ProofLaid ProofLaid6 PropHistory PropLaid.
Import ListNotations.
Open Scope nat_scope.

Lemma texts_fun : forall l s1, Forall2 text_of l s1 -> forall s2, Forall2 text_of l s2 -> s1 = s2.
Proof. induction 1 as [|k s l ss D _ IH]; intros s2 H; inversion H; subst; [reflexivity|]. f_equal; [eapply decodes_fun; eauto|now apply IH]. Qed.
Lemma tells_fun : forall a n m, tells a n -> tells a m -> n = m.
Proof. intros a n m H1 H2. destruct H1; inversion H2; subst; try reflexivity; f_equal; [eapply decodes_fun; eauto|eapply decodes_fun; eauto|eapply texts_fun; eauto]. Qed.
Lemma tells_some : forall a, exists n, tells a n.
Proof.
  intros [|kids|v|kids|n|l].
  - eexists; constructor.
  - eexists. constructor. unfold text_of. apply unescape_decodes.
  - eexists; constructor.
  - eexists. constructor. apply unescape_decodes.
  - eexists; constructor.
  - exists (Many (map (fun k => unescape_xml (trim_space (all_text k))) l)). constructor. induction l as [|k l IH]; cbn [map]; constructor; [apply unescape_decodes|exact IH].
Qed.
Lemma describes_tells : forall r a, describes r a -> tells a (news_of r).
Proof.
  intros r a D. destruct a as [|kids|v|kids|n|l]; cbn [describes] in D; unfold news_of.
  - rewrite D. constructor.
  - destruct D as (-> & D & _). now constructor.
  - destruct D as (-> & ->). constructor.
  - destruct D as (-> & D). now constructor.
  - destruct D as (-> & _ & _ & D). rewrite D. constructor.
  - destruct D as (-> & D). constructor. clear - D. induction D as [|k x l rs (_ & D & _) _ IH]; cbn [map]; constructor; [exact D|exact IH].
Qed.

Section Actor.
  Variable E : env.
  Variable fmt_g : f64 -> bytes.
  Hypothesis Hord : forall k l, Permutation l (e_ord E k l).
  Variable p : bytes.
  Hypothesis Hp : prolog p.
  Hypothesis SP : strict_prolog p.
  Variable s : nat.
  Lemma actor_ok : forall A (P : actor A) F a F', played (spacious p s) P F a F' ->
    forall G x, Forall good F -> Forall top_node F -> shallow F -> spacious p s F -> Forall2 same F G -> laid_all true s G x ->
    exists G' y, plays E fmt_g P (p ++ x) = Ok (Some a, p ++ y) /\ Forall2 same F' G' /\ laid_all true s G' y /\ Forall good F' /\ Forall top_node F' /\ shallow F' /\ spacious p s F'.
  Proof.
    intros A P F a F' H. induction H as [a F|steps fin next F n a F' GT TE H IH|o next F F1 a F' LG AP OK H IH]; intros G x HG HT HS HE S L; cbn [plays].
    - exists G, x. auto 10.
    - pose proof (same_good_all F G S HG) as GG.
      assert (V : valid (p ++ x) = true) by (apply (laid_valid p G x s); auto; [eapply same_top; eauto|eapply same_shallow; eauto|eapply same_spacious; eauto]).
      destruct (get_query E Hord (p ++ x) F steps fin) as [r [R1 R2]]; auto.
      { apply (reads_same E F G); auto. apply reads_written; auto. eapply all_written; eauto. }
      { now apply valid_size. }
      assert (D : describes r (query true steps fin F)) by (apply denotes_describes; auto; now apply query_good).
      rewrite R1. cbn [bind]. rewrite (tells_fun _ _ _ (describes_tells _ _ D) TE). now apply (IH G x).
    - assert (LH : laid_history p s [o] F F1) by (econstructor; eauto; constructor).
      destruct (laid_history_ok E fmt_g Hord p s [o] F F1 Hp SP LH G x HG HT HS HE S L) as (G1 & y & C & S1 & L1 & G1' & T1 & SH1 & E1).
      assert (CC : call E fmt_g o (p ++ x) = Ok (p ++ y, None)) by (cbn [calls] in C; destruct (call E fmt_g o (p ++ x)) as [[d [e|]]| |]; try discriminate C; exact C).
      rewrite CC. cbn [bind]. now apply (IH G1 y).
  Qed.
End Actor.
