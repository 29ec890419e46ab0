(** Lemmas for C111_language. *)
From Coq Require Import List Ascii String NArith ZArith Bool Lia Permutation.
From Verif Require Import GoStr ModelParser ModelPath ModelResult ModelQuery ModelValidate ModelBuilder SpecText SpecPath SpecTree SpecQuery SpecEdit SpecContent SpecValid SpecHistory SpecFilter SpecLang SpecLaid SpecInquiry
  ProofBase ProofEscape ProofTree ProofTree3 ProofTree4 ProofTree5 ProofEdit ProofEdit2 ProofEdit5 ProofEdit8 ProofEdit9 ProofEdit10 ProofEdit11 ProofLang ProofLang2 ProofLang3 ProofLang4 ProofNotation ProofNotation2 ProofLaid ProofLaid6.
Import ListNotations.
Open Scope nat_scope.

Lemma item_text_fun : forall i s1 s2, item_text i s1 -> item_text i s2 -> s1 = s2.
Proof. intros [kids|v|kids|n] s1 s2 H1 H2; cbn [item_text] in *; [eapply decodes_fun; eauto|congruence|eapply decodes_fun; eauto|congruence]. Qed.
Lemma items_text_fun : forall l s1, Forall2 item_text l s1 -> forall s2, Forall2 item_text l s2 -> s1 = s2.
Proof. induction 1 as [|k s l ss D _ IH]; intros s2 H; inversion H; subst; [reflexivity|]. f_equal; [eapply item_text_fun; eauto|now apply IH]. Qed.
Lemma finds_fun : forall a n m, finds a n -> finds a m -> n = m.
Proof. intros a n m H1 H2. destruct H1; inversion H2; subst; try reflexivity; f_equal; [eapply item_text_fun; eauto|eapply items_text_fun; eauto]. Qed.
Lemma item_text_some : forall i, exists s, item_text i s.
Proof. intros [kids|v|kids|n]; cbn [item_text]; eexists; try reflexivity; apply unescape_decodes. Qed.
Lemma finds_some : forall a, exists n, finds a n.
Proof.
  intros [|i|l].
  - eexists; constructor.
  - destruct (item_text_some i) as [s H]. eexists. constructor. exact H.
  - assert (X : exists ss, Forall2 item_text l ss) by (induction l as [|i l [ss IH]]; [eexists; constructor|]; destruct (item_text_some i) as [s H]; exists (s :: ss); now constructor).
    destruct X as [ss X]. eexists. constructor. exact X.
Qed.
Lemma item_says : forall i r, item_is i r -> item_text i (r_string r) /\ r_type r <> RNull /\ r_type r <> RArray.
Proof.
  intros [kids|v|kids|n] r H; cbn [item_is describes item_text] in *.
  - destruct H as (T & D & _). rewrite T. split; [exact D|split; discriminate].
  - destruct H as (T & D). rewrite T. split; [exact D|split; discriminate].
  - destruct H as (T & D). rewrite T. split; [exact D|split; discriminate].
  - destruct H as ((T & _) & D). rewrite T. split; [exact D|split; discriminate].
Qed.
Lemma says_finds : forall r a, says r a -> finds a (findings_of r).
Proof.
  intros r a S. unfold findings_of. destruct a as [|i|l]; cbn [says] in S.
  - rewrite S. constructor.
  - destruct (item_says i r S) as (T & N & M). destruct (r_type r); try contradiction; now constructor.
  - destruct S as [-> S]. constructor. clear - S. induction S as [|i x l rs H _ IH]; cbn [map]; constructor; [now apply item_says|exact IH].
Qed.

Section Inquiry.
  Variable E : env.
  Variable fmt_g : f64 -> bytes.
  Hypothesis Hord : forall k l, Permutation l (e_ord E k l).
  Variable sat : condition -> node -> bool.
  Hypothesis Hsat : forall c nd, good nd -> (sat c nd = true <-> true_of (e_parse_float E) c nd).
  Variable p : bytes.
  Hypothesis Hp : prolog p.
  Hypothesis SP : strict_prolog p.
  Variable s : nat.
  Lemma inquiry_ok : forall A (P : inquirer A) F a F', worked sat (spacious p s) P F a F' ->
    forall G x, Forall good F -> Forall top_node F -> shallow F -> spacious p s F -> Forall2 same F G -> laid_all true s G x ->
    exists G' y, works E fmt_g P (p ++ x) = Ok (Some a, p ++ y) /\ Forall2 same F' G' /\ laid_all true s G' y /\ Forall good F' /\ Forall top_node F' /\ shallow F' /\ spacious p s F'.
  Proof.
    intros A P F a F' H. induction H as [a F|steps e next F n a F' GQ EL TE H IH|o next F F1 a F' LG AP OK H IH]; intros G x HG HT HS HE S L; cbn [works].
    - exists G, x. auto 10.
    - pose proof (same_good_all F G S HG) as GG.
      assert (V : valid (p ++ x) = true) by (apply (laid_valid p G x s); auto; [eapply same_top; eauto|eapply same_shallow; eauto|eapply same_spacious; eauto]).
      assert (R : exists r, get E (p ++ x) (query_text steps e) = Ok r /\ says r (ask sat e true steps F)).
      { eapply get_ask; eauto.
        - intros f ->. apply (gq_end _ _ GQ).
        - split; [|split; auto]. apply (reads_same E F G); auto. apply reads_written; auto. eapply all_written; eauto.
        - now apply valid_size. }
      destruct R as (r & R1 & D). rewrite R1. cbn [bind]. rewrite (finds_fun _ _ _ (says_finds _ _ D) TE). now apply (IH G x).
    - assert (LH : laid_history p s [o] F F1) by (econstructor; eauto; constructor).
      destruct (laid_history_ok E fmt_g Hord p s [o] F F1 Hp SP LH G x HG HT HS HE S L) as (G1 & y & C & S1 & L1 & G1' & T1 & SH1 & E1).
      assert (CC : call E fmt_g o (p ++ x) = Ok (p ++ y, None)) by (cbn [calls] in C; destruct (call E fmt_g o (p ++ x)) as [[d [er|]]| |]; try discriminate C; exact C).
      rewrite CC. cbn [bind]. now apply (IH G1 y).
  Qed.
End Inquiry.
