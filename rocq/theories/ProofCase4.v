(** Case-insensitive queries: the spelling of the query has no influence. *)
From Coq Require Import List Ascii String NArith ZArith Bool Lia Permutation.
From Verif Require Import GoStr ModelParser ModelPath ModelResult ModelQuery ModelBuilder ModelQueryOpts SpecText SpecPath SpecTree SpecQuery SpecValid SpecEdit SpecContent SpecFilter SpecLang SpecCase
  ProofBase ProofPath ProofTree4 ProofLang ProofLang2 ProofLang3 ProofLang4 ProofCase ProofCase2 ProofCase3.
Import ListNotations.

Lemma leaf_spelled : forall e e' nd, spelled_end e e' -> leaf_ci e nd = leaf_ci e' nd.
Proof.
  intros e e' nd H. destruct H as [e|x x' H|n n' H|x x' H]; auto; cbn [leaf_ci]; unfold fields_ci, attribute_ci; cbn [flat_map fields_of_ci]; unfold attribute_ci; rewrite H; reflexivity.
Qed.
Lemma fields_spelled : forall f f' l, spelled_end (EField f) (EField f') -> fields_ci f l = fields_ci f' l.
Proof.
  intros f f' l H. unfold fields_ci. f_equal. f_equal. apply flat_map_ext2. intros nd. inversion H; subst; auto; cbn [fields_of_ci]; unfold attribute_ci.
  - match goal with K : folded _ = folded _ |- _ => now rewrite K end.
  - match goal with K : folded _ = folded _ |- _ => now rewrite K end.
Qed.
Lemma end_view : forall e e', spelled_end e e' ->
  (exists x x', e = EAttr x /\ e' = EAttr x') \/ (exists f f', e = EField f /\ e' = EField f') \/ (e = e' /\ (e = EElement \/ e = EText \/ e = ECount)).
Proof. intros e e' H. destruct H as [[| | | |]| | |]; eauto 8. Qed.
Lemma called_ext : forall f g F, (forall n, f n = g n) -> called f F = called g F.
Proof. intros f g F H. unfold called. induction F as [|[n a self kids|t|b] F IH]; auto; cbn [filter]; rewrite ?H, IH; auto. Qed.
Lemma alike_spelled : forall n n' F, folded n = folded n' -> called (alike n) F = called (alike n') F.
Proof. intros n n' F H. apply called_ext. intros m. unfold alike. now rewrite H. Qed.
Lemma first_reply_ext : forall f g l, (forall x, f x = g x) -> first_reply f l = first_reply g l.
Proof. intros f g l H. induction l as [|x l IH]; auto. cbn [first_reply]. now rewrite H, IH. Qed.
Lemma ask_spelled : forall sat e e', spelled_end e e' -> forall steps steps', Forall2 spelled_step steps steps' ->
  forall F, ask_ci sat e steps F = ask_ci sat e' steps' F.
Proof.
  intros sat e e' He steps steps' H. induction H as [|s s' rest rest' H1 H2 IH]; intros F; auto. rewrite !ask_ci_cons.
  assert (G : forall nd, go_ci sat e rest nd = go_ci sat e' rest' nd).
  { intros nd. unfold go_ci. destruct H2; [now apply leaf_spelled|]. apply IH. }
  assert (RN : rest = [] <-> rest' = []) by (destruct H2; split; intros; auto; discriminate).
  assert (C : forall all l, chosen_ci sat e rest all l = chosen_ci sat e' rest' all l).
  { intros all [|nd l]; auto. unfold chosen_ci. destruct all; [|apply G].
    rewrite (flat_map_ext2 _ _ (fun nd => items (go_ci sat e rest nd)) (fun nd => items (go_ci sat e' rest' nd))) by (intros; now rewrite G).
    destruct H2; auto. destruct (end_view _ _ He) as [(x & x' & -> & ->)|[(f & f' & -> & ->)|[<- [->|[->| ->]]]]]; auto using fields_spelled. }
  assert (A : forall nd, adds_ci sat e rest nd = adds_ci sat e' rest' nd).
  { intros nd. unfold adds_ci. rewrite G. destruct H2; auto. destruct (end_view _ _ He) as [(x & x' & -> & ->)|[(f & f' & -> & ->)|[<- [->|[->| ->]]]]]; auto. }
  destruct H1 as [n n' w H1| |c all|n n' H1|].
  - cbv zeta. rewrite (alike_spelled n n') by auto. destruct w as [|ds|c all]; auto.
    + rewrite (first_reply_ext (go_ci sat e rest) (go_ci sat e' rest')) by auto.
      assert (X : match called (alike n') F with [] => NoReply | nd :: _ => go_ci sat e rest nd end = match called (alike n') F with [] => NoReply | nd :: _ => go_ci sat e' rest' nd end)
        by (destruct (called (alike n') F); auto).
      destruct H2; auto. rewrite X. clear X G C A IH. destruct (end_view _ _ He) as [(x & x' & -> & ->)|[(f & f' & -> & ->)|[<- [->|[->| ->]]]]]; auto using fields_spelled.
    + destruct (nth_error _ _); auto.
  - f_equal. apply flat_map_ext2. intros nd. now rewrite G.
  - apply C.
  - rewrite (alike_spelled n n') by auto. f_equal. f_equal. apply map_ext. exact A.
  - f_equal. f_equal. apply map_ext. exact A.
Qed.
