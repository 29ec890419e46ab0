(** Lemmas for C112. *)
From Coq Require Import List Ascii String NArith ZArith Bool Lia Permutation.
From Verif Require Import GoStr SpecText SpecPath SpecTree SpecQuery SpecEdit SpecHistory SpecTable SpecStore SpecBudget SpecFill SpecLayer SpecAgent SpecWeave
  ProofBase ProofStore ProofSync ProofAgent.
Import ListNotations.
Open Scope nat_scope.

Lemma then_map : forall A B (P : agent A) (f : A -> agent B) D, on_map (and_then P f) D = on_map (f (fst (on_map P D))) (snd (on_map P D)).
Proof. intros A B. induction P as [a|q next IH|o next IH]; intros f D; cbn [and_then on_map fst snd]; auto. Qed.
Lemma then_deeds : forall A B (P : agent A) (f : A -> agent B) D, deeds (and_then P f) D = deeds P D ++ deeds (f (fst (on_map P D))) (snd (on_map P D)).
Proof. intros A B. induction P as [a|q next IH|o next IH]; intros f D; cbn [and_then deeds on_map app]; auto. now rewrite IH. Qed.
Lemma then_keeps : forall A B K (P : agent A) (f : A -> agent B) D, keeps_to K P D -> keeps_to K (f (fst (on_map P D))) (snd (on_map P D)) -> keeps_to K (and_then P f) D.
Proof. intros A B K. induction P as [a|q next IH|o next IH]; intros f D H1 H2; cbn [and_then keeps_to on_map] in *; auto; [destruct H1 as (H0 & H3 & H1)|destruct H1 as (H0 & H1)]; auto. Qed.
Lemma keeps_more : forall A (K K' : list bytes -> Prop) (P : agent A) D, (forall k, K k -> K' k) -> keeps_to K P D -> keeps_to K' P D.
Proof. intros A K K' P D M. revert D. induction P as [a|q next IH|o next IH]; intros D H; cbn [keeps_to] in *; auto; [destruct H as (H0 & H3 & H1)|destruct H as (H0 & H1)]; auto. Qed.

(** Maps that are the same on the keys of a program. *)
Definition agrees (K : list bytes -> Prop) (D D' : store) : Prop := forall k, K k -> D k = D' k.
Lemma agrees_store : forall K o D D', agrees K D D' -> agrees K (do_store o D) (do_store o D').
Proof. intros K o D D' H k Kk. unfold do_store. now rewrite (H k Kk). Qed.
Lemma other_store : forall (K : list bytes -> Prop) (o : store_op) D D', (forall k, K k -> k <> key_of o) -> agrees K D D' -> agrees K (do_store o D) D'.
Proof. intros K o D D' N H k Kk. unfold do_store. destruct (same_key k (key_of o)) eqn:Q; [apply same_key_spec in Q; now destruct (N k Kk)|now apply H]. Qed.
Lemma agrees_value : forall (K : list bytes -> Prop) D D' q, agrees K D D' -> K (place_key q) -> value_at D q = value_at D' q.
Proof. intros K D D' q H Kq. unfold value_at. now rewrite (H _ Kq). Qed.
Lemma agent_agrees : forall A K (P : agent A) D D', agrees K D D' -> keeps_to K P D' ->
  fst (on_map P D) = fst (on_map P D') /\ deeds P D = deeds P D' /\ keeps_to K P D /\ agrees K (snd (on_map P D)) (snd (on_map P D')).
Proof.
  intros A K. induction P as [a|q next IH|o next IH]; intros D D' H KT; cbn [on_map deeds keeps_to fst snd] in *; [auto| |].
  - destruct KT as (Kq & Gq & KT). rewrite (agrees_value K D D' q H Kq). destruct (IH _ D D' H KT) as (I1 & I2 & I3 & I4). auto 10.
  - destruct KT as (Ko & KT). destruct (IH _ _ (agrees_store K o D D' H) KT) as (I1 & I2 & I3 & I4). rewrite I2. auto 10.
Qed.
Lemma agent_other : forall A (K : list bytes -> Prop) (P : agent A) D, keeps_to K P D -> forall k, ~ K k -> snd (on_map P D) k = D k.
Proof.
  intros A K. induction P as [a|q next IH|o next IH]; intros D KT k N; cbn [on_map keeps_to snd] in *; [auto|apply IH; tauto|]. destruct KT as (Ko & KT). rewrite (IH _ KT k N). unfold do_store.
  destruct (same_key k (key_of o)) eqn:Q; [apply same_key_spec in Q; subst; contradiction|reflexivity].
Qed.

Section Weave.
  Context {A B : Type}.
  Variables K1 K2 : list bytes -> Prop.
  Hypothesis K12 : forall k, K1 k -> K2 k -> False.
  Let K := fun k => K1 k \/ K2 k.
  Lemma weave_ok : forall turns (P : agent A) (Q : agent B) D D1 D2, agrees K1 D D1 -> agrees K2 D D2 -> keeps_to K1 P D1 -> keeps_to K2 Q D2 ->
    fst (on_map (weave turns P Q) D) = (fst (on_map P D1), fst (on_map Q D2)) /\
    agrees K1 (snd (on_map (weave turns P Q) D)) (snd (on_map P D1)) /\ agrees K2 (snd (on_map (weave turns P Q) D)) (snd (on_map Q D2)) /\
    keeps_to K (weave turns P Q) D /\ Permutation (deeds (weave turns P Q) D) (deeds P D1 ++ deeds Q D2).
  Proof.
    induction turns as [|[|] turns IH]; intros P Q D D1 D2 H1 H2 T1 T2; cbn [weave].
    - destruct (agent_agrees A K1 P D D1 H1 T1) as (I1 & I2 & I3 & I4).
      assert (H2' : agrees K2 (snd (on_map P D)) D2) by (intros k Kk; rewrite (agent_other A K1 P D I3 k) by (intros K1k; exact (K12 k K1k Kk)); now apply H2).
      destruct (agent_agrees B K2 Q _ D2 H2' T2) as (J1 & J2 & J3 & J4). rewrite !then_map, !then_deeds. cbn [on_map deeds fst snd]. rewrite I1, J1, I2, J2, app_nil_r.
      split; [reflexivity|]. split; [|split; [exact J4|split; [|apply Permutation_refl]]].
      + intros k Kk. rewrite (agent_other B K2 Q _ J3 k) by (intros K2k; exact (K12 k Kk K2k)). now apply I4.
      + apply then_keeps; [now apply (keeps_more A K1 K P); [left|]|]. apply then_keeps; [now apply (keeps_more B K2 K Q); [right|]|]. exact I.
    - destruct P as [a|q next|o next]; [now apply IH| |]; cbn [on_map deeds keeps_to fst snd] in *.
      + destruct T1 as (Kq & Gq & T1). rewrite (agrees_value K1 D D1 q H1 Kq). destruct (IH _ Q D D1 D2 H1 H2 T1 T2) as (J1 & J2 & J3 & J4 & J5). split; [exact J1|]. split; [exact J2|]. split; [exact J3|]. split; [|exact J5].
        split; [now left|]. split; [exact Gq|exact J4].
      + destruct T1 as (Ko & T1). assert (H2' : agrees K2 (do_store o D) D2) by (apply other_store; [intros k Kk ->; exact (K12 _ Ko Kk)|exact H2]).
        destruct (IH next Q _ _ D2 (agrees_store K1 o D D1 H1) H2' T1 T2) as (J1 & J2 & J3 & J4 & J5). split; [exact J1|]. split; [exact J2|]. split; [exact J3|]. split; [split; [now left|exact J4]|].
        cbn [app]. now constructor.
    - destruct Q as [b|q next|o next]; [now apply IH| |]; cbn [on_map deeds keeps_to fst snd] in *.
      + destruct T2 as (Kq & Gq & T2). rewrite (agrees_value K2 D D2 q H2 Kq). destruct (IH P _ D D1 D2 H1 H2 T1 T2) as (J1 & J2 & J3 & J4 & J5). split; [exact J1|]. split; [exact J2|]. split; [exact J3|]. split; [|exact J5].
        split; [now right|]. split; [exact Gq|exact J4].
      + destruct T2 as (Ko & T2). assert (H1' : agrees K1 (do_store o D) D1) by (apply other_store; [intros k Kk ->; exact (K12 _ Kk Ko)|exact H1]).
        destruct (IH P next _ D1 _ H1' (agrees_store K2 o D D2 H2) T1 T2) as (J1 & J2 & J3 & J4 & J5). split; [exact J1|]. split; [exact J2|]. split; [exact J3|]. split; [split; [now right|exact J4]|].
        now apply Permutation_cons_app.
  Qed.
End Weave.
Lemma marks_perm : forall a b, Permutation a b -> marks a = marks b.
Proof.
  intros a b P. unfold marks. apply Permutation_length. apply NoDup_Permutation; try apply NoDup_nodup. intros x. rewrite !nodup_In. unfold mark_names. rewrite !in_flat_map.
  split; intros (o & I & J); exists o; (split; [|exact J]); [eapply Permutation_in; eauto|eapply Permutation_in; [apply Permutation_sym|]; eauto].
Qed.
Lemma spend_perm : forall a b, Permutation a b -> spend_all a = spend_all b.
Proof. unfold spend_all. induction 1 as [|x a b _ IH|x y a|a b c _ IH1 _ IH2]; cbn [map list_sum fold_right] in *; unfold list_sum in *; cbn [fold_right] in *; lia. Qed.
