(** Lemmas for C112 with any number of programs. *)
From Coq Require Import List Ascii String NArith ZArith Bool Lia Permutation.
From Verif Require Import GoStr SpecText SpecPath SpecTree SpecQuery SpecEdit SpecHistory SpecTable SpecStore SpecBudget SpecFill SpecLayer SpecAgent SpecWeave SpecCrowd
  ProofBase ProofStore ProofSync ProofAgent ProofWeave.
Import ListNotations.
Open Scope nat_scope.

Lemma became_same : forall A i (P Q : A) Ps, nth_error Ps i = Some Q -> nth_error (became i P Ps) i = Some P.
Proof. intros A. unfold became. induction i as [|i IH]; intros P Q [|R Ps] H; try discriminate; [reflexivity|]. cbn [firstn skipn app nth_error] in *. exact (IH P Q Ps H). Qed.
Lemma became_other : forall A i j (P Q : A) Ps, nth_error Ps i = Some Q -> i <> j -> nth_error (became i P Ps) j = nth_error Ps j.
Proof.
  intros A. unfold became. induction i as [|i IH]; intros j P Q [|R Ps] H N; try discriminate; destruct j as [|j]; try reflexivity; [now elim N|]. cbn [firstn skipn app nth_error] in *. exact (IH j P Q Ps H ltac:(congruence)).
Qed.
Lemma became_length : forall A i (P Q : A) Ps, nth_error Ps i = Some Q -> List.length (became i P Ps) = List.length Ps.
Proof. intros A. unfold became. induction i as [|i IH]; intros P Q [|R Ps] H; try discriminate; [reflexivity|]. cbn [firstn skipn app nth_error List.length] in *. f_equal. exact (IH P Q Ps H). Qed.

(** What the programs do, each on a map of its own. *)
Fixpoint all_deeds {A} (Ps : list (agent A)) (Ds : nat -> store) : list store_op :=
  match Ps with
  | [] => []
  | P :: Ps' => deeds P (Ds 0) ++ all_deeds Ps' (fun i => Ds (S i))
  end.
Lemma all_deeds_ext : forall A (Ps : list (agent A)) Ds Ds', (forall i, i < List.length Ps -> Ds i = Ds' i) -> all_deeds Ps Ds = all_deeds Ps Ds'.
Proof. intros A. induction Ps as [|P Ps IH]; intros Ds Ds' H; [reflexivity|]. cbn [all_deeds List.length] in *. rewrite (H 0) by lia. f_equal. apply IH. intros i L. apply H. lia. Qed.
Definition new_map (i : nat) (D : store) (Ds : nat -> store) : nat -> store := fun j => if Nat.eqb i j then D else Ds j.
Lemma all_deeds_step : forall A i (P Q : agent A) Ps Ds D' o, nth_error Ps i = Some Q -> deeds Q (Ds i) = o ++ deeds P D' ->
  Permutation (all_deeds Ps Ds) (o ++ all_deeds (became i P Ps) (new_map i D' Ds)).
Proof.
  intros A. unfold became. induction i as [|i IH]; intros P Q [|R Ps] Ds D' o H E; try discriminate; cbn [nth_error firstn skipn app all_deeds] in *.
  - injection H as ->. rewrite E, <- app_assoc. cbn [new_map Nat.eqb]. apply Permutation_app_head, Permutation_app_head. apply Permutation_refl.
  - specialize (IH P Q Ps (fun j => Ds (S j)) D' o H E). cbn [new_map Nat.eqb]. change (fun j => new_map (S i) D' Ds (S j)) with (new_map i D' (fun j => Ds (S j))).
    eapply Permutation_trans; [apply Permutation_app_head; exact IH|]. rewrite !app_assoc. apply Permutation_app_tail. apply Permutation_app_comm.
Qed.

Section Crowd.
  Context {A : Type}.
  Lemma in_order_ok : forall (Ps : list (agent A)) (J : nat -> list bytes -> Prop) Ds D, (forall i j k, J i k -> J j k -> i = j) ->
    (forall i P, nth_error Ps i = Some P -> agrees (J i) D (Ds i) /\ keeps_to (J i) P (Ds i)) ->
    List.length (fst (on_map (in_order Ps) D)) = List.length Ps /\
    (forall i P, nth_error Ps i = Some P -> nth_error (fst (on_map (in_order Ps) D)) i = Some (fst (on_map P (Ds i))) /\ agrees (J i) (snd (on_map (in_order Ps) D)) (snd (on_map P (Ds i)))) /\
    keeps_to (fun k => exists i, i < List.length Ps /\ J i k) (in_order Ps) D /\ deeds (in_order Ps) D = all_deeds Ps Ds.
  Proof.
    induction Ps as [|P Ps IH]; intros J Ds D DJ H; [split; [reflexivity|]; split; [intros [|i] P' Q; discriminate|]; split; [exact I|reflexivity]|].
    destruct (H 0 P eq_refl) as [H1 T1]. destruct (agent_agrees A (J 0) P D (Ds 0) H1 T1) as (I1 & I2 & I3 & I4). set (D1 := snd (on_map P D)) in *.
    assert (HS : forall i P', nth_error Ps i = Some P' -> agrees (J (S i)) D1 (Ds (S i)) /\ keeps_to (J (S i)) P' (Ds (S i))).
    { intros i P' Q. destruct (H (S i) P' Q) as [X Y]. split; [|exact Y]. intros k Kk. unfold D1. rewrite (agent_other A (J 0) P D I3 k) by (intros K0; discriminate (DJ _ _ _ K0 Kk)). now apply X. }
    destruct (IH (fun i => J (S i)) (fun i => Ds (S i)) D1) as (J1 & J2 & J3 & J4); [intros i j k X Y; pose proof (DJ _ _ _ X Y); congruence|exact HS|].
    cbn [in_order]. rewrite !then_map, !then_deeds. fold D1. rewrite ?then_map, ?then_deeds. fold D1. cbn [on_map deeds fst snd List.length all_deeds]. rewrite I1, I2, J1, J4, app_nil_r.
    split; [reflexivity|]. split; [|split; [|reflexivity]].
    - intros [|i] P' Q; cbn [nth_error] in *; [|now apply J2]. injection Q as <-. split; [reflexivity|]. intros k K0. rewrite (agent_other _ _ _ _ J3 k) by (intros (i & _ & Ki); discriminate (DJ _ _ _ K0 Ki)). now apply I4.
    - apply then_keeps; [apply (keeps_more A (J 0)); [intros k K0; exists 0; split; [lia|exact K0]|exact I3]|]. fold D1. apply then_keeps; [|exact I]. eapply keeps_more; [|exact J3]. intros k (i & L & Ki). exists (S i). split; [lia|exact Ki].
  Qed.
  Lemma interleave_ok : forall turns (Ps : list (agent A)) (J : nat -> list bytes -> Prop) Ds D, (forall i j k, J i k -> J j k -> i = j) ->
    (forall i P, nth_error Ps i = Some P -> agrees (J i) D (Ds i) /\ keeps_to (J i) P (Ds i)) ->
    List.length (fst (on_map (interleave turns Ps) D)) = List.length Ps /\
    (forall i P, nth_error Ps i = Some P -> nth_error (fst (on_map (interleave turns Ps) D)) i = Some (fst (on_map P (Ds i))) /\ agrees (J i) (snd (on_map (interleave turns Ps) D)) (snd (on_map P (Ds i)))) /\
    keeps_to (fun k => exists i, i < List.length Ps /\ J i k) (interleave turns Ps) D /\ Permutation (all_deeds Ps Ds) (deeds (interleave turns Ps) D).
  Proof.
    induction turns as [|t turns IH]; intros Ps J Ds D DJ H; cbn [interleave].
    - destruct (in_order_ok Ps J Ds D DJ H) as (X1 & X2 & X3 & X4). rewrite X4. split; [exact X1|]. split; [exact X2|]. split; [exact X3|apply Permutation_refl].
    - destruct (nth_error Ps t) as [[a|q next|o next]|] eqn:NT; [now apply IH| | |now apply IH].
      + destruct (H t _ NT) as [HA HT]. cbn [keeps_to] in HT. destruct HT as (Kq & Gq & HT). cbn [on_map deeds keeps_to]. rewrite (agrees_value (J t) D (Ds t) q HA Kq).
        set (P1 := next (value_at (Ds t) q)) in *.
        assert (H' : forall i P, nth_error (became t P1 Ps) i = Some P -> agrees (J i) D (Ds i) /\ keeps_to (J i) P (Ds i)).
        { intros i P Q. destruct (Nat.eq_dec t i) as [<-|N]; [rewrite (became_same _ _ _ _ _ NT) in Q; injection Q as <-; now split|]. rewrite (became_other _ _ _ _ _ _ NT N) in Q. now apply H. }
        destruct (IH (became t P1 Ps) J Ds D DJ H') as (X1 & X2 & X3 & X4). rewrite (became_length _ _ _ _ _ NT) in *. split; [exact X1|]. split; [|split].
        * intros i P Q. destruct (Nat.eq_dec t i) as [<-|N]; [rewrite NT in Q; injection Q as <-; cbn [on_map]; apply X2; exact (became_same _ _ _ _ _ NT)|]. apply X2. now rewrite (became_other _ _ _ _ _ _ NT N).
        * split; [exists t; split; [apply nth_error_Some; congruence|exact Kq]|]. split; [exact Gq|exact X3].
        * eapply Permutation_trans; [|exact X4]. pose proof (all_deeds_step A t P1 _ Ps Ds (Ds t) [] NT eq_refl) as Y. cbn [app] in Y. eapply Permutation_trans; [exact Y|].
          rewrite (all_deeds_ext A _ (new_map t (Ds t) Ds) Ds); [apply Permutation_refl|]. intros i _. unfold new_map. destruct (Nat.eqb t i) eqn:Q; [apply Nat.eqb_eq in Q; now subst|reflexivity].
      + destruct (H t _ NT) as [HA HT]. cbn [keeps_to] in HT. destruct HT as (Ko & HT). cbn [on_map deeds keeps_to].
        set (Ds' := new_map t (do_store o (Ds t)) Ds).
        assert (Dt : Ds' t = do_store o (Ds t)) by (unfold Ds', new_map; now rewrite Nat.eqb_refl). assert (Dn : forall i, t <> i -> Ds' i = Ds i) by (intros i N; unfold Ds', new_map; apply Nat.eqb_neq in N; now rewrite N).
        assert (H' : forall i P, nth_error (became t next Ps) i = Some P -> agrees (J i) (do_store o D) (Ds' i) /\ keeps_to (J i) P (Ds' i)).
        { intros i P Q. destruct (Nat.eq_dec t i) as [<-|N]; [rewrite (became_same _ _ _ _ _ NT) in Q; injection Q as <-; rewrite Dt; split; [now apply agrees_store|exact HT]|].
          rewrite (became_other _ _ _ _ _ _ NT N) in Q. rewrite (Dn i N). destruct (H i P Q) as [Y1 Y2]. split; [|exact Y2]. apply other_store; [intros k Ki ->; exact (N (DJ _ _ _ Ko Ki))|exact Y1]. }
        destruct (IH (became t next Ps) J Ds' (do_store o D) DJ H') as (X1 & X2 & X3 & X4). rewrite (became_length _ _ _ _ _ NT) in *. split; [exact X1|]. split; [|split].
        * intros i P Q. destruct (Nat.eq_dec t i) as [<-|N]; [rewrite NT in Q; injection Q as <-; cbn [on_map]; rewrite <- Dt; apply X2; exact (became_same _ _ _ _ _ NT)|]. rewrite <- (Dn i N). apply X2. now rewrite (became_other _ _ _ _ _ _ NT N).
        * split; [exists t; split; [apply nth_error_Some; congruence|exact Ko]|exact X3].
        * eapply Permutation_trans; [exact (all_deeds_step A t next _ Ps Ds (do_store o (Ds t)) [o] NT eq_refl)|]. cbn [app]. apply perm_skip. exact X4.
  Qed.
End Crowd.
