(** Proofs for C75: names that no call touches keep their modifiers. *)
From Coq Require Import List Ascii String NArith ZArith Bool Lia.
From Verif Require Import GoStr ModelParser ModelPath ModelResult ModelQuery ModelBuilder ModelQueryOpts ModelConc ModelRace SpecRace
  ProofBase ProofConc ProofRace ProofRace2 ProofRace3 ProofName ProofName2.
Import ListNotations.

Section Names.
  Variable M : Type.
  Variable n : bytes.
  Definition clear (p : kpc M) : Prop :=
    match p with
    | KLock _ c => ~ touches n c
    | KCheck _ k _ | KPut _ k _ | KNames _ k | KDel _ k => k <> n
    | _ => True
    end.
  Lemma clear_enter : forall c, ~ touches n c -> clear (k_enter M c).
  Proof. intros [[|a k] m|k|k] H; cbn in *; auto. Qed.
  Definition still (g : option (option M)) (sys : ksys M) : Prop :=
    map_get n (k_reg M sys) = g /\ forall i p, nth_error (k_gos M sys) i = Some p -> clear p.
  Lemma still_put : forall g sys i p r l, still g sys -> map_get n r = map_get n (k_reg M sys) -> clear p ->
    still g (mkK M r l (set_nth i p (k_gos M sys))).
  Proof.
    intros g sys i p r l [A B] R C. split; cbn [k_reg k_gos]; [congruence|]. intros j q Nj. apply set_get in Nj. destruct Nj as [[<- ->]|[_ Nj]]; eauto.
  Qed.
  Lemma still_act : forall g sys a, k_ok M sys -> still g sys -> (forall i c, a = KACall M i c -> ~ touches n c) -> still g (fst (k_act M sys a)).
  Proof.
    intros g sys a KO I H. destruct a as [i c|i]; cbn [k_act].
    - destruct (nth_error (k_gos M sys) i) as [p|] eqn:N; [|exact I]. destruct p; try exact I. cbn [fst].
      apply still_put; auto. apply clear_enter. eauto.
    - destruct (nth_error (k_gos M sys) i) as [p|] eqn:N; [|exact I]. pose proof (proj2 I _ _ N) as C.
      destruct p as [|c|k m|k m|k|k|r|k|k|r|r]; cbn [k_step clear] in *; try exact I;
        repeat match goal with |- context [match ?x with _ => _ end] => 
          match x with lock _ => destruct x | rlock _ => destruct x | is_builtin_name _ => destruct x | map_get _ (k_reg M sys) => destruct x end end;
        cbn [fst]; try exact I; try (apply still_put; cbn [clear]; auto; fail).
      + apply still_put; auto. destruct c; cbn in *; auto.
      + apply still_put; cbn [clear]; auto. rewrite map_get_set. destruct (bytes_eqb n k) eqn:E; auto. apply bytes_eqb_eq in E. congruence.
      + apply still_put; cbn [clear]; auto. rewrite map_get_del; [|eapply ko_nodup; eauto]. destruct (bytes_eqb n k) eqn:E; auto. apply bytes_eqb_eq in E. congruence.
  Qed.
  Lemma k_run_cons : forall l sys, (fst (k_run M sys l)) = fold_left (fun s a => fst (k_act M s a)) l sys.
  Proof.
    intros l sys. unfold k_run. 
    assert (Q : forall l st, fst (fold_left (fun st a => let '(s, t) := k_act M (fst st) a in (s, snd st ++ t)) l st) = fold_left (fun s a => fst (k_act M s a)) l (fst st)).
    { induction l0 as [|a l0 IH]; intros st; auto. cbn [fold_left]. rewrite IH. destruct (k_act M (fst st) a). reflexivity. }
    apply Q.
  Qed.
  Lemma still_run : forall l sys, k_ok M sys -> (forall i p, nth_error (k_gos M sys) i = Some p -> p = KIdle M) ->
    (forall i c, In (KACall M i c) l -> ~ touches n c) -> map_get n (k_reg M (fst (k_run M sys l))) = map_get n (k_reg M sys).
  Proof.
    intros l sys KO Id H. rewrite k_run_cons.
    assert (I : still (map_get n (k_reg M sys)) sys).
    { split; auto. intros i p N. rewrite (Id i p N). exact Logic.I. }
    clear Id. revert I. generalize (map_get n (k_reg M sys)) as g. revert sys KO H.
    induction l as [|a l IH]; intros sys KO H g I; [exact (proj1 I)|]. cbn [fold_left].
    apply IH; [now apply k_ok_act|intros i c K; apply (H i c); now right|].
    apply still_act; auto. intros i c ->. apply (H i c). now left.
  Qed.
End Names.
