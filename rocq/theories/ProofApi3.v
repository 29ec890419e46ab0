(** The batch lemmas in terms of the specification vocabulary. *)
From Coq Require Import List Ascii String NArith ZArith Bool Lia.
From Verif Require Import GoStr ModelParser ModelPath ModelResult ModelQuery ModelValidate ModelBuilder
  SpecApi ProofBase ProofApi.
Import ListNotations.

Lemma set_seq_chain : forall E g l d d', set_seq E g d l d' <->
  chain (fun a (op : bytes * value) b => set E g a (fst op) (snd op) = Ok (b, None)) d l d'.
Proof.
  intros E g l. induction l as [|[p v] l IH]; intros d d'; split; intros H; inversion H; subst; try constructor.
  - econstructor; [exact H5|]. now apply IH.
  - econstructor; [exact H3|]. now apply IH.
Qed.
Lemma delete_seq_chain : forall E l d d', delete_seq E d l d' <->
  chain (fun a p b => delete E a p = Ok (b, None)) d l d'.
Proof.
  intros E l. induction l as [|p l IH]; intros d d'; split; intros H; inversion H; subst; try constructor;
    (econstructor; [eassumption|now apply IH]).
Qed.
Lemma firsts_fun : forall l d1 d2, firsts l d1 -> firsts l d2 -> d1 = d2.
Proof.
  intros l. induction l as [|p l IH] using rev_ind; intros d1 d2 H1 H2.
  - inversion H1; subst; auto; try (destruct l; discriminate). inversion H2; subst; auto; destruct l; discriminate.
  - inversion H1; subst; try (destruct l; discriminate);
    match goal with H : _ ++ [_] = _ ++ [_] |- _ => apply app_inj_tail in H; destruct H as [-> ->] end;
    inversion H2; subst; try (destruct l; discriminate);
    match goal with H : _ ++ [_] = _ ++ [_] |- _ => apply app_inj_tail in H; destruct H as [-> ->] end; try contradiction; auto.
    f_equal. auto.
Qed.
Lemma dedupe_firsts : forall l, firsts l (dedupe [] l).
Proof.
  induction l as [|p l IH] using rev_ind; [constructor|]. rewrite dedupe_snoc. cbn [app].
  destruct (in_dec bytes_eq_dec p l); [rewrite app_nil_r; now apply firsts_old|now apply firsts_new].
Qed.
Lemma firsts_spec : forall l d, firsts l d -> NoDup d /\ forall p, In p d <-> In p l.
Proof.
  intros l d H. induction H as [|l d p H [N I] Hp|l d p H [N I] Hp].
  - split; [constructor|tauto].
  - split; auto. intros q. rewrite in_app_iff, I. cbn. intuition congruence.
  - split.
    + clear -N Hp I. assert (~ In p d) by (intro K; apply Hp, I, K). clear I Hp.
      induction d as [|x d IH]; cbn; [repeat constructor; auto|]. inversion N; subst.
      constructor; [|apply IH; auto]. 
      * rewrite in_app_iff. cbn. intros [K|[K|[]]]; [auto|]. subst. apply H. now left.
      * intros K. apply H. now right.
    + intros q. rewrite !in_app_iff, I. tauto.
Qed.
