(** Proofs for SpecNumber: queries with conditions, sorting, Float. *)
From Coq Require Import List Ascii String NArith ZArith QArith Qabs Lqa Lia Bool Permutation SpecFloat.
From Verif Require Import GoStr ModelParser ModelPath ModelResult ModelQuery SpecPath SpecMod SpecTree SpecQuery SpecFilter SpecLang ProofMod3 SpecNumber
  ProofFilter ProofNumber ProofNumber2 ProofNumber3.
Import ListNotations.

Lemma numeral_det : forall s v w, numeral s v -> numeral s w -> v = w.
Proof. intros s v w H K. apply read_numeral_complete in H, K. congruence. Qed.
Lemma sublist_equiv : forall (P P' : node -> Prop) l l', (forall x, In x l -> (P x <-> P' x)) -> sublist_by P l l' -> sublist_by P' l l'.
Proof.
  intros P P' l l' H S1. induction S1 as [|x l l' Px S1 IH|x l l' Px S1 IH]; [constructor| |].
  - apply sub_keep; [now apply H; [left|]|]. apply IH. intros y Y. apply H. now right.
  - apply sub_drop; [intros K; apply Px; now apply H; [left|]|]. apply IH. intros y Y. apply H. now right.
Qed.
Lemma ordered_value : forall pf op o lit, strict op \/ weak op -> holds pf op o lit -> exists s, o = Some s.
Proof. intros pf op o lit O H. destruct H; eauto. Qed.
Lemma true_of_values : forall pf c nd w k, rounds pf -> strict (c_op c) \/ weak (c_op c) -> numeral (c_lit c) w -> short k w ->
  (forall s, about (c_about c) nd (Some s) -> exists v, numeral s v /\ short k v) ->
  (true_of pf c nd <-> exists s v, about (c_about c) nd (Some s) /\ numeral s v /\ relation (c_op c) v w).
Proof.
  intros pf c nd w k R O Hw Sw A. split.
  - intros [o [Ab H]]. destruct (ordered_value _ _ _ _ O H) as [s ->]. destruct (A s Ab) as [v [Hv Sv]].
    exists s, v. split; [exact Ab|]. split; [exact Hv|]. now apply (ordered_short pf R (c_op c) s (c_lit c) v w k).
  - intros [s [v [Ab [Hv Rel]]]]. destruct (A s Ab) as [v' [Hv' Sv]]. rewrite <- (numeral_det _ _ _ Hv Hv') in Sv.
    exists (Some s). split; [exact Ab|]. now apply (ordered_short pf R (c_op c) s (c_lit c) v w k).
Qed.

(** ** Float and @sort *)
Lemma textual_string : forall r, textual r -> r_string r = r_str r.
Proof. intros r [T|[T|T]]; unfold r_string; destruct r; cbn in *; subst; reflexivity. Qed.
Lemma textual_float : forall E r, textual r -> r_float E r = match e_parse_float E (r_string r) with Some f => f | None => f64_zero end.
Proof. intros E r T. rewrite (textual_string r T). unfold r_float. destruct T as [T|[T|T]]; rewrite T; reflexivity. Qed.
Lemma float_nearest : forall E r v, rounds (e_parse_float E) -> textual r -> numeral (r_string r) v ->
  (representable v -> nearest v (r_float E r)) /\ (~ representable v -> r_float E r = S754_zero false).
Proof.
  intros E r v R T H. rewrite (textual_float E r T). split; intros I.
  - destruct (rounds_in _ R _ _ H I) as [f [-> N]]. exact N.
  - now rewrite (rounds_out _ R _ _ H I).
Qed.
Lemma ascending_pair : forall {A} (lt : A -> A -> bool) l1 a l2 b l3, ascending lt (l1 ++ a :: l2 ++ b :: l3) -> lt b a = false.
Proof.
  intros A lt l1 a l2 b l3. induction l1 as [|x l1 IH]; cbn [app ascending]; intros [F H].
  - rewrite Forall_forall in F. apply F, in_or_app. right. now left.
  - now apply IH.
Qed.
Lemma sort_values : forall E r k, rounds (e_parse_float E) -> sorts (e_sort E) -> r_type r = RArray ->
  Forall (fun x => textual x /\ exists v, numeral (r_string x) v /\ short k v) (r_results r) ->
  r_type (mod_sort E r) = RArray /\ Permutation (r_results r) (r_results (mod_sort E r)) /\
  forall l1 a l2 b l3 v w, r_results (mod_sort E r) = l1 ++ a :: l2 ++ b :: l3 -> numeral (r_string a) v -> numeral (r_string b) w -> (v <= w)%Q.
Proof.
  intros E r k R St T F. destruct (sort_spec E r St T) as [l [T1 [T2 [P [N _]]]]].
  split; [exact T1|]. split; [now rewrite T2|]. intros l1 a l2 b l3 v w D Hv Hw.
  assert (forall x, In x (r_results r) -> textual x /\ exists v f, numeral (r_string x) v /\ short k v /\ e_parse_float E (r_string x) = Some f /\ r_float E x = f /\ nearest v f) as X.
  { intros x I. rewrite Forall_forall in F. destruct (F x I) as [Tx [vx [Hx Sx]]]. split; [exact Tx|]. destruct (rounds_in _ R _ _ Hx (short_representable _ _ Sx)) as [f [Pf Nf]].
    exists vx, f. split; [exact Hx|]. split; [exact Sx|]. split; [exact Pf|]. split; [|exact Nf]. rewrite (textual_float E x Tx), Pf. reflexivity. }
  assert (Forall (numeric E) (r_results r)) as N1.
  { apply Forall_forall. intros x I. destruct (X x I) as [Tx [vx [f [_ [_ [Pf _]]]]]]. right. split; [exact Tx|]. rewrite <- (textual_string x Tx), Pf. discriminate. }
  assert (Forall (fun x => no_nan (r_float E x)) (r_results r)) as N2.
  { apply Forall_forall. intros x I. destruct (X x I) as [Tx [vx [f [_ [_ [_ [-> [[Fin _] _]]]]]]]]. destruct f; cbn in Fin |- *; auto. }
  specialize (N N1 N2). rewrite T2 in D. rewrite D in N. apply ascending_pair in N.
  assert (In a (r_results r)) as Ia by (apply (Permutation_in _ (Permutation_sym P)); rewrite D; apply in_or_app; right; now left).
  assert (In b (r_results r)) as Ib by (apply (Permutation_in _ (Permutation_sym P)); rewrite D; apply in_or_app; right; right; apply in_or_app; right; now left).
  destruct (X a Ia) as [_ [va [f [Hva [Sa [_ [Fa Na]]]]]]]. destruct (X b Ib) as [_ [vb [g [Hvb [Sb [_ [Fb Nb]]]]]]].
  rewrite (numeral_det _ _ _ Hv Hva), (numeral_det _ _ _ Hw Hvb) in *. rewrite Fa, Fb in N.
  destruct (Qlt_le_dec vb va) as [L|L]; [exfalso|exact L].
  pose proof (separated_lt vb va g f Nb Na (short_separated k vb va Sb Sa L)) as K.
  apply (lt_value g f) in K; [|apply Nb|apply Na]. unfold SFltb in N. unfold num_lt in K. rewrite K in N. discriminate.
Qed.
