(** Proofs for SpecNumber: binary64 numbers and their order. *)
From Coq Require Import List Ascii String NArith ZArith QArith Qabs Lqa Lia Bool SpecFloat.
From Verif Require Import GoStr ModelPath SpecPath SpecFilter SpecNumber.
Import ListNotations.
Open Scope Z_scope.

Lemma digits_log2 : forall m, Zpos (digits2_pos m) = Z.log2 (Zpos m) + 1.
Proof.
  induction m as [m IH|m IH|]; cbn [digits2_pos].
  - rewrite Pos2Z.inj_succ, IH, Pos2Z.inj_xI, Z.log2_succ_double by lia. lia.
  - rewrite Pos2Z.inj_succ, IH, Pos2Z.inj_xO, Z.log2_double by lia. lia.
  - reflexivity.
Qed.
(** A finite number has 53 digits, or fewer at the lowest exponent. *)
Definition canonical (m : positive) (e : Z) : Prop :=
  -1074 <= e <= 971 /\ Zpos m < 2 ^ 53 /\ (e = -1074 \/ 2 ^ 52 <= Zpos m).
Lemma valid_canonical : forall s m e, valid_binary 53 1024 (S754_finite s m e) = true <-> canonical m e.
Proof.
  intros s m e. unfold valid_binary, bounded, canonical_mantissa, fexp, emin, canonical. rewrite digits_log2, andb_true_iff, Z.leb_le, <- Zeq_is_eq_bool.
  pose proof (Z.log2_spec (Zpos m) ltac:(lia)) as [L1 L2]. pose proof (Z.log2_nonneg (Zpos m)) as L0.
  set (l := Z.log2 (Zpos m)) in *. split.
  - intros [H1 H2]. assert (l <= 52) as L by lia.
    assert (2 ^ Z.succ l <= 2 ^ 53) as P by (apply Z.pow_le_mono_r; lia).
    split; [lia|]. split; [lia|]. destruct (Z.eq_dec l 52) as [Q|N]; [right; rewrite <- Q; lia|left; lia].
  - intros [[E1 E2] [M D]]. assert (l <= 52) as L by (destruct (Z_le_gt_dec l 52) as [?|G]; [lia|]; assert (2 ^ 53 <= 2 ^ l) by (apply Z.pow_le_mono_r; lia); lia).
    split; [|lia]. destruct D as [D|D]; [lia|]. destruct (Z_le_gt_dec 52 l) as [?|G]; [lia|].
    assert (2 ^ Z.succ l <= 2 ^ 52) by (apply Z.pow_le_mono_r; lia). lia.
Qed.
Lemma canonical_lt : forall m1 e1 m2 e2, canonical m1 e1 -> canonical m2 e2 -> e1 < e2 ->
  Zpos m1 * 2 ^ (e1 + 1074) < Zpos m2 * 2 ^ (e2 + 1074).
Proof.
  intros m1 e1 m2 e2 [[A1 A2] [A3 _]] [[B1 B2] [_ B4]] L. destruct B4 as [B4|B4]; [lia|].
  assert (0 < 2 ^ (e1 + 1074)) as P by (apply Z.pow_pos_nonneg; lia).
  assert (2 * 2 ^ (e1 + 1074) <= 2 ^ (e2 + 1074)) as P2.
  { replace (2 * 2 ^ (e1 + 1074)) with (2 ^ (e1 + 1074 + 1)) by (rewrite Z.pow_add_r by lia; change (2 ^ 1) with 2; lia). apply Z.pow_le_mono_r; lia. }
  change (2 ^ 53) with (2 * 2 ^ 52) in A3. generalize dependent (2 ^ (e1 + 1074)). generalize dependent (2 ^ (e2 + 1074)). intros y x P P2.
  apply Z.lt_le_trans with (2 * 2 ^ 52 * x); [apply Z.mul_lt_mono_pos_r; lia|].
  apply Z.le_trans with (2 ^ 52 * y); [nia|]. apply Z.mul_le_mono_nonneg_r; lia.
Qed.
Lemma canonical_cmp : forall m1 e1 m2 e2, canonical m1 e1 -> canonical m2 e2 ->
  (Zpos m1 * 2 ^ (e1 + 1074) ?= Zpos m2 * 2 ^ (e2 + 1074)) = match e1 ?= e2 with Eq => Pos.compare_cont Eq m1 m2 | c => c end.
Proof.
  intros m1 e1 m2 e2 C1 C2. destruct (Z.compare_spec e1 e2) as [E|L|L].
  - subst e2. assert (0 < 2 ^ (e1 + 1074)) as P by (destruct C1; apply Z.pow_pos_nonneg; lia).
    rewrite <- Zmult_compare_compat_r by lia. reflexivity.
  - apply Z.compare_lt_iff. now apply canonical_lt.
  - apply Z.compare_gt_iff. now apply canonical_lt.
Qed.
Lemma canonical_pos : forall m e, canonical m e -> 0 < Zpos m * 2 ^ (e + 1074).
Proof. intros m e [[? ?] _]. apply Z.mul_pos_pos; [lia|]. apply Z.pow_pos_nonneg; lia. Qed.
(** The order of binary64 numbers is that of their values. *)
Lemma compare_units : forall f g, binary64 f -> binary64 g -> SFcompare f g = Some (units f ?= units g).
Proof.
  intros f g [F Vf] [G Vg]. destruct f as [sf|sf| |sf mf ef]; try destruct F; destruct g as [sg|sg| |sg mg eg]; try destruct G;
    repeat match goal with H : valid_binary _ _ (S754_finite _ _ _) = true |- _ => apply valid_canonical in H end; unfold units.
  - reflexivity.
  - pose proof (canonical_pos _ _ Vg). cbn [SFcompare]. destruct sg; cbn [signed]; f_equal; symmetry; [apply Z.compare_gt_iff|apply Z.compare_lt_iff]; lia.
  - pose proof (canonical_pos _ _ Vf). cbn [SFcompare]. destruct sf; cbn [signed]; f_equal; symmetry; [apply Z.compare_lt_iff|apply Z.compare_gt_iff]; lia.
  - pose proof (canonical_pos _ _ Vf) as Pf. pose proof (canonical_pos _ _ Vg) as Pg. pose proof (canonical_cmp _ _ _ _ Vf Vg) as C. cbn [SFcompare].
    destruct sf, sg; cbn [signed]; f_equal.
    + rewrite Z.compare_opp, (Z.compare_antisym (Zpos mf * 2 ^ (ef + 1074)) (Zpos mg * 2 ^ (eg + 1074))), C. destruct (ef ?= eg); reflexivity.
    + symmetry; apply Z.compare_lt_iff; lia.
    + symmetry; apply Z.compare_gt_iff; lia.
    + rewrite C. destruct (ef ?= eg); reflexivity.
Qed.

(** ** Values *)
Lemma value_le : forall f g, (float_value f <= float_value g)%Q <-> units f <= units g.
Proof. intros f g. unfold Qle, float_value; cbn [Qnum Qden]. split; intros H; [apply Z.mul_le_mono_pos_r in H; [exact H|lia]|apply Z.mul_le_mono_nonneg_r; lia]. Qed.
Lemma value_eq : forall f g, (float_value f == float_value g)%Q <-> units f = units g.
Proof. intros f g. unfold Qeq, float_value; cbn [Qnum Qden]. split; intros H; [apply Z.mul_cancel_r in H; [exact H|lia]|now rewrite H]. Qed.
Lemma value_lt : forall f g, (float_value f < float_value g)%Q <-> units f < units g.
Proof. intros f g. unfold Qlt, float_value; cbn [Qnum Qden]. split; intros H; [apply Z.mul_lt_mono_pos_r in H; [exact H|lia]|apply Z.mul_lt_mono_pos_r; lia]. Qed.

Lemma abs_split : forall x : Q, ((0 <= x)%Q /\ Qabs x == x)%Q \/ ((x <= 0)%Q /\ Qabs x == - x)%Q.
Proof. intros x. destruct (Qlt_le_dec x 0) as [L|L]; [right|left]; split; auto using Qlt_le_weak; [apply Qabs_neg|apply Qabs_pos]; auto using Qlt_le_weak. Qed.
Lemma half_way : forall v F G : Q, (Qabs (v - F) <= Qabs (v - G))%Q -> (G < F)%Q -> (F + G <= v + v)%Q.
Proof. intros v F G H L. destruct (abs_split (v - F)) as [[A1 A2]|[A1 A2]], (abs_split (v - G)) as [[B1 B2]|[B1 B2]]; lra. Qed.
Lemma half_way' : forall v F G : Q, (Qabs (v - F) <= Qabs (v - G))%Q -> (F < G)%Q -> (v + v <= F + G)%Q.
Proof. intros v F G H L. destruct (abs_split (v - F)) as [[A1 A2]|[A1 A2]], (abs_split (v - G)) as [[B1 B2]|[B1 B2]]; lra. Qed.
(** Rounding keeps the order. *)
Lemma nearest_mono : forall v w f g, nearest v f -> nearest w g -> (v < w)%Q -> (float_value f <= float_value g)%Q.
Proof.
  intros v w f g [Bf Nf] [Bg Ng] L. destruct (Qlt_le_dec (float_value g) (float_value f)) as [C|C]; [exfalso|exact C].
  pose proof (half_way _ _ _ (Nf g Bg) C). pose proof (half_way' _ _ _ (Ng f Bf) C). lra.
Qed.
Lemma nearest_above : forall v x f, nearest v f -> exact x -> (v <= x)%Q -> (float_value f <= x)%Q.
Proof.
  intros v x f [Bf Nf] [g [Bg Vg]] L. destruct (Qlt_le_dec x (float_value f)) as [C|C]; [exfalso|exact C].
  assert (float_value g < float_value f)%Q as C' by lra. pose proof (half_way _ _ _ (Nf g Bg) C'). lra.
Qed.
Lemma nearest_below : forall v x f, nearest v f -> exact x -> (x <= v)%Q -> (x <= float_value f)%Q.
Proof.
  intros v x f [Bf Nf] [g [Bg Vg]] L. destruct (Qlt_le_dec (float_value f) x) as [C|C]; [exfalso|exact C].
  assert (float_value f < float_value g)%Q as C' by lra. pose proof (half_way' _ _ _ (Nf g Bg) C'). lra.
Qed.
Lemma nearest_exact : forall v f, nearest v f -> exact v -> (float_value f == v)%Q.
Proof. intros v f N X. pose proof (nearest_above _ _ _ N X (Qle_refl v)). pose proof (nearest_below _ _ _ N X (Qle_refl v)). lra. Qed.

(** ** The number with given units *)
Definition excess (a : Z) : Z := Z.max 0 (Z.log2 a - 52).
Definition of_units (s : bool) (a : Z) : spec_float :=
  match a / 2 ^ excess a with Zpos m => S754_finite s m (excess a - 1074) | _ => S754_zero s end.
Lemma pow_2098 : 2 ^ 2098 = 2 ^ 1024 * 2 ^ 1074.
Proof. rewrite <- Z.pow_add_r by lia. reflexivity. Qed.
Lemma of_units_ok : forall s a, 0 <= a < 2 ^ 2098 -> (2 ^ excess a | a) -> binary64 (of_units s a) /\ units (of_units s a) = signed s a.
Proof.
  intros s a [A0 A1] [q Q]. unfold of_units. assert (0 <= excess a) as X0 by (unfold excess; lia).
  assert (0 < 2 ^ excess a) as P by (apply Z.pow_pos_nonneg; lia). assert (a / 2 ^ excess a = q) as D by (rewrite Q at 1; apply Z.div_mul; lia).
  rewrite D. destruct (Z.eq_dec a 0) as [Z0|NZ].
  { assert (q = 0) as -> by nia. rewrite Z0. split; [split; [exact I|reflexivity]|destruct s; reflexivity]. }
  destruct q as [|m|m]; [nia| |nia].
  pose proof (Z.log2_spec a ltac:(lia)) as [L1 L2]. pose proof (Z.log2_nonneg a) as L0.
  assert (Z.log2 a < 2098) as L by (apply Z.log2_lt_pow2; lia).
  split; [split; [exact I|apply valid_canonical; unfold canonical]|].
  - split; [unfold excess; lia|]. split.
    + assert (a < 2 ^ 53 * 2 ^ excess a) as K. { rewrite <- Z.pow_add_r by lia. apply Z.lt_le_trans with (1 := L2). apply Z.pow_le_mono_r; unfold excess; lia. }
      apply (Z.mul_lt_mono_pos_r (2 ^ excess a)); lia.
    + destruct (Z_le_gt_dec (Z.log2 a) 52) as [U|U]; [left; unfold excess; lia|right].
      apply (Z.mul_le_mono_pos_r _ _ (2 ^ excess a)); [lia|]. rewrite <- Z.pow_add_r, <- Q by lia. replace (52 + excess a) with (Z.log2 a) by (unfold excess; lia). exact L1.
  - unfold units. replace (excess a - 1074 + 1074) with (excess a) by lia. now rewrite <- Q.
Qed.
Lemma excess_mul : forall z q, 0 <= z <= 2 ^ 53 -> 0 <= q -> (2 ^ excess (z * 2 ^ q) | z * 2 ^ q).
Proof.
  intros z q [Z0 Z1] Q. destruct (Z.eq_dec z 0) as [->|NZ]; [apply Z.divide_0_r|].
  destruct (Z.eq_dec z (2 ^ 53)) as [E|NE].
  - subst z. rewrite <- Z.pow_add_r by lia. exists (2 ^ (53 + q - excess (2 ^ (53 + q)))). unfold excess. rewrite Z.log2_pow2 by lia. rewrite <- Z.pow_add_r by lia. f_equal. lia.
  - assert (Z.log2 z <= 52) as L. { assert (Z.log2 z < 53) by (apply Z.log2_lt_pow2; lia). lia. }
    assert (excess (z * 2 ^ q) <= q) as X. { unfold excess. rewrite Z.log2_mul_pow2 by lia. lia. }
    exists (z * 2 ^ (q - excess (z * 2 ^ q))). rewrite <- Z.mul_assoc, <- Z.pow_add_r by (unfold excess in *; lia). f_equal. f_equal. lia.
Qed.
(** z * 2^(q - 1074) is a binary64 value. *)
Lemma exact_units : forall z q, Z.abs z <= 2 ^ 53 -> 0 <= q <= 2044 -> exact (z * 2 ^ q # unit_den).
Proof.
  intros z q A Q. assert (0 < 2 ^ q) as P by (apply Z.pow_pos_nonneg; lia).
  assert (0 <= Z.abs z * 2 ^ q < 2 ^ 2098) as B.
  { split; [apply Z.mul_nonneg_nonneg; lia|]. apply Z.le_lt_trans with (2 ^ 53 * 2 ^ q); [apply Z.mul_le_mono_nonneg_r; lia|]. rewrite <- Z.pow_add_r by lia. apply Z.pow_lt_mono_r; lia. }
  destruct (of_units_ok (z <? 0) _ B (excess_mul (Z.abs z) q ltac:(lia) ltac:(lia))) as [F U].
  exists (of_units (z <? 0) (Z.abs z * 2 ^ q)). split; [exact F|]. unfold float_value. rewrite U.
  assert (signed (z <? 0) (Z.abs z * 2 ^ q) = z * 2 ^ q) as ->; [|reflexivity].
  destruct (Z.ltb_spec z 0); cbn [signed]; [rewrite Z.abs_neq by lia|rewrite Z.abs_eq by lia]; lia.
Qed.
Lemma unit_den_z : Zpos unit_den = 2 ^ 1074.
Proof. unfold unit_den. now rewrite Pos2Z.inj_pow. Qed.
Lemma exact_integer : forall z, Z.abs z <= 2 ^ 53 -> exact (inject_Z z).
Proof.
  intros z A. destruct (exact_units z 1074 A ltac:(lia)) as [f [F V]]. exists f. split; [exact F|]. rewrite V. unfold Qeq, inject_Z; cbn [Qnum Qden].
  rewrite unit_den_z. lia.
Qed.
Lemma exact_zero : exact 0. Proof. exact (exact_integer 0 ltac:(lia)). Qed.
