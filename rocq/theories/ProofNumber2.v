(** Proofs for SpecNumber: short decimals; a function that meets the contract. *)
From Coq Require Import List Ascii String NArith ZArith QArith Qabs Qround Lqa Lia Bool SpecFloat.
From Verif Require Import GoStr ModelPath SpecPath SpecFilter SpecNumber ProofNumber.
Import ListNotations.
Open Scope Z_scope.

(** ** Short decimals *)
Lemma exact_eq : forall v w, (v == w)%Q -> exact v -> exact w.
Proof. intros v w E [f [B F]]. exists f. split; [exact B|]. now rewrite F. Qed.
Definition eps (q : Z) : Q := 2 ^ q # unit_den.
Lemma eps_pos : forall q, 0 <= q -> (0 < eps q)%Q.
Proof. intros q Q. unfold Qlt, eps; cbn [Qnum Qden]. assert (0 < 2 ^ q) by (apply Z.pow_pos_nonneg; lia). lia. Qed.
Lemma exact_eps : forall z q, Z.abs z <= 2 ^ 53 -> 0 <= q <= 2044 -> exact (inject_Z z * eps q).
Proof. intros z q A Q. apply (exact_eq (z * 2 ^ q # unit_den)); [|now apply exact_units]. unfold Qeq, eps, inject_Z, Qmult; cbn [Qnum Qden]. reflexivity. Qed.
Lemma inject_le : forall a b, (inject_Z a <= inject_Z b)%Q -> a <= b.
Proof. intros a b H. now rewrite Zle_Qle. Qed.
Lemma inject_lt : forall a b, (inject_Z a < inject_Z b)%Q -> a < b.
Proof. intros a b H. now rewrite Zlt_Qlt. Qed.
Lemma apart_separated : forall v w q, 0 <= q <= 2044 ->
  (Qabs v <= inject_Z (2 ^ 53) * eps q)%Q -> (Qabs w <= inject_Z (2 ^ 53) * eps q)%Q -> (2 * eps q <= w - v)%Q -> separated v w.
Proof.
  intros v w q Q Av Aw D. pose proof (eps_pos q ltac:(lia)) as P. set (e := eps q) in *.
  assert (forall x, x == x / e * e)%Q as DIV by (intros x; field; lra).
  apply Qabs_Qle_condition in Av, Aw. destruct Av as [Av1 Av2], Aw as [Aw1 Aw2].
  pose proof (DIV v) as Dv. pose proof (DIV w) as Dw. set (a := (v / e)%Q) in *. set (b := (w / e)%Q) in *.
  assert (forall x y, x * e <= y * e -> x <= y)%Q as CAN by (intros x y H; now apply Qmult_le_r in H).
  assert (a <= inject_Z (2 ^ 53))%Q as a1 by (apply CAN; lra). assert (inject_Z (- 2 ^ 53) <= a)%Q as a2 by (apply CAN; rewrite inject_Z_opp; lra).
  assert (b <= inject_Z (2 ^ 53))%Q as b1 by (apply CAN; lra). assert (inject_Z (- 2 ^ 53) <= b)%Q as b2 by (apply CAN; rewrite inject_Z_opp; lra).
  assert (2 <= b - a)%Q as ab by (apply CAN; lra).
  pose proof (Qle_ceiling a) as C1. pose proof (Qceiling_lt a) as C2. pose proof (Qfloor_le b) as F1. pose proof (Qlt_floor b) as F2.
  rewrite inject_Z_plus in F2. unfold Z.sub in C2. rewrite inject_Z_plus in C2. change (inject_Z 1) with 1%Q in F2. change (inject_Z (- (1))) with (- (1))%Q in C2.
  assert (Z.abs (Qceiling a) <= 2 ^ 53) as Cz.
  { assert (Qceiling a < 2 ^ 53 + 1) by (apply inject_lt; rewrite inject_Z_plus; change (inject_Z 1) with 1%Q; lra).
    assert (- 2 ^ 53 <= Qceiling a) by (apply inject_le; lra). lia. }
  assert (Z.abs (Qfloor b) <= 2 ^ 53) as Fz.
  { assert (- 2 ^ 53 - 1 < Qfloor b) by (apply inject_lt; unfold Z.sub; rewrite inject_Z_plus; change (inject_Z (- (1))) with (- (1))%Q; lra).
    assert (Qfloor b <= 2 ^ 53) by (apply inject_le; lra). lia. }
  exists (inject_Z (Qceiling a) * e)%Q, (inject_Z (Qfloor b) * e)%Q.
  assert (forall x y, x <= y -> x * e <= y * e)%Q as MON by (intros x y H; apply Qmult_le_compat_r; lra).
  pose proof (MON _ _ C1). pose proof (MON _ _ F1).
  split; [now apply exact_eps|]. split; [now apply exact_eps|]. split; [lra|]. split; [|lra].
  apply Qmult_lt_r; [exact P|]. lra.
Qed.
Lemma scaled_mul : forall m k, (scaled m k == inject_Z m * scaled 1 k)%Q.
Proof.
  intros m k. unfold scaled. destruct (0 <=? k); unfold Qeq, inject_Z, Qmult; cbn [Qnum Qden]; [|rewrite !Pos.mul_1_l]; lia.
Qed.
Definition place (k : Z) : Z := 33219281 * k / 10000000 - 2 + 1074.
Definition place_ok (k : Z) : bool :=
  (0 <=? place k) && (place k <=? 2044) && Qle_bool (inject_Z (10 ^ 15) * scaled 1 k) (inject_Z (2 ^ 53) * eps (place k)) && Qle_bool (2 * eps (place k)) (scaled 1 k).
Lemma places : forallb place_ok (map (fun n => Z.of_nat n - 290) (seq 0 (Z.to_nat 581))) = true.
Proof. vm_compute. reflexivity. Qed.
Lemma place_spec : forall k, -290 <= k <= 290 -> 0 <= place k <= 2044 /\
  (inject_Z (10 ^ 15) * scaled 1 k <= inject_Z (2 ^ 53) * eps (place k))%Q /\ (2 * eps (place k) <= scaled 1 k)%Q.
Proof.
  intros k K. pose proof places as P. rewrite forallb_forall in P. assert (place_ok k = true) as H.
  { apply P, in_map_iff. exists (Z.to_nat (k + 290)). split; [lia|]. apply in_seq. lia. }
  unfold place_ok in H. rewrite !andb_true_iff, !Z.leb_le, !Qle_bool_iff in H. tauto.
Qed.
Lemma scaled_pos : forall k, (0 < scaled 1 k)%Q.
Proof. intros k. unfold scaled. destruct (Z.leb_spec 0 k); unfold Qlt, inject_Z; cbn [Qnum Qden]; [|lia]. assert (0 < 10 ^ k) by (apply Z.pow_pos_nonneg; lia). lia. Qed.
Lemma short_abs : forall k v, short k v -> (Qabs v <= inject_Z (2 ^ 53) * eps (place k))%Q.
Proof.
  intros k v [K [m [M V]]]. destruct (place_spec k K) as [_ [P _]]. pose proof (scaled_pos k) as S1. rewrite V, scaled_mul.
  apply Qle_trans with (2 := P). rewrite Qabs_Qmult, (Qabs_pos (scaled 1 k)) by lra. apply Qmult_le_compat_r; [|lra].
  rewrite Zle_Qle in M. exact M.
Qed.
Lemma short_separated : forall k v w, short k v -> short k w -> (v < w)%Q -> separated v w.
Proof.
  intros k v w Hv Hw L. pose proof (short_abs _ _ Hv) as Av. pose proof (short_abs _ _ Hw) as Aw. destruct Hv as [K [m [M V]]], Hw as [_ [n [N W]]].
  destruct (place_spec k K) as [B [_ P]]. pose proof (scaled_pos k) as S1. apply (apart_separated v w (place k) B Av Aw).
  assert (m < n) as MN. { apply inject_lt. apply (Qmult_lt_r _ _ (scaled 1 k) S1). rewrite <- !scaled_mul. lra. }
  assert (1 <= inject_Z n - inject_Z m)%Q as D. { assert (m + 1 <= n) as G by lia. rewrite Zle_Qle, inject_Z_plus in G. change (inject_Z 1) with 1%Q in G. lra. }
  apply Qle_trans with (1 := P). rewrite V, W, (scaled_mul m), (scaled_mul n).
  apply (Qmult_le_compat_r _ _ (scaled 1 k)) in D; lra.
Qed.
Lemma short_representable : forall k v, short k v -> representable v.
Proof.
  intros k v H. pose proof (short_abs _ _ H) as A. destruct H as [K _]. destruct (place_spec k K) as [[B1 B2] _]. unfold representable.
  apply Qle_lt_trans with (1 := A). unfold Qlt, eps, inject_Z, Qmult; cbn [Qnum Qden]. rewrite Pos.mul_1_l, unit_den_z, Z.mul_1_r.
  assert (2 ^ place k <= 2 ^ 2044) as P by (apply Z.pow_le_mono_r; lia).
  replace ((2 ^ 54 - 1) * 2 ^ 970 * 2 ^ 1074) with ((2 ^ 54 - 1) * 2 ^ 2044) by (change 2044 with (970 + 1074); rewrite Z.pow_add_r by lia; ring).
  assert (0 < 2 ^ 2044) as P0 by (apply Z.pow_pos_nonneg; lia).
  apply Z.le_lt_trans with (2 ^ 53 * 2 ^ 2044); [apply Z.mul_le_mono_nonneg_l; lia|]. apply Z.mul_lt_mono_pos_r; lia.
Qed.

(** ** Rounding *)
(** a / b to the nearest integer, the even one of two. *)
Definition near_int (a b : Z) : Z :=
  let q := a / b in let r := a mod b in
  if 2 * r <? b then q else if b <? 2 * r then q + 1 else if Z.even q then q else q + 1.
Lemma near_int_half : forall a b, 0 < b -> 2 * Z.abs (a - near_int a b * b) <= b.
Proof.
  intros a b B. unfold near_int. cbv zeta. pose proof (Z.div_mod a b ltac:(lia)) as D. pose proof (Z.mod_pos_bound a b B) as M.
  set (q := a / b) in *. set (r := a mod b) in *.
  assert (a - q * b = r) as E1 by lia. assert (a - (q + 1) * b = r - b) as E2 by lia.
  destruct (Z.ltb_spec (2 * r) b); [rewrite E1; lia|]. destruct (Z.ltb_spec b (2 * r)); [rewrite E2; lia|]. destruct (Z.even q); [rewrite E1|rewrite E2]; lia.
Qed.
Lemma half_nearest : forall a b q k, 0 < b -> 2 * Z.abs (a - q * b) <= b -> Z.abs (a - q * b) <= Z.abs (a - k * b).
Proof.
  intros a b q k B H. destruct (Z.eq_dec k q) as [->|N]; [lia|].
  assert (a - k * b = (a - q * b) + (q - k) * b) as E by lia. rewrite E. generalize dependent (a - q * b). intros d H E.
  assert (q - k <= -1 \/ 1 <= q - k) as [C|C] by lia; nia.
Qed.
(** The units of the number nearest to [a / d] units. *)
Definition near_units (a d : Z) : Z := let u := excess (a / d) in near_int a (d * 2 ^ u) * 2 ^ u.
Lemma units_div : forall g u, binary64 g -> 0 < u -> 2 ^ (52 + u) <= Z.abs (units g) -> (2 ^ u | units g).
Proof.
  intros g u [F V] U H. destruct g as [s|s| |s m e]; try destruct F; [apply Z.divide_0_r|]. apply valid_canonical in V. destruct V as [[E1 E2] [M _]].
  assert (u <= e + 1074) as UE.
  { destruct (Z_le_gt_dec u (e + 1074)) as [?|G]; [lia|exfalso]. assert (Z.abs (units (S754_finite s m e)) = Zpos m * 2 ^ (e + 1074)) as A.
    { cbn [units]. assert (0 < 2 ^ (e + 1074)) by (apply Z.pow_pos_nonneg; lia). assert (0 < Zpos m * 2 ^ (e + 1074)) by (apply Z.mul_pos_pos; lia). destruct s; cbn [signed]; lia. }
    rewrite A in H. assert (2 ^ (e + 1074) <= 2 ^ (u - 1)) as P by (apply Z.pow_le_mono_r; lia).
    assert (0 < 2 ^ (u - 1)) as P0 by (apply Z.pow_pos_nonneg; lia).
    assert (2 ^ (52 + u) = 2 ^ 53 * 2 ^ (u - 1)) as X by (rewrite <- Z.pow_add_r by lia; f_equal; lia). rewrite X in H.
    assert (Zpos m * 2 ^ (e + 1074) <= Zpos m * 2 ^ (u - 1)) by (apply Z.mul_le_mono_nonneg_l; lia).
    assert (Zpos m * 2 ^ (u - 1) < 2 ^ 53 * 2 ^ (u - 1)) by (apply Z.mul_lt_mono_pos_r; lia). lia. }
  cbn [units]. assert (2 ^ u | Zpos m * 2 ^ (e + 1074)) as D.
  { apply Z.divide_mul_r. exists (2 ^ (e + 1074 - u)). rewrite <- Z.pow_add_r by lia. f_equal. lia. }
  destruct s; cbn [signed]; [now apply Z.divide_opp_r|exact D].
Qed.
Lemma near_units_best : forall a d g, 0 <= a -> 0 < d -> binary64 g -> Z.abs (a - near_units a d * d) <= Z.abs (a - units g * d).
Proof.
  intros a d g A D G. unfold near_units. cbv zeta. set (t := a / d). set (u := excess t). assert (0 <= u) as U0 by (unfold u, excess; lia).
  assert (0 < 2 ^ u) as P by (apply Z.pow_pos_nonneg; lia). assert (0 < d * 2 ^ u) as B by (apply Z.mul_pos_pos; lia).
  pose proof (near_int_half a _ B) as H. set (q := near_int a (d * 2 ^ u)) in *. replace (q * 2 ^ u * d) with (q * (d * 2 ^ u)) by ring.
  destruct (Z.eq_dec u 0) as [Uz|Un].
  { rewrite Uz in *. change (2 ^ 0) with 1 in *. rewrite !Z.mul_1_r in *. now apply half_nearest. }
  assert (Z.log2 t = 52 + u) as L by (unfold u, excess in *; lia).
  assert (0 < t) as T by (destruct (Z_le_gt_dec t 0) as [K|K]; [rewrite Z.log2_nonpos in L by lia; lia|lia]).
  pose proof (Z.log2_spec t T) as [T1 _]. rewrite L in T1.
  assert (d * 2 ^ (52 + u) <= a) as AD. { apply Z.le_trans with (d * t); [apply Z.mul_le_mono_nonneg_l; lia|]. apply Z.mul_div_le; lia. }
  destruct (Z_lt_le_dec (units g) (2 ^ (52 + u))) as [S1|S1].
  - pose proof (half_nearest a _ q (2 ^ 52) B H) as N. replace (2 ^ 52 * (d * 2 ^ u)) with (d * 2 ^ (52 + u)) in N by (rewrite Z.pow_add_r by lia; ring).
    apply Z.le_trans with (1 := N). assert (units g * d <= d * 2 ^ (52 + u)) by (rewrite (Z.mul_comm d); apply Z.mul_le_mono_nonneg_r; lia). lia.
  - destruct (units_div g u G ltac:(lia) ltac:(lia)) as [k K]. rewrite K. replace (k * 2 ^ u * d) with (k * (d * 2 ^ u)) by ring. now apply half_nearest.
Qed.
Lemma near_int_bound : forall a b n, 0 < b -> a < n * b -> near_int a b <= n.
Proof.
  intros a b n B H. pose proof (near_int_half a b B) as N. destruct (Z_le_gt_dec (near_int a b) n) as [?|G]; [lia|exfalso].
  assert ((n + 1) * b <= near_int a b * b) by (apply Z.mul_le_mono_nonneg_r; lia). lia.
Qed.
Lemma near_int_nonneg : forall a b, 0 <= a -> 0 < b -> 0 <= near_int a b.
Proof. intros a b A B. unfold near_int. cbv zeta. pose proof (Z.div_pos a b A B). destruct (2 * (a mod b) <? b), (b <? 2 * (a mod b)), (Z.even (a / b)); lia. Qed.
Lemma near_units_spec : forall a d, 0 <= a -> 0 < d -> a < d * ((2 ^ 54 - 1) * 2 ^ 2044) ->
  0 <= near_units a d < 2 ^ 2098 /\ (2 ^ excess (near_units a d) | near_units a d).
Proof.
  intros a d A D R. unfold near_units. cbv zeta. set (t := a / d). set (u := excess t). assert (0 <= u) as U0 by (unfold u, excess; lia).
  assert (0 < 2 ^ u) as P by (apply Z.pow_pos_nonneg; lia). assert (0 < d * 2 ^ u) as B by (apply Z.mul_pos_pos; lia).
  assert (0 <= t) as T0 by (apply Z.div_pos; lia).
  assert (t < 2 ^ (53 + u)) as T1.
  { destruct (Z.eq_dec t 0) as [->|N]; [apply Z.pow_pos_nonneg; lia|]. pose proof (Z.log2_spec t ltac:(lia)) as [_ L]. apply Z.lt_le_trans with (1 := L). apply Z.pow_le_mono_r; unfold u, excess; lia. }
  assert (a < 2 ^ 53 * (d * 2 ^ u)) as AB.
  { assert (a < d * (t + 1)) as Y by (unfold t; pose proof (Z.mul_succ_div_gt a d D); lia). apply Z.lt_le_trans with (1 := Y).
    replace (2 ^ 53 * (d * 2 ^ u)) with (d * 2 ^ (53 + u)) by (rewrite Z.pow_add_r by lia; ring). apply Z.mul_le_mono_nonneg_l; lia. }
  pose proof (near_int_bound _ _ _ B AB) as Q1. pose proof (near_int_nonneg a _ A B) as Q0. pose proof (near_int_half a _ B) as QH. set (q := near_int a (d * 2 ^ u)) in *.
  split; [|apply excess_mul; lia]. split; [apply Z.mul_nonneg_nonneg; lia|].
  assert (t < 2 ^ 2098) as T2.
  { apply Z.div_lt_upper_bound; [lia|]. apply Z.lt_le_trans with (1 := R). apply Z.mul_le_mono_nonneg_l; [lia|]. change 2098 with (54 + 2044). rewrite Z.pow_add_r by lia. apply Z.mul_le_mono_nonneg_r; [apply Z.pow_nonneg|]; lia. }
  assert (u <= 2045) as U1. { unfold u, excess. destruct (Z.eq_dec t 0) as [->|N]; [cbn; lia|]. assert (Z.log2 t < 2098) by (apply Z.log2_lt_pow2; lia). lia. }
  destruct (Z.eq_dec u 2045) as [E|N].
  - assert (q < 2 ^ 53) as QQ.
    { destruct (Z_lt_le_dec q (2 ^ 53)) as [?|G]; [lia|exfalso]. rewrite E in *.
      assert (2 ^ 2045 = 2 * 2 ^ 2044) as X by (change 2045 with (1 + 2044); now rewrite Z.pow_add_r by lia). rewrite X in *.
      assert (2 ^ 53 * (d * (2 * 2 ^ 2044)) <= q * (d * (2 * 2 ^ 2044))) as Y by (apply Z.mul_le_mono_nonneg_r; lia).
      generalize dependent (2 ^ 2044). intros z. intros. nia. }
    rewrite E. apply Z.lt_le_trans with (2 ^ 53 * 2 ^ 2045); [apply Z.mul_lt_mono_pos_r; [apply Z.pow_pos_nonneg|]; lia|]. rewrite <- Z.pow_add_r by lia. lia.
  - apply Z.le_lt_trans with (2 ^ 53 * 2 ^ 2044); [|rewrite <- Z.pow_add_r by lia; apply Z.pow_lt_mono_r; lia].
    apply Z.mul_le_mono_nonneg; [lia|lia|lia|apply Z.pow_le_mono_r; lia].
Qed.
(** The nearest number of a rational. *)
Definition round64 (v : Q) : spec_float :=
  of_units (Qnum v <? 0) (near_units (Z.abs (Qnum v) * 2 ^ 1074) (Zpos (Qden v))).
Lemma neg_binary64 : forall g, binary64 g -> exists h, binary64 h /\ units h = - units g.
Proof.
  intros g [F V]. destruct g as [s|s| |s m e]; try destruct F.
  - exists (S754_zero s). split; [split; [exact I|reflexivity]|reflexivity].
  - exists (S754_finite (negb s) m e). apply valid_canonical in V. split; [split; [exact I|now apply valid_canonical]|]. destruct s; cbn [units signed negb]; lia.
Qed.
Lemma Qabs_frac : forall n d, (Qabs (n # d) == Z.abs n # d)%Q.
Proof. reflexivity. Qed.
Lemma dist_le : forall v f g, Z.abs (Qnum v * 2 ^ 1074 - units f * Zpos (Qden v)) <= Z.abs (Qnum v * 2 ^ 1074 - units g * Zpos (Qden v)) ->
  (Qabs (v - float_value f) <= Qabs (v - float_value g))%Q.
Proof.
  intros [n d] f g H. unfold Qminus, Qopp, Qplus, float_value; cbn [Qnum Qden] in *. rewrite unit_den_z. unfold Qle, Qabs; cbn [Qnum Qden].
  rewrite !Z.mul_opp_l, !Z.add_opp_r. apply Z.mul_le_mono_nonneg_r; [lia|exact H].
Qed.
Lemma round64_nearest : forall v, representable v -> nearest v (round64 v).
Proof.
  intros v R. set (a := Z.abs (Qnum v) * 2 ^ 1074). set (d := Zpos (Qden v)).
  assert (0 < 2 ^ 1074) as P by (apply Z.pow_pos_nonneg; lia).
  assert (0 <= a) as A by (apply Z.mul_nonneg_nonneg; lia). assert (0 < d) as D by (unfold d; lia).
  assert (a < d * ((2 ^ 54 - 1) * 2 ^ 2044)) as H.
  { unfold representable in R. destruct v as [n dd]. unfold Qlt, Qabs, inject_Z in R; cbn [Qnum Qden] in R. unfold a, d; cbn [Qnum Qden]. rewrite Z.mul_1_r in R.
    assert (2 ^ 2044 = 2 ^ 970 * 2 ^ 1074) as -> by (rewrite <- Z.pow_add_r by lia; reflexivity).
    replace (Zpos dd * ((2 ^ 54 - 1) * (2 ^ 970 * 2 ^ 1074))) with (Zpos dd * ((2 ^ 54 - 1) * 2 ^ 970) * 2 ^ 1074) by ring. apply Z.mul_lt_mono_pos_r; [exact P|]. rewrite (Z.mul_comm (Zpos dd)). exact R. }
  destruct (near_units_spec a d A D H) as [B X]. destruct (of_units_ok (Qnum v <? 0) _ B X) as [F U]. split; [exact F|].
  intros g G. apply dist_le. unfold round64. fold a d. rewrite U.
  destruct (Z.ltb_spec (Qnum v) 0) as [L|L]; cbn [signed].
  - destruct (neg_binary64 g G) as [h [Hh Uh]]. pose proof (near_units_best a d h A D Hh) as N. rewrite Uh in N. unfold a at 1 3 in N. rewrite (Z.abs_neq (Qnum v)) in N by lia.
    rewrite <- (Z.abs_opp (_ - - near_units a d * d)), <- (Z.abs_opp (_ - units g * d)).
    replace (- (Qnum v * 2 ^ 1074 - - near_units a d * d)) with (- Qnum v * 2 ^ 1074 - near_units a d * d) by ring.
    replace (- (Qnum v * 2 ^ 1074 - units g * d)) with (- Qnum v * 2 ^ 1074 - - units g * d) by ring. exact N.
  - pose proof (near_units_best a d g A D G) as N. unfold a at 1 3 in N. rewrite (Z.abs_eq (Qnum v)) in N by lia. exact N.
Qed.
