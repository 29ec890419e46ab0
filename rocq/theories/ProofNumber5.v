(** Proofs for SpecNumber: printing numbers. *)
From Coq Require Import List Ascii String NArith ZArith QArith Qabs Lqa Lia Bool SpecFloat.
From Verif Require Import GoStr ModelParser ModelPath ModelResult ModelQuery ModelBuilder SpecText SpecPath SpecTree SpecContent SpecMod SpecFilter SpecHistory SpecNumber ProofRaw2 ProofRaw3 ProofNumber ProofNumber2 ProofNumber3 ProofNumber4.
Import ListNotations.
Open Scope Z_scope.

Lemma numeral_chars : forall s v, numeral s v -> s <> [] /\ forall c, In c s -> digit c \/ In c (bs "+-.eE").
Proof.
  intros s v H. destruct H as [s neg a f b e x Sg A F X N].
  assert (forall ds, Forall digit ds -> forall c, In c ds -> digit c) as FD by (intros ds D; now apply Forall_forall).
  split.
  - intros K. apply app_eq_nil in K. destruct K as [_ K]. apply app_eq_nil in K. destruct K as [-> K]. apply app_eq_nil in K. destruct K as [-> _]. inversion F; subst. now apply N.
  - intros c I. apply in_app_or in I. destruct I as [I|I]; [right; destruct Sg; cbn in I |- *; tauto|].
    apply in_app_or in I. destruct I as [I|I]; [left; eauto|]. apply in_app_or in I. destruct I as [I|I].
    + destruct F as [|ds F]; [destruct I|]. destruct I as [<-|I]; [right; cbn; tauto|left; eauto].
    + destruct X as [|c0 s0 n0 ds C Sg0 _ D _]; [destruct I|]. destruct I as [<-|I]; [right; cbn in C |- *; tauto|].
      apply in_app_or in I. destruct I as [I|I]; [right; destruct Sg0; cbn in I |- *; tauto|left; eauto].
Qed.
Lemma numeral_esc : forall s v, numeral s v -> esc s = s.
Proof.
  intros s v H. apply esc_plain. intros c I. destruct (numeral_chars s v H) as [_ K]. destruct (K c I) as [D|D].
  - intros J. cbn in J. unfold digit in D. destruct J as [<-|[<-|[<-|[<-|[<-|[]]]]]]; cbn in D; lia.
  - cbn in D |- *. destruct D as [<-|[<-|[<-|[<-|[<-|[]]]]]]; intuition discriminate.
Qed.
Lemma numeral_trim : forall s v, numeral s v -> trim_space s = s.
Proof.
  intros s v H. destruct (numeral_chars s v H) as [N K]. apply trim_visible; [exact N|]. intros c I. unfold visible. destruct (K c I) as [D|D]; [unfold digit in D; lia|].
  cbn in D. destruct D as [<-|[<-|[<-|[<-|[<-|[]]]]]]; cbn; lia.
Qed.
Lemma set_float_text : forall E fmt_g xml path f v, numeral (fmt_g f) v -> set E fmt_g xml path (VFloat f) = set E fmt_g xml path (VStr (fmt_g f)).
Proof. intros E g xml path f v H. unfold set. apply (set_written E g _ xml path _ _ (g f)); [constructor|]. rewrite <- (numeral_esc _ _ H) at 2. constructor. Qed.

Lemma dec_digits : forall z, 0 <= z -> decimal z <> [] /\ Forall digit (decimal z) /\ Z.of_N (decimal_value (decimal z)) = z.
Proof.
  intros z Z0. destruct (decimal_numeral z) as [ds [NE [D H]]]. cbv zeta in H. fold (decimal_value ds) in H.
  assert (decimal z = ds) as ->.
  { unfold decimal in *. destruct (Z.ltb_spec z 0) as [L|L]; [lia|]. cbn [app] in *.
    destruct (digits_ok (N.size_nat (Z.abs_N z)) (Z.abs_N z) (le_n _)) as (DD & _ & _ & NN).
    destruct H as [[[H|H] _]|[H _]]; auto; exfalso; rewrite H in DD; inversion DD as [|x y X _ E1]; subst; unfold dig in X; cbn in X; lia. }
  split; [exact NE|]. split; [exact D|]. destruct H as [[_ H]|[H HV]]; [now symmetry|].
  assert (decimal z = "-"%char :: ds) as E1 by exact H. unfold decimal in E1. destruct (Z.ltb_spec z 0) as [L|L]; [lia|]. cbn [app] in E1.
  destruct (digits_ok (N.size_nat (Z.abs_N z)) (Z.abs_N z) (le_n _)) as (DD & _ & _ & NN). exfalso; rewrite E1 in DD; inversion DD as [|x y X _ E2]; subst; unfold dig in X; cbn in X; lia.
Qed.
(** A number written out in full. *)
Definition exact_text (f : spec_float) : bytes :=
  match f with
  | S754_finite s m e =>
      (if s then bs "-" else []) ++
      (if 0 <=? e then decimal (Zpos m * 2 ^ e) ++ [] ++ [] else decimal (Zpos m * 5 ^ (- e)) ++ [] ++ "e"%char :: bs "-" ++ decimal (- e))
  | _ => bs "0"
  end.
Lemma sign_of : forall s : bool, sign (if s then bs "-" else []) s.
Proof. intros []; constructor. Qed.
Lemma exact_numeral : forall f, binary64 f -> exists v, numeral (exact_text f) v /\ (v == float_value f)%Q.
Proof.
  intros f [F V]. destruct f as [s|s| |s m e]; try destruct F.
  { exists (scaled 0 0). split; [|reflexivity]. apply read_numeral_sound. reflexivity. }
  apply valid_canonical in V. destruct V as [[E1 E2] _]. unfold exact_text. destruct (Z.leb_spec 0 e) as [L|L].
  - assert (0 <= Zpos m * 2 ^ e) as P by (apply Z.mul_nonneg_nonneg; [lia|apply Z.pow_nonneg; lia]). destruct (dec_digits _ P) as [NE [D VV]].
    exists (scaled (signed s (Z.of_N (decimal_value (decimal (Zpos m * 2 ^ e) ++ [])))) (0 - Z.of_nat (List.length (@nil ascii)))). split.
    + apply numeral_of; [apply sign_of|exact D|constructor|constructor|now rewrite app_nil_r].
    + rewrite app_nil_r, VV. unfold scaled, float_value, units. cbn [List.length Z.of_nat Z.sub Z.opp Z.add Z.leb Z.compare]. unfold Qeq, inject_Z; cbn [Qnum Qden]. rewrite unit_den_z, Z.pow_add_r by lia.
      change (10 ^ 0) with 1. destruct s; cbn [signed]; ring.
  - assert (0 <= Zpos m * 5 ^ (- e)) as P by (apply Z.mul_nonneg_nonneg; [lia|apply Z.pow_nonneg; lia]). destruct (dec_digits _ P) as [NE [D VV]].
    destruct (dec_digits (- e) ltac:(lia)) as [NE' [D' VV']].
    exists (scaled (signed s (Z.of_N (decimal_value (decimal (Zpos m * 5 ^ (- e)) ++ [])))) (signed true (Z.of_N (decimal_value (decimal (- e)))) - Z.of_nat (List.length (@nil ascii)))). split.
    + apply numeral_of; [apply sign_of|exact D|constructor| |now rewrite app_nil_r]. constructor; [now left|constructor|exact NE'|exact D'|lia].
    + rewrite app_nil_r, VV, VV'. cbn [signed List.length Z.of_nat]. replace (- - e - 0) with e by lia. unfold scaled. destruct (Z.leb_spec 0 e) as [?|_]; [lia|].
      unfold Qeq, float_value, units; cbn [Qnum Qden]. rewrite unit_den_z. rewrite Z2Pos.id by (apply Z.pow_pos_nonneg; lia).
      assert (2 ^ 1074 = 2 ^ (e + 1074) * 2 ^ (- e)) as X by (rewrite <- Z.pow_add_r by lia; f_equal; lia). rewrite X.
      change 10 with (2 * 5). rewrite Z.pow_mul_l. destruct s; cbn [signed]; ring.
Qed.
Lemma float_representable : forall f, binary64 f -> representable (float_value f).
Proof.
  intros f [F V]. destruct f as [s|s| |s m e]; try destruct F; [reflexivity|]. apply valid_canonical in V. destruct V as [[E1 E2] [M _]].
  unfold representable, Qlt, Qabs, float_value, inject_Z, units; cbn [Qnum Qden]. rewrite unit_den_z, Z.mul_1_r.
  assert (0 < 2 ^ (e + 1074)) as P by (apply Z.pow_pos_nonneg; lia). assert (0 < Zpos m * 2 ^ (e + 1074)) as P1 by (apply Z.mul_pos_pos; lia).
  replace (Z.abs (signed s (Zpos m * 2 ^ (e + 1074)))) with (Zpos m * 2 ^ (e + 1074)) by (destruct s; cbn [signed]; lia).
  assert (2 ^ (e + 1074) <= 2 ^ 2045) as P2 by (apply Z.pow_le_mono_r; lia).
  replace ((2 ^ 54 - 1) * 2 ^ 970 * 2 ^ 1074) with ((2 ^ 54 - 1) * 2 ^ 2044) by (change 2044 with (970 + 1074); rewrite Z.pow_add_r by lia; ring).
  assert (2 ^ 2045 = 2 * 2 ^ 2044) as X by (change 2045 with (1 + 2044); now rewrite Z.pow_add_r by lia). assert (0 < 2 ^ 2044) as P3 by (apply Z.pow_pos_nonneg; lia).
  apply Z.le_lt_trans with (Zpos m * (2 * 2 ^ 2044)); [apply Z.mul_le_mono_nonneg_l; lia|].
  replace (Zpos m * (2 * 2 ^ 2044)) with (2 * Zpos m * 2 ^ 2044) by ring. apply Z.mul_lt_mono_pos_r; [lia|]. lia.
Qed.
Lemma exact_text_prints : forall pf, rounds pf -> prints pf exact_text.
Proof.
  intros pf R f B. destruct (exact_numeral f B) as [v [H V]]. assert (representable v) as RV by (apply (representable_eq (float_value f)); [now symmetry|now apply float_representable]).
  destruct (rounds_in pf R _ _ H RV) as [g [P N]]. exists v, g. split; [exact H|]. split; [exact P|]. split; [apply N|].
  rewrite <- V. apply nearest_exact; [exact N|]. exists f. split; [exact B|now symmetry].
Qed.
