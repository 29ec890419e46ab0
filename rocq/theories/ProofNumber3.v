(** Proofs for SpecNumber: reading numerals; the contract of strconv.ParseFloat. *)
From Coq Require Import List Ascii String NArith ZArith QArith Qabs Qreduction Lqa Lia Bool SpecFloat.
From Verif Require Import GoStr ModelPath ModelParser ModelResult ModelQuery SpecPath SpecFilter ProofFilter SpecNumber ProofNumber ProofNumber2.
Import ListNotations.
Open Scope Z_scope.

Definition digit_b (c : ascii) : bool := (48 <=? N_of_ascii c)%N && (N_of_ascii c <=? 57)%N.
Lemma digit_b_ok : forall c, digit_b c = true <-> digit c.
Proof. intros c. unfold digit_b, digit. rewrite andb_true_iff, !N.leb_le. reflexivity. Qed.
Fixpoint span_digits (s : bytes) : bytes * bytes :=
  match s with
  | [] => ([], [])
  | c :: r => if digit_b c then let '(a, b) := span_digits r in (c :: a, b) else ([], s)
  end.
Definition no_digit (s : bytes) : Prop := match s with c :: _ => ~ digit c | [] => True end.
Lemma span_spec : forall s, s = fst (span_digits s) ++ snd (span_digits s) /\ Forall digit (fst (span_digits s)) /\ no_digit (snd (span_digits s)).
Proof.
  induction s as [|c r [IH1 [IH2 IH3]]]; cbn [span_digits]; [repeat split; constructor|]. destruct (digit_b c) eqn:D.
  - destruct (span_digits r) as [a b]; cbn [fst snd] in *. subst r. repeat split; [|exact IH3]. constructor; [now apply digit_b_ok|exact IH2].
  - cbn [fst snd]. repeat split; [constructor|]. cbn. intros K. apply digit_b_ok in K. congruence.
Qed.
Lemma span_app : forall a s, Forall digit a -> no_digit s -> span_digits (a ++ s) = (a, s).
Proof.
  induction a as [|c a IH]; intros s A S0; cbn [app span_digits].
  - destruct s as [|c s]; [reflexivity|]. cbn [span_digits]. destruct (digit_b c) eqn:D; [|reflexivity]. apply digit_b_ok in D. now destruct S0.
  - inversion A as [|x y Dc Da E]; subst. apply digit_b_ok in Dc. rewrite Dc, IH by assumption. reflexivity.
Qed.
Definition read_sign (s : bytes) : bytes * bool * bytes :=
  match s with
  | "+"%char :: r => (bs "+", false, r)
  | "-"%char :: r => (bs "-", true, r)
  | _ => ([], false, s)
  end.
Definition plain_start (s : bytes) : Prop := match s with c :: _ => c <> "+"%char /\ c <> "-"%char | [] => True end.
Lemma read_sign_spec : forall s, sign (fst (fst (read_sign s))) (snd (fst (read_sign s))) /\ s = fst (fst (read_sign s)) ++ snd (read_sign s).
Proof.
  intros [|c r]; [split; constructor|].
  destruct (ascii_dec c "+"%char) as [->|N1]; [split; [constructor|reflexivity]|].
  destruct (ascii_dec c "-"%char) as [->|N2]; [split; [constructor|reflexivity]|].
  assert (read_sign (c :: r) = ([], false, c :: r)) as -> by (destruct c as [[] [] [] [] [] [] [] []]; try reflexivity; congruence).
  split; [constructor|reflexivity].
Qed.
Lemma read_sign_app : forall s neg r, sign s neg -> plain_start r -> read_sign (s ++ r) = (s, neg, r).
Proof.
  intros s neg r [] P; [|reflexivity|reflexivity]. destruct r as [|c r]; [reflexivity|]. destruct P as [P1 P2].
  cbn [app]. destruct c as [[] [] [] [] [] [] [] []]; try reflexivity; congruence.
Qed.
Definition read_exp (s : bytes) : option (bytes * Z) :=
  match s with
  | [] => Some ([], 0)
  | c :: r =>
      if Ascii.eqb c "e"%char || Ascii.eqb c "E"%char then
        let '(_, neg, r2) := read_sign r in
        let '(ds, r3) := span_digits r2 in
        match ds, r3 with
        | _ :: _, [] => if (decimal_value ds <? 10000)%N then Some (s, signed neg (Z.of_N (decimal_value ds))) else None
        | _, _ => None
        end
      else None
  end.
Lemma digit_plain : forall ds, ds <> [] -> Forall digit ds -> forall r, plain_start (ds ++ r).
Proof. intros [|c ds] N F r; [congruence|]. inversion F as [|x y D _ E]; subst. cbn. split; intros ->; unfold digit in D; cbn in D; lia. Qed.
Lemma read_exp_complete : forall e x, exponent e x -> read_exp e = Some (e, x).
Proof.
  intros e x H. destruct H as [|c s neg ds C Sg N F B]; [reflexivity|]. cbn [read_exp].
  assert (Ascii.eqb c "e"%char || Ascii.eqb c "E"%char = true) as -> by (cbn in C; destruct C as [<-|[<-|[]]]; reflexivity).
  pose proof (read_sign_app s neg (ds ++ []) Sg (digit_plain ds N F [])) as R. rewrite app_nil_r in R. rewrite R.
  pose proof (span_app ds [] F I) as P. rewrite app_nil_r in P. rewrite P. destruct ds as [|d ds]; [congruence|].
  apply N.ltb_lt in B. now rewrite B.
Qed.
Lemma read_exp_sound : forall s e x, read_exp s = Some (e, x) -> e = s /\ exponent s x.
Proof.
  intros s e x H. destruct s as [|c r]; cbn [read_exp] in H; [injection H as <- <-; split; [reflexivity|constructor]|].
  destruct (Ascii.eqb c "e"%char || Ascii.eqb c "E"%char) eqn:C; [|discriminate].
  pose proof (read_sign_spec r) as [Sg R]. destruct (read_sign r) as [[sg neg] r2]; cbn [fst snd] in *.
  pose proof (span_spec r2) as [P1 [P2 _]]. destruct (span_digits r2) as [ds r3]; cbn [fst snd] in *.
  destruct ds as [|d ds]; [discriminate|]. destruct r3; [|discriminate]. destruct (decimal_value (d :: ds) <? 10000)%N eqn:B; [|discriminate].
  apply N.ltb_lt in B. assert (e = c :: r /\ x = signed neg (Z.of_N (decimal_value (d :: ds)))) as [-> ->] by (split; congruence).
  split; [reflexivity|]. rewrite R, P1, app_nil_r. constructor; auto; [|discriminate].
  apply orb_true_iff in C. destruct C as [C|C]; apply Ascii.eqb_eq in C; subst c; cbn; auto.
Qed.
Definition read_frac (s : bytes) : bytes * bytes := match s with "."%char :: r => span_digits r | _ => ([], s) end.
(** The value of a numeral. *)
Definition read_numeral (s : bytes) : option Q :=
  let '(_, neg, s1) := read_sign s in
  let '(a, s2) := span_digits s1 in
  let '(b, s3) := read_frac s2 in
  match a ++ b with
  | [] => None
  | _ => match read_exp s3 with
         | Some (_, x) => Some (scaled (signed neg (Z.of_N (decimal_value (a ++ b)))) (x - Z.of_nat (List.length b)))
         | None => None
         end
  end.
Lemma exp_no_digit : forall e x, exponent e x -> no_digit e.
Proof. intros e x H. destruct H as [|c s neg ds C _ _ _]; [exact I|]. cbn in C |- *. unfold digit. destruct C as [<-|[<-|[]]]; cbn; lia. Qed.
Lemma exp_no_dot : forall e x, exponent e x -> read_frac e = ([], e).
Proof. intros e x H. destruct H as [|c s neg ds C _ _ _]; [reflexivity|]. cbn in C. destruct C as [<-|[<-|[]]]; reflexivity. Qed.
Lemma read_numeral_complete : forall s v, numeral s v -> read_numeral s = Some v.
Proof.
  intros s v H. destruct H as [s neg a f b e x Sg A F X N]. unfold read_numeral.
  assert (plain_start (a ++ f ++ e)) as P.
  { destruct a as [|c a]; [|apply (digit_plain (c :: a)); [discriminate|exact A]]. destruct F as [|ds F]; [now destruct N|]. cbn. split; discriminate. }
  rewrite (read_sign_app _ _ _ Sg P). assert (no_digit (f ++ e)) as ND. { destruct F as [|ds F]; [now apply (exp_no_digit e x)|]. cbn. unfold digit; cbn; lia. }
  rewrite (span_app _ _ A ND). assert (read_frac (f ++ e) = (b, e)) as ->.
  { destruct F as [|ds F]; [now apply (exp_no_dot e x)|]. cbn [app]. apply span_app; [exact F|now apply (exp_no_digit e x)]. }
  rewrite (read_exp_complete _ _ X). destruct (a ++ b) as [|c r] eqn:E; [congruence|reflexivity].
Qed.
Lemma read_numeral_sound : forall s v, read_numeral s = Some v -> numeral s v.
Proof.
  intros s v H. unfold read_numeral in H. pose proof (read_sign_spec s) as [Sg R]. destruct (read_sign s) as [[sg neg] s1]; cbn [fst snd] in *.
  pose proof (span_spec s1) as [P1 [P2 _]]. destruct (span_digits s1) as [a s2]; cbn [fst snd] in *.
  assert (exists f, s2 = f ++ snd (read_frac s2) /\ fraction f (fst (read_frac s2))) as [f [F1 F2]].
  { destruct s2 as [|c r]; [exists []; split; [reflexivity|constructor]|]. destruct (ascii_dec c "."%char) as [->|N].
    - pose proof (span_spec r) as [Q1 [Q2 _]]. exists ("."%char :: fst (span_digits r)). split; [exact (f_equal (cons "."%char) Q1)|now constructor].
    - exists []. assert (read_frac (c :: r) = ([], c :: r)) as -> by (destruct c as [[] [] [] [] [] [] [] []]; try reflexivity; congruence).
      split; [reflexivity|constructor]. }
  destruct (read_frac s2) as [b s3]; cbn [fst snd] in *.
  destruct (a ++ b) as [|c0 r0] eqn:E; [discriminate|]. destruct (read_exp s3) as [[e x]|] eqn:X; [|discriminate].
  apply read_exp_sound in X. destruct X as [-> X]. rewrite <- E in H. assert (v = scaled (signed neg (Z.of_N (decimal_value (a ++ b)))) (x - Z.of_nat (List.length b))) as -> by congruence.
  rewrite R, P1, F1. apply numeral_of; auto. rewrite E; discriminate.
Qed.
(** Numerals are among the texts that count as numbers. *)
Lemma numeral_text : forall s v, numeral s v -> number_text s.
Proof.
  intros s v H. destruct H as [s neg a f b e x Sg A F X N]. exists s, (a ++ f), e. split; [now rewrite <- app_assoc|].
  split; [destruct Sg; cbn; auto|]. split.
  - split.
    + destruct F as [|ds F].
      * destruct a as [|c a]; [now destruct N|]. exists c. split; [now left|now inversion A].
      * destruct a as [|c a]; [destruct ds as [|c ds]; [now destruct N|]; exists c; split; [right; now left|now inversion F]|exists c; split; [now left|now inversion A]].
    + destruct F as [|ds F]; [left; now rewrite app_nil_r|right; exists a, ds; auto].
  - destruct X as [|c sg n ds C _ _ _]; [now left|right]. exists c, (sg ++ ds). auto.
Qed.

(** ** A function that rounds *)
Definition representable_b (v : Q) : bool := Z.abs (Qnum v) <? (2 ^ 54 - 1) * 2 ^ 970 * Zpos (Qden v).
Lemma representable_b_ok : forall v, representable_b v = true <-> representable v.
Proof. intros [n d]. unfold representable_b, representable, Qlt, Qabs, inject_Z; cbn [Qnum Qden]. rewrite Z.ltb_lt, Z.mul_1_r. reflexivity. Qed.
Lemma representable_eq : forall v w, (v == w)%Q -> representable v -> representable w.
Proof. intros v w E R. unfold representable in *. now rewrite <- E. Qed.
Lemma nearest_eq : forall v w f, (v == w)%Q -> nearest v f -> nearest w f.
Proof. intros v w f E [B N]. split; [exact B|]. intros g G. rewrite <- E. now apply N. Qed.
Definition decimal_float (s : bytes) : option spec_float :=
  match read_numeral s with
  | Some v => if representable_b v then Some (round64 (Qred v)) else None
  | None => None
  end.
Lemma decimal_float_rounds : rounds decimal_float.
Proof.
  constructor.
  - intros s v H R. unfold decimal_float. rewrite (read_numeral_complete _ _ H). pose proof R as B. apply representable_b_ok in B. rewrite B. eexists. split; [reflexivity|].
    apply (nearest_eq (Qred v)); [apply Qred_correct|]. apply round64_nearest. apply (representable_eq v); [symmetry; apply Qred_correct|exact R].
  - intros s v H R. unfold decimal_float. rewrite (read_numeral_complete _ _ H). destruct (representable_b v) eqn:B; [|reflexivity]. now apply representable_b_ok in B.
  - intros s t v w f g Hs Ht E. unfold decimal_float. rewrite (read_numeral_complete _ _ Hs), (read_numeral_complete _ _ Ht).
    destruct (representable_b v); [|discriminate]. destruct (representable_b w); [|discriminate]. intros F G. injection F as <-. injection G as <-.
    rewrite (Qred_complete _ _ E). reflexivity.
Qed.

(** ** Conditions *)
Section Conditions.
  Variable pf : bytes -> option spec_float.
  Hypothesis R : rounds pf.
  Lemma numeral_number : forall s v, numeral s v -> representable v -> exists f, number pf s f /\ nearest v f.
  Proof.
    intros s v H I. destruct (rounds_in pf R s v H I) as [f [P N]]. exists f. split; [|exact N].
    split; [now apply (numeral_text s v)|]. split; [exact P|]. now destruct N as [[F _] _].
  Qed.
  Lemma number_det : forall s x y, number pf s x -> number pf s y -> x = y.
  Proof. intros s x y [_ [X _]] [_ [Y _]]. congruence. Qed.
  Lemma lt_value : forall f g, binary64 f -> binary64 g -> num_lt f g <-> (float_value f < float_value g)%Q.
  Proof.
    intros f g F G. unfold num_lt. rewrite (compare_units f g F G), value_lt, <- Z.compare_lt_iff. split; congruence.
  Qed.
  Lemma eq_value : forall f g, binary64 f -> binary64 g -> num_eq f g <-> (float_value f == float_value g)%Q.
  Proof.
    intros f g F G. unfold num_eq. rewrite (compare_units f g F G), value_eq, <- Z.compare_eq_iff. split; congruence.
  Qed.
  Lemma le_value : forall f g, binary64 f -> binary64 g -> num_lt f g \/ num_eq f g <-> (float_value f <= float_value g)%Q.
  Proof. intros f g F G. rewrite (lt_value f g F G), (eq_value f g F G), Qle_lteq. reflexivity. Qed.
  (** The condition on the rounded numbers. *)
  Lemma holds_values : forall op s t v w f g, numeral s v -> numeral t w -> number pf s f -> number pf t g -> nearest v f -> nearest w g ->
    strict op \/ weak op -> (holds pf op (Some s) t <-> relation op (float_value f) (float_value g)).
  Proof.
    intros op s t v w f g Hs Ht Nf Ng [Bf _] [Bg _] O. destruct O as [[->| ->]|[->| ->]]; cbn [relation].
    - rewrite <- lt_value by assumption. split; [intros K; inversion K as [| | |? ? x y X Y L| | | | |]; subst|intros L; now apply (H_lt pf s t f g)].
      now rewrite (number_det _ _ _ Nf X), (number_det _ _ _ Ng Y).
    - rewrite <- lt_value by assumption. split; [intros K; inversion K as [| | | |? ? x y X Y L| | | |]; subst|intros L; now apply (H_gt pf s t f g)].
      now rewrite (number_det _ _ _ Nf X), (number_det _ _ _ Ng Y).
    - rewrite <- le_value by assumption. split; [intros K; inversion K as [| | | | |? ? x y X Y L| | |]; subst|intros L; now apply (H_le pf s t f g)].
      now rewrite (number_det _ _ _ Nf X), (number_det _ _ _ Ng Y).
    - rewrite <- le_value by assumption. split; [intros K; inversion K as [| | | | | |? ? x y X Y L| |]; subst|intros L; now apply (H_ge pf s t f g)].
      now rewrite (number_det _ _ _ Nf X), (number_det _ _ _ Ng Y).
  Qed.
  Lemma mono : forall s t v w f g, numeral s v -> numeral t w -> pf s = Some f -> pf t = Some g -> nearest v f -> nearest w g ->
    (v <= w)%Q -> (float_value f <= float_value g)%Q.
  Proof.
    intros s t v w f g Hs Ht Pf Pg Nf Ng L. apply Qle_lteq in L. destruct L as [L|E]; [now apply (nearest_mono v w)|].
    rewrite (rounds_same pf R s t v w f g); auto. apply Qle_refl.
  Qed.
  Lemma separated_lt : forall v w f g, nearest v f -> nearest w g -> separated v w -> (float_value f < float_value g)%Q.
  Proof.
    intros v w f g Nf Ng [x [y [X [Y [L1 [L2 L3]]]]]]. pose proof (nearest_above v x f Nf X L1). pose proof (nearest_below w y g Ng Y L3). lra.
  Qed.
  Lemma ordered_out : forall op s t v w, numeral s v -> numeral t w -> strict op \/ weak op -> ~ (representable v /\ representable w) -> ~ holds pf op (Some s) t.
  Proof.
    intros op s t v w Hs Ht O N K. apply N. split.
    - destruct (representable_b v) eqn:B; [now apply representable_b_ok|exfalso]. assert (~ representable v) as NR by (intros Z1; apply representable_b_ok in Z1; congruence).
      pose proof (rounds_out pf R s v Hs NR) as P. destruct O as [[->| ->]|[->| ->]]; inversion K as [| | |? ? x y [_ [X _]] _ _|? ? x y [_ [X _]] _ _|? ? x y [_ [X _]] _ _|? ? x y [_ [X _]] _ _| |]; congruence.
    - destruct (representable_b w) eqn:B; [now apply representable_b_ok|exfalso]. assert (~ representable w) as NR by (intros Z1; apply representable_b_ok in Z1; congruence).
      pose proof (rounds_out pf R t w Ht NR) as P. destruct O as [[->| ->]|[->| ->]]; inversion K as [| | |? ? x y _ [_ [X _]] _|? ? x y _ [_ [X _]] _|? ? x y _ [_ [X _]] _|? ? x y _ [_ [X _]] _| |]; congruence.
  Qed.
  (** What the four comparisons say about the values. *)
  Lemma ordered_values : forall op s t v w, numeral s v -> numeral t w -> representable v -> representable w ->
    (strict op -> holds pf op (Some s) t -> relation op v w) /\
    (weak op -> relation op v w -> holds pf op (Some s) t) /\
    (separated v w \/ separated w v -> strict op \/ weak op -> (holds pf op (Some s) t <-> relation op v w)) /\
    ((v == w)%Q -> strict op \/ weak op -> (holds pf op (Some s) t <-> relation op v w)).
  Proof.
    intros op s t v w Hs Ht Rv Rw. destruct (numeral_number s v Hs Rv) as [f [Nf Vf]]. destruct (numeral_number t w Ht Rw) as [g [Ng Vg]].
    pose proof (fun O => holds_values op s t v w f g Hs Ht Nf Ng Vf Vg O) as HV.
    pose proof Nf as [_ [Pf _]]. pose proof Ng as [_ [Pg _]].
    pose proof (mono s t v w f g Hs Ht Pf Pg Vf Vg) as M1. pose proof (mono t s w v g f Ht Hs Pg Pf Vg Vf) as M2.
    split; [|split; [|split]].
    - intros O K. apply HV in K; [|now left]. destruct O as [-> | ->]; cbn [relation] in *.
      + destruct (Qlt_le_dec v w) as [L|L]; [exact L|]. pose proof (M2 L). lra.
      + destruct (Qlt_le_dec w v) as [L|L]; [exact L|]. pose proof (M1 L). lra.
    - intros O K. apply HV; [now right|]. destruct O as [-> | ->]; cbn [relation] in *; auto.
    - intros Sp O. rewrite (HV O). destruct Sp as [Sp|Sp].
      + pose proof (separated_lt v w f g Vf Vg Sp) as L. assert (v < w)%Q by (destruct Sp as [x [y [_ [_ [? [? ?]]]]]]; lra).
        destruct O as [[->| ->]|[->| ->]]; cbn [relation]; split; intros; lra.
      + pose proof (separated_lt w v g f Vg Vf Sp) as L. assert (w < v)%Q by (destruct Sp as [x [y [_ [_ [? [? ?]]]]]]; lra).
        destruct O as [[->| ->]|[->| ->]]; cbn [relation]; split; intros; lra.
    - intros E O. rewrite (HV O). assert (v <= w)%Q as A by lra. assert (w <= v)%Q as B by lra. pose proof (M1 A). pose proof (M2 B).
      destruct O as [[->| ->]|[->| ->]]; cbn [relation]; split; intros; lra.
  Qed.
  Lemma ordered_exact : forall op s t v w, numeral s v -> numeral t w -> representable v -> representable w -> exact v -> exact w -> strict op \/ weak op ->
    (holds pf op (Some s) t <-> relation op v w).
  Proof.
    intros op s t v w Hs Ht Rv Rw Xv Xw O. pose proof (ordered_values op s t v w Hs Ht Rv Rw) as [_ [_ [Sp Eq]]].
    destruct (Qlt_le_dec v w) as [L|L]; [apply Sp; [left|exact O]; exists v, w; repeat split; auto using Qle_refl|].
    apply Qle_lteq in L. destruct L as [L|L]; [apply Sp; [right|exact O]; exists w, v; repeat split; auto using Qle_refl|].
    apply Eq; [now symmetry|exact O].
  Qed.
  Lemma ordered_short : forall op s t v w k, numeral s v -> numeral t w -> short k v -> short k w -> strict op \/ weak op ->
    (holds pf op (Some s) t <-> relation op v w).
  Proof.
    intros op s t v w k Hs Ht Sv Sw O. pose proof (ordered_values op s t v w Hs Ht (short_representable _ _ Sv) (short_representable _ _ Sw)) as [_ [_ [Sp Eq]]].
    destruct (Qlt_le_dec v w) as [L|L]; [apply Sp; [left; now apply (short_separated k)|exact O]|].
    apply Qle_lteq in L. destruct L as [L|L]; [apply Sp; [right; now apply (short_separated k)|exact O]|].
    apply Eq; [now symmetry|exact O].
  Qed.
End Conditions.
