(** Characters and white space: proofs. *)
From Coq Require Import List Ascii String NArith ZArith Bool Lia Permutation.
From Verif Require Import GoStr SpecUnicode ProofBase.
Import ListNotations.
Open Scope N_scope.

Lemma code_byte : forall n, n < 256 -> code (byte_of n) = n.
Proof. intros n H. unfold code, byte_of. now apply N_ascii_embedding. Qed.
Lemma byte_code : forall c, byte_of (code c) = c.
Proof. intros c. unfold code, byte_of. apply ascii_N_embedding. Qed.
Lemma code_lt : forall c, code c < 256.
Proof. intros c. unfold code. apply N_ascii_bounded. Qed.
Lemma byte_eq : forall n c, n < 256 -> code c = n -> c = byte_of n.
Proof. intros n c H <-. now rewrite byte_code. Qed.

Lemma range_true : forall lo hi c, in_range lo hi c = true <-> lo <= code c /\ code c <= hi.
Proof. intros. unfold in_range. rewrite andb_true_iff, !N.leb_le. tauto. Qed.
Lemma range_false : forall lo hi c, in_range lo hi c = false <-> code c < lo \/ hi < code c.
Proof. intros. unfold in_range. rewrite andb_false_iff, !N.leb_gt. tauto. Qed.

(** ** Decoding *)
Lemma split6 : forall x y, y < 64 -> (x * 64 + y) / 64 = x /\ (x * 64 + y) mod 64 = y.
Proof.
  intros x y H. rewrite N.div_add_l by lia. rewrite N.div_small by lia. split; [lia|]. rewrite N.add_comm, N.mod_add by lia. now apply N.mod_small.
Qed.
Lemma join6 : forall r, r = (r / 64) * 64 + r mod 64 /\ r mod 64 < 64.
Proof. intros r. split; [rewrite (N.mul_comm (r / 64) 64); apply N.div_mod; lia|apply N.mod_lt; lia]. Qed.
Lemma div12 : forall r, r / 4096 = r / 64 / 64.
Proof. intros. rewrite N.div_div by lia. reflexivity. Qed.
Lemma div18 : forall r, r / 262144 = r / 64 / 64 / 64.
Proof. intros. rewrite !N.div_div by lia. reflexivity. Qed.

Lemma utf8_one : forall r, r < 128 -> utf8 r = [byte_of r].
Proof. intros r H. unfold utf8. now rewrite (proj2 (N.ltb_lt _ _) H). Qed.
Lemma utf8_two : forall x y, 2 <= x -> x < 32 -> y < 64 -> utf8 (x * 64 + y) = [byte_of (192 + x); byte_of (128 + y)].
Proof.
  intros x y H1 H2 H3. destruct (split6 x y H3) as [E1 E2]. unfold utf8. rewrite (proj2 (N.ltb_ge _ 128)), (proj2 (N.ltb_lt _ 2048)) by lia. now rewrite E1, E2.
Qed.
Lemma utf8_three : forall x y z, (1 <= x \/ 32 <= y) -> x < 16 -> y < 64 -> z < 64 -> utf8 ((x * 64 + y) * 64 + z) = [byte_of (224 + x); byte_of (128 + y); byte_of (128 + z)].
Proof.
  intros x y z H0 H1 H2 H3. destruct (split6 (x * 64 + y) z H3) as [E1 E2]. destruct (split6 x y H2) as [E3 E4]. unfold utf8.
  rewrite (proj2 (N.ltb_ge _ 128)), (proj2 (N.ltb_ge _ 2048)), (proj2 (N.ltb_lt _ 65536)) by lia. rewrite div12, E1, E2, E3, E4. reflexivity.
Qed.
Lemma utf8_four : forall w x y z, (1 <= w \/ 16 <= x) -> w < 8 -> x < 64 -> y < 64 -> z < 64 ->
  utf8 (((w * 64 + x) * 64 + y) * 64 + z) = [byte_of (240 + w); byte_of (128 + x); byte_of (128 + y); byte_of (128 + z)].
Proof.
  intros w x y z H0 H1 H2 H3 H4. destruct (split6 ((w * 64 + x) * 64 + y) z H4) as [E1 E2]. destruct (split6 (w * 64 + x) y H3) as [E3 E4]. destruct (split6 w x H2) as [E5 E6]. unfold utf8.
  rewrite (proj2 (N.ltb_ge _ 128)), (proj2 (N.ltb_ge _ 2048)), (proj2 (N.ltb_ge _ 65536)) by lia. rewrite div12, div18, E1, E2, E3, E4, E5, E6. reflexivity.
Qed.
(** Every scalar value is of one of these forms. *)
Inductive form : N -> Prop :=
| form1 : forall r, r < 128 -> form r
| form2 : forall x y, 2 <= x -> x < 32 -> y < 64 -> form (x * 64 + y)
| form3 : forall x y z, (1 <= x \/ 32 <= y) -> x < 16 -> y < 64 -> z < 64 -> (x = 13 -> y < 32) -> form ((x * 64 + y) * 64 + z)
| form4 : forall w x y z, (1 <= w \/ 16 <= x) -> w < 5 -> (w = 4 -> x < 16) -> x < 64 -> y < 64 -> z < 64 -> form (((w * 64 + x) * 64 + y) * 64 + z).
Lemma scalar_form : forall r, scalar r -> form r.
Proof.
  intros r H. destruct (join6 r) as [J1 L1]. destruct (join6 (r / 64)) as [J2 L2]. destruct (join6 (r / 64 / 64)) as [J3 L3].
  set (z := r mod 64) in *. set (y := (r / 64) mod 64) in *. set (x := (r / 64 / 64) mod 64) in *. set (w := r / 64 / 64 / 64) in *.
  assert (R : r = ((w * 64 + x) * 64 + y) * 64 + z) by (rewrite J1, J2, J3; reflexivity). unfold scalar in H.
  destruct (N.lt_ge_cases r 128) as [Q1|Q1]; [now apply form1|].
  destruct (N.lt_ge_cases r 2048) as [Q2|Q2]; [rewrite R; replace ((w * 64 + x) * 64 + y) with y by lia; apply form2; lia|].
  destruct (N.lt_ge_cases r 65536) as [Q3|Q3]; [rewrite R; replace (w * 64 + x) with x by lia; apply form3; lia|].
  rewrite R. apply form4; lia.
Qed.
Ltac codes := repeat rewrite code_byte by lia.
Lemma range_in : forall lo hi n, n < 256 -> lo <= n -> n <= hi -> in_range lo hi (byte_of n) = true.
Proof. intros. apply range_true. rewrite code_byte by lia. lia. Qed.
Lemma range_out : forall lo hi n, n < 256 -> n < lo \/ hi < n -> in_range lo hi (byte_of n) = false.
Proof. intros. apply range_false. rewrite code_byte by lia. lia. Qed.
Lemma decode_utf8 : forall r u, scalar r -> exists c t, utf8 r = c :: t /\ decode_rune c (t ++ u) = (r, u).
Proof.
  intros r u H. destruct (scalar_form r H) as [r L|x y H1 H2 H3|x y z H1 H2 H3 H4 H5|w x y z H1 H2 H3 H4 H5 H6].
  - rewrite utf8_one by auto. exists (byte_of r), []. split; auto. unfold decode_rune. rewrite code_byte by lia. now rewrite (proj2 (N.ltb_lt _ _) L).
  - rewrite utf8_two by auto. eexists _, _. split; [reflexivity|]. unfold decode_rune, cont, low6. codes. rewrite (proj2 (N.ltb_ge _ 128)) by lia.
    rewrite (range_in 194 223) by lia. cbn [app]. rewrite (range_in 128 191) by lia. codes. f_equal. lia.
  - rewrite utf8_three by auto. eexists _, _. split; [reflexivity|]. unfold decode_rune, cont, low6. codes. rewrite (proj2 (N.ltb_ge _ 128)) by lia.
    rewrite (range_out 194 223), (range_in 224 239) by lia. cbn [app]. rewrite (range_in 128 191 (128 + z)) by lia.
    assert (K : (if 224 + x =? 224 then in_range 160 191 (byte_of (128 + y)) else if 224 + x =? 237 then in_range 128 159 (byte_of (128 + y)) else in_range 128 191 (byte_of (128 + y))) = true).
    { destruct (224 + x =? 224) eqn:Q1; [apply N.eqb_eq in Q1; apply range_in; lia|]. destruct (224 + x =? 237) eqn:Q2; [apply N.eqb_eq in Q2; apply range_in; lia|apply range_in; lia]. }
    rewrite K. cbn [andb]. codes. f_equal. lia.
  - rewrite utf8_four by lia. eexists _, _. split; [reflexivity|]. unfold decode_rune, cont, low6. codes. rewrite (proj2 (N.ltb_ge _ 128)) by lia.
    rewrite (range_out 194 223), (range_out 224 239), (range_in 240 244) by lia. cbn [app]. rewrite (range_in 128 191 (128 + y)), (range_in 128 191 (128 + z)) by lia.
    assert (K : (if 240 + w =? 240 then in_range 144 191 (byte_of (128 + x)) else if 240 + w =? 244 then in_range 128 143 (byte_of (128 + x)) else in_range 128 191 (byte_of (128 + x))) = true).
    { destruct (240 + w =? 240) eqn:Q1; [apply N.eqb_eq in Q1; apply range_in; lia|]. destruct (240 + w =? 244) eqn:Q2; [apply N.eqb_eq in Q2; apply range_in; lia|apply range_in; lia]. }
    rewrite K. cbn [andb]. codes. f_equal. lia.
Qed.
Lemma decode_cases : forall c s r s', decode_rune c s = (r, s') -> (scalar r /\ c :: s = utf8 r ++ s') \/ (r = 65533 /\ s' = s).
Proof.
  intros c s r s' H. unfold decode_rune in H. pose proof (code_lt c) as LC.
  destruct (code c <? 128) eqn:Q1.
  { apply N.ltb_lt in Q1. injection H as <- <-. left. split; [left; lia|]. rewrite utf8_one by auto. now rewrite byte_code. }
  apply N.ltb_ge in Q1.
  destruct (in_range 194 223 c) eqn:R2.
  { apply range_true in R2. destruct s as [|c1 s1]; [injection H as <- <-; auto|]. destruct (cont c1) eqn:C1; [|injection H as <- <-; auto].
    apply range_true in C1. injection H as <- <-. unfold low6. left. split; [left; lia|]. rewrite utf8_two by lia. cbn [app]. repeat f_equal; apply byte_eq; lia. }
  apply range_false in R2.
  destruct (in_range 224 239 c) eqn:R3.
  { apply range_true in R3. destruct s as [|c1 [|c2 s2]]; [injection H as <- <-; auto|injection H as <- <-; auto|].
    match type of H with (if ?b && cont c2 then _ else _) = _ => destruct b eqn:O1 end; [|injection H as <- <-; auto]. destruct (cont c2) eqn:C2; [|injection H as <- <-; auto]. cbn [andb] in H.
    apply range_true in C2. injection H as <- <-. unfold low6. left.
    assert (B : 128 <= code c1 /\ code c1 <= 191 /\ (code c = 224 -> 160 <= code c1) /\ (code c = 237 -> code c1 <= 159)).
    { destruct (code c =? 224) eqn:K1; [apply N.eqb_eq in K1; apply range_true in O1; lia|]. apply N.eqb_neq in K1. destruct (code c =? 237) eqn:K2; [apply N.eqb_eq in K2; apply range_true in O1; lia|]. apply N.eqb_neq in K2. apply range_true in O1. lia. }
    replace ((code c - 224) * 4096 + (code c1 - 128) * 64 + (code c2 - 128)) with (((code c - 224) * 64 + (code c1 - 128)) * 64 + (code c2 - 128)) by lia.
    split; [unfold scalar; destruct (N.lt_ge_cases (code c) 238); [left|right]; lia|]. rewrite utf8_three by lia. cbn [app]. repeat f_equal; apply byte_eq; lia. }
  apply range_false in R3.
  destruct (in_range 240 244 c) eqn:R4; [|injection H as <- <-; auto].
  apply range_true in R4. destruct s as [|c1 [|c2 [|c3 s3]]]; [injection H as <- <-; auto|injection H as <- <-; auto|injection H as <- <-; auto|].
  match type of H with (if ?b && _ && _ then _ else _) = _ => destruct b eqn:O1 end; [|injection H as <- <-; auto]. destruct (cont c2) eqn:C2; [|injection H as <- <-; auto]. destruct (cont c3) eqn:C3; [|injection H as <- <-; auto]. cbn [andb] in H.
  apply range_true in C2. apply range_true in C3. injection H as <- <-. unfold low6. left.
  assert (B : 128 <= code c1 /\ code c1 <= 191 /\ (code c = 240 -> 144 <= code c1) /\ (code c = 244 -> code c1 <= 143)).
  { destruct (code c =? 240) eqn:K1; [apply N.eqb_eq in K1; apply range_true in O1; lia|]. apply N.eqb_neq in K1. destruct (code c =? 244) eqn:K2; [apply N.eqb_eq in K2; apply range_true in O1; lia|]. apply N.eqb_neq in K2. apply range_true in O1. lia. }
  replace ((code c - 240) * 262144 + (code c1 - 128) * 4096 + (code c2 - 128) * 64 + (code c3 - 128)) with ((((code c - 240) * 64 + (code c1 - 128)) * 64 + (code c2 - 128)) * 64 + (code c3 - 128)) by lia.
  split; [right; lia|]. rewrite utf8_four by lia. cbn [app]. repeat f_equal; apply byte_eq; lia.
Qed.
Lemma decode_shorter : forall c s r s', decode_rune c s = (r, s') -> (List.length s' <= List.length s)%nat.
Proof.
  intros c s r s' H. destruct (decode_cases _ _ _ _ H) as [[S Q]|[_ ->]]; [|lia]. apply (f_equal (@List.length ascii)) in Q. rewrite app_length in Q. cbn [List.length] in Q.
  destruct (decode_utf8 r [] S) as (c' & t & U & _). rewrite U in Q. cbn [List.length] in Q. lia.
Qed.
Lemma no_char : forall c s r s', decode_rune c s = (r, s') -> r = 65533 -> s' = s -> forall r' u, scalar r' -> c :: s <> utf8 r' ++ u.
Proof.
  intros c s r s' H -> -> r' u S Q. destruct (decode_utf8 r' u S) as (c' & t & U & D). rewrite U in Q. cbn [app] in Q. injection Q as -> ->. rewrite H in D. injection D as <- D.
  assert (U3 : utf8 65533 = [byte_of 239; byte_of 191; byte_of 189]) by (vm_compute; reflexivity). rewrite U3 in U. injection U as _ <-. apply (f_equal (@List.length ascii)) in D. rewrite app_length in D. cbn [List.length] in D. lia.
Qed.
Lemma runes_read : forall n s, (List.length s <= n)%nat -> reads_chars s (runes_fuel n s).
Proof.
  induction n as [|n IH]; intros s L; [destruct s; [constructor|cbn [List.length] in L; lia]|]. destruct s as [|c s]; [constructor|]. cbn [runes_fuel]. cbn [List.length] in L.
  destruct (decode_rune c s) as [r s2] eqn:D. pose proof (decode_shorter _ _ _ _ D) as LS. assert (R2 : reads_chars s2 (runes_fuel n s2)) by (apply IH; lia).
  destruct (decode_cases _ _ _ _ D) as [[S Q]|[Q1 Q2]]; [rewrite Q; now apply rc_char|]. subst s2. rewrite Q1. apply rc_byte; auto. eapply no_char; eauto.
Qed.
Lemma chars_fun : forall s rs, reads_chars s rs -> forall rs', reads_chars s rs' -> rs' = rs.
Proof.
  induction 1 as [|r s rs S R IH|c s rs N R IH]; intros rs' H.
  - inversion H as [|r s rs S R Q|]; subst; [reflexivity|]. destruct (decode_utf8 r [] S) as (c & t & U & _). rewrite U in Q. discriminate.
  - destruct (decode_utf8 r s S) as (c & t & U & D). rewrite U in H. cbn [app] in H. inversion H as [|r' s' rs0 S' R' Q|c' s' rs0 N' R' Q]; subst.
    + destruct (decode_utf8 r' s' S') as (c' & t' & U' & D'). rewrite U' in Q. cbn [app] in Q. injection Q as -> Q. rewrite Q, D in D'. injection D' as <- <-. f_equal. now apply IH.
    + exfalso. apply (N' r s S). now rewrite U.
  - inversion H as [|r' s' rs0 S' R' Q|c' s' rs0 N' R' Q]; subst; [exfalso; apply (N r' s' S'); auto|]. f_equal. now apply IH.
Qed.
Lemma runes_iff : forall s rs, runes s = rs <-> reads_chars s rs.
Proof.
  intros s rs. split.
  - intros <-. apply runes_read. apply le_n.
  - intros H. eapply chars_fun; [exact H|]. apply runes_read. apply le_n.
Qed.
Lemma utf8s_read : forall rs, Forall scalar rs -> reads_chars (utf8s rs) rs.
Proof. induction 1; [constructor|]. cbn [utf8s flat_map]. now apply rc_char. Qed.
Lemma runes_utf8s : forall rs, Forall scalar rs -> runes (utf8s rs) = rs.
Proof. intros. apply runes_iff. now apply utf8s_read. Qed.
Lemma encode_utf8 : forall r, scalar r -> encode_rune r = utf8 r.
Proof.
  intros r H. unfold encode_rune, utf8, byte_of. destruct (r <? 128); auto. destruct (r <? 2048); auto. unfold scalar in H. destruct (r <? 65536) eqn:Q.
  - apply N.ltb_lt in Q. destruct ((55296 <=? r) && (r <=? 57343)) eqn:K; auto. apply andb_true_iff in K. rewrite !N.leb_le in K. lia.
  - apply N.ltb_ge in Q. rewrite (proj2 (N.leb_le r 1114111)) by lia. reflexivity.
Qed.
Lemma encode_other : forall r, ~ scalar r -> encode_rune r = utf8 65533.
Proof.
  intros r H. unfold scalar in H. assert (U3 : utf8 65533 = [byte_of 239; byte_of 191; byte_of 189]) by (vm_compute; reflexivity). rewrite U3. unfold encode_rune, byte_of.
  rewrite (proj2 (N.ltb_ge r 128)), (proj2 (N.ltb_ge r 2048)) by lia. destruct (r <? 65536) eqn:Q.
  - apply N.ltb_lt in Q. rewrite (proj2 (N.leb_le 55296 r)), (proj2 (N.leb_le r 57343)) by lia. reflexivity.
  - apply N.ltb_ge in Q. rewrite (proj2 (N.leb_gt r 1114111)) by lia. reflexivity.
Qed.

(** ** White space *)
Lemma white_utf8 : map utf8 white_space =
  map (fun l => map byte_of l) [[9]; [10]; [11]; [12]; [13]; [32]; [194; 133]; [194; 160]; [225; 154; 128]; [226; 128; 128]; [226; 128; 129]; [226; 128; 130]; [226; 128; 131]; [226; 128; 132];
    [226; 128; 133]; [226; 128; 134]; [226; 128; 135]; [226; 128; 136]; [226; 128; 137]; [226; 128; 138]; [226; 128; 168]; [226; 128; 169]; [226; 128; 175]; [226; 129; 159]; [227; 128; 128]].
Proof. vm_compute. reflexivity. Qed.
Ltac each_white H := cbn [In white_space] in H; repeat (destruct H as [H|H]; [subst|]); [..|contradiction].

Lemma white_skip : forall r s, In r white_space -> trim_left (utf8 r ++ s) = trim_left s.
Proof. intros r s H. each_white H; reflexivity. Qed.
Lemma white_skip_rev : forall r s, In r white_space -> trim_left_rev (rev (utf8 r) ++ s) = trim_left_rev s.
Proof. intros r s H. each_white H; reflexivity. Qed.
Lemma spaces_skip : forall w s, spaces_only w -> trim_left (w ++ s) = trim_left s.
Proof. intros w s H. induction H as [|r w I H IH]; [reflexivity|]. rewrite <- app_assoc, white_skip by auto. exact IH. Qed.
Lemma spaces_app : forall v w, spaces_only v -> spaces_only w -> spaces_only (v ++ w).
Proof. intros v w H. induction H as [|r v I H IH]; intros K; [exact K|]. rewrite <- app_assoc. constructor; auto. Qed.
Lemma spaces_skip_rev : forall w s, spaces_only w -> trim_left_rev (rev w ++ s) = trim_left_rev s.
Proof. intros w s H. revert s. induction H as [|r w I H IH]; intros s; [reflexivity|]. rewrite rev_app_distr, <- app_assoc, IH. now apply white_skip_rev. Qed.

(** The first step of trimming finds a white character, or there is none. *)
Lemma in_white : forall r l, utf8 r = l -> In r white_space -> forall s, starts_white (l ++ s).
Proof. intros r l <- H s. exists r, s. auto. Qed.
Lemma ascii_white : forall a, ascii_space a = true -> exists r, In r white_space /\ utf8 r = [a].
Proof.
  intros a H. exists (code a). assert (B : In (code a) white_space /\ code a < 128).
  { unfold ascii_space in H. apply orb_true_iff in H. rewrite range_true, N.eqb_eq in H. split; [|lia]. cbn [In white_space].
    assert (K : code a = 9 \/ code a = 10 \/ code a = 11 \/ code a = 12 \/ code a = 13 \/ code a = 32) by lia. intuition auto. }
  split; [apply B|]. rewrite utf8_one by apply B. now rewrite byte_code.
Qed.
Lemma two_white : forall a b, uni_space2 a b = true -> exists r, In r white_space /\ utf8 r = [a; b].
Proof.
  intros a b H. unfold uni_space2 in H. apply andb_true_iff in H. rewrite orb_true_iff, !N.eqb_eq in H. destruct H as [HA HB]. apply byte_eq in HA; [|lia]. subst a.
  destruct HB as [HB|HB]; (apply byte_eq in HB; [|lia]); subst b; [exists 133|exists 160]; split; try reflexivity; cbn [In white_space]; intuition.
Qed.
Lemma three_white : forall a b c, uni_space3 a b c = true -> exists r, In r white_space /\ utf8 r = [a; b; c].
Proof.
  intros a b c H. unfold uni_space3 in H. rewrite !orb_true_iff, !andb_true_iff, !orb_true_iff, !andb_true_iff, !N.eqb_eq, !N.leb_le in H.
  assert (G : forall x y z r, code a = x -> code b = y -> code c = z -> x < 256 -> y < 256 -> z < 256 -> In r white_space -> utf8 r = [byte_of x; byte_of y; byte_of z] -> exists r, In r white_space /\ utf8 r = [a; b; c]).
  { intros x y z r HA HB HC Lx Ly Lz I U. exists r. split; auto. rewrite U, (byte_eq x a), (byte_eq y b), (byte_eq z c); auto. }
  destruct H as [[[H|H]|H]|H].
  - eapply (G 225 154 128 5760); try lia; [cbn [In white_space]; tauto|reflexivity].
  - destruct H as [[HA HB] HC].
    assert (K : code c = 128 \/ code c = 129 \/ code c = 130 \/ code c = 131 \/ code c = 132 \/ code c = 133 \/ code c = 134 \/ code c = 135 \/ code c = 136 \/ code c = 137 \/ code c = 138 \/ code c = 168 \/ code c = 169 \/ code c = 175) by lia.
    repeat match type of K with _ \/ _ => destruct K as [K|K] end;
    [eapply (G 226 128 128 8192)|eapply (G 226 128 129 8193)|eapply (G 226 128 130 8194)|eapply (G 226 128 131 8195)|eapply (G 226 128 132 8196)|eapply (G 226 128 133 8197)|eapply (G 226 128 134 8198)
    |eapply (G 226 128 135 8199)|eapply (G 226 128 136 8200)|eapply (G 226 128 137 8201)|eapply (G 226 128 138 8202)|eapply (G 226 128 168 8232)|eapply (G 226 128 169 8233)|eapply (G 226 128 175 8239)]; try lia; try reflexivity; cbn [In white_space]; tauto.
  - eapply (G 226 129 159 8287); try lia; [cbn [In white_space]; tauto|reflexivity].
  - eapply (G 227 128 128 12288); try lia; [cbn [In white_space]; tauto|reflexivity].
Qed.
Lemma trim_left_ok : forall n s, (List.length s <= n)%nat -> exists w, spaces_only w /\ s = w ++ trim_left s /\ (trim_left s = [] \/ ~ starts_white (trim_left s)).
Proof.
  assert (SH : forall s a s1, s = a :: s1 -> ascii_space a = false -> (forall b s2, s1 = b :: s2 -> uni_space2 a b = false /\ forall c s3, s2 = c :: s3 -> uni_space3 a b c = false) -> ~ starts_white s).
  { intros s a s1 -> NA NB (r & u & I & Q). each_white I; cbv -[app] in Q; cbn [app] in Q; injection Q as -> Q; try (vm_compute in NA; discriminate NA);
      destruct (NB _ _ Q) as [N2 N3]; try (vm_compute in N2; discriminate N2); specialize (N3 _ _ eq_refl); vm_compute in N3; discriminate N3. }
  induction n as [|n IH]; intros s L.
  - destruct s; [exists []; split; [constructor|]; split; [reflexivity|now left]|cbn [List.length] in L; lia].
  - destruct s as [|a s1]; [exists []; split; [constructor|]; split; [reflexivity|now left]|]. cbn [List.length] in L. cbn [trim_left]. destruct (ascii_space a) eqn:A1.
    + destruct (ascii_white a A1) as (r & I & U). destruct (IH s1) as (w & SW & Q & ST); [lia|]. exists (utf8 r ++ w). split; [now constructor|]. split; [|exact ST]. rewrite U. cbn [app]. now rewrite <- Q.
    + destruct s1 as [|b s2]; [exists []; split; [constructor|]; split; [reflexivity|]; right; eapply SH; eauto; discriminate|].
      destruct (uni_space2 a b) eqn:A2.
      * destruct (two_white a b A2) as (r & I & U). destruct (IH s2) as (w & SW & Q & ST); [cbn [List.length] in L; lia|]. exists (utf8 r ++ w). split; [now constructor|]. split; [|exact ST]. rewrite U. cbn [app]. now rewrite <- Q.
      * destruct s2 as [|c s3].
        -- exists []. split; [constructor|]. split; [reflexivity|]. right. eapply SH; eauto. intros b' s2 Q. injection Q as <- <-. split; auto. discriminate.
        -- destruct (uni_space3 a b c) eqn:A3.
           ++ destruct (three_white a b c A3) as (r & I & U). destruct (IH s3) as (w & SW & Q & ST); [cbn [List.length] in L; lia|]. exists (utf8 r ++ w). split; [now constructor|]. split; [|exact ST]. rewrite U. cbn [app]. now rewrite <- Q.
           ++ exists []. split; [constructor|]. split; [reflexivity|]. right. eapply SH; eauto. intros b' s2' Q. injection Q as <- <-. split; auto. intros c' s3' Q. injection Q as <- <-. exact A3.
Qed.
Lemma trim_rev_ok : forall n s, (List.length s <= n)%nat -> exists w, spaces_only w /\ s = rev w ++ trim_left_rev s /\ (trim_left_rev s = [] \/ ~ ends_white (rev (trim_left_rev s))).
Proof.
  assert (SH : forall s a s1, s = a :: s1 -> ascii_space a = false -> (forall b s2, s1 = b :: s2 -> uni_space2 b a = false /\ forall c s3, s2 = c :: s3 -> uni_space3 c b a = false) -> ~ ends_white (rev s)).
  { intros s a s1 -> NA NB (r & u & I & Q). apply (f_equal (@rev ascii)) in Q. rewrite rev_involutive, rev_app_distr in Q.
    each_white I; cbv -[app rev] in Q; cbn [rev app] in Q; injection Q as -> Q; try (vm_compute in NA; discriminate NA);
      destruct (NB _ _ Q) as [N2 N3]; try (vm_compute in N2; discriminate N2); specialize (N3 _ _ eq_refl); vm_compute in N3; discriminate N3. }
  induction n as [|n IH]; intros s L.
  - destruct s; [exists []; split; [constructor|]; split; [reflexivity|now left]|cbn [List.length] in L; lia].
  - assert (STEP : forall r t, In r white_space -> s = rev (utf8 r) ++ t -> (List.length t <= n)%nat -> exists w, spaces_only w /\ s = rev w ++ trim_left_rev t /\ (trim_left_rev t = [] \/ ~ ends_white (rev (trim_left_rev t)))).
    { intros r t I -> LT. destruct (IH t LT) as (w & SW & Q & ST). exists (w ++ utf8 r). split; [apply spaces_app; auto; rewrite <- (app_nil_r (utf8 r)); constructor; auto; constructor|].
      split; [rewrite rev_app_distr, <- app_assoc; now rewrite <- Q|exact ST]. }
    destruct s as [|a s1]; [exists []; split; [constructor|]; split; [reflexivity|now left]|]. cbn [List.length] in L. cbn [trim_left_rev]. destruct (ascii_space a) eqn:A1.
    + destruct (ascii_white a A1) as (r & I & U). apply (STEP r s1 I); [now rewrite U|lia].
    + destruct s1 as [|b s2]; [exists []; split; [constructor|]; split; [reflexivity|]; right; eapply SH; eauto; discriminate|].
      destruct (uni_space2 b a) eqn:A2.
      * destruct (two_white b a A2) as (r & I & U). apply (STEP r s2 I); [now rewrite U|cbn [List.length] in L; lia].
      * destruct s2 as [|c s3].
        -- exists []. split; [constructor|]. split; [reflexivity|]. right. eapply SH; eauto. intros b' s2 Q. injection Q as <- <-. split; auto. discriminate.
        -- destruct (uni_space3 c b a) eqn:A3.
           ++ destruct (three_white c b a A3) as (r & I & U). apply (STEP r s3 I); [now rewrite U|cbn [List.length] in L; lia].
           ++ exists []. split; [constructor|]. split; [reflexivity|]. right. eapply SH; eauto. intros b' s2' Q. injection Q as <- <-. split; auto. intros c' s3' Q. injection Q as <- <-. exact A3.
Qed.
Lemma white_nonempty : forall r, In r white_space -> exists c t, utf8 r = c :: t.
Proof. intros r I. each_white I; eexists _, _; reflexivity. Qed.
Lemma nil_no_start : ~ starts_white [].
Proof. intros (r & u & I & Q). destruct (white_nonempty r I) as (c & t & U). rewrite U in Q. discriminate. Qed.
Lemma nil_no_end : ~ ends_white [].
Proof. intros (r & u & I & Q). destruct (white_nonempty r I) as (c & t & U). rewrite U in Q. symmetry in Q. apply app_eq_nil in Q as [_ Q]. discriminate. Qed.
Lemma no_start_stays : forall s, ~ starts_white s -> trim_left s = s.
Proof.
  intros s N. destruct (trim_left_ok _ s (le_n _)) as (w & SW & Q & _). destruct SW as [|r w I SW]; [now rewrite Q at 2|]. exfalso. apply N. exists r, (w ++ trim_left s). split; auto. now rewrite app_assoc.
Qed.
Lemma spaces_end : forall w, spaces_only w -> w = [] \/ exists v r, spaces_only v /\ In r white_space /\ w = v ++ utf8 r.
Proof.
  intros w H. induction H as [|r w I H IH]; [now left|]. right. destruct IH as [-> |(v & r' & SV & I' & ->)].
  - exists [], r. rewrite app_nil_r. split; [constructor|auto].
  - exists (utf8 r ++ v), r'. rewrite <- app_assoc. repeat split; auto. now constructor.
Qed.
Lemma no_end_stays : forall s, ~ ends_white s -> trim_left_rev (rev s) = rev s.
Proof.
  intros s N. destruct (trim_rev_ok _ (rev s) (le_n _)) as (w & SW & Q & _). destruct (spaces_end w SW) as [-> |(v & r & SV & I & ->)]; [now rewrite Q at 2|].
  exfalso. apply N. destruct SV as [|r0 v I0 SV].
  - exists r. apply (f_equal (@rev ascii)) in Q. rewrite rev_involutive in Q. cbn [app] in Q. rewrite rev_app_distr, rev_involutive in Q. exists (rev (trim_left_rev (rev s))). auto.
  - exists r. apply (f_equal (@rev ascii)) in Q. rewrite rev_involutive, rev_app_distr, rev_involutive in Q. rewrite app_assoc in Q. eexists. split; [exact I|exact Q].
Qed.
(** A leading byte is not a continuation byte. *)
Lemma spaces_head : forall w c t, spaces_only w -> w = c :: t -> in_range 128 191 c = false.
Proof. intros w c t H Q. destruct H as [|r w I H]; [discriminate|]. each_white I; cbv -[app in_range] in Q; cbn [app] in Q; injection Q as <- _; vm_compute; reflexivity. Qed.
Lemma white_tail : forall r a t u, In r white_space -> utf8 r = a :: t ++ u -> u <> [] -> exists c v, u = c :: v /\ in_range 128 191 c = true.
Proof.
  intros r a t u I Q NU. destruct u as [|c v]; [contradiction|]. exists c, v. split; auto. assert (K : In c (tl (utf8 r))) by (rewrite Q; cbn [tl]; apply in_or_app; right; now left). clear - I K.
  each_white I; cbv -[in_range] in K; repeat (destruct K as [K|K]; [subst c; vm_compute; reflexivity|]); contradiction.
Qed.
Lemma start_stays : forall t w, t <> [] -> ~ starts_white t -> spaces_only w -> ~ starts_white (t ++ w).
Proof.
  intros t w NE NS SW (r & u & I & Q).
  assert (K : forall (x y z v : bytes), x ++ y = z ++ v -> (exists l, x = z ++ l /\ v = l ++ y) \/ (exists l, z = x ++ l /\ y = l ++ v)).
  { clear. induction x as [|c x IH]; intros y z v H; [right; exists z; auto|]. destruct z as [|c' z]; [left; exists (c :: x); auto|]. cbn [app] in H. injection H as <- H.
    destruct (IH _ _ _ H) as [(l & -> & ->)|(l & -> & ->)]; [left|right]; exists l; auto. }
  destruct (K _ _ _ _ Q) as [(l & -> & _)|(l & U & W)]; [apply NS; exists r, l; auto|]. destruct t as [|a t]; [contradiction|]. destruct l as [|c l].
  - rewrite app_nil_r in U. apply NS. exists r, []. split; auto. now rewrite app_nil_r.
  - cbn [app] in U. destruct (white_tail r a t (c :: l) I U ltac:(discriminate)) as (c' & v & QC & R). injection QC as <- <-. cbn [app] in W. rewrite (spaces_head w c _ SW W) in R. discriminate.
Qed.
Lemma trim_iff : forall s t, trim_space s = t <-> trimmed s t.
Proof.
  intros s t. split.
  - intros <-. unfold trim_space, trim_right. destruct (trim_left_ok _ s (le_n _)) as (w1 & S1 & Q1 & N1). destruct (trim_rev_ok _ (rev (trim_left s)) (le_n _)) as (w2 & S2 & Q2 & N2).
    set (y := trim_left_rev (rev (trim_left s))) in *. apply (f_equal (@rev ascii)) in Q2. rewrite rev_involutive, rev_app_distr, rev_involutive in Q2.
    split; [exists w1, w2; split; [now rewrite <- Q2|auto]|]. split.
    + intros (r & u & I & Q). destruct N1 as [N1|N1].
      * rewrite N1 in Q2. symmetry in Q2. apply app_eq_nil in Q2 as [Q2 _]. rewrite Q2 in Q. apply nil_no_start. exists r, u. auto.
      * apply N1. exists r, (u ++ w2). split; auto. rewrite Q2, Q, <- app_assoc. reflexivity.
    + destruct N2 as [-> |N2]; [apply nil_no_end|exact N2].
  - intros [(w1 & w2 & -> & S1 & S2) [NS NE]]. unfold trim_space, trim_right. rewrite spaces_skip by auto. destruct t as [|a t].
    + cbn [app]. rewrite <- (app_nil_r w2), spaces_skip by auto. reflexivity.
    + rewrite no_start_stays by (apply start_stays; auto; discriminate). rewrite rev_app_distr, spaces_skip_rev by auto. rewrite no_end_stays by auto. apply rev_involutive.
Qed.
