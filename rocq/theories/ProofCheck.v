(** Proofs about ModelCheck.v: erasing the count gives ModelValidate.v, and the count is at
    most nine per byte. *)
From Coq Require Import List Ascii String NArith ZArith Bool Lia.
From Verif Require Import GoStr ModelParser ModelValidate ProofScan ProofValid ModelCheck.
Import ListNotations.

Lemma c_skip_ws_ok : forall s r k, c_skip_ws s = (r, k) -> r = skip_ws s /\ k + len r = len s + 1 /\ len r <= len s.
Proof.
  induction s as [|c s IH]; intros r k H; cbn [c_skip_ws skip_ws] in *.
  - injection H as <- <-. cbn. auto.
  - destruct (is_ws c).
    + destruct (c_skip_ws s) as [r1 k1]. injection H as <- <-. destruct (IH _ _ eq_refl). cbn [List.length]. split; [tauto|lia].
    + injection H as <- <-. split; auto; lia.
Qed.
Lemma c_read_loop_ok : forall stop s n t r o k, c_read_loop stop n s = ((t, r, o), k) ->
  read_loop stop n s = (t, r, o) /\ k = len t + 1 /\ len t + len r = len s.
Proof.
  induction s as [|c s IH]; intros n t r o k H; cbn [c_read_loop read_loop] in *.
  - injection H as <- <- <- <-. cbn. auto.
  - destruct (MaxTokenSize <? n)%N; [injection H as <- <- <- <-; cbn; auto|].
    destruct (stop c); [injection H as <- <- <- <-; cbn; auto|].
    destruct (c_read_loop stop (n + 1) s) as [[[t1 r1] o1] k1] eqn:E. injection H as <- <- <- <-.
    destruct (IH _ _ _ _ _ E) as [A [B C]]. rewrite A. cbn [List.length]. repeat split; lia.
Qed.
Lemma c_read_name_ok : forall s n r k, c_read_name s = ((n, r), k) ->
  v_read_name s = (n, r) /\ len n + len r <= len s /\ k + len r = len s + 1.
Proof.
  intros s n r k H. unfold c_read_name, v_read_name, read_stop in *.
  destruct (c_read_loop _ 0 s) as [[[t r0] o] k0] eqn:E. destruct (c_read_loop_ok _ _ _ _ _ _ _ E) as [A [B C]].
  rewrite A. injection H as <- <- <-. split; auto. destruct o; cbn [List.length]; lia.
Qed.
(** A name that was read in full. *)
Lemma c_read_name_some : forall s c n r k, c_read_name s = ((c :: n, r), k) -> k = len (c :: n) + 1 /\ len (c :: n) + len r = len s.
Proof.
  intros s c n r k H. unfold c_read_name in H. destruct (c_read_loop _ 0 s) as [[[t r0] o] k0] eqn:E.
  destruct (c_read_loop_ok _ _ _ _ _ _ _ E) as [A [B C]]. injection H as H1 <- <-. destruct o; [discriminate|]. rewrite <- H1. lia.
Qed.
Lemma c_name_rest_ok : forall n b k, c_name_rest n = (b, k) -> b = forallb name_char n /\ 1 <= k <= len n + 1.
Proof.
  induction n as [|c n IH]; intros b k H; cbn [c_name_rest forallb] in *.
  - injection H as <- <-. cbn. auto.
  - destruct (name_char c).
    + destruct (c_name_rest n) as [b1 k1]. injection H as <- <-. destruct (IH _ _ eq_refl). cbn [List.length andb]. split; auto; lia.
    + injection H as <- <-. cbn [List.length]. split; auto; lia.
Qed.
Lemma c_validate_name_ok : forall n b k, c_validate_name n = (b, k) -> b = validate_name n /\ k <= len n + 1.
Proof.
  intros [|c n] b k H; cbn [c_validate_name validate_name] in *.
  - injection H as <- <-. cbn. auto.
  - destruct (name_start c).
    + destruct (c_name_rest n) as [b1 k1] eqn:E. injection H as <- <-. destruct (c_name_rest_ok _ _ _ E). cbn [List.length andb]. split; auto; lia.
    + injection H as <- <-. cbn [List.length]. split; auto; lia.
Qed.
Lemma c_skip_until_ok : forall d s x k, c_skip_until d s = (x, k) ->
  v_skip_until d s = x /\ match x with inl _ => k <= len s + 1 | inr r => k + len r = len s /\ len r < len s end.
Proof.
  intros d s x k H. unfold c_skip_until, v_skip_until in *. destruct (c_read_loop _ 0 s) as [[[t r] o] k0] eqn:E.
  destruct (c_read_loop_ok _ _ _ _ _ _ _ E) as [A [B C]]. rewrite A. injection H as <- <-. split; auto.
  destruct o; [lia|]. destruct r; cbn [List.length] in *; lia.
Qed.
Lemma c_comment_ok : forall s x k, c_comment s = (x, k) ->
  v_comment s = x /\ match x with inl _ => k <= 2 * len s + 1 | inr r => k + 2 * len r <= 2 * len s /\ len r < len s /\ len s <= k + len r end.
Proof.
  induction s as [|a s IH]; intros x k H; [injection H as <- <-; cbn; split; auto; lia|].
  destruct s as [|b s]; [injection H as <- <-; cbn; split; auto; lia|].
  destruct s as [|c s]; [injection H as <- <-; cbn; split; auto; lia|].
  cbn [c_comment v_comment] in H |- *. destruct (Ascii.eqb a "-" && Ascii.eqb b "-").
  - injection H as <- <-. destruct (Ascii.eqb c ">"); split; auto; cbn [List.length]; lia.
  - destruct (c_comment (b :: c :: s)) as [x1 k1] eqn:E.
    assert (Q : (x1, 2 + k1) = (x, k)) by (rewrite <- H; cbn [c_comment] in E; rewrite E; reflexivity).
    injection Q as <- <-. destruct (IH _ _ eq_refl) as [A B]. split; [exact A|]. destruct x1; cbn [List.length] in *; lia.
Qed.
Lemma c_cdata_ok : forall s x k, c_cdata s = (x, k) ->
  v_cdata s = x /\ match x with inl _ => k <= 3 * len s + 1 | inr r => k + 3 * len r <= 3 * len s /\ len r < len s /\ len s <= k + len r end.
Proof.
  induction s as [|a s IH]; intros x k H; [injection H as <- <-; cbn; split; auto; lia|].
  destruct s as [|b s]; [injection H as <- <-; cbn; split; auto; lia|].
  destruct s as [|c s]; [injection H as <- <-; cbn; split; auto; lia|].
  cbn [c_cdata v_cdata] in H |- *. destruct (Ascii.eqb a "]" && Ascii.eqb b "]" && Ascii.eqb c ">").
  - injection H as <- <-. split; auto; cbn [List.length]; lia.
  - destruct (c_cdata (b :: c :: s)) as [x1 k1] eqn:E.
    assert (Q : (x1, 3 + k1) = (x, k)) by (rewrite <- H; cbn [c_cdata] in E; rewrite E; reflexivity).
    injection Q as <- <-. destruct (IH _ _ eq_refl) as [A B]. split; [exact A|]. destruct x1; cbn [List.length] in *; lia.
Qed.
Lemma c_doctype_ok : forall s d x k, c_doctype d s = (x, k) ->
  v_doctype d s = x /\ match x with inl _ => k <= len s + 1 | inr r => k + len r = len s /\ len r < len s end.
Proof.
  induction s as [|c s IH]; intros d x k H; cbn [c_doctype v_doctype] in *; [injection H as <- <-; cbn; split; auto; lia|].
  destruct (Ascii.eqb c "["); [destruct (c_doctype (d + 1) s) as [x1 k1] eqn:E; injection H as <- <-; destruct (IH _ _ _ E); split; auto; destruct x1; cbn [List.length]; lia|].
  destruct (Ascii.eqb c "]"); [destruct (c_doctype (d - 1) s) as [x1 k1] eqn:E; injection H as <- <-; destruct (IH _ _ _ E); split; auto; destruct x1; cbn [List.length]; lia|].
  destruct (Ascii.eqb c ">" && (d =? 0)%Z); [injection H as <- <-; cbn [List.length]; split; auto; lia|].
  destruct (c_doctype d s) as [x1 k1] eqn:E; injection H as <- <-; destruct (IH _ _ _ E); split; auto; destruct x1; cbn [List.length]; lia.
Qed.
Lemma peek_next : forall s c, c <> nul -> Ascii.eqb (peek s) c = true -> len s = S (len (next s)).
Proof. intros [|d s] c N H; [|reflexivity]. apply Ascii.eqb_eq in H. cbn in H. congruence. Qed.

Lemma c_attributes_ok : forall n s x k, c_attributes n s = (x, k) ->
  v_attributes n s = x /\ match x with inl _ => k <= 4 * len s + 9 | inr r => k + 4 * len r <= 4 * len s + 2 /\ len r <= len s /\ len s <= k + len r end.
Proof.
  induction n as [|n IH]; intros s x k H; cbn [c_attributes v_attributes] in *;
    destruct (c_skip_ws s) as [s0 k0] eqn:E0; destruct (c_skip_ws_ok _ _ _ E0) as [<- L0].
  - destruct s0 as [|c s0]; [injection H as <- <-; cbn in *; split; auto; lia|].
    destruct (Ascii.eqb c ">" || Ascii.eqb c "/"); injection H as <- <-; cbn [List.length] in *; split; auto; lia.
  - destruct s0 as [|c s0]; [injection H as <- <-; cbn in *; split; auto; lia|].
    destruct (Ascii.eqb c ">" || Ascii.eqb c "/"); [injection H as <- <-; cbn [List.length] in *; split; auto; lia|].
    destruct (c_read_name (c :: s0)) as [[nm s1] k1] eqn:E1. destruct (c_read_name_ok _ _ _ _ E1) as [-> [L1 L1']].
    destruct nm as [|a nm]; [injection H as <- <-; cbn [List.length] in *; split; auto; lia|].
    destruct (c_read_name_some _ _ _ _ _ E1) as [K1 M1].
    destruct (c_validate_name (a :: nm)) as [g k2] eqn:E2. destruct (c_validate_name_ok _ _ _ E2) as [<- L2].
    destruct g; cbn [negb] in *; [|injection H as <- <-; cbn [List.length] in *; split; auto; lia].
    destruct (c_skip_ws s1) as [s2 k3] eqn:E3. destruct (c_skip_ws_ok _ _ _ E3) as [<- L3].
    destruct (Ascii.eqb (peek s2) "=") eqn:Q; cbn [negb] in *; [|injection H as <- <-; cbn [List.length] in *; split; auto; lia].
    apply peek_next in Q; [|discriminate].
    destruct (c_skip_ws (next s2)) as [s3 k4] eqn:E4. destruct (c_skip_ws_ok _ _ _ E4) as [<- L4].
    destruct (negb (Ascii.eqb (peek s3) dquote) && negb (Ascii.eqb (peek s3) squote)) eqn:Q2.
    { injection H as <- <-; cbn [List.length] in *; split; auto; lia. }
    assert (Q3 : len s3 = S (len (next s3))).
    { destruct (Ascii.eqb (peek s3) dquote) eqn:D; [now apply peek_next in D|]. destruct (Ascii.eqb (peek s3) squote) eqn:D2; [now apply peek_next in D2|discriminate]. }
    destruct (c_skip_until (peek s3) (next s3)) as [y k5] eqn:E5. destruct (c_skip_until_ok _ _ _ _ E5) as [-> L5].
    destruct y as [e|s4]; [injection H as <- <-; cbn [List.length] in *; split; auto; lia|].
    destruct (c_attributes n s4) as [y k6] eqn:E6. destruct (IH _ _ _ E6) as [-> L6]. injection H as <- <-. split; auto.
    cbn [List.length] in *. destruct y; lia.
Qed.
Lemma c_open_ok : forall st t s x k, c_open st t s = (x, k) ->
  v_open st t s = x /\ match x with inl _ => k <= 4 * len s + 14 | inr st' => k + 4 * len (v_rest st') <= 4 * len s + 2 /\ len (v_rest st') < len s /\ len s <= k + len (v_rest st') end.
Proof.
  intros st t s x k H. unfold c_open, v_open in *.
  destruct (c_read_name s) as [[nm s1] k1] eqn:E1. destruct (c_read_name_ok _ _ _ _ E1) as [-> [L1 L1']].
  destruct nm as [|a nm]; [injection H as <- <-; cbn [List.length] in *; split; auto; lia|].
  destruct (c_read_name_some _ _ _ _ _ E1) as [K1 M1].
  destruct (c_validate_name (a :: nm)) as [g k2] eqn:E2. destruct (c_validate_name_ok _ _ _ E2) as [<- L2].
  destruct g; cbn [negb] in *; [|injection H as <- <-; cbn [List.length] in *; split; auto; lia].
  destruct (Nat.leb MaxNestingDepth (len (v_stack st))); [injection H as <- <-; cbn [List.length] in *; split; auto; lia|].
  destruct (c_attributes MaxAttributes s1) as [y k3] eqn:E3. destruct (c_attributes_ok _ _ _ _ E3) as [-> L3].
  destruct y as [e|s2]; [injection H as <- <-; cbn [List.length] in *; split; auto; lia|].
  destruct (c_skip_ws s2) as [s3 k4] eqn:E4. destruct (c_skip_ws_ok _ _ _ E4) as [<- L4].
  assert (G : forall sf s4, (if Ascii.eqb (peek s3) "/" then (true, next s3) else (false, s3)) = (sf, s4) -> len s4 <= len s3 <= S (len s4)).
  { intros sf s4 Q. destruct (Ascii.eqb (peek s3) "/"); injection Q as <- <-; [destruct s3; cbn|]; lia. }
  destruct (if Ascii.eqb (peek s3) "/" then (true, next s3) else (false, s3)) as [sf s4]. specialize (G _ _ eq_refl).
  destruct (Ascii.eqb (peek s4) ">") eqn:Q; cbn [negb] in *; [|injection H as <- <-; cbn [List.length] in *; split; auto; lia].
  apply peek_next in Q; [|discriminate]. injection H as <- <-. split; auto.
  destruct sf; cbn [v_rest List.length] in *; lia.
Qed.
Lemma c_eqb_ok : forall a b e k, c_eqb a b = (e, k) -> e = bytes_eqb a b /\ k <= len b + 1.
Proof.
  induction a as [|x a IH]; intros [|y b] e k H; cbn [c_eqb] in H; try (injection H as <- <-; split; [reflexivity|cbn; lia]).
  cbn [bytes_eqb]. destruct (Ascii.eqb x y).
  - destruct (c_eqb a b) as [e1 k1] eqn:E. injection H as <- <-. destruct (IH _ _ _ E) as [-> L]. cbn [List.length]. split; [reflexivity|lia].
  - injection H as <- <-. split; [reflexivity|cbn; lia].
Qed.
Lemma c_close_ok : forall st t s x k, c_close st t s = (x, k) ->
  v_close st t s = x /\ match x with inl _ => k <= 4 * len s + 5 | inr st' => k + 4 * len (v_rest st') <= 4 * len s /\ len (v_rest st') < len s /\ len s <= k + len (v_rest st') end.
Proof.
  intros st t s x k H. unfold c_close, v_close in *.
  destruct (c_read_name s) as [[nm s1] k1] eqn:E1. destruct (c_read_name_ok _ _ _ _ E1) as [-> [L1 L1']].
  destruct nm as [|a nm]; [injection H as <- <-; cbn [List.length] in *; split; auto; lia|].
  destruct (c_read_name_some _ _ _ _ _ E1) as [K1 M1].
  destruct (c_skip_ws s1) as [s2 k2] eqn:E2. destruct (c_skip_ws_ok _ _ _ E2) as [<- L2].
  destruct (Ascii.eqb (peek s2) ">") eqn:Q; cbn [negb] in *; [|injection H as <- <-; cbn [List.length] in *; split; auto; lia].
  apply peek_next in Q; [|discriminate].
  destruct (v_stack st) as [|[op at0] stack]; [injection H as <- <-; cbn [List.length] in *; split; auto; lia|].
  destruct (c_eqb op (a :: nm)) as [e k3] eqn:E3. destruct (c_eqb_ok _ _ _ _ E3) as [<- L3].
  destruct e; cbn [negb] in *; injection H as <- <-; cbn [List.length v_rest] in *; split; auto; lia.
Qed.
Lemma strip_prefix_len : forall p s r, strip_prefix p s = Some r -> len s = len p + len r.
Proof.
  induction p as [|c p IH]; intros [|d s] r H; cbn [strip_prefix] in H; try discriminate; try (injection H as <-; reflexivity).
  destruct (Ascii.eqb c d); [|discriminate]. cbn [List.length]. rewrite (IH _ _ H). reflexivity.
Qed.
Lemma has_prefix_len : forall p s, has_prefix p s = true -> len p <= len s.
Proof.
  intros p s H. unfold has_prefix in H. destruct (strip_prefix p s) eqn:E; [|discriminate]. apply strip_prefix_len in E. lia.
Qed.
(** [k] looks with [s] unread before, the '<' not counted. *)
Lemma c_tag_ok : forall st t s x k, c_tag st t s = (x, k) ->
  v_tag st t s = x /\ match x with inl _ => k <= 9 * len s + 16 | inr st' => k + 9 * len (v_rest st') <= 9 * len s + 7 /\ len (v_rest st') < len s /\ len s <= k + len (v_rest st') end.
Proof.
  intros st t s x k H. unfold c_tag, v_tag, c_with_rest in *. destruct s as [|n s]; [injection H as <- <-; cbn; split; auto; lia|].
  destruct (Ascii.eqb n "?").
  { destruct (c_skip_until ">" s) as [y k1] eqn:E. destruct (c_skip_until_ok _ _ _ _ E) as [-> L]. injection H as <- <-. split; auto.
    destruct y; cbn [v_with_rest v_rest List.length] in *; lia. }
  destruct (Ascii.eqb n "!").
  { destruct (has_prefix (bs "DOCTYPE") s || has_prefix (bs "doctype") s) eqn:P.
    { destruct (c_doctype 0 s) as [y k1] eqn:E. destruct (c_doctype_ok _ _ _ _ E) as [-> L]. injection H as <- <-. split; auto.
      destruct y; cbn [v_with_rest v_rest List.length] in *; lia. }
    destruct (strip_prefix (bs "--") s) as [s2|] eqn:P2.
    { apply strip_prefix_len in P2. cbn in P2.
      destruct (c_comment s2) as [y k1] eqn:E. destruct (c_comment_ok _ _ _ E) as [-> L]. injection H as <- <-. split; auto.
      destruct y; cbn [v_with_rest v_rest List.length] in *; lia. }
    destruct (strip_prefix (bs "[CDATA[") s) as [s2|] eqn:P3.
    { apply strip_prefix_len in P3. cbn in P3.
      destruct (c_cdata s2) as [y k1] eqn:E. destruct (c_cdata_ok _ _ _ E) as [-> L]. injection H as <- <-. split; auto.
      destruct y; cbn [v_with_rest v_rest List.length] in *; lia. }
    destruct (c_skip_until ">" s) as [y k1] eqn:E. destruct (c_skip_until_ok _ _ _ _ E) as [-> L]. injection H as <- <-. split; auto.
    destruct y; cbn [v_with_rest v_rest List.length] in *; lia. }
  destruct (Ascii.eqb n "/").
  { destruct (c_close st t s) as [y k1] eqn:E. destruct (c_close_ok _ _ _ _ _ E) as [-> L]. injection H as <- <-. split; auto.
    destruct y; cbn [List.length] in *; lia. }
  destruct (c_open st t (n :: s)) as [y k1] eqn:E. destruct (c_open_ok _ _ _ _ _ E) as [-> L]. injection H as <- <-. split; auto.
  destruct y; cbn [List.length] in *; lia.
Qed.
Lemma c_loop_ok : forall f st x k, len (v_rest st) < f -> c_loop f st = (x, k) -> v_loop f st = x /\ k <= 9 * len (v_rest st) + 9 /\ match x with Some (inr _) => len (v_rest st) < k | _ => True end.
Proof.
  induction f as [|f IH]; intros st x k F H; [lia|]. cbn [c_loop v_loop] in *.
  destruct (c_skip_ws (v_rest st)) as [s k0] eqn:E0. destruct (c_skip_ws_ok _ _ _ E0) as [<- L0].
  destruct s as [|c s]; [injection H as <- <-; cbn [List.length] in *; split; auto; lia|].
  destruct (Ascii.eqb c "<").
  - destruct (c_tag st (c :: s) s) as [y k1] eqn:E1. destruct (c_tag_ok _ _ _ _ _ E1) as [-> L1].
    destruct y as [e|st']; [injection H as <- <-; cbn [List.length] in *; split; auto; lia|].
    destruct (c_loop f st') as [y k2] eqn:E2. cbn [List.length] in *. destruct (IH st' y k2) as [-> L2]; [lia|exact E2|].
    injection H as <- <-. split; auto. destruct y as [[e|st2]|]; lia.
  - destruct (negb (v_root_found st) || v_root_closed st); [injection H as <- <-; cbn [List.length] in *; split; auto; lia|].
    destruct (c_loop f (mkV s (v_stack st) (v_root_found st) (v_root_closed st))) as [y k2] eqn:E2. cbn [List.length] in *.
    assert (F2 : len (v_rest (mkV s (v_stack st) (v_root_found st) (v_root_closed st))) < f) by (cbn [v_rest]; lia).
    destruct (IH _ y k2 F2 E2) as [-> L2]. cbn [v_rest] in L2. injection H as <- <-. split; auto. destruct y as [[e|st2]|]; lia.
Qed.
Lemma c_validate_ok : forall data, fst (c_validate data) = validate data /\ snd (c_validate data) <= 9 * len data + 9 /\
  (validate data = Some None -> len data < snd (c_validate data)).
Proof.
  intros data. unfold c_validate, validate. destruct (MaxDocumentSize <? blen data)%N; [cbn; repeat split; [lia|discriminate]|].
  destruct data as [|c data]; [cbn; repeat split; [lia|discriminate]|].
  destruct (c_loop (S (len (c :: data))) (mkV (c :: data) [] false false)) as [x k] eqn:E.
  assert (F : len (v_rest (mkV (c :: data) [] false false)) < S (len (c :: data))) by (cbn [v_rest]; lia).
  destruct (c_loop_ok _ _ _ _ F E) as [V [L M]]. cbn [v_rest] in L, M. rewrite V.
  destruct x as [[e|st]|]; cbn [fst snd]; repeat split; auto; discriminate.
Qed.
