(** Queries terminate, and evaluation after parsing never panics. *)
From Coq Require Import List Ascii String NArith ZArith Bool Lia.
From Verif Require Import GoStr ModelParser ModelPath ModelResult ModelQuery ModelBuilder ModelQueryOpts
  ProofBase ProofScan ProofPath.
Import ListNotations.

Definition ok {A} (m : Res A) : Prop := exists a, m = Ok a.
Lemma ok_ret : forall A (a : A), ok (Ok a).
Proof. intros; eexists; reflexivity. Qed.
Lemma ok_bind : forall A B (m : Res A) (f : A -> Res B), ok m -> (forall a, m = Ok a -> ok (f a)) -> ok (bind m f).
Proof. intros A B m f [a ->] H. apply H; auto. Qed.
#[export] Hint Resolve ok_ret : core.

(** ** Costs of segment lists *)
Definition seg_cost (sg : seg) : nat :=
  match s_filter sg with Some f => S (2 * len (f_path f) + 2) | None => 1 end.
Fixpoint cost (segs : list seg) : nat :=
  match segs with [] => 0 | sg :: rest => seg_cost sg + cost rest end.
Definition no_ops (s : bytes) : Prop := contains_any op_chars s = false.
Definition seg_safe (sg : seg) : Prop :=
  match s_filter sg with Some f => no_ops (f_path f) | None => True end.
Definition safe (segs : list seg) : Prop := Forall seg_safe segs.

Lemma seg_cost_pos : forall sg, 1 <= seg_cost sg.
Proof. intros sg; unfold seg_cost; destruct (s_filter sg); lia. Qed.

(** ** Lengths in path parsing *)
Lemma trim_left_suffix : forall n s, len s <= n -> exists p, s = p ++ trim_left s.
Proof.
  induction n as [|n IH]; intros s Hn.
  - destruct s; [exists []; auto|simpl in Hn; lia].
  - destruct s as [|a s1]; [exists []; auto|]. cbn [trim_left]. simpl in Hn.
    destruct (ascii_space a).
    { destruct (IH s1) as [p Hp]; [lia|]. exists (a :: p). simpl; congruence. }
    destruct s1 as [|b s2]; [exists []; auto|].
    destruct (uni_space2 a b).
    { destruct (IH s2) as [p Hp]; [simpl in Hn; lia|]. exists (a :: b :: p). simpl; congruence. }
    destruct s2 as [|c s3]; [exists []; auto|].
    destruct (uni_space3 a b c).
    { destruct (IH s3) as [p Hp]; [simpl in Hn; lia|]. exists (a :: b :: c :: p). simpl; congruence. }
    exists []; auto.
Qed.
Lemma trim_left_rev_suffix : forall n s, len s <= n -> exists p, s = p ++ trim_left_rev s.
Proof.
  induction n as [|n IH]; intros s Hn.
  - destruct s; [exists []; auto|simpl in Hn; lia].
  - destruct s as [|a s1]; [exists []; auto|]. cbn [trim_left_rev]. simpl in Hn.
    destruct (ascii_space a).
    { destruct (IH s1) as [p Hp]; [lia|]. exists (a :: p). simpl; congruence. }
    destruct s1 as [|b s2]; [exists []; auto|].
    destruct (uni_space2 b a).
    { destruct (IH s2) as [p Hp]; [simpl in Hn; lia|]. exists (a :: b :: p). simpl; congruence. }
    destruct s2 as [|c s3]; [exists []; auto|].
    destruct (uni_space3 c b a).
    { destruct (IH s3) as [p Hp]; [simpl in Hn; lia|]. exists (a :: b :: c :: p). simpl; congruence. }
    exists []; auto.
Qed.
(** Trimming yields a contiguous part. *)
Lemma trim_space_part : forall s, exists p q, s = p ++ trim_space s ++ q.
Proof.
  intros s. unfold trim_space, trim_right.
  destruct (trim_left_suffix _ s (le_n _)) as [p Hp].
  destruct (trim_left_rev_suffix _ (rev (trim_left s)) (le_n _)) as [q Hq].
  exists p, (rev q). rewrite Hp at 1. f_equal.
  rewrite <- (rev_involutive (trim_left s)) at 1. rewrite Hq at 1. now rewrite rev_app_distr.
Qed.
Lemma trim_space_len : forall s, len (trim_space s) <= len s.
Proof.
  intros s. destruct (trim_space_part s) as [p [q H]]. rewrite H at 2. rewrite !app_length. lia.
Qed.
Lemma trim_space_in : forall s c, In c (trim_space s) -> In c s.
Proof.
  intros s c Hc. destruct (trim_space_part s) as [p [q H]]. rewrite H. rewrite !in_app_iff. auto.
Qed.
Lemma no_ops_incl : forall a b, (forall c, In c a -> In c b) -> no_ops b -> no_ops a.
Proof.
  intros a b H Hb. unfold no_ops in *. apply contains_any_false. intros c Hc.
  apply (proj1 (contains_any_false _ _) Hb). auto.
Qed.

Lemma find_two_split : forall s p op q, find_two s = Some (p, op, q) -> exists a b, s = p ++ a :: b :: q.
Proof.
  induction s as [|a s IH]; intros p op q H; [discriminate|].
  cbn [find_two] in H. destruct s as [|b r]; [discriminate|].
  destruct (two_op a b).
  - injection H; intros; subst. exists a, b; auto.
  - destruct (find_two (b :: r)) as [[[p1 op1] q1]|]; [|discriminate].
    injection H; intros; subst. destruct (IH _ _ _ eq_refl) as [x [y E]]. exists x, y. simpl. congruence.
Qed.
Lemma find_one_split : forall s p op q, find_one s = Some (p, op, q) -> exists a, s = p ++ a :: q.
Proof.
  induction s as [|a s IH]; intros p op q H; [discriminate|].
  cbn [find_one] in H.
  destruct (one_op a).
  - injection H; intros; subst. exists a; auto.
  - destruct (find_one s) as [[[p1 op1] q1]|]; [|discriminate].
    injection H; intros; subst. destruct (IH _ _ _ eq_refl) as [x E]. exists x. simpl. congruence.
Qed.
Lemma find_op_len : forall s p op q, find_op s = Some (p, op, q) -> len p <= len s.
Proof.
  unfold find_op; intros s p op q H. destruct (find_two s) as [x|] eqn:E.
  - injection H; intros; subst. apply find_two_split in E. destruct E as [a [b ->]]. rewrite app_length; lia.
  - apply find_one_split in H. destruct H as [a ->]. rewrite app_length; lia.
Qed.

Lemma parse_filter_facts : forall e f, parse_filter_condition e = Ok (Some f) ->
  len (f_path f) <= len e /\ no_ops (f_path f).
Proof.
  intros e f H. unfold parse_filter_condition in H.
  destruct (MaxFilterExpressionLength <? blen e)%N; [discriminate|].
  destruct (mem nul e); [discriminate|].
  pose proof (trim_space_len e) as L. destruct (trim_space e) as [|c0 e0] eqn:T; [discriminate|].
  destruct (contains_any op_chars (c0 :: e0)) eqn:C; cbn [negb] in H.
  - destruct (find_op (c0 :: e0)) as [[[p op] q]|] eqn:Fo; [|discriminate].
    destruct (contains_any ctl_chars p); [discriminate|].
    apply find_op_len in Fo. pose proof (trim_space_len p).
    destruct (trim_space p) as [|pc pp] eqn:Tp; [discriminate|].
    destruct (trim_space q) as [|qc qq] eqn:Tq; [discriminate|].
    destruct (contains_any op_chars (pc :: pp)) eqn:Cp; [discriminate|].
    apply bind_ok in H. destruct H as [v [H1 H2]].
    destruct (contains_any ctl_chars v); [discriminate|]. injection H2; intros; subst. cbn [f_path].
    split; [lia|exact Cp].
  - injection H; intros; subst. cbn [f_path]. split; [lia|exact C].
Qed.
(** Without operator characters a condition is an existence test: no panic. *)
Lemma parse_filter_no_ops : forall e, no_ops e -> ok (parse_filter_condition e).
Proof.
  intros e H. unfold parse_filter_condition.
  destruct (MaxFilterExpressionLength <? blen e)%N; auto.
  destruct (mem nul e); auto.
  assert (H2 : contains_any op_chars (trim_space e) = false).
  { eapply no_ops_incl; [|exact H]. apply trim_space_in. }
  destruct (trim_space e); auto. rewrite H2. simpl; auto.
Qed.

Lemma split_on_len : forall b s h t, split_on b s = (h, t) -> len h <= len s /\ forall c, In c h -> In c s.
Proof.
  induction s as [|c s IH]; simpl; intros h t H.
  - injection H; intros; subst; simpl; auto.
  - destruct (split_on b s) as [h1 t1]. destruct (IH _ _ eq_refl) as [L I].
    destruct (Ascii.eqb c b); injection H; intros; subst; simpl; split; try lia; intuition.
Qed.

Lemma firstn_in : forall (A : Type) n (l : list A) x, In x (firstn n l) -> In x l.
Proof.
  induction n; destruct l; simpl; intros; try tauto. destruct H; auto.
Qed.

Lemma parse_part_cost : forall part sg, parse_part part = Ok (PSeg sg) ->
  seg_cost sg <= 2 * len part /\ seg_safe sg.
Proof.
  intros part sg H. unfold parse_part in H. destruct part as [|c0 part]; [discriminate|].
  unfold parse_modifiers in H.
  destruct (split_on "|" (c0 :: part)) as [pp mods] eqn:M. apply split_on_len in M. destruct M as [ML MI].
  destruct (strip_prefix (bs "#(") pp) as [body|] eqn:SP.
  - apply strip_prefix_spec in SP.
    set (cut := if has_suffix (bs ")#") pp then Some (true, len pp - 2)
                else if has_suffix (bs ")") pp then Some (false, len pp - 1) else None) in H.
    assert (Hc : match cut with Some (_, e) => e <= len pp - 1 | None => True end).
    { unfold cut. destruct (has_suffix (bs ")#") pp); [lia|]. destruct (has_suffix (bs ")") pp); [lia|auto]. }
    destruct cut as [[all endidx]|]; [|discriminate].
    destruct (Nat.leb_spec endidx 2); [discriminate|].
    apply bind_ok in H. destruct H as [f [Hf H]]. destruct f as [f|]; [|discriminate].
    injection H; intros; subst sg. apply parse_filter_facts in Hf. destruct Hf as [Hf1 Hf2].
    rewrite firstn_length in Hf1. split; [|exact Hf2].
    unfold seg_cost; cbn [s_filter]. cbn [List.length] in *. lia.
  - assert (K : seg_cost sg = 1 /\ seg_safe sg).
    { unfold seg_cost, seg_safe.
      destruct pp as [|c pp].
      - injection H; intros; subst; simpl; auto.
      - repeat match type of H with context [if ?b then _ else _] => destruct b end;
          injection H; intros; subst; simpl; auto. }
    destruct K as [-> K]. split; auto. simpl; lia.
Qed.

Lemma parse_part_no_ops : forall part, no_ops part -> ok (parse_part part).
Proof.
  intros part H. unfold parse_part. destruct part as [|c0 part]; auto.
  unfold parse_modifiers.
  destruct (split_on "|" (c0 :: part)) as [pp mods] eqn:M. apply split_on_len in M. destruct M as [ML MI].
  destruct (strip_prefix (bs "#(") pp) as [body|] eqn:SP.
  - apply strip_prefix_spec in SP.
    match goal with |- ok (match ?c with _ => _ end) => destruct c as [[all endidx]|] end; auto.
    destruct (Nat.leb endidx 2); auto. apply ok_bind.
    + apply parse_filter_no_ops. eapply no_ops_incl; [|exact H]. intros c Hc. apply firstn_in in Hc.
      apply MI. subst. apply in_or_app; auto.
    + intros [f|]; auto.
  - destruct pp as [|c pp]; auto.
    repeat match goal with |- context [if ?b then _ else _] => destruct b end; auto.
Qed.

Fixpoint total_len (l : list bytes) : nat := match l with [] => 0 | x :: l' => len x + total_len l' end.
Lemma split_loop_len : forall s b h t, split_loop b s = (h, t) -> len h + total_len t <= len s.
Proof.
  induction s as [|c s IH]; intros b h t H; simpl in H.
  - injection H; intros; subst; auto.
  - destruct b; [|destruct (Ascii.eqb c backslash); [|destruct (Ascii.eqb c ".")]].
    + destruct (split_loop false s) as [h1 t1] eqn:E. apply IH in E. injection H; intros; subst. simpl; lia.
    + apply IH in H. simpl; lia.
    + destruct (split_loop false s) as [h1 t1] eqn:E. apply IH in E. injection H; intros; subst. simpl; lia.
    + destruct (split_loop false s) as [h1 t1] eqn:E. apply IH in E. injection H; intros; subst. simpl; lia.
Qed.
Lemma split_loop_in : forall s b h t x c, split_loop b s = (h, t) -> In x (h :: t) -> In c x -> In c s.
Proof.
  induction s as [|d s IH]; intros b h t x c H Hx Hc; simpl in H.
  - injection H; intros; subst. destruct Hx as [<-|[]]. easy.
  - destruct b; [|destruct (Ascii.eqb d backslash); [|destruct (Ascii.eqb d ".")]].
    + destruct (split_loop false s) as [h1 t1] eqn:E. injection H; intros; subst.
      destruct Hx as [<-|Hx]; [destruct Hc as [->|Hc]; [now left|right; eapply IH; eauto; now left]|].
      right. eapply IH; eauto. now right.
    + right. eapply IH; eauto.
    + destruct (split_loop false s) as [h1 t1] eqn:E. injection H; intros; subst.
      destruct Hx as [<-|Hx]; [easy|]. right. eapply IH; eauto.
    + destruct (split_loop false s) as [h1 t1] eqn:E. injection H; intros; subst.
      destruct Hx as [<-|Hx]; [destruct Hc as [->|Hc]; [now left|right; eapply IH; eauto; now left]|].
      right. eapply IH; eauto. now right.
Qed.
Lemma split_path_len : forall s, total_len (split_path s) <= len s.
Proof.
  intros s. destruct s as [|c s]; auto. unfold split_path.
  destruct (split_loop false (c :: s)) as [h t] eqn:E. apply split_loop_len in E. simpl in *; lia.
Qed.
Lemma split_path_in : forall s x c, In x (split_path s) -> In c x -> In c s.
Proof.
  intros s x c H Hc. destruct s as [|d s]; [easy|]. unfold split_path in H.
  destruct (split_loop false (d :: s)) as [h t] eqn:E. eapply split_loop_in; eauto.
Qed.

Lemma parse_parts_cost : forall l ss, parse_parts l = Ok (Some ss) -> cost ss <= 2 * total_len l /\ safe ss.
Proof.
  induction l as [|x l IH]; simpl; intros ss H.
  - injection H; intros; subst; simpl; split; auto; constructor.
  - apply bind_ok in H. destruct H as [o [H1 H2]]. destruct o as [| |sg].
    + apply IH in H2. destruct H2; split; auto; lia.
    + discriminate.
    + apply bind_ok in H2. destruct H2 as [r [H2 H3]]. destruct r as [ss'|]; [|discriminate].
      injection H3; intros; subst. apply IH in H2. destruct H2 as [H4 H5].
      apply parse_part_cost in H1. destruct H1 as [H6 H7]. simpl. split; [lia|constructor; auto].
Qed.
Lemma parse_parts_no_ops : forall l, (forall x, In x l -> no_ops x) -> ok (parse_parts l).
Proof.
  induction l as [|x l IH]; simpl; intros H; auto.
  apply ok_bind; [apply parse_part_no_ops; auto|]. intros o _. destruct o; auto.
  apply ok_bind; [apply IH; auto|]. intros [ss|] _; auto.
Qed.

Lemma merge_fields_cost : forall n l, len l <= n -> cost (merge_fields l) <= cost l.
Proof.
  induction n as [|n IH]; intros l Hn; destruct l as [|x l]; cbn [len] in *; auto; try lia.
  assert (H1 : cost (merge_fields l) <= cost l) by (apply IH; lia).
  cbn [merge_fields cost]. destruct (s_type x); cbn [cost]; try lia.
  destruct l as [|nx l2]; [cbn [cost] in *; lia|].
  assert (H2 : cost (merge_fields l2) <= cost l2) by (apply IH; cbn [len] in *; lia).
  pose proof (seg_cost_pos x). pose proof (seg_cost_pos nx).
  destruct (s_type nx);
   try (match goal with |- context [if ?b then _ else _] => destruct b end);
   cbn [cost seg_cost s_filter] in *; lia.
Qed.
Lemma merge_fields_safe : forall n l, len l <= n -> safe l -> safe (merge_fields l).
Proof.
  unfold safe. induction n as [|n IH]; intros l Hn H; destruct l as [|x l]; cbn [len] in *; auto; try lia.
  inversion H as [|? ? Hx Hl]; subst.
  assert (H1 : Forall seg_safe (merge_fields l)) by (apply IH; auto; lia).
  cbn [merge_fields]. destruct (s_type x); try (constructor; auto; fail).
  destruct l as [|nx l2]; [constructor; auto|].
  inversion Hl as [|? ? Hn2 Hl2]; subst.
  assert (H2 : Forall seg_safe (merge_fields l2)) by (apply IH; cbn [len] in *; auto; lia).
  destruct (s_type nx);
   try (match goal with |- context [if ?b then _ else _] => destruct b end);
   constructor; auto; exact I.
Qed.

Lemma parse_path_cost : forall path segs, parse_path path = Ok segs ->
  cost segs <= 2 * len path /\ safe segs.
Proof.
  intros path segs H. destruct path as [|c path].
  - simpl in H. injection H; intros; subst; simpl; split; auto; constructor.
  - unfold parse_path in H. apply bind_ok in H. destruct H as [r [H1 H2]].
    destruct r as [ss|]; [|injection H2; intros; subst; simpl; split; [lia|constructor]].
    injection H2; intros; subst. unfold parse_path_internal in H1.
    destruct (Nat.ltb MaxPathSegments (len (split_path (c :: path)))); [discriminate|].
    apply bind_ok in H1. destruct H1 as [r [H3 H4]]. destruct r as [ss|]; [|discriminate].
    injection H4; intros; subst. apply parse_parts_cost in H3. destruct H3 as [H3 H5].
    pose proof (merge_fields_cost _ ss (le_n _)). pose proof (split_path_len (c :: path)).
    split; [lia|]. eapply merge_fields_safe; eauto.
Qed.
Lemma parse_path_no_ops : forall path, no_ops path -> ok (parse_path path).
Proof.
  intros path H. destruct path as [|c path]; [apply ok_ret|]. unfold parse_path.
  apply ok_bind; [|intros [ss|] _; auto]. unfold parse_path_internal.
  destruct (Nat.ltb MaxPathSegments (len (split_path (c :: path)))); auto.
  apply ok_bind; [|intros [ss|] _; auto].
  apply parse_parts_no_ops. intros x Hx. eapply no_ops_incl; [|exact H].
  intros d Hd. eapply split_path_in; eauto.
Qed.

(** ** Evaluation *)
Lemma scan_res_ok : forall E key s, ok (scan_res E key s).
Proof. intros. unfold scan_res. destruct (scan_total (e_ord E) key s) as [l ->]. auto. Qed.
#[export] Hint Resolve scan_res_ok : core.

Definition rec_ok (n : nat) (rec : qrec) : Prop :=
  forall key root s segs, cost segs < n -> safe segs -> ok (rec key root s segs).

Definition filt_fits (n : nat) (f : option filt) : Prop :=
  match f with Some f => 2 * len (f_path f) + 2 <= n /\ no_ops (f_path f) | None => True end.

Lemma eval_filter_ok : forall E n rec key f e, rec_ok n rec -> filt_fits n f -> ok (eval_filter_opt E rec key f e).
Proof.
  intros E n rec key f e Hr Hf. destruct f as [f|]; simpl; auto. destruct Hf as [Hf1 Hf2].
  unfold eval_filter.
  assert (K : ok (let* segs := parse_path (f_path f) in
                  let* r := rec (child_key site_filter e key) true (e_content e) segs in
                  Ok (filter_decide E (f_op f) (r_exists r) (r_string r) (f_value f)))).
  { apply ok_bind; [now apply parse_path_no_ops|]. intros segs Hs.
    apply parse_path_cost in Hs. destruct Hs as [Hc Hs]. apply ok_bind; auto. apply Hr; auto. lia. }
  destruct (f_path f) as [|c name] eqn:P; auto.
  destruct (Ascii.eqb c "@"); auto.
  destruct (map_get name (e_attrs e)); auto.
Qed.
Lemma filter_elems_ok : forall E n rec key f l, rec_ok n rec -> filt_fits n f -> ok (filter_elems E rec key f l).
Proof.
  intros E n rec key f l Hr Hf. induction l as [|e l IH]; simpl; auto.
  apply ok_bind; [eapply eval_filter_ok; eauto|]. intros b _. apply ok_bind; auto.
Qed.
Lemma filter_elems_upto_ok : forall E n rec key f l k, rec_ok n rec -> filt_fits n f ->
  ok (filter_elems_upto k E rec key f l).
Proof.
  intros E n rec key f l k Hr Hf. revert k. induction l as [|e l IH]; intros k; simpl; auto.
  apply ok_bind; [eapply eval_filter_ok; eauto|]. intros [] _; auto.
  destruct k as [|[|k]]; auto. apply ok_bind; auto.
Qed.
Lemma field_children_ok : forall E key field l, ok (field_children E key field l).
Proof.
  intros E key field l. induction l as [|e l IH]; simpl; auto.
  apply ok_bind; auto. intros cs _. apply ok_bind; auto.
Qed.
Lemma field_extract_ok : forall E key l sg, ok (field_extract E key l sg).
Proof.
  intros. unfold field_extract. destruct (s_field sg) as [|c name] eqn:F; auto.
  apply ok_bind.
  - destruct (Ascii.eqb c "@"); auto. destruct (bytes_eqb (c :: name) (bs "%")); auto. apply field_children_ok.
  - intros all _. destruct (firstn MaxWildcardResults all); auto.
Qed.
#[export] Hint Resolve field_extract_ok : core.

Section ExecOk.
  Variables (E : env) (n : nat) (rec : qrec).
  Hypothesis Hrec : rec_ok n rec.
  Definition fits (segs : list seg) : Prop := cost segs < n /\ safe segs.

  Lemma query_each_ok : forall key l rest, fits rest -> ok (query_each rec key l rest).
  Proof.
    intros key l rest [H1 H2]. induction l as [|e l IH]; simpl; auto.
    apply ok_bind; [apply Hrec; auto|]. intros r _. apply ok_bind; auto.
  Qed.
  Lemma process_first_ok : forall key e sg rest, fits rest -> ok (process_first E rec key e sg rest).
  Proof.
    intros key e sg rest [H1 H2]. unfold process_first. destruct rest as [|nx rest]; auto.
    destruct (s_type nx); auto; try (apply Hrec; auto; fail).
    destruct (map_get (s_value nx) (e_attrs e)); auto.
  Qed.
  Lemma process_all_ok : forall key l sg rest, fits rest -> ok (process_all E rec key l sg rest).
  Proof.
    intros key l sg rest H. unfold process_all. destruct rest as [|nx rest]; auto.
    destruct (s_type nx); auto;
      try (apply ok_bind; [apply query_each_ok; auto|]; intros all _);
      match goal with |- ok (match ?x with _ => _ end) => destruct x; auto end.
  Qed.
  Lemma route_matches_ok : forall key l sg rest, fits rest -> ok (route_matches E rec key l sg rest).
  Proof.
    intros key l sg rest H. unfold route_matches. destruct l as [|e l]; auto.
    destruct (s_all sg); [apply process_all_ok; auto|apply process_first_ok; auto].
  Qed.
  Lemma wild_each_ok : forall key l rest, fits rest -> ok (wild_each rec key l rest).
  Proof.
    intros key l rest [H1 H2]. induction l as [|e l IH]; simpl; auto.
    apply ok_bind; [apply Hrec; auto|]. intros r _. apply ok_bind; auto.
  Qed.
  Lemma handle_wildcard_ok : forall key l rest, fits rest -> ok (handle_wildcard E rec key l rest).
  Proof.
    intros key l rest H. unfold handle_wildcard. destruct rest as [|nx rest]; auto.
    destruct (s_type nx);
      try (apply ok_bind; [apply wild_each_ok; auto|]; intros all _);
      match goal with |- ok (match ?x with _ => _ end) => destruct x; auto end.
  Qed.
  Lemma search_add_ok : forall key e rest, fits rest -> ok (search_add E rec key e rest).
  Proof.
    intros key e rest [H1 H2]. unfold search_add. destruct rest as [|nx rest]; auto.
    destruct (s_type nx); auto; apply ok_bind; auto.
  Qed.
  Lemma rsearch_ok : forall k key target rest st s, fits rest -> ok (rsearch E rec k key target rest st s).
  Proof.
    induction k as [|k IH]; intros key target rest st s Hf; cbn [rsearch]; auto.
    match goal with |- ok (if ?b then _ else _) => destruct b; auto end.
    apply ok_bind; auto. intros es _.
    generalize ((fst st + 1)%N, snd st). clear st.
    induction es as [|e es IHes]; intros st; auto.
    apply ok_bind; [destruct (e_content e); auto|]. intros st1 _.
    destruct (MaxRecursiveOperations <=? fst st1)%N; auto.
    destruct (seg_matches target (e_name e)); auto.
    destruct (Nat.leb MaxWildcardResults (len (snd st1))); auto.
    apply ok_bind; [apply search_add_ok; auto|]. intros; auto.
  Qed.
  Lemma handle_recursive_ok : forall key rest s, fits rest -> ok (handle_recursive E rec key rest s).
  Proof.
    intros key rest s H. unfold handle_recursive. destruct rest as [|target rest]; auto.
    apply ok_bind.
    - apply rsearch_ok. destruct H as [H1 H2]. inversion H2; subst. simpl in H1. split; auto. lia.
    - intros st _. destruct (snd st); auto.
  Qed.
  Lemma fits_tail : forall sg rest, fits (sg :: rest) -> fits rest.
  Proof. intros sg rest [H1 H2]. inversion H2; subst. simpl in H1. split; auto. lia. Qed.
  Lemma fits_filter : forall sg rest, fits (sg :: rest) -> filt_fits n (s_filter sg).
  Proof.
    intros sg rest [H1 H2]. inversion H2; subst. simpl in H1. unfold seg_cost, seg_safe, filt_fits in *.
    destruct (s_filter sg); auto. split; auto. lia.
  Qed.
  Lemma rec_fits : forall key root s segs, fits segs -> ok (rec key root s segs).
  Proof. intros key root s segs [H1 H2]; apply Hrec; auto. Qed.

  Lemma root_array_ok : forall key l nx more, fits (nx :: more) -> ok (root_array E rec key l nx more).
  Proof.
    intros key l nx more H. apply fits_tail in H. unfold root_array. destruct l as [|e l]; auto.
    destruct (s_type nx); auto. destruct (nth_elem (e :: l) (s_index nx)); auto.
    destruct more as [|n2 more]; auto. destruct (s_type n2); auto using rec_fits.
  Qed.
  Lemma array_op_ok : forall key l nx more, fits (nx :: more) -> ok (array_op E rec key l nx more).
  Proof.
    intros key l nx more H. apply fits_tail in H. unfold array_op. destruct l as [|e l]; auto.
    destruct (s_type nx); auto. destruct (nth_elem (e :: l) (s_index nx)); auto.
    destruct more as [|n2 more]; auto. destruct (s_type n2); auto using rec_fits.
  Qed.
  Lemma first_loop_ok : forall key l sg rest, fits rest -> ok (first_loop E rec key l sg rest).
  Proof.
    intros key l sg rest H. induction l as [|e l IH]; cbn [first_loop]; auto.
    destruct rest as [|nx more]; auto.
    destruct (s_type nx); auto;
      try (apply ok_bind; [now apply rec_fits|]; intros r _; destruct (is_null r); auto).
    destruct (map_get (s_value nx) (e_attrs e)), more; auto.
  Qed.
  Lemma exec_element_ok : forall key es sg rest, fits rest -> ok (exec_element E rec key es sg rest).
  Proof.
    intros key es sg rest H. unfold exec_element. destruct rest as [|nx more]; [apply first_loop_ok; auto|].
    destruct (s_type nx); auto using first_loop_ok, array_op_ok.
    apply ok_bind.
    - eapply filter_elems_ok; eauto. eapply fits_filter; eauto.
    - intros l _. apply route_matches_ok. eapply fits_tail; eauto.
  Qed.
  Lemma exec_body_ok : forall key root s segs, cost segs < S n -> safe segs -> ok (exec_body E rec key root s segs).
  Proof.
    intros key root s segs Hc Hs. unfold exec_body. destruct segs as [|sg rest]; auto.
    apply ok_bind; auto. intros es _.
    inversion Hs as [|? ? Hsg Hrest]; subst. simpl in Hc. pose proof (seg_cost_pos sg).
    assert (Hf : fits rest) by (split; auto; lia).
    destruct (s_type sg); auto.
    - destruct root; [|apply exec_element_ok; auto].
      destruct rest as [|nx more]; [apply exec_element_ok; auto|].
      destruct (s_type nx); auto using exec_element_ok, root_array_ok.
    - destruct (s_wild sg); [apply handle_recursive_ok; auto|].
      destruct (firstn MaxWildcardResults es); auto. apply ok_bind; [apply handle_wildcard_ok; auto|].
      intros r _. auto.
    - apply ok_bind; [|intros; apply route_matches_ok; auto].
      eapply filter_elems_upto_ok; eauto. unfold filt_fits. unfold seg_cost, seg_safe in *.
      destruct (s_filter sg); auto. split; auto. lia.
  Qed.
End ExecOk.

Lemma exec_ok : forall E fuel, rec_ok fuel (exec E fuel).
Proof.
  intros E. induction fuel as [|f IH]; intros key root s segs Hc Hs; [lia|].
  cbn [exec]. eapply exec_body_ok; eauto.
Qed.

Lemma get_ok : forall E xml path, ok (parse_path path) -> ok (get E xml path).
Proof.
  intros E xml path H. unfold get. destruct (MaxDocumentSize <? blen xml)%N; auto.
  apply ok_bind; auto. intros segs Hs. destruct segs as [|sg segs]; auto.
  apply parse_path_cost in Hs. destruct Hs as [Hc Hs].
  eapply exec_ok; eauto. unfold query_fuel. lia.
Qed.
