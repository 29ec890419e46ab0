(** Path texts, qualified names, index numerals and filter conditions. *)
From Coq Require Import List Ascii String NArith ZArith Bool Lia.
From Verif Require Import GoStr ModelParser ModelPath ProofBase SpecPath.
Import ListNotations.

(** ** Splitting *)
Lemma split_quote : forall n rest,
  split_loop false (quote_name n ++ rest) =
  let '(h, t) := split_loop false rest in (n ++ h, t).
Proof.
  induction n as [|c n IH]; intros rest.
  - simpl. now destruct (split_loop false rest).
  - unfold quote_name in *. cbn [flat_map]. rewrite <- app_assoc. unfold quote_byte at 1.
    destruct (Ascii.eqb c ".") eqn:E1; [|destruct (Ascii.eqb c backslash) eqn:E2].
    + apply Ascii.eqb_eq in E1; subst. cbn. rewrite IH. now destruct (split_loop false rest).
    + apply Ascii.eqb_eq in E2; subst. cbn. rewrite IH. now destruct (split_loop false rest).
    + cbn [orb app split_loop]. rewrite E1, E2. rewrite IH. now destruct (split_loop false rest).
Qed.

Lemma split_path_text : forall names, names <> [] -> split_loop false (path_text names) = (hd [] names, tl names).
Proof.
  induction names as [|n names IH]; [congruence|]. intros _.
  destruct names as [|m names].
  - simpl path_text. rewrite <- (app_nil_r (quote_name n)), split_quote. simpl. now rewrite app_nil_r.
  - cbn [path_text]. rewrite split_quote. cbn [split_loop]. 
    change (Ascii.eqb "." backslash) with false. change (Ascii.eqb "." ".") with true.
    cbn iota. change (match names with [] => quote_name m | _ :: _ => quote_name m ++ "."%char :: path_text names end)
      with (path_text (m :: names)).
    rewrite IH by discriminate. simpl. now rewrite app_nil_r.
Qed.

Lemma quote_name_nil : forall n, quote_name n = [] -> n = [].
Proof.
  destruct n as [|c n]; auto. unfold quote_name; simpl. unfold quote_byte.
  destruct (Ascii.eqb c "." || Ascii.eqb c backslash); discriminate.
Qed.

Lemma path_text_nil : forall names, path_text names = [] -> names = [] \/ names = [[]].
Proof.
  intros [|n [|m names]] H; auto.
  - right. simpl in H. now rewrite (quote_name_nil _ H).
  - cbn [path_text] in H. destruct (quote_name n); discriminate.
Qed.

Lemma split_path_path_text : forall names, names <> [] -> names <> [[]] -> split_path (path_text names) = names.
Proof.
  intros names H1 H2. unfold split_path. destruct (path_text names) eqn:E.
  - apply path_text_nil in E. tauto.
  - rewrite <- E, split_path_text by auto. destruct names; [congruence|reflexivity].
Qed.

Lemma split_on_none : forall b s, ~ In b s -> split_on b s = (s, []).
Proof.
  induction s as [|c s IH]; simpl; intros H; auto.
  rewrite IH by tauto. destruct (Ascii.eqb c b) eqn:E; auto.
  apply Ascii.eqb_eq in E; subst; tauto.
Qed.

Definition elem_seg (n : bytes) : seg := mkSeg SElem n 0 false None false [] [].

Lemma is_numeric_false : forall n, (exists c, In c n /\ c <> "-"%char /\ ~ (48 <= N_of_ascii c <= 57)%N) ->
  is_numeric n = false.
Proof.
  intros n [c [H1 [H2 H3]]]. destruct n as [|x n]; [easy|]. unfold is_numeric.
  destruct (forallb _ (x :: n)) eqn:E; auto. exfalso.
  rewrite forallb_forall in E. specialize (E _ H1).
  apply orb_true_iff in E. destruct E as [E|E].
  - unfold is_digit, in_range, code in E. apply andb_true_iff in E. destruct E as [E1 E2].
    apply N.leb_le in E1; apply N.leb_le in E2. apply H3; lia.
  - apply andb_true_iff in E; destruct E as [E _]. apply Ascii.eqb_eq in E; congruence.
Qed.

Lemma parse_part_plain : forall n, plain_name n -> parse_part n = Ok (PSeg (elem_seg n)).
Proof.
  intros n [H1 H2 H3 H4 H5 H6]. destruct n as [|c n]; [congruence|].
  unfold parse_part, parse_modifiers. rewrite split_on_none by auto.
  destruct (strip_prefix (bs "#(") (c :: n)) eqn:E.
  - apply strip_prefix_spec in E. exfalso. eapply (H4 b); exact E.
  - destruct (Ascii.eqb c "@") eqn:Ea.
    + apply Ascii.eqb_eq in Ea; subst. exfalso; eapply H3; eauto.
    + assert (K : forall x, In x [bs "%"; bs "#"; bs "*"; bs "**"] -> bytes_eqb (c :: n) x = false).
      { intros x Hx. apply bytes_eqb_neq. congruence. }
      rewrite !K by (simpl; auto). rewrite (is_numeric_false _ H6). reflexivity.
Qed.

Lemma merge_plain : forall names, merge_fields (map elem_seg names) = map elem_seg names.
Proof. induction names; simpl; congruence. Qed.

Lemma parse_parts_plain : forall names, Forall plain_name names ->
  parse_parts names = Ok (Some (map elem_seg names)).
Proof.
  induction 1 as [|n names H1 H2 IH]; auto.
  simpl parse_parts. rewrite (parse_part_plain _ H1). simpl bind. rewrite IH. reflexivity.
Qed.

Lemma parse_path_plain : forall names, names <> [] -> Forall plain_name names ->
  (List.length names <= 100)%nat ->
  parse_path (path_text names) = Ok (map elem_seg names).
Proof.
  intros names Hne Hp Hl.
  assert (Hne2 : names <> [[]]).
  { intros ->. inversion Hp as [|? ? H]; subst. apply pn_nonempty in H. congruence. }
  pose proof (split_path_path_text _ Hne Hne2) as Hs.
  unfold parse_path. destruct (path_text names) eqn:E.
  - exfalso. simpl in Hs. congruence.
  - unfold parse_path_internal. rewrite Hs.
    assert (Hl' : Nat.ltb MaxPathSegments (List.length names) = false) by (apply Nat.ltb_ge; exact Hl).
    rewrite Hl'. rewrite parse_parts_plain by auto. simpl. now rewrite merge_plain.
Qed.

(** ** Number of segments *)
Lemma step_count_split : forall n s, List.length s <= n ->
  S (List.length (snd (split_loop false s))) = step_count s.
Proof.
  induction n as [|n IH]; intros s Hn.
  - destruct s; [reflexivity|simpl in Hn; lia].
  - destruct s as [|c s]; [reflexivity|]. simpl in Hn. cbn [split_loop step_count].
    destruct (Ascii.eqb c backslash) eqn:E1.
    + destruct s as [|d s]; [reflexivity|]. cbn [split_loop].
      rewrite <- (IH s) by (simpl in Hn; lia). now destruct (split_loop false s).
    + destruct (Ascii.eqb c ".") eqn:E2; rewrite <- (IH s) by lia; now destruct (split_loop false s).
Qed.

Lemma split_path_length : forall s, s <> [] -> List.length (split_path s) = step_count s.
Proof.
  intros s H. destruct s as [|c s]; [congruence|]. unfold split_path.
  rewrite <- (step_count_split _ _ (le_n _)). destruct (split_loop false (c :: s)); reflexivity.
Qed.

Lemma step_count_le : forall n s, List.length s <= n -> step_count s <= S (List.length s).
Proof.
  induction n as [|n IH]; intros s Hn; destruct s as [|c s]; simpl in *; try lia.
  destruct (Ascii.eqb c backslash).
  - destruct s; simpl in *; [lia|]. specialize (IH s); lia.
  - destruct (Ascii.eqb c "."); specialize (IH s); lia.
Qed.

Lemma parse_path_long : forall path, 100 < step_count path -> parse_path path = Ok [].
Proof.
  intros path H. destruct path as [|c path]; auto.
  unfold parse_path, parse_path_internal. rewrite split_path_length by discriminate.
  assert (E : Nat.ltb MaxPathSegments (step_count (c :: path)) = true) by (apply Nat.ltb_lt; exact H).
  rewrite E. reflexivity.
Qed.

Lemma parse_parts_length : forall l ss, parse_parts l = Ok (Some ss) -> List.length ss <= List.length l.
Proof.
  induction l as [|x l IH]; simpl; intros ss H.
  - injection H; intros; subst; auto.
  - apply bind_ok in H. destruct H as [o [H1 H2]]. destruct o.
    + apply IH in H2. lia.
    + discriminate.
    + apply bind_ok in H2. destruct H2 as [r [H2 H3]]. destruct r as [ss'|]; [|discriminate].
      injection H3; intros; subst. simpl. apply IH in H2. lia.
Qed.

Lemma merge_fields_length : forall n l, List.length l <= n -> List.length (merge_fields l) <= List.length l.
Proof.
  induction n as [|n IH]; intros l Hn; destruct l as [|x l]; cbn [List.length] in *; auto; try lia.
  assert (H1 : List.length (merge_fields l) <= List.length l) by (apply IH; lia).
  cbn [merge_fields]. destruct (s_type x); cbn [List.length]; try lia.
  destruct l as [|nx l2]; [cbn [List.length] in *; lia|].
  assert (H2 : List.length (merge_fields l2) <= List.length l2) by (apply IH; cbn [List.length] in *; lia).
  destruct (s_type nx);
   try (match goal with |- context [if ?b then _ else _] => destruct b end);
   cbn [List.length] in *; lia.
Qed.

Lemma parse_path_bound : forall path segs, parse_path path = Ok segs ->
  List.length segs <= 100 /\ List.length segs <= S (List.length path).
Proof.
  intros path segs H. destruct path as [|c path].
  - simpl in H. injection H; intros; subst. simpl; lia.
  - unfold parse_path in H. apply bind_ok in H. destruct H as [r [H1 H2]].
    destruct r as [ss|]; [|injection H2; intros; subst; simpl; lia].
    injection H2; intros; subst. unfold parse_path_internal in H1.
    destruct (Nat.ltb_spec MaxPathSegments (List.length (split_path (c :: path)))); [discriminate|].
    apply bind_ok in H1. destruct H1 as [r [H3 H4]]. destruct r as [ss|]; [|discriminate].
    injection H4; intros; subst. apply parse_parts_length in H3.
    pose proof (merge_fields_length _ ss (le_n _)).
    rewrite split_path_length in * by discriminate.
    pose proof (step_count_le _ (c :: path) (le_n _)).
    unfold MaxPathSegments in H. split; lia.
Qed.

(** ** Namespaces *)
Lemma split_first_spec : forall b s p q, split_first b s = Some (p, q) <-> s = p ++ b :: q /\ ~ In b p.
Proof.
  induction s as [|c s IH]; simpl; intros p q.
  - split; [discriminate|]. intros [H _]. destruct p; discriminate.
  - destruct (Ascii.eqb c b) eqn:E.
    + apply Ascii.eqb_eq in E; subst. split.
      * intros H; injection H; intros; subst. auto.
      * intros [H1 H2]. destruct p as [|x p]; [injection H1; intros; subst; auto|].
        injection H1; intros; subst. exfalso; apply H2; simpl; auto.
    + apply Ascii.eqb_neq in E. destruct (split_first b s) as [[p1 q1]|] eqn:F.
      * split.
        -- intros H; injection H; intros; subst. destruct (IH p1 q) as [IH1 _].
           destruct (IH1 eq_refl) as [-> H2]. split; auto. simpl. intros [H3|H3]; auto.
        -- intros [H1 H2]. destruct p as [|x p]; [injection H1; intros; congruence|].
           injection H1; intros H3 H4; subst. destruct (IH p q) as [_ IH2].
           assert (Some (p1, q1) = Some (p, q)) by (apply IH2; split; auto; simpl in H2; auto).
           injection H; intros; subst; auto.
      * split; [discriminate|]. intros [H1 H2]. destruct p as [|x p]; [injection H1; intros; congruence|].
        injection H1; intros H3 H4; subst. destruct (IH p q) as [_ IH2]. discriminate IH2.
        split; auto. simpl in H2; auto.
Qed.
Lemma split_first_none : forall b s, split_first b s = None <-> ~ In b s.
Proof.
  intros b s. destruct (split_first b s) as [[p q]|] eqn:E.
  - apply split_first_spec in E. destruct E as [-> H]. split; [discriminate|].
    intros H1. exfalso; apply H1. apply in_or_app; simpl; auto.
  - split; auto. intros _ H. apply in_split in H. destruct H as [p [q ->]].
    clear -E. assert (exists p q, split_first b (p ++ b :: q) = Some (p, q) \/ True) by (exists [], []; auto).
    clear H. induction p as [|x p IH]; simpl in E.
    + now rewrite Ascii.eqb_refl in E.
    + destruct (Ascii.eqb x b); [discriminate|]. destruct (split_first b (p ++ b :: q)) as [[? ?]|]; [discriminate|auto].
Qed.

Definition bad_prefix_b (p : bytes) : bool := (MaxNamespacePrefixLength <? blen p)%N || existsb is_ctl p.
Lemma good_prefix_b : forall p, good_prefix p <-> ~ In ":"%char p /\ bad_prefix_b p = false.
Proof.
  intros p. unfold bad_prefix_b. rewrite orb_false_iff, N.ltb_ge. split.
  - intros [H1 H2 H3]. split; auto. split.
    + unfold MaxNamespacePrefixLength, blen. lia.
    + destruct (existsb is_ctl p) eqn:E; auto. apply existsb_exists in E. destruct E as [c [E1 E2]].
      destruct (H3 _ E1). unfold is_ctl, code in E2. apply orb_true_iff in E2.
      destruct E2 as [E2|E2]; [apply N.ltb_lt in E2; lia|apply N.eqb_eq in E2; lia].
  - intros [H1 [H2 H3]]. constructor; auto.
    + unfold MaxNamespacePrefixLength, blen in H2. lia.
    + intros c Hc. assert (is_ctl c = false).
      { destruct (is_ctl c) eqn:E; auto. assert (existsb is_ctl p = true) by (apply existsb_exists; eauto). congruence. }
      unfold is_ctl, code in H. apply orb_false_iff in H. destruct H as [Ha Hb].
      apply N.ltb_ge in Ha. apply N.eqb_neq in Hb. auto.
Qed.

Lemma split_ns_good : forall p l, good_prefix p -> split_namespace (qualified p l) = (p, l).
Proof.
  intros p l H. apply good_prefix_b in H. destruct H as [H1 H2]. unfold split_namespace, qualified.
  destruct (split_first_spec ":" (p ++ ":"%char :: l) p l) as [_ K].
  rewrite K by auto. unfold bad_prefix_b in H2. apply orb_false_iff in H2. destruct H2 as [-> ->]. reflexivity.
Qed.
Lemma split_ns_other : forall n, (forall p l, good_prefix p -> n <> qualified p l) -> split_namespace n = ([], n).
Proof.
  intros n H. unfold split_namespace. destruct (split_first ":" n) as [[p l]|] eqn:E; auto.
  apply split_first_spec in E. destruct E as [-> E].
  destruct (MaxNamespacePrefixLength <? blen p)%N eqn:E1; auto.
  destruct (existsb is_ctl p) eqn:E2; auto. exfalso. eapply (H p l); [|reflexivity].
  apply good_prefix_b. split; auto. unfold bad_prefix_b. now rewrite E1, E2.
Qed.
Lemma split_ns_cases : forall n,
  (exists p l, good_prefix p /\ n = qualified p l /\ split_namespace n = (p, l)) \/
  ((forall p l, good_prefix p -> n <> qualified p l) /\ split_namespace n = ([], n)).
Proof.
  intros n. destruct (split_first ":" n) as [[p l]|] eqn:E.
  - apply split_first_spec in E. destruct E as [-> E].
    destruct (bad_prefix_b p) eqn:B.
    + right. assert (forall p0 l0, good_prefix p0 -> p ++ ":"%char :: l <> qualified p0 l0).
      { intros p0 l0 G Heq. apply good_prefix_b in G. destruct G as [G1 G2].
        destruct (split_first_spec ":" (p ++ ":"%char :: l) p l) as [_ K1].
        destruct (split_first_spec ":" (p ++ ":"%char :: l) p0 l0) as [_ K2].
        rewrite K1 in K2 by auto. assert (Some (p, l) = Some (p0, l0)) by (apply K2; auto).
        injection H; intros; subst. congruence. }
      split; auto. now apply split_ns_other.
    + left. assert (good_prefix p) by (now apply good_prefix_b). exists p, l. split; auto. split; auto.
      now apply split_ns_good.
  - right. apply split_first_none in E.
    assert (forall p0 l0, good_prefix p0 -> n <> qualified p0 l0).
    { intros p0 l0 _ ->. apply E. unfold qualified. apply in_or_app; simpl; auto. }
    split; auto. now apply split_ns_other.
Qed.

Lemma good_prefix_nil : good_prefix [].
Proof. constructor; simpl; auto; try lia; easy. Qed.

Lemma ns_match_unprefixed : forall step name,
  (forall p l, good_prefix p -> step <> qualified p l) ->
  seg_matches (elem_seg step) name = true <->
  name = step \/ exists p, good_prefix p /\ name = qualified p step.
Proof.
  intros step name H. unfold seg_matches. cbn [s_type s_value elem_seg].
  rewrite (split_ns_other _ H).
  destruct (split_ns_cases name) as [[p [l [G [-> ->]]]]|[N ->]].
  - rewrite bytes_eqb_eq. split.
    + intros ->. right. exists p; auto.
    + intros [E|[p' [G' E]]].
      * exfalso. eapply H; eauto.
      * assert (Ha := split_ns_good p l G). rewrite E, split_ns_good in Ha by auto.
        injection Ha; intros; subst; auto.
  - rewrite bytes_eqb_eq. split.
    + intros ->; auto.
    + intros [->|[p' [G' E]]]; auto. exfalso. eapply N; eauto.
Qed.

Lemma ns_match_prefixed : forall p l name, good_prefix p -> p <> [] ->
  seg_matches (elem_seg (qualified p l)) name = true <-> name = qualified p l.
Proof.
  intros p l name G Hp. unfold seg_matches. cbn [s_type s_value elem_seg].
  rewrite (split_ns_good _ _ G). destruct p as [|c p]; [congruence|].
  destruct (split_ns_cases name) as [[p' [l' [G' [-> ->]]]]|[N ->]].
  - rewrite andb_true_iff, !bytes_eqb_eq. split.
    + intros [-> ->]; auto.
    + intros E. assert (Ha := split_ns_good p' l' G'). rewrite E, split_ns_good in Ha by auto.
      injection Ha; intros; subst; auto.
  - rewrite andb_true_iff, !bytes_eqb_eq. split.
    + intros [H _]; discriminate.
    + intros ->. exfalso. eapply N; eauto.
Qed.

Lemma ns_match_empty_prefix : forall l name,
  seg_matches (elem_seg (qualified [] l)) name = true <->
  (exists p, good_prefix p /\ name = qualified p l) \/
  (name = l /\ forall p l', good_prefix p -> l <> qualified p l').
Proof.
  intros l name. unfold seg_matches. cbn [s_type s_value elem_seg].
  rewrite (split_ns_good [] l good_prefix_nil).
  destruct (split_ns_cases name) as [[p' [l' [G' [-> ->]]]]|[N ->]].
  - rewrite bytes_eqb_eq. split.
    + intros ->. left; eauto.
    + intros [[p [G E]]|[E H]].
      * assert (Ha := split_ns_good p' l' G'). rewrite E, split_ns_good in Ha by auto.
        injection Ha; intros; subst; auto.
      * exfalso. eapply H; eauto.
  - rewrite bytes_eqb_eq. split.
    + intros ->. right; auto.
    + intros [[p [G E]]|[E H]]; auto. exfalso. eapply N; eauto.
Qed.

(** ** Case folding *)
Lemma to_lower_char_spec : forall c, to_lower_char c = ascii_lower c.
Proof. reflexivity. Qed.
Lemma lower_char_idem : forall c, ascii_lower (ascii_lower c) = ascii_lower c.
Proof. intro c; bytecases c; reflexivity. Qed.
Lemma lower_char_nonascii : forall c, (128 <= N_of_ascii c)%N -> ascii_lower c = c.
Proof. intros c; bytecases c; intros H; try reflexivity; exfalso; cbv in H; apply H; reflexivity. Qed.
Lemma lower_char_colon : forall c, Ascii.eqb (ascii_lower c) ":" = Ascii.eqb c ":".
Proof. intro c; bytecases c; reflexivity. Qed.
Lemma lower_char_ctl : forall c, is_ctl (ascii_lower c) = is_ctl c.
Proof. intro c; bytecases c; reflexivity. Qed.

Lemma lower_eq_map : forall s, to_lower_ascii s = map ascii_lower s.
Proof. reflexivity. Qed.

Lemma split_first_lower : forall s,
  split_first ":" (to_lower_ascii s) =
  match split_first ":" s with Some (p, q) => Some (to_lower_ascii p, to_lower_ascii q) | None => None end.
Proof.
  unfold to_lower_ascii. induction s as [|c s IH]; auto. cbn [map split_first].
  rewrite to_lower_char_spec, lower_char_colon. destruct (Ascii.eqb c ":"); auto.
  rewrite IH. destruct (split_first ":" s) as [[p q]|]; reflexivity.
Qed.
Lemma existsb_ctl_lower : forall p, existsb is_ctl (to_lower_ascii p) = existsb is_ctl p.
Proof.
  unfold to_lower_ascii. induction p as [|c p IH]; auto. cbn [map existsb].
  now rewrite to_lower_char_spec, lower_char_ctl, IH.
Qed.
Lemma split_ns_lower : forall n, split_namespace (to_lower_ascii n) =
  (to_lower_ascii (fst (split_namespace n)), to_lower_ascii (snd (split_namespace n))).
Proof.
  intros n. unfold split_namespace. rewrite split_first_lower.
  destruct (split_first ":" n) as [[p q]|]; auto.
  rewrite existsb_ctl_lower. unfold blen. unfold to_lower_ascii at 1. rewrite map_length.
  destruct (MaxNamespacePrefixLength <? N.of_nat (List.length p))%N; auto.
  destruct (existsb is_ctl p); auto.
Qed.

Lemma match_ci : forall step name,
  seg_matches_opts false (elem_seg step) name =
  seg_matches (elem_seg (to_lower_ascii step)) (to_lower_ascii name).
Proof.
  intros step name. unfold seg_matches_opts, seg_matches. cbn [s_type s_value elem_seg].
  rewrite !split_ns_lower. destruct (split_namespace step) as [pp pl], (split_namespace name) as [ep el].
  reflexivity.
Qed.
Lemma match_cs : forall sg name, seg_matches_opts true sg name = seg_matches sg name.
Proof.
  intros. unfold seg_matches_opts, seg_matches. destruct (s_type sg); auto.
Qed.
Lemma match_exact_ci : forall step name,
  seg_matches (elem_seg step) name = true -> seg_matches_opts false (elem_seg step) name = true.
Proof.
  intros step name H. rewrite match_ci. unfold seg_matches in *. cbn [s_type s_value elem_seg] in *.
  rewrite !split_ns_lower. destruct (split_namespace step) as [pp pl], (split_namespace name) as [ep el].
  cbn [fst snd]. destruct pp as [|c pp].
  - cbn. apply bytes_eqb_eq in H. subst. apply bytes_eqb_refl.
  - apply andb_true_iff in H. destruct H as [H1 H2]. apply bytes_eqb_eq in H1, H2. subst.
    cbn [to_lower_ascii map]. rewrite !bytes_eqb_refl. reflexivity.
Qed.
Lemma lower_idem : forall s, to_lower_ascii (to_lower_ascii s) = to_lower_ascii s.
Proof.
  unfold to_lower_ascii; induction s; auto. simpl. f_equal; auto. apply lower_char_idem.
Qed.
