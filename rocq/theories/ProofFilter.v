(** Filters: evaluation agrees with the meaning of conditions; first and all matches. *)
From Coq Require Import List Ascii String NArith ZArith Bool Lia SpecFloat.
From Verif Require Import GoStr ModelParser ModelPattern ModelPath ModelResult ModelQuery SpecPath SpecGlob SpecFilter
  ProofBase ProofPattern ProofPath ProofScan ProofFuel ProofFuel2 ProofSyntax.
Import ListNotations.

(** ** Number texts *)
Lemma is_digit_iff : forall c, is_digit c = true <-> digit c.
Proof.
  intros c. split; [|apply digit_is_digit]. unfold digit, is_digit, in_range, code. rewrite andb_true_iff, !N.leb_le. tauto.
Qed.
Definition exp_tail (r : bytes) : Prop := r = [] \/ exists e t, r = e :: t /\ In e (bs "eE").
Lemma numeric_loop_spec : forall s i0 hd hp, i0 = false ->
  (numeric_loop i0 hd hp s = true <->
   exists m rest, s = m ++ rest /\ exp_tail rest /\ (hd = true \/ exists d, In d m /\ digit d) /\
     (Forall digit m \/ (hp = false /\ exists a b, m = a ++ "."%char :: b /\ Forall digit a /\ Forall digit b))).
Proof.
  induction s as [|c s IH]; intros i0 hd hp ->; cbn [numeric_loop].
  - split.
    + intros ->. exists [], []. repeat split; auto. now left.
    + intros [m [rest [H [_ [[H1|[d [H1 _]]] _]]]]]; auto. symmetry in H. apply app_eq_nil in H. destruct H; subst. destruct H1.
  - destruct (is_digit c) eqn:D.
    + rewrite (IH _ _ _ eq_refl). apply is_digit_iff in D. split.
      * intros [m [rest [-> [H1 [_ H3]]]]]. exists (c :: m), rest. split; auto. split; auto. split; [right; exists c; split; auto; now left|].
        destruct H3 as [H3|[H3 [a [b [-> [H4 H5]]]]]]; [left; constructor; auto|]. right. split; auto. exists (c :: a), b. split; auto.
      * intros [m [rest [E [H1 [H2 H3]]]]]. destruct m as [|c' m].
        { cbn [app] in E. subst rest. destruct H1 as [H1|[e [t [H1 K]]]]; [discriminate|]. injection H1 as -> ->.
          exfalso. clear - D K. destruct K as [<-|[<-|[]]]; unfold digit in D; vm_compute in D; intuition. }
        injection E as <- ->. exists m, rest. split; auto. split; auto. split; [now left|].
        destruct H3 as [H3|[H3 [a [b [E [H4 H5]]]]]]; [left; now inversion H3|]. right. split; auto.
        destruct a as [|a0 a]; cbn [app] in E; injection E as -> ->.
        { exfalso. unfold digit in D. vm_compute in D. intuition. }
        inversion H4; subst. eauto.
    + destruct (Ascii.eqb_spec c ".") as [->|Nd].
      * destruct hp.
        { split; [discriminate|]. intros [m [rest [E [H1 [H2 H3]]]]]. destruct m as [|c' m].
          - cbn [app] in E. subst rest. destruct H1 as [H1|[e [t [H1 K]]]]; [discriminate|]. injection H1 as <- ->.
            destruct K as [K|[K|[]]]; discriminate.
          - injection E as <- ->. destruct H3 as [H3|[H3 _]]; [|discriminate]. apply Forall_inv in H3. apply is_digit_iff in H3. discriminate. }
        rewrite (IH _ _ _ eq_refl). split.
        { intros [m [rest [-> [H1 [H2 H3]]]]]. exists ("."%char :: m), rest. split; auto. split; auto. split.
          - destruct H2 as [H2|[d [H2 H4]]]; [now left|]. right. exists d. split; auto. now right.
          - right. split; auto. destruct H3 as [H3|[H3 _]]; [|discriminate]. exists [], m. auto. }
        { intros [m [rest [E [H1 [H2 H3]]]]]. destruct m as [|c' m].
          - cbn [app] in E. subst rest. destruct H1 as [H1|[e [t [H1 K]]]]; [discriminate|]. injection H1 as <- ->.
            destruct K as [K|[K|[]]]; discriminate.
          - injection E as <- ->. exists m, rest. split; auto. split; auto. split.
            + destruct H2 as [H2|[d [[<-|H2] H4]]]; [now left|apply is_digit_iff in H4; discriminate|]. right. eauto.
            + left. destruct H3 as [H3|[_ [a [b [E [H4 H5]]]]]].
              * apply Forall_inv in H3. apply is_digit_iff in H3. discriminate.
              * destruct a as [|a0 a]; cbn [app] in E; injection E; [intros ->; auto|].
                intros _ <-. apply Forall_inv in H4. apply is_digit_iff in H4. discriminate. }
      * destruct (Ascii.eqb c "-" || Ascii.eqb c "+") eqn:Sg.
        { split; [discriminate|]. intros [m [rest [E [H1 [H2 H3]]]]].
          assert (Hc : c = "-"%char \/ c = "+"%char).
          { apply orb_true_iff in Sg. destruct Sg as [K|K]; apply Ascii.eqb_eq in K; auto. }
          destruct m as [|c' m].
          - cbn [app] in E. subst rest. destruct H1 as [H1|[e [t [H1 K]]]]; [discriminate|]. injection H1 as <- ->.
            destruct K as [<-|[<-|[]]]; destruct Hc; discriminate.
          - injection E as <- ->. destruct H3 as [H3|[_ [a [b [E [H4 H5]]]]]].
            + apply Forall_inv in H3. apply is_digit_iff in H3. congruence.
            + destruct a as [|a0 a]; cbn [app] in E; injection E; [intros _ ->; destruct Hc; discriminate|].
              intros _ <-. apply Forall_inv in H4. apply is_digit_iff in H4. congruence. }
        destruct (Ascii.eqb c "e" || Ascii.eqb c "E") eqn:Ex.
        { split.
          - intros ->. exists [], (c :: s). repeat split; auto. right. exists c, s. split; auto.
            apply orb_true_iff in Ex. destruct Ex as [K|K]; apply Ascii.eqb_eq in K; subst; [now left|right; now left].
          - intros [m [rest [E [H1 [H2 H3]]]]]. destruct m as [|c' m].
            + destruct H2 as [H2|[d [[] _]]]. exact H2.
            + injection E as <- ->. exfalso. destruct H3 as [H3|[_ [a [b [E [H4 H5]]]]]].
              * apply Forall_inv in H3. apply is_digit_iff in H3. congruence.
              * destruct a as [|a0 a]; cbn [app] in E; injection E; [congruence|].
                intros _ <-. apply Forall_inv in H4. apply is_digit_iff in H4. congruence. }
        { split; [discriminate|]. intros [m [rest [E [H1 [H2 H3]]]]]. destruct m as [|c' m].
          - cbn [app] in E. subst rest. destruct H1 as [H1|[e [t [H1 K]]]]; [discriminate|]. injection H1 as <- ->.
            destruct K as [<-|[<-|[]]]; discriminate.
          - injection E as <- ->. destruct H3 as [H3|[_ [a [b [E [H4 H5]]]]]].
            + apply Forall_inv in H3. apply is_digit_iff in H3. congruence.
            + destruct a as [|a0 a]; cbn [app] in E; injection E; [congruence|].
              intros _ <-. apply Forall_inv in H4. apply is_digit_iff in H4. congruence. }
Qed.
Lemma numeric_loop_i0 : forall s hd hp, (forall c r, s = c :: r -> c <> "-"%char /\ c <> "+"%char) ->
  numeric_loop true hd hp s = numeric_loop false hd hp s.
Proof.
  intros [|c s] hd hp H; auto. cbn [numeric_loop]. destruct (H c s eq_refl) as [H1 H2].
  destruct (is_digit c); auto. destruct (Ascii.eqb c "."); auto.
  destruct (Ascii.eqb_spec c "-"); [congruence|]. destruct (Ascii.eqb_spec c "+"); [congruence|]. reflexivity.
Qed.
Lemma is_numeric_value_spec : forall s, is_numeric_value s = true <-> number_text s.
Proof.
  intros s. unfold number_text, mantissa. fold exp_tail.
  assert (L : forall t, numeric_loop false false false t = true <-> exists m rest, t = m ++ rest /\
     ((exists d, In d m /\ digit d) /\
      (Forall digit m \/ (exists a b, m = a ++ "."%char :: b /\ Forall digit a /\ Forall digit b))) /\ exp_tail rest).
  { intros t. rewrite (numeric_loop_spec t false false false eq_refl). split.
    - intros [m [rest [H1 [H2 [[H3|H3] H4]]]]]; [discriminate|]. exists m, rest. repeat split; auto.
      destruct H4 as [H4|[_ H4]]; auto.
    - intros [m [rest [H1 [[H2 H3] H4]]]]. exists m, rest. repeat split; auto. destruct H3; auto. }
  assert (M : forall m rest, (exists d, In d m /\ digit d) ->
      (Forall digit m \/ (exists a b, m = a ++ "."%char :: b /\ Forall digit a /\ Forall digit b)) ->
      forall c r, m ++ rest = c :: r -> c <> "-"%char /\ c <> "+"%char).
  { intros m rest [d [Hd _]] Hm c r E. destruct m as [|c' m]; [destruct Hd|]. injection E as <- _.
    assert (K : digit c' \/ c' = "."%char).
    { destruct Hm as [Hm|[a [b [E [H1 H2]]]]]; [left; now inversion Hm|].
      destruct a; cbn [app] in E; injection E as -> _; auto. left. now inversion H1. }
    destruct K as [K| ->]; [|split; discriminate]. split; intros ->; unfold digit in K; vm_compute in K; intuition. }
  unfold is_numeric_value. destruct s as [|c s].
  { split; [discriminate|]. intros [sign [m [rest [E [_ [[[d [Hd _]] _] _]]]]]].
    symmetry in E. apply app_eq_nil in E. destruct E as [_ E]. apply app_eq_nil in E. destruct E; subst. destruct Hd. }
  destruct (Ascii.eqb c "-" || Ascii.eqb c "+") eqn:Sg.
  - assert (Hc : In [c] [[]; bs "+"; bs "-"]).
    { apply orb_true_iff in Sg. destruct Sg as [K|K]; apply Ascii.eqb_eq in K; subst; [right; right; now left|right; now left]. }
    assert (Q : numeric_loop true false false (c :: s) = numeric_loop false false false s).
    { cbn [numeric_loop]. rewrite Sg. assert (is_digit c = false /\ Ascii.eqb c "." = false) as [-> ->]; auto.
      apply orb_true_iff in Sg. destruct Sg as [K|K]; apply Ascii.eqb_eq in K; subst; auto. }
    rewrite Q, L. split.
    + intros [m [rest [-> [H1 H2]]]]. exists [c], m, rest. repeat split; auto; apply H1.
    + intros [sign [m [rest [E [Hs [H1 H2]]]]]]. destruct sign as [|x sign].
      * exfalso. cbn [app] in E. destruct (M m rest (proj1 H1) (proj2 H1) c s (eq_sym E)) as [M1 M2].
        apply orb_true_iff in Sg. destruct Sg as [K|K]; apply Ascii.eqb_eq in K; auto.
      * assert (sign = []) as ->. { destruct Hs as [Hs|[Hs|[Hs|[]]]]; [discriminate| |]; injection Hs as _ <-; auto. }
        injection E as _ ->. exists m, rest. auto.
  - rewrite numeric_loop_i0.
    2:{ intros x r E. injection E as <- _. apply orb_false_iff in Sg. destruct Sg as [S1 S2].
        split; intros ->; [rewrite Ascii.eqb_refl in S1|rewrite Ascii.eqb_refl in S2]; discriminate. }
    rewrite L. split.
    + intros [m [rest [H0 [H1 H2]]]]. exists [], m, rest. repeat split; auto; try apply H1. now left.
    + intros [sign [m [rest [E [Hs [H1 H2]]]]]]. destruct sign as [|x sign]; [exists m, rest; auto|].
      exfalso. injection E as <- _. destruct Hs as [Hs|[Hs|[Hs|[]]]]; [discriminate| |]; injection Hs as <- _;
        rewrite ?Ascii.eqb_refl, ?orb_true_r in Sg; discriminate.
Qed.

(** ** Decisions *)
Lemma special_finite : forall f, f64_special f = false <-> finite f.
Proof. intros []; cbn; intuition discriminate. Qed.
Lemma ltb_lt : forall x y, SFltb x y = true <-> num_lt x y.
Proof. intros x y. unfold SFltb, num_lt. destruct (SFcompare x y) as [[]|]; intuition discriminate. Qed.
Lemma leb_le : forall x y, SFleb x y = true <-> num_lt x y \/ num_eq x y.
Proof. intros x y. unfold SFleb, num_lt, num_eq. destruct (SFcompare x y) as [[]|]; intuition discriminate. Qed.
Lemma ordered_spec : forall E op v lit, ordered_compare E op v lit = true <->
  exists x y, number (e_parse_float E) v x /\ number (e_parse_float E) lit y /\ num_cmp op x y = true.
Proof.
  intros E op v lit. unfold ordered_compare, number.
  destruct (is_numeric_value v) eqn:N1; cbn [negb orb].
  2:{ split; [discriminate|]. intros [x [y [[H _] _]]]. apply is_numeric_value_spec in H. congruence. }
  destruct (is_numeric_value lit) eqn:N2; cbn [negb].
  2:{ split; [discriminate|]. intros [x [y [_ [[H _] _]]]]. apply is_numeric_value_spec in H. congruence. }
  apply is_numeric_value_spec in N1, N2.
  destruct (e_parse_float E v) as [x|] eqn:P1.
  2:{ split; [discriminate|]. intros [x [y [[_ [H _]] _]]]. congruence. }
  destruct (e_parse_float E lit) as [y|] eqn:P2.
  2:{ split; [discriminate|]. intros [x' [y [_ [[_ [H _]] _]]]]. congruence. }
  destruct (f64_special x) eqn:S1; cbn [orb].
  { split; [discriminate|]. intros [x' [y' [[_ [Hx F]] _]]]. injection Hx as <-. apply special_finite in F. congruence. }
  destruct (f64_special y) eqn:S2.
  { split; [discriminate|]. intros [x' [y' [_ [[_ [Hx F]] _]]]]. injection Hx as <-. apply special_finite in F. congruence. }
  apply special_finite in S1, S2. split.
  - intros H. exists x, y. repeat split; auto.
  - intros [x' [y' [[_ [Hx _]] [[_ [Hy _]] H]]]]. congruence.
Qed.
Lemma contains_glob : forall p, contains_any glob_chars p = true <-> is_glob p.
Proof.
  intros p. unfold contains_any, is_glob, glob_chars. rewrite existsb_exists. split.
  - intros [c [H1 H2]]. exists c. split; auto. now apply mem_In.
  - intros [c [H1 H2]]. exists c. split; auto. now apply mem_In.
Qed.
Lemma pattern_compare_spec : forall v p neg, pattern_compare neg v p = true <->
  (is_glob p -> within_budget v p) /\ (if neg : bool then ~ matches v p else matches v p).
Proof.
  intros v p neg. unfold pattern_compare, matches. destruct (contains_any glob_chars p) eqn:C; cbn [negb].
  - pose proof (proj1 (contains_glob p) C) as G.
    assert (W : within_budget v p <-> snd (pattern_match v p MaxPatternIterations) = false).
    { unfold within_budget. change 10000%N with MaxPatternIterations.
      pose proof (match_runes_stopped (runes v) (runes p) MaxPatternIterations) as M.
      change (match_runes (runes v) (runes p) MaxPatternIterations) with (pattern_match v p MaxPatternIterations) in M.
      destruct (snd (pattern_match v p MaxPatternIterations)).
      - pose proof (proj1 M eq_refl). split; [lia|discriminate].
      - split; auto. intros _. apply N.nlt_ge. intros K. apply M in K. discriminate. }
    destruct (pattern_match v p MaxPatternIterations) as [m st] eqn:PM. cbn [snd] in W. destruct st.
    + split; [discriminate|]. intros [H _]. specialize (H G). apply W in H. discriminate.
    + pose proof (match_runes_decides _ _ _ _ PM) as D.
      assert (MM : matches v p <-> m = true).
      { unfold matches. split; [intros [H _]; apply D; auto|]. intros H. split; [intros _; now apply D|contradiction]. }
      unfold matches in MM. destruct neg.
      * rewrite MM. destruct m; cbn; intuition.
      * rewrite MM. destruct m; cbn; intuition.
  - assert (G : ~ is_glob p) by (intros G; apply contains_glob in G; congruence).
    destruct (bytes_eqb v p) eqn:B.
    + apply bytes_eqb_eq in B. destruct neg; cbn; intuition discriminate.
    + assert (v <> p) by (intros ->; rewrite bytes_eqb_refl in B; discriminate). destruct neg; cbn; intuition discriminate.
Qed.
Lemma filter_decide_spec : forall E op exi v lit, filter_decide E op exi v lit = true <->
  holds (e_parse_float E) op (if exi then Some v else None) lit.
Proof.
  intros E op exi v lit. unfold filter_decide. destruct exi; cbn [negb].
  2:{ destruct op; split; try discriminate; intros H; inversion H. }
  destruct op.
  - rewrite bytes_eqb_eq. split; [intros ->; constructor|now inversion 1].
  - split.
    + intros H. constructor. intros ->. rewrite bytes_eqb_refl in H. discriminate.
    + inversion 1; subst. destruct (bytes_eqb v lit) eqn:B; auto. apply bytes_eqb_eq in B. contradiction.
  - rewrite ordered_spec. cbn [num_cmp]. split.
    + intros [x [y [H1 [H2 H3]]]]. apply ltb_lt in H3. econstructor; eauto.
    + inversion 1; subst. exists x, y. rewrite ltb_lt. auto.
  - rewrite ordered_spec. cbn [num_cmp]. split.
    + intros [x [y [H1 [H2 H3]]]]. apply ltb_lt in H3. econstructor; eauto.
    + inversion 1; subst. exists x, y. rewrite ltb_lt. auto.
  - rewrite ordered_spec. cbn [num_cmp]. split.
    + intros [x [y [H1 [H2 H3]]]]. apply leb_le in H3. econstructor; eauto.
    + inversion 1; subst. exists x, y. rewrite leb_le. auto.
  - rewrite ordered_spec. cbn [num_cmp]. split.
    + intros [x [y [H1 [H2 H3]]]]. apply leb_le in H3. econstructor; eauto.
    + inversion 1; subst. exists x, y. rewrite leb_le. auto.
  - rewrite (pattern_compare_spec v lit false). split; [intros [H1 H2]; constructor; auto|inversion 1; subst; auto].
  - rewrite (pattern_compare_spec v lit true). split; [intros [H1 H2]; constructor; auto|inversion 1; subst; auto].
  - split; [constructor|auto].
Qed.

(** ** The first match and all matches *)
Definition first_of (r : result) : result := match r_results r with x :: _ => x | [] => r_null end.
Definition null_or_matches (r : result) : Prop :=
  r = r_null \/ exists l, l <> [] /\ r = r_array (map (fun e => r_element (e_content e)) l).
Definition related (one all : Res result) : Prop :=
  one = (let* r := all in Ok (first_of r)) /\ forall r, all = Ok r -> null_or_matches r.
Lemma related_ok : forall r, null_or_matches r -> related (Ok (first_of r)) (Ok r).
Proof. intros r H. split; auto. intros r' K. now injection K as <-. Qed.
Lemma related_null : related (Ok r_null) (Ok r_null).
Proof. apply (related_ok r_null). now left. Qed.
Lemma route_related : forall E rec key l f,
  related (route_matches E rec key l (filter_seg f false) []) (route_matches E rec key l (filter_seg f true) []).
Proof.
  intros E rec key l f. unfold route_matches. destruct l as [|e l]; [apply related_null|].
  cbn [s_all filter_seg process_all process_first s_mods].
  apply (related_ok (r_array (map (fun e => r_element (e_content e)) (e :: l)))).
  right. exists (e :: l). split; auto. discriminate.
Qed.
Lemma related_bind : forall (A : Type) (m : Res A) k1 k2, (forall a, related (k1 a) (k2 a)) ->
  related (bind m k1) (bind m k2).
Proof. intros A [a| |] k1 k2 H; cbn [bind]; auto; split; auto; discriminate. Qed.
Lemma is_null_first : forall r, null_or_matches r -> is_null (first_of r) = is_null r.
Proof. intros r [->|[l [Hl ->]]]; auto. destruct l; [easy|reflexivity]. Qed.
Lemma first_loop_related : forall E rec key l sg rest1 rest2 nx1 nx2 more1 more2,
  rest1 = nx1 :: more1 -> rest2 = nx2 :: more2 -> s_type nx1 = SElem -> s_type nx2 = SElem ->
  (forall k s, related (rec k false s rest1) (rec k false s rest2)) ->
  related (first_loop E rec key l sg rest1) (first_loop E rec key l sg rest2).
Proof.
  intros E rec key l sg rest1 rest2 nx1 nx2 more1 more2 E1 E2 T1 T2 H.
  induction l as [|e l IH]; [apply related_null|].
  assert (U1 : first_loop E rec key (e :: l) sg rest1 =
    let* r := rec (child_key site_query e key) false (e_content e) rest1 in
    if is_null r then first_loop E rec key l sg rest1 else Ok r).
  { cbn [first_loop]. rewrite E1, T1. reflexivity. }
  assert (U2 : first_loop E rec key (e :: l) sg rest2 =
    let* r := rec (child_key site_query e key) false (e_content e) rest2 in
    if is_null r then first_loop E rec key l sg rest2 else Ok r).
  { cbn [first_loop]. rewrite E2, T2. reflexivity. }
  rewrite U1, U2. destruct (H (child_key site_query e key) (e_content e)) as [R1 R2]. rewrite R1.
  destruct (rec (child_key site_query e key) false (e_content e) rest2) as [r| |]; cbn [bind]; try (split; auto; discriminate).
  rewrite (is_null_first _ (R2 _ eq_refl)). destruct (is_null r); auto. now apply related_ok, R2.
Qed.
Lemma exec_filter_related : forall E f names fuel key root s,
  related (exec E fuel key root s (map elem_seg names ++ [filter_seg f false]))
          (exec E fuel key root s (map elem_seg names ++ [filter_seg f true])).
Proof.
  intros E f names. induction names as [|n names IH]; intros fuel key root s;
    (destruct fuel as [|fuel]; [split; auto; discriminate|]); cbn [map app exec]; unfold exec_body;
    apply related_bind; intros es.
  - cbn [s_type filter_seg s_filter]. apply related_bind. intros l. apply route_related.
  - cbn [s_type elem_seg].
    assert (G : related (exec_element E (exec E fuel) key es (elem_seg n) (map elem_seg names ++ [filter_seg f false]))
                        (exec_element E (exec E fuel) key es (elem_seg n) (map elem_seg names ++ [filter_seg f true]))).
    { unfold exec_element. destruct names as [|n2 names]; cbn [map app s_type filter_seg elem_seg s_filter].
      - apply related_bind. intros l. apply route_related.
      - eapply first_loop_related; try reflexivity. intros k s'. apply IH. }
    destruct root; auto. destruct names as [|n2 names]; cbn [map app s_type filter_seg elem_seg] in *; exact G.
Qed.

Definition cond_step (cond : bytes) (all : bool) : bytes := bs "#(" ++ cond ++ bs ")" ++ (if all then bs "#" else []).
Lemma parse_names_filter : forall names cond all f, Forall plain_name names -> ~ In "|"%char cond ->
  cond <> [] -> len names < 100 -> parse_filter_condition cond = Ok (Some f) ->
  parse_path (path_text (names ++ [cond_step cond all])) = Ok (map elem_seg names ++ [filter_seg f all]).
Proof.
  intros names cond all f Hp Hb Hc Hl Hf. set (raws := names ++ [cond_step cond all]).
  assert (PP : parse_parts raws = Ok (Some (map elem_seg names ++ [filter_seg f all]))).
  { unfold raws. clear Hl. induction Hp as [|n names Hn Hp IH].
    - cbn [app parse_parts]. unfold cond_step. rewrite parse_part_filter, Hf; auto.
    - cbn [app parse_parts map]. rewrite (parse_part_plain _ Hn). cbn [bind]. rewrite IH. reflexivity. }
  assert (R1 : raws <> []) by (unfold raws; destruct names; discriminate).
  assert (R2 : raws <> [[]]).
  { unfold raws. destruct names as [|n names]; cbn [app]; [discriminate|]. intros K. injection K as K. destruct names; discriminate. }
  pose proof (split_path_path_text _ R1 R2) as Hs.
  assert (Hl' : Nat.ltb MaxPathSegments (len raws) = false).
  { apply Nat.ltb_ge. unfold raws. rewrite app_length. cbn [List.length]. unfold MaxPathSegments. lia. }
  assert (MF : merge_fields (map elem_seg names ++ [filter_seg f all]) = map elem_seg names ++ [filter_seg f all]).
  { clear. induction names; auto. cbn [map app merge_fields s_type elem_seg]. now rewrite IHnames. }
  clearbody raws. change (list (list ascii)) with (list bytes) in raws.
  unfold parse_path. destruct (path_text raws) eqn:E.
  - exfalso. apply R1. symmetry. exact Hs.
  - unfold parse_path_internal. rewrite Hs.
    replace (Nat.ltb MaxPathSegments (List.length raws)) with false by (symmetry; exact Hl').
    rewrite PP. cbn [bind]. rewrite MF. reflexivity.
Qed.
(** ** All matches of an attribute condition at the top level *)
Definition has_value (o : option bytes) : bool := match o with Some _ => true | None => false end.
Definition value_of (o : option bytes) : bytes := match o with Some v => v | None => [] end.
Lemma eval_attr : forall E rec key a op lit e, eval_filter_opt E rec key (Some (mkFilt ("@"%char :: a) op lit)) e =
  Ok (filter_decide E op (has_value (map_get a (e_attrs e))) (value_of (map_get a (e_attrs e))) lit).
Proof.
  intros. unfold eval_filter_opt, eval_filter. cbn [f_path f_op f_value]. change (Ascii.eqb "@" "@") with true. cbn iota.
  destruct (map_get a (e_attrs e)); reflexivity.
Qed.
Lemma filter_elems_attr : forall E rec key a op lit (keep : elem -> bool),
  (forall e, keep e = true <-> holds (e_parse_float E) op (map_get a (e_attrs e)) lit) -> forall l,
  filter_elems E rec key (Some (mkFilt ("@"%char :: a) op lit)) l = Ok (filter keep l).
Proof.
  intros E rec key a op lit keep Hk l. induction l as [|e l IH]; auto. cbn [filter_elems filter].
  rewrite eval_attr, IH. cbn [bind].
  assert (B : keep e = filter_decide E op (has_value (map_get a (e_attrs e))) (value_of (map_get a (e_attrs e))) lit).
  { pose proof (filter_decide_spec E op (has_value (map_get a (e_attrs e))) (value_of (map_get a (e_attrs e))) lit) as S.
    assert (Q : (if has_value (map_get a (e_attrs e)) then Some (value_of (map_get a (e_attrs e))) else None) = map_get a (e_attrs e))
        by (destruct (map_get a (e_attrs e)); reflexivity).
    rewrite Q, <- Hk in S. destruct (keep e), (filter_decide _ _ _ _ _); auto; [symmetry; tauto|tauto]. }
  now rewrite B.
Qed.
