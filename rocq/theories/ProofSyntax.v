(** Numerals, filter conditions and index intents. *)
From Coq Require Import List Ascii String NArith ZArith Bool Lia.
From Verif Require Import GoStr ModelParser ModelPath ModelResult ModelQuery ModelValidate ModelBuilder
  SpecPath ProofBase ProofScan ProofPath ProofFuel ProofFuel2.
Import ListNotations.

(** ** Numerals *)
Lemma digits_val_spec : forall ds acc, Forall digit ds ->
  digits_val (Z.of_N acc) ds = Some (Z.of_N (fold_left (fun n c => n * 10 + (N_of_ascii c - 48))%N ds acc)).
Proof.
  induction ds as [|c ds IH]; intros acc H; cbn [digits_val fold_left]; auto.
  inversion H as [|? ? Hc Hd]; subst. unfold digit in Hc.
  replace (is_digit c) with true.
  2:{ symmetry. unfold is_digit, in_range, code. rewrite andb_true_iff, !N.leb_le. lia. }
  rewrite <- IH; auto. f_equal. unfold code. lia.
Qed.
Lemma digit_is_digit : forall c, digit c -> is_digit c = true.
Proof. intros c H. unfold digit in H. unfold is_digit, in_range, code. rewrite andb_true_iff, !N.leb_le. lia. Qed.
Lemma digit_not : forall c x, digit c -> is_digit x = false -> Ascii.eqb c x = false.
Proof. intros c x H Hx. destruct (Ascii.eqb_spec c x); auto. subst. rewrite digit_is_digit in Hx; auto. Qed.
Lemma atoi_digits : forall ds, ds <> [] -> Forall digit ds ->
  atoi ds = Z.min (Z.of_N (decimal_value ds)) int64_max.
Proof.
  intros ds Hne H. unfold atoi, parse_int64. destruct ds as [|c ds]; [easy|].
  assert (Hc : digit c) by (inversion H; auto).
  rewrite (digit_not c "-"), (digit_not c "+"); auto.
  pose proof (digits_val_spec (c :: ds) 0%N H) as K. change (Z.of_N 0) with 0%Z in K. rewrite K.
  fold (decimal_value (c :: ds)). destruct (Z.ltb_spec int64_max (Z.of_N (decimal_value (c :: ds)))); lia.
Qed.
Definition index_seg (i : Z) : seg := mkSeg SIndex [] i false None false [] [].
Lemma in_digits_not : forall ds x, Forall digit ds -> is_digit x = false -> ~ In x ds.
Proof.
  intros ds x H Hx Hin. rewrite Forall_forall in H. apply H in Hin. rewrite digit_is_digit in Hx; auto. discriminate.
Qed.
Lemma parse_part_digits : forall ds, ds <> [] -> Forall digit ds ->
  parse_part ds = Ok (PSeg (index_seg (Z.min (Z.of_N (decimal_value ds)) int64_max))).
Proof.
  intros ds Hne H. unfold parse_part. destruct ds as [|c ds]; [easy|].
  unfold parse_modifiers. rewrite split_on_none by (apply in_digits_not; auto).
  assert (Hc : digit c) by (inversion H; auto).
  unfold bs; cbn [list_ascii_of_string]. cbn [strip_prefix].
  rewrite Ascii.eqb_sym, (digit_not c "#"); auto. rewrite (digit_not c "@"); auto.
  cbn [bytes_eqb]. rewrite (digit_not c "%"), (digit_not c "#"), (digit_not c "*"); auto. cbn [andb].
  assert (Hn : is_numeric (c :: ds) = true).
  { unfold is_numeric. apply forallb_forall. intros x Hx. rewrite Forall_forall in H.
    rewrite digit_is_digit; auto. }
  rewrite Hn, atoi_digits; auto.
Qed.
Lemma split_digits : forall ds, Forall digit ds -> split_loop false ds = (ds, []).
Proof.
  induction ds as [|c ds IH]; intros H; auto. inversion H; subst. cbn [split_loop].
  rewrite (digit_not c backslash), (digit_not c "."), IH; auto.
Qed.
Lemma parse_path_index : forall name ds, plain_name name -> ds <> [] -> Forall digit ds ->
  parse_path (quote_name name ++ "."%char :: ds) =
  Ok [elem_seg name; index_seg (Z.min (Z.of_N (decimal_value ds)) int64_max)].
Proof.
  intros name ds Hp Hne H.
  assert (S : split_path (quote_name name ++ "."%char :: ds) = [name; ds]).
  { unfold split_path. destruct (quote_name name ++ "."%char :: ds) eqn:E.
    - destruct (quote_name name); discriminate.
    - rewrite <- E, split_quote. cbn [split_loop]. change (Ascii.eqb "." backslash) with false.
      change (Ascii.eqb "." ".") with true. cbn iota. rewrite split_digits; auto. now rewrite app_nil_r. }
  unfold parse_path. destruct (quote_name name ++ "."%char :: ds) eqn:E.
  - destruct (quote_name name); discriminate.
  - unfold parse_path_internal. rewrite S. cbn [List.length].
    change (Nat.ltb MaxPathSegments 2) with false. cbn iota. cbn [parse_parts].
    rewrite (parse_part_plain _ Hp). cbn [bind]. rewrite (parse_part_digits _ Hne H). reflexivity.
Qed.

Lemma nth_elem_spec : forall l i, nth_elem l (Z.of_N i) = nth_error l (N.to_nat i).
Proof.
  intros l i. unfold nth_elem. destruct (Z.leb_spec 0 (Z.of_N i)); [|lia]. cbn [andb].
  destruct (Z.ltb_spec (Z.of_N i) (Z.of_nat (len l))).
  - f_equal. lia.
  - symmetry. apply nth_error_None. lia.
Qed.
Lemma nth_error_firstn : forall (A : Type) n (l : list A) i,
  nth_error (firstn n l) i = if Nat.ltb i n then nth_error l i else None.
Proof.
  induction n as [|n IH]; intros l i; simpl.
  - destruct i; reflexivity.
  - destruct l as [|x l]; [destruct (Nat.ltb i (S n)); destruct i; auto|].
    destruct i as [|i]; auto. simpl. rewrite IH. auto.
Qed.

(** Index directly below the fragment root: element number [i] among the top-level
    elements called exactly [name], at most 1000 of which are considered. *)
Lemma get_root_index : forall E xml name ds es,
  (blen xml <= MaxDocumentSize)%N -> plain_name name -> ds <> [] -> Forall digit ds ->
  scan (e_ord E) [] xml = Some es ->
  get E xml (quote_name name ++ "."%char :: ds) =
  Ok (if (decimal_value ds <? 1000)%N then
        match nth_error (filter (fun e => bytes_eqb (e_name e) name) es) (N.to_nat (decimal_value ds)) with
        | Some e => r_element (e_content e)
        | None => r_null
        end
      else r_null).
Proof.
  intros E xml name ds es Hs Hp Hne Hd Hes. unfold get.
  rewrite (proj2 (N.ltb_ge _ _) Hs), (parse_path_index _ _ Hp Hne Hd). cbn [bind].
  unfold query_fuel. rewrite Nat.add_succ_r, Nat.add_succ_r. cbn [exec]. unfold exec_body.
  unfold scan_res. rewrite Hes. cbn [bind s_type elem_seg index_seg s_value root_array].
  set (v := decimal_value ds). unfold root_array.
  set (l := filter (fun e => bytes_eqb (e_name e) name) es).
  assert (Hn : nth_elem (firstn MaxWildcardResults l) (Z.min (Z.of_N v) int64_max) =
               if (v <? 1000)%N then nth_error l (N.to_nat v) else None).
  { destruct (N.ltb_spec v 1000).
    - rewrite Z.min_l by (unfold int64_max; lia). rewrite nth_elem_spec, nth_error_firstn.
      replace (Nat.ltb (N.to_nat v) MaxWildcardResults) with true; auto.
      symmetry. apply Nat.ltb_lt. change MaxWildcardResults with (N.to_nat 1000). lia.
    - unfold nth_elem.
      replace (Z.min (Z.of_N v) int64_max <? Z.of_nat (len (firstn MaxWildcardResults l)))%Z with false.
      + now rewrite andb_false_r.
      + symmetry. apply Z.ltb_ge. pose proof (firstn_le_length MaxWildcardResults l).
        assert (Z.of_nat MaxWildcardResults = 1000%Z) by (vm_compute; reflexivity).
        unfold int64_max. lia. }
  cbn [s_index index_seg s_type]. rewrite Hn.
  destruct (firstn MaxWildcardResults l) as [|e0 l0] eqn:F.
  - destruct (N.ltb_spec v 1000); auto.
    destruct l as [|x l]; [|change MaxWildcardResults with (S 999) in F; discriminate].
    destruct (N.to_nat v); auto.
  - destruct (v <? 1000)%N; auto. destruct (nth_error l (N.to_nat v)); auto.
Qed.

(** ** Trimming *)
Lemma visible_facts : forall c, visible c ->
  ascii_space c = false /\ (forall b, uni_space2 c b = false) /\ (forall b d, uni_space3 c b d = false) /\
  (forall b, uni_space2 b c = false) /\ (forall b d, uni_space3 d b c = false).
Proof.
  intros c H. unfold visible in H.
  unfold ascii_space, in_range, uni_space2, uni_space3, code.
  assert (E : forall k, (126 < k)%N -> (N_of_ascii c =? k)%N = false) by (intros; apply N.eqb_neq; lia).
  assert (L : (128 <=? N_of_ascii c)%N = false) by (apply N.leb_gt; lia).
  repeat split; intros; rewrite ?E, ?L by lia; cbn [andb orb]; rewrite ?andb_false_r; auto.
  destruct (N.leb_spec 9 (N_of_ascii c)), (N.leb_spec (N_of_ascii c) 13), (N.eqb_spec (N_of_ascii c) 32); auto; lia.
Qed.
Lemma trim_left_visible : forall c s, visible c -> trim_left (c :: s) = c :: s.
Proof.
  intros c s H. apply visible_facts in H. destruct H as [H1 [H2 [H3 _]]]. cbn [trim_left]. rewrite H1.
  destruct s as [|b s]; auto. rewrite H2. destruct s as [|d s]; auto. now rewrite H3.
Qed.
Lemma trim_left_rev_visible : forall c s, visible c -> trim_left_rev (c :: s) = c :: s.
Proof.
  intros c s H. apply visible_facts in H. destruct H as [H1 [_ [_ [H2 H3]]]]. cbn [trim_left_rev]. rewrite H1.
  destruct s as [|b s]; auto. rewrite H2. destruct s as [|d s]; auto. now rewrite H3.
Qed.
Lemma trim_left_spaces : forall n s, trim_left (spaces n ++ s) = trim_left s.
Proof. induction n; auto. Qed.
Lemma trim_left_rev_spaces : forall n s, trim_left_rev (spaces n ++ s) = trim_left_rev s.
Proof. induction n; auto. Qed.
Lemma rev_spaces : forall n, rev (spaces n) = spaces n.
Proof.
  induction n as [|n IH]; auto. unfold spaces in *. cbn [repeat rev]. rewrite IH. symmetry. apply repeat_cons.
Qed.
Lemma trim_space_pad : forall a b s, (exists c r, s = c :: r /\ visible c) -> (exists r c, s = r ++ [c] /\ visible c) ->
  trim_space (spaces a ++ s ++ spaces b) = s.
Proof.
  intros a b s [c [r [E1 V1]]] [r2 [d [E2 V2]]]. unfold trim_space. rewrite trim_left_spaces.
  rewrite E1. cbn [app]. rewrite trim_left_visible; auto. unfold trim_right.
  change (c :: r ++ spaces b) with ((c :: r) ++ spaces b). rewrite <- E1.
  rewrite rev_app_distr, rev_spaces, trim_left_rev_spaces. rewrite E2, rev_app_distr. cbn [rev app].
  rewrite trim_left_rev_visible; auto. cbn [rev]. now rewrite rev_involutive.
Qed.

(** ** Filter conditions *)
Lemma op_free_no_ops : forall s, op_free s <-> contains_any op_chars s = false.
Proof.
  intros s. rewrite contains_any_false. unfold op_free, op_chars. split; intros H c Hc.
  - destruct (mem c (bs "=!<>%")) eqn:M; auto. apply mem_In in M. exfalso. eapply H; eauto.
  - intros K. apply mem_In in K. rewrite H in K; auto. discriminate.
Qed.
Lemma no_control_spec : forall s, no_control s -> contains_any ctl_chars s = false.
Proof.
  intros s H. apply contains_any_false. intros c Hc. destruct (mem c ctl_chars) eqn:M; auto.
  apply mem_In in M. exfalso. apply (H c Hc). unfold ctl_chars in M. simpl in M.
  destruct M as [<-|[<-|[<-|[<-|[]]]]]; vm_compute; auto.
Qed.
Lemma no_control_app : forall a b, no_control a -> no_control b -> no_control (a ++ b).
Proof. intros a b Ha Hb c Hc. apply in_app_or in Hc. destruct Hc; auto. Qed.
Lemma no_control_spaces : forall n, no_control (spaces n).
Proof. intros n c Hc. apply repeat_spec in Hc. subst. vm_compute. intuition discriminate. Qed.
Lemma op_free_app : forall a b, op_free a -> op_free b -> op_free (a ++ b).
Proof. intros a b Ha Hb c Hc. apply in_app_or in Hc. destruct Hc; auto. Qed.
Lemma op_free_spaces : forall n, op_free (spaces n).
Proof. intros n c Hc. apply repeat_spec in Hc. subst. vm_compute. intuition discriminate. Qed.

Definition op_char (c : ascii) : Prop := In c (bs "=!<>%").
Lemma two_op_first : forall a b op, two_op a b = Some op -> op_char a.
Proof.
  intros a b op H. unfold two_op in H. unfold op_char.
  destruct (Ascii.eqb_spec a "="); [subst; vm_compute; auto|].
  destruct (Ascii.eqb_spec a "<"); [subst; vm_compute; auto|].
  destruct (Ascii.eqb_spec a ">"); [subst; vm_compute; auto 10|].
  destruct (Ascii.eqb_spec a "!"); [subst; vm_compute; auto|].
  destruct (Ascii.eqb b "="); discriminate.
Qed.
Lemma one_op_first : forall a op, one_op a = Some op -> op_char a.
Proof.
  intros a op H. unfold one_op in H. unfold op_char.
  destruct (Ascii.eqb_spec a "<"); [subst; vm_compute; auto|].
  destruct (Ascii.eqb_spec a ">"); [subst; vm_compute; auto 10|].
  destruct (Ascii.eqb_spec a "%"); [subst; vm_compute; auto 10|]. discriminate.
Qed.
Definition double_op (op : fop) : bool :=
  match op with OpEq | OpNe | OpLe | OpGe | OpNotMatch => true | _ => false end.
Definition single_op (op : fop) : bool :=
  match op with OpLt | OpGt | OpMatch => true | _ => false end.

Lemma find_two_skip : forall p s, op_free p ->
  find_two (p ++ s) = match find_two s with Some (a, op, b) => Some (p ++ a, op, b) | None => None end.
Proof.
  induction p as [|c p IH]; intros s H.
  - cbn [app]. destruct (find_two s) as [[[a op] b]|]; auto.
  - assert (Hp : op_free p) by (intros x Hx; apply H; now right).
    cbn [app find_two]. specialize (IH s Hp).
    destruct (p ++ s) as [|d r] eqn:E.
    + apply app_eq_nil in E. destruct E; subst. reflexivity.
    + destruct (two_op c d) eqn:T.
      { apply two_op_first in T. exfalso. apply (H c); [now left|exact T]. }
      rewrite IH. destruct (find_two s) as [[[a op] b]|]; auto.
Qed.
Lemma find_one_skip : forall p s, op_free p ->
  find_one (p ++ s) = match find_one s with Some (a, op, b) => Some (p ++ a, op, b) | None => None end.
Proof.
  induction p as [|c p IH]; intros s H.
  - cbn [app]. destruct (find_one s) as [[[a op] b]|]; auto.
  - assert (Hp : op_free p) by (intros x Hx; apply H; now right).
    cbn [app find_one]. destruct (one_op c) eqn:T.
    { apply one_op_first in T. exfalso. apply (H c); [now left|exact T]. }
    rewrite IH; auto. destruct (find_one s) as [[[a op] b]|]; auto.
Qed.
Lemma find_two_at : forall op r, double_op op = true -> find_two (op_text op ++ r) = Some ([], op, r).
Proof. intros [] r H; try discriminate; reflexivity. Qed.
Lemma find_one_at : forall op r, single_op op = true -> find_one (op_text op ++ r) = Some ([], op, r).
Proof. intros [] r H; try discriminate; reflexivity. Qed.
Lemma find_two_none : forall s, ~ In "="%char s -> ~ In "!"%char s -> find_two s = None.
Proof.
  induction s as [|a s IH]; intros H1 H2; auto. cbn [find_two]. destruct s as [|b r]; auto.
  assert (T : two_op a b = None).
  { unfold two_op. destruct (Ascii.eqb_spec b "="); [subst; exfalso; apply H1; simpl; auto|].
    destruct (Ascii.eqb_spec a "!"); [subst; exfalso; apply H2; simpl; auto|]. reflexivity. }
  rewrite T, IH; auto; intros K; [apply H1|apply H2]; now right.
Qed.
Lemma find_op_at : forall p op r, op_free p -> op <> OpExists ->
  (single_op op = true -> ~ In "="%char r /\ ~ In "!"%char r) ->
  find_op (p ++ op_text op ++ r) = Some (p, op, r).
Proof.
  intros p op r Hp Ho Hs. unfold find_op. destruct (double_op op) eqn:D.
  - rewrite find_two_skip, find_two_at; auto. now rewrite app_nil_r.
  - assert (S : single_op op = true) by (destruct op; auto; discriminate).
    destruct (Hs S) as [H1 H2].
    rewrite find_two_skip, find_two_none; auto.
    + rewrite find_one_skip, find_one_at; auto. now rewrite app_nil_r.
    + rewrite in_app_iff. intros [K|K]; auto. destruct op; try discriminate; simpl in K; intuition discriminate.
    + rewrite in_app_iff. intros [K|K]; auto. destruct op; try discriminate; simpl in K; intuition discriminate.
Qed.
Lemma op_text_has_op : forall op, op <> OpExists -> exists c r, op_text op = c :: r /\ op_char c.
Proof.
  intros [] H; try contradiction; try (exfalso; apply H; reflexivity); eexists; eexists; (split; [reflexivity|]); vm_compute; auto 10.
Qed.

(** Literals: written as such, or between two equal quote characters. *)
Definition unquoted_literal (t v : bytes) : Prop :=
  t = v /\ operand v /\
  ~ (exists q m, (q = squote \/ q = dquote) /\ v = q :: m /\ exists k, v = k ++ [q]).
Definition quoted_literal (t v : bytes) : Prop :=
  exists q, (q = squote \/ q = dquote) /\ t = q :: v ++ [q] /\ no_control v.

Lemma quoted_with_spec : forall q v, quoted_with q v = true <-> (exists m, v = q :: m) /\ exists k, v = k ++ [q].
Proof.
  intros q v. unfold quoted_with. rewrite andb_true_iff. split.
  - intros [H1 H2]. apply has_prefix_spec in H1. apply has_suffix_spec in H2. destruct H1 as [m H1]. split; eauto.
  - intros [[m H1] H2]. split; [apply has_prefix_spec; exists m; auto|apply has_suffix_spec; auto].
Qed.
Lemma unquote_unquoted : forall t v, unquoted_literal t v -> unquote v = Ok v.
Proof.
  intros t v [_ [_ H]]. unfold unquote.
  destruct (quoted_with squote v) eqn:Q1.
  { apply quoted_with_spec in Q1. destruct Q1 as [[m Q1] [k Q2]]. exfalso. apply H. exists squote, m. eauto. }
  destruct (quoted_with dquote v) eqn:Q2; auto.
  apply quoted_with_spec in Q2. destruct Q2 as [[m Q2] [k Q3]]. exfalso. apply H. exists dquote, m. eauto.
Qed.
Lemma unquote_quoted : forall q v, q = squote \/ q = dquote -> unquote (q :: v ++ [q]) = Ok v.
Proof.
  intros q v Hq. unfold unquote.
  assert (K : quoted_with q (q :: v ++ [q]) = true).
  { apply quoted_with_spec. split; [exists (v ++ [q]); auto|exists (q :: v); auto]. }
  assert (K2 : quoted_with squote (q :: v ++ [q]) || quoted_with dquote (q :: v ++ [q]) = true).
  { destruct Hq; subst; rewrite K; auto. }
  rewrite K2. destruct (v ++ [q]) as [|x y] eqn:E; [destruct v; discriminate|].
  rewrite <- E, removelast_last. reflexivity.
Qed.

Lemma literal_ends : forall t v, unquoted_literal t v \/ quoted_literal t v ->
  (exists c r, t = c :: r /\ visible c) /\ (exists r c, t = r ++ [c] /\ visible c) /\ no_control t /\ unquote t = Ok v.
Proof.
  intros t v [H|[q [Hq [-> Hc]]]].
  - pose proof H as [-> [[H1 H2 H3] _]]. repeat split; auto. eapply unquote_unquoted; eauto.
  - assert (V : visible q) by (destruct Hq; subst; unfold visible; vm_compute; split; discriminate).
    split; [eauto|]. split; [exists (q :: v), q; auto|]. split; [|now apply unquote_quoted].
    change (q :: v ++ [q]) with ([q] ++ v ++ [q]).
    assert (N : no_control [q]) by (intros c [<-|[]]; destruct Hq; subst; vm_compute; intuition discriminate).
    auto using no_control_app.
Qed.

Lemma parse_filter_written : forall path op t v a b c d,
  operand path -> op_free path -> op <> OpExists ->
  unquoted_literal t v \/ quoted_literal t v ->
  (single_op op = true -> ~ In "="%char t /\ ~ In "!"%char t) ->
  no_control v ->
  (len (spaces a ++ path ++ spaces b ++ op_text op ++ spaces c ++ t ++ spaces d) <= 256)%nat ->
  parse_filter_condition (spaces a ++ path ++ spaces b ++ op_text op ++ spaces c ++ t ++ spaces d) =
  Ok (Some (mkFilt path op v)).
Proof.
  intros path op t v a b c d Hp Hf Ho Hl Hs Hv Hlen.
  destruct (literal_ends _ _ Hl) as [L1 [L2 [L3 L4]]].
  unfold parse_filter_condition.
  replace (MaxFilterExpressionLength <? blen _)%N with false.
  2:{ symmetry. apply N.ltb_ge. unfold blen, MaxFilterExpressionLength. lia. }
  set (core := path ++ spaces b ++ op_text op ++ spaces c ++ t).
  assert (EC : spaces a ++ path ++ spaces b ++ op_text op ++ spaces c ++ t ++ spaces d = spaces a ++ core ++ spaces d).
  { unfold core. now rewrite <- !app_assoc. }
  rewrite EC in *.
  assert (Hopc : no_control (op_text op)).
  { destruct op; vm_compute; intros x Hx; repeat (destruct Hx as [<-|Hx]; [vm_compute; intuition discriminate|]); destruct Hx. }
  assert (HC : no_control (spaces a ++ core ++ spaces d)).
  { unfold core. destruct Hp. repeat apply no_control_app; auto using no_control_spaces. }
  assert (HN : mem nul (spaces a ++ core ++ spaces d) = false).
  { destruct (mem nul _) eqn:M; auto. apply mem_In in M. exfalso. apply (HC _ M). vm_compute. auto. }
  rewrite HN. clear HN.
  destruct Hp as [P1 P2 P3].
  rewrite (trim_space_pad a d core).
  2:{ destruct P1 as [x [r [-> V]]]. unfold core. cbn [app]. eauto. }
  2:{ destruct L2 as [r [x [-> V]]]. unfold core. exists (path ++ spaces b ++ op_text op ++ spaces c ++ r), x.
      split; auto. now rewrite <- !app_assoc. }
  destruct (op_text_has_op op Ho) as [oc [orest [Ot Oc]]].
  assert (HO : contains_any op_chars core = true).
  { destruct (contains_any op_chars core) eqn:K; auto. apply op_free_no_ops in K. exfalso.
    apply (K oc); [|exact Oc]. unfold core. rewrite Ot. rewrite !in_app_iff. simpl. auto. }
  rewrite HO. cbn [negb].
  assert (FO : find_op core = Some (path ++ spaces b, op, spaces c ++ t)).
  { unfold core. rewrite (app_assoc path). apply find_op_at; auto using op_free_app, op_free_spaces.
    intros K. destruct (Hs K) as [K1 K2]. split; rewrite in_app_iff; intros [Q|Q]; auto; apply repeat_spec in Q; discriminate. }
  rewrite FO. rewrite (no_control_spec (path ++ spaces b)) by auto using no_control_app, no_control_spaces.
  pose proof (trim_space_pad 0 b path P1 P2) as TP. change (spaces 0 ++ path ++ spaces b) with (path ++ spaces b) in TP.
  pose proof (trim_space_pad c 0 t L1 L2) as TV. change (spaces 0) with (@nil ascii) in TV. rewrite app_nil_r in TV.
  rewrite TP, TV.
  destruct core as [|k0 k1] eqn:CE; [exfalso; unfold core in CE; destruct P1 as [x [r [-> _]]]; discriminate|].
  destruct path as [|p0 p1]; [destruct P1 as [x [r [K _]]]; discriminate|].
  destruct t as [|t0 t1]; [destruct L1 as [x [r [K _]]]; discriminate|].
  rewrite (proj1 (op_free_no_ops _) Hf). rewrite L4. cbn [bind].
  now rewrite (no_control_spec v).
Qed.
Lemma parse_filter_exists : forall path a d, operand path -> op_free path ->
  (len (spaces a ++ path ++ spaces d) <= 256)%nat ->
  parse_filter_condition (spaces a ++ path ++ spaces d) = Ok (Some (mkFilt path OpExists [])).
Proof.
  intros path a d [P1 P2 P3] Hf Hlen. unfold parse_filter_condition.
  replace (MaxFilterExpressionLength <? blen _)%N with false.
  2:{ symmetry. apply N.ltb_ge. unfold blen, MaxFilterExpressionLength. lia. }
  assert (HC : no_control (spaces a ++ path ++ spaces d)) by auto using no_control_app, no_control_spaces.
  replace (mem nul (spaces a ++ path ++ spaces d)) with false.
  2:{ symmetry. destruct (mem nul _) eqn:M; auto. apply mem_In in M. exfalso. apply (HC _ M). vm_compute. auto. }
  rewrite trim_space_pad; auto. rewrite (proj1 (op_free_no_ops _) Hf).
  destruct path; [destruct P1 as [x [r [K _]]]; discriminate|]. reflexivity.
Qed.
Lemma parse_filter_long : forall e, (256 < len e)%nat -> parse_filter_condition e = Ok None.
Proof.
  intros e H. unfold parse_filter_condition.
  replace (MaxFilterExpressionLength <? blen e)%N with true; auto.
  symmetry. apply N.ltb_lt. unfold blen, MaxFilterExpressionLength. lia.
Qed.
(** A condition as a path step. *)
Definition filter_seg (f : filt) (all : bool) : seg := mkSeg SFilter [] 0 false (Some f) all [] [].
Lemma split_no_special : forall s, ~ In "."%char s -> ~ In backslash s -> split_loop false s = (s, []).
Proof.
  induction s as [|c s IH]; intros H1 H2; auto. cbn [split_loop].
  destruct (Ascii.eqb_spec c backslash); [exfalso; apply H2; now left|].
  destruct (Ascii.eqb_spec c "."); [exfalso; apply H1; now left|].
  rewrite IH; auto; intros K; [apply H1|apply H2]; now right.
Qed.
Lemma strip_hash : forall s, strip_prefix (bs "#(") (bs "#(" ++ s) = Some s.
Proof. intros. apply strip_prefix_app. Qed.
Lemma parse_part_filter : forall cond all, ~ In "|"%char cond -> cond <> [] ->
  parse_part (bs "#(" ++ cond ++ bs ")" ++ (if all : bool then bs "#" else [])) =
  let* f := parse_filter_condition cond in
  match f with None => Ok PReject | Some f => Ok (PSeg (filter_seg f all)) end.
Proof.
  intros cond all Hb Hne. set (part := bs "#(" ++ cond ++ bs ")" ++ (if all then bs "#" else [])).
  assert (Hpart : part = "#"%char :: "("%char :: cond ++ bs ")" ++ (if all then bs "#" else [])) by reflexivity.
  assert (PP : parse_part part = let '(pp, mods) := parse_modifiers part in
      match strip_prefix (bs "#(") pp with
      | Some body =>
          let cut :=
            if has_suffix (bs ")#") pp then Some (true, List.length pp - 2)
            else if has_suffix (bs ")") pp then Some (false, List.length pp - 1)
            else None in
          match cut with
          | None => Ok PSkip
          | Some (all, endidx) =>
              if Nat.leb endidx 2 then Ok PSkip
              else
                let* f := parse_filter_condition (firstn (endidx - 2) body) in
                match f with
                | None => Ok PReject
                | Some f => Ok (PSeg (mkSeg SFilter [] 0 false (Some f) all [] mods))
                end
          end
      | None => parse_part part
      end).
  { unfold parse_part at 1. rewrite Hpart at 1. cbn iota. unfold parse_modifiers.
    destruct (split_on "|" part) as [h t] eqn:SO. destruct (strip_prefix (bs "#(") h) eqn:SP; [reflexivity|].
    unfold parse_part. rewrite Hpart at 1. unfold parse_modifiers. rewrite SO, SP. reflexivity. }
  rewrite PP. clear PP. unfold parse_modifiers.
  assert (Hbar : ~ In "|"%char part).
  { unfold part. rewrite !in_app_iff. intros [K|[K|[K|K]]]; auto; destruct all; simpl in K; intuition discriminate. }
  rewrite split_on_none; auto. change (mods_of []) with (@nil bytes).
  unfold part at 1. rewrite strip_hash. unfold filter_seg. destruct all.
  - assert (S : has_suffix (bs ")#") part = true).
    { apply has_suffix_spec. exists (bs "#(" ++ cond). unfold part. rewrite <- app_assoc. reflexivity. }
    rewrite S. assert (L : len part - 2 = 2 + len cond).
    { unfold part. rewrite !app_length. simpl. lia. }
    rewrite L. destruct (Nat.leb_spec (2 + len cond) 2); [destruct cond; [easy|simpl in *; lia]|].
    replace (2 + len cond - 2) with (len cond) by lia.
    rewrite firstn_app, firstn_all, Nat.sub_diag. cbn [firstn]. rewrite app_nil_r. reflexivity.
  - assert (S : has_suffix (bs ")#") part = false).
    { destruct (has_suffix (bs ")#") part) eqn:K; auto. apply has_suffix_spec in K. destruct K as [k K].
      unfold part in K. rewrite app_nil_r, app_assoc in K. change (bs ")#") with (bs ")" ++ bs "#") in K.
      rewrite app_assoc in K. apply app_inj_tail in K. destruct K as [_ K]. discriminate. }
    assert (S2 : has_suffix (bs ")") part = true).
    { apply has_suffix_spec. exists (bs "#(" ++ cond). unfold part. rewrite app_nil_r, <- app_assoc. reflexivity. }
    rewrite S, S2. assert (L : len part - 1 = 2 + len cond).
    { unfold part. rewrite !app_length. simpl. lia. }
    rewrite L. destruct (Nat.leb_spec (2 + len cond) 2); [destruct cond; [easy|simpl in *; lia]|].
    replace (2 + len cond - 2) with (len cond) by lia.
    rewrite firstn_app, firstn_all, Nat.sub_diag. cbn [firstn]. rewrite app_nil_r. reflexivity.
Qed.
Lemma parse_path_filter : forall cond all f, ~ In "|"%char cond -> ~ In "."%char cond -> ~ In backslash cond ->
  cond <> [] -> parse_filter_condition cond = Ok (Some f) ->
  parse_path (bs "#(" ++ cond ++ bs ")" ++ (if all : bool then bs "#" else [])) = Ok [filter_seg f all].
Proof.
  intros cond all f H1 H2 H3 Hne Hf.
  set (part := bs "#(" ++ cond ++ bs ")" ++ (if all then bs "#" else [])).
  assert (S : split_path part = [part]).
  { unfold split_path. destruct part eqn:E; [discriminate|]. rewrite <- E. rewrite split_no_special; auto;
      unfold part; rewrite !in_app_iff; intros [K|[K|[K|K]]]; auto; destruct all; simpl in K; intuition discriminate. }
  assert (PP : parse_part part = Ok (PSeg (filter_seg f all))).
  { unfold part. rewrite parse_part_filter, Hf; auto. }
  unfold parse_path. destruct part as [|p0 p1] eqn:E; [discriminate|].
  unfold parse_path_internal. rewrite S. cbn [List.length]. change (Nat.ltb MaxPathSegments 1) with false. cbn iota.
  cbn [parse_parts]. rewrite PP. reflexivity.
Qed.

(** ** Index intents *)
Definition is_index (sg : seg) : Prop := s_type sg = SIndex.
Definition bad_index (path : list seg) : Prop :=
  exists pre sg post, path = pre ++ sg :: post /\ is_index sg /\
    ((s_index sg < -1)%Z \/ (s_index sg = -1 /\ post <> [])%Z).
Definition append_index (path : list seg) : Prop :=
  exists pre sg, path = pre ++ [sg] /\ is_index sg /\ (s_index sg = -1)%Z /\
    Forall (fun x => is_index x -> (0 <= s_index x)%Z) pre.
Definition access_index (path : list seg) : Prop := Forall (fun x => is_index x -> (0 <= s_index x)%Z) path.
Lemma check_intents_spec : forall path,
  match check_intents path with
  | IntentsOk => access_index path
  | IntentsAppend => append_index path
  | IntentsErr => bad_index path
  end.
Proof.
  induction path as [|sg rest IH]; cbn [check_intents]; [constructor|].
  assert (skip : (is_index sg -> (0 <= s_index sg)%Z) ->
     match check_intents rest with
     | IntentsOk => access_index (sg :: rest) | IntentsAppend => append_index (sg :: rest) | IntentsErr => bad_index (sg :: rest) end).
  { intros Hsg. destruct (check_intents rest).
    - constructor; auto.
    - destruct IH as [pre [x [-> [H1 [H2 H3]]]]]. exists (sg :: pre), x. repeat split; auto.
    - destruct IH as [pre [x [post [-> [H1 H2]]]]]. exists (sg :: pre), x, post. repeat split; auto. }
  destruct (s_type sg) eqn:T; try (apply skip; intros K; unfold is_index in K; congruence).
  unfold resolve_index_intent. destruct (Z.leb_spec 0 (s_index sg)); [apply skip; auto|].
  destruct (Z.eqb_spec (s_index sg) (-1)).
  - destruct rest as [|nx rest].
    + exists [], sg. repeat split; auto.
    + exists [], sg, (nx :: rest). repeat split; auto. right. split; auto. discriminate.
  - exists [], sg, rest. repeat split; auto. left. lia.
Qed.
Lemma intents_exclusive : forall path,
  (access_index path -> ~ append_index path /\ ~ bad_index path) /\ (append_index path -> ~ bad_index path).
Proof.
  intros path. unfold access_index. repeat split.
  - intros [pre [sg [-> [H1 [H2 _]]]]]. rewrite Forall_forall in H. specialize (H sg).
    rewrite in_app_iff in H. simpl in H. specialize (H (or_intror (or_introl eq_refl)) H1). lia.
  - intros [pre [sg [post [-> [H1 H2]]]]]. rewrite Forall_forall in H. specialize (H sg).
    rewrite in_app_iff in H. simpl in H. specialize (H (or_intror (or_introl eq_refl)) H1). lia.
  - intros [pre [sg [-> [H1 [H2 H3]]]]] [pre2 [sg2 [post2 [E [K1 K2]]]]].
    destruct post2 as [|y post2] using rev_ind.
    + apply app_inj_tail in E. destruct E as [-> ->]. destruct K2 as [K2|[_ K2]]; [lia|easy].
    + rewrite app_comm_cons, app_assoc in E. apply app_inj_tail in E. destruct E as [-> _].
      rewrite Forall_forall in H3. specialize (H3 sg2). rewrite in_app_iff in H3. simpl in H3.
      specialize (H3 (or_intror (or_introl eq_refl)) K1). lia.
Qed.
Lemma check_intents_err : forall path, check_intents path = IntentsErr <-> bad_index path.
Proof.
  intros path. pose proof (check_intents_spec path) as H. destruct (intents_exclusive path) as [I1 I2].
  destruct (check_intents path); split; intros K; auto; try discriminate; exfalso.
  - apply (proj2 (I1 H)); auto.
  - apply (I2 H); auto.
Qed.
Lemma check_intents_append : forall path, check_intents path = IntentsAppend <-> append_index path.
Proof.
  intros path. pose proof (check_intents_spec path) as H. destruct (intents_exclusive path) as [I1 I2].
  destruct (check_intents path); split; intros K; auto; try discriminate; exfalso.
  - apply (proj1 (I1 H)); auto.
  - apply (I2 K); auto.
Qed.

(** ** Paths of steps *)
Definition step_seg (x : step * list bytes) : seg :=
  let '(st, ms) := x in
  match st with
  | Name n => mkSeg SElem n 0 false None false [] ms
  | Nth ds => mkSeg SIndex [] (Z.min (Z.of_N (decimal_value ds)) int64_max) false None false [] ms
  | Attr n => mkSeg SAttr n 0 false None false [] ms
  | TextOf => mkSeg SText [] 0 false None false [] ms
  | CountOf => mkSeg SCount [] 0 false None false [] ms
  | AnyChild => mkSeg SWild [] 0 false None false [] ms
  | AnyDepth => mkSeg SWild [] 0 true None false [] ms
  end.
Lemma split_on_app : forall b s t, ~ In b s -> split_on b (s ++ b :: t) =
  (s, (let '(h, r) := split_on b t in h :: r)).
Proof.
  intros b s t. induction s as [|c s IH]; intros H; cbn [app split_on].
  - rewrite Ascii.eqb_refl. destruct (split_on b t); reflexivity.
  - destruct (Ascii.eqb_spec b c) as [->|N]; [exfalso; apply H; now left|].
    destruct (Ascii.eqb_spec c b) as [->|N2]; [congruence|].
    rewrite IH by (intros K; apply H; now right). reflexivity.
Qed.
Lemma trim_mod : forall m, good_mod m -> trim_space ("@"%char :: m) = "@"%char :: m.
Proof.
  intros m [_ H]. assert (V : visible "@") by (unfold visible; vm_compute; split; discriminate).
  pose proof (trim_space_pad 0 0 ("@"%char :: m)) as T. change (spaces 0) with (@nil ascii) in T.
  rewrite app_nil_r in T. apply T; [eauto|].
  destruct H as [->|[r [c [-> Vc]]]]; [exists [], "@"%char; auto|exists ("@"%char :: r), c; auto].
Qed.
Lemma parse_modifiers_written : forall ms s, ~ In "|"%char s -> Forall good_mod ms ->
  parse_modifiers (s ++ mods_text ms) = (s, ms).
Proof.
  assert (G : forall ms s, ~ In "|"%char s -> Forall good_mod ms ->
    split_on "|" (s ++ mods_text ms) = (s, map (fun m => "@"%char :: m) ms)).
  { induction ms as [|m ms IH]; intros s Hs Hm.
    - unfold mods_text. cbn [flat_map]. rewrite app_nil_r. now apply split_on_none.
    - inversion Hm as [|? ? H1 H2]; subst. unfold mods_text. cbn [flat_map]. fold (mods_text ms).
      change (bs "|@" ++ m) with ("|"%char :: "@"%char :: m). cbn [app].
      rewrite split_on_app by exact Hs. change ("@"%char :: m ++ mods_text ms) with (("@"%char :: m) ++ mods_text ms).
      rewrite IH; auto. intros [K|K]; [discriminate|]. now apply (proj1 H1). }
  intros ms s Hs Hm. unfold parse_modifiers. rewrite G by auto. f_equal.
  clear - Hm. induction Hm as [|m ms H1 H2 IH]; auto. cbn [map mods_of]. rewrite (trim_mod m H1), IH. reflexivity.
Qed.
Lemma parse_part_step : forall st ms, good_step st -> Forall good_mod ms ->
  parse_part (step_text st ++ mods_text ms) = Ok (PSeg (step_seg (st, ms))).
Proof.
  intros st ms Hst Hms.
  assert (Hbar : ~ In "|"%char (step_text st)).
  { destruct st; cbn [step_text good_step] in *; try (vm_compute; intuition discriminate).
    - now apply pn_no_bar.
    - apply in_digits_not; [apply Hst|reflexivity]. }
  assert (K : step_text st <> []).
  { destruct st; cbn [step_text good_step] in *; try discriminate; [now apply pn_nonempty|apply Hst]. }
  assert (P : parse_part (step_text st ++ mods_text ms) =
    match parse_part (step_text st) with
    | Ok (PSeg sg) => Ok (PSeg (mkSeg (s_type sg) (s_value sg) (s_index sg) (s_wild sg) (s_filter sg) (s_all sg) (s_field sg) ms))
    | x => x
    end).
  { unfold parse_part.
    destruct (step_text st ++ mods_text ms) as [|a r] eqn:E1; [apply app_eq_nil in E1; destruct E1; contradiction|].
    rewrite <- E1. rewrite (parse_modifiers_written ms _ Hbar Hms).
    destruct (step_text st) as [|b r2] eqn:E2; [easy|]. rewrite <- E2 in *.
    pose proof (parse_modifiers_written [] _ Hbar (Forall_nil _)) as PM. cbn [mods_text flat_map] in PM. rewrite app_nil_r in PM.
    rewrite PM. destruct (strip_prefix (bs "#(") (step_text st)) eqn:SP.
    - destruct (has_suffix (bs ")#") (step_text st)).
      + destruct (Nat.leb (len (step_text st) - 2) 2); auto.
        destruct (parse_filter_condition (firstn (len (step_text st) - 2 - 2) b0)) as [[f|]| |]; reflexivity.
      + destruct (has_suffix (bs ")") (step_text st)); auto.
        destruct (Nat.leb (len (step_text st) - 1) 2); auto.
        destruct (parse_filter_condition (firstn (len (step_text st) - 1 - 2) b0)) as [[f|]| |]; reflexivity.
    - rewrite E2. destruct (Ascii.eqb b "@"); [reflexivity|]. rewrite <- E2.
      destruct (bytes_eqb (step_text st) (bs "%")); [reflexivity|].
      destruct (bytes_eqb (step_text st) (bs "#")); [reflexivity|].
      destruct (bytes_eqb (step_text st) (bs "*")); [reflexivity|].
      destruct (bytes_eqb (step_text st) (bs "**")); [reflexivity|].
      destruct (is_numeric (step_text st)); reflexivity. }
  rewrite P. destruct st; cbn [step_text good_step] in *; try reflexivity.
  - rewrite (parse_part_plain _ Hst). reflexivity.
  - rewrite (parse_part_digits _ (proj1 Hst) (proj2 Hst)). reflexivity.
  - unfold parse_part.
    pose proof (parse_modifiers_written [] _ Hbar (Forall_nil _)) as PM. cbn [mods_text flat_map] in PM. rewrite app_nil_r in PM.
    rewrite PM. reflexivity.
Qed.
Lemma merge_steps : forall l, no_field l -> merge_fields (map step_seg l) = map step_seg l.
Proof.
  induction l as [|[st ms] l IH]; intros H; auto. cbn [map merge_fields].
  assert (Hl : no_field l).
  { destruct st; cbn [no_field] in H; auto. destruct l as [|[[] ?] ?]; auto; contradiction. }
  rewrite (IH Hl). destruct st; cbn [step_seg s_type]; auto.
  destruct l as [|[st2 ms2] l]; auto. cbn [map] in *. destruct st2; cbn [no_field] in H; auto; contradiction.
Qed.
Lemma parse_steps : forall l, l <> [] -> Forall (fun x => good_step (fst x) /\ Forall good_mod (snd x)) l ->
  no_field l -> len l <= 100 -> parse_path (steps_text l) = Ok (map step_seg l).
Proof.
  intros l Hne Hg Hf Hl. unfold steps_text. set (raws := map (fun x => step_text (fst x) ++ mods_text (snd x)) l).
  assert (PP : parse_parts raws = Ok (Some (map step_seg l))).
  { unfold raws. clear Hne Hf Hl. induction Hg as [|[st ms] l [H1 H2] Hg IH]; auto. cbn [map parse_parts fst snd] in *.
    rewrite (parse_part_step _ _ H1 H2). cbn [bind]. rewrite IH. reflexivity. }
  assert (R1 : raws <> []) by (unfold raws; destruct l; [easy|discriminate]).
  assert (R2 : raws <> [[]]).
  { unfold raws. destruct l as [|[st ms] l]; [easy|]. inversion Hg as [|? ? [H1 _] _]; subst. cbn [map fst snd] in *.
    intros K. injection K as K _. apply app_eq_nil in K. destruct K as [K _].
    destruct st; cbn [step_text good_step] in *; try discriminate; [now apply pn_nonempty in H1|now apply H1]. }
  pose proof (split_path_path_text _ R1 R2) as Hs.
  assert (Hl' : Nat.ltb MaxPathSegments (len raws) = false).
  { apply Nat.ltb_ge. unfold raws. rewrite map_length. exact Hl. }
  clearbody raws. change (list (list ascii)) with (list bytes) in raws.
  unfold parse_path. destruct (path_text raws) eqn:E.
  - exfalso. apply R1. symmetry. exact Hs.
  - unfold parse_path_internal. rewrite Hs.
    etransitivity; [|rewrite <- (merge_steps l Hf); reflexivity].
    replace (Nat.ltb MaxPathSegments (List.length raws)) with false by (symmetry; exact Hl').
    etransitivity; [|exact (eq_refl (Ok (merge_fields (map step_seg l))))].
    change (parse_parts raws = Ok (Some (map step_seg l))) in PP. rewrite PP. reflexivity.
Qed.
