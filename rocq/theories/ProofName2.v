(** The modifiers named by a path. *)
From Coq Require Import List Ascii String NArith ZArith Bool Lia SpecFloat.
From Verif Require Import GoStr ModelParser ModelPath ModelResult ModelQuery ModelBuilder ModelQueryOpts ModelConc ModelRace SpecRace ProofBase ProofFuel ProofFuel2 ProofConc ProofName.
Import ListNotations.

Definition inside (x s : bytes) : Prop := exists a b, s = a ++ x ++ b.
Lemma inside_trans : forall x y z, inside x y -> inside y z -> inside x z.
Proof. intros x y z [a [b ->]] [c [d ->]]. exists (c ++ a), (b ++ d). now rewrite !app_assoc. Qed.
Lemma bare_app : forall a b, bare (a ++ b) = bare a ++ bare b.
Proof. intros. apply filter_app. Qed.
Lemma inside_bare : forall x s, inside x s -> inside (bare x) (bare s).
Proof. intros x s [a [b ->]]. exists (bare a), (bare b). now rewrite !bare_app. Qed.
Lemma inside_cons : forall x c s, inside x s -> inside x (c :: s).
Proof. intros x c s [a [b ->]]. exists (c :: a), b. reflexivity. Qed.
Lemma inside_in : forall x s c, inside x s -> In c x -> In c s.
Proof. intros x s c [a [b ->]] H. apply in_or_app. right. apply in_or_app. auto. Qed.

Lemma split_loop_bare : forall s b h t, split_loop b s = (h, t) ->
  (exists r, bare s = bare h ++ r) /\ forall x, In x t -> inside (bare x) (bare s).
Proof.
  induction s as [|c s IH]; intros b h t H; cbn [split_loop] in H.
  - injection H as <- <-. split; [exists []; auto|intros x []].
  - assert (Step : forall b' h' t', split_loop b' s = (h', t') ->
      (exists r, bare (c :: s) = bare (c :: h') ++ r) /\ forall x, In x t' -> inside (bare x) (bare (c :: s))).
    { intros b' h' t' K. destruct (IH _ _ _ K) as [[r R] I]. unfold bare in *. cbn [filter]. destruct (negb (Ascii.eqb c backslash)).
      - split; [exists r; cbn [app]; now rewrite R|]. intros x Hx. apply inside_cons. auto.
      - split; [exists r; auto|auto]. }
    destruct b.
    + destruct (split_loop false s) as [h' t'] eqn:K. injection H as <- <-. eapply Step; eauto.
    + destruct (Ascii.eqb c backslash) eqn:B.
      * destruct (IH _ _ _ H) as [[r R] I]. unfold bare in *. cbn [filter]. rewrite B. cbn [negb]. split; [exists r; auto|auto].
      * destruct (Ascii.eqb c ".").
        -- destruct (split_loop false s) as [h' t'] eqn:K. injection H as <- <-. destruct (IH _ _ _ K) as [[r R] I].
           unfold bare in *. cbn [filter]. rewrite B. cbn [negb]. split; [eexists; reflexivity|]. intros x [<-|Hx]; apply inside_cons; auto.
           exists [], r. now rewrite R.
        -- destruct (split_loop false s) as [h' t'] eqn:K. injection H as <- <-. eapply Step; eauto.
Qed.
Lemma split_path_bare : forall s x, In x (split_path s) -> inside (bare x) (bare s).
Proof.
  intros s x H. destruct s as [|c s]; [destruct H|]. unfold split_path in H. destruct (split_loop false (c :: s)) as [h t] eqn:K.
  destruct (split_loop_bare _ _ _ _ K) as [[r R] I]. destruct H as [<-|H]; auto. exists [], r. exact R.
Qed.
Lemma split_on_inside : forall b s h t x, split_on b s = (h, t) -> In x t -> inside x s.
Proof.
  induction s as [|c s IH]; intros h t x H Hx; cbn [split_on] in H; [injection H as <- <-; destruct Hx|].
  destruct (split_on b s) as [h' t'] eqn:K. destruct (Ascii.eqb c b); injection H as <- <-.
  - destruct Hx as [<-|Hx]; [|apply inside_cons; eauto]. destruct (split_on_head _ _ _ _ K) as [r ->]. exists [c], r. reflexivity.
  - apply inside_cons. eauto.
Qed.
Lemma split_on_clean : forall b s h t, split_on b s = (h, t) -> ~ In b h.
Proof.
  induction s as [|c s IH]; intros h t H; cbn [split_on] in H; [injection H as <- <-; intros []|].
  destruct (split_on b s) as [h' t'] eqn:K. destruct (Ascii.eqb c b) eqn:B; injection H as <- <-; [intros []|].
  intros [->|Q]; [now rewrite Ascii.eqb_refl in B|]. eapply IH; eauto.
Qed.
Lemma find_two_in : forall s p op q c, find_two s = Some (p, op, q) -> In c p -> In c s.
Proof.
  induction s as [|a s IH]; intros p op q c H K; [discriminate|]. cbn [find_two] in H. destruct s as [|b r]; [discriminate|].
  destruct (two_op a b); [injection H as <- <- <-; destruct K|]. destruct (find_two (b :: r)) as [[[p' op'] q']|] eqn:F; [|discriminate].
  injection H as <- <- <-. destruct K as [->|K]; [now left|right]. eapply IH; eauto.
Qed.
Lemma find_one_in : forall s p op q c, find_one s = Some (p, op, q) -> In c p -> In c s.
Proof.
  induction s as [|a s IH]; intros p op q c H K; [discriminate|]. cbn [find_one] in H.
  destruct (one_op a); [injection H as <- <- <-; destruct K|]. destruct (find_one s) as [[[p' op'] q']|] eqn:F; [|discriminate].
  injection H as <- <- <-. destruct K as [->|K]; [now left|right]. eapply IH; eauto.
Qed.
Lemma filter_path_in : forall e f c, parse_filter_condition e = Ok (Some f) -> In c (f_path f) -> In c e.
Proof.
  intros e f c H K. unfold parse_filter_condition in H.
  destruct (MaxFilterExpressionLength <? blen e)%N; [discriminate|].
  destruct (mem nul e); [discriminate|].
  pose proof (fun c => trim_space_in e c) as TI. destruct (trim_space e) as [|c0 e0] eqn:T; [discriminate|].
  destruct (contains_any op_chars (c0 :: e0)) eqn:C; cbn [negb] in H.
  - destruct (find_op (c0 :: e0)) as [[[p op] q]|] eqn:Fo; [|discriminate].
    destruct (contains_any ctl_chars p); [discriminate|].
    assert (PI : forall c, In c p -> In c (c0 :: e0)).
    { intros d Hd. unfold find_op in Fo. destruct (find_two (c0 :: e0)) as [x|] eqn:F2.
      - injection Fo as ->. eapply find_two_in; eauto.
      - eapply find_one_in; eauto. }
    pose proof (fun c => trim_space_in p c) as TP.
    destruct (trim_space p) as [|pc pp] eqn:Tp; [discriminate|].
    destruct (trim_space q) as [|qc qq] eqn:Tq; [discriminate|].
    destruct (contains_any op_chars (pc :: pp)) eqn:Cp; [discriminate|].
    apply bind_ok in H. destruct H as [v [H1 H2]].
    destruct (contains_any ctl_chars v); [discriminate|]. injection H2 as <-. cbn [f_path] in K. auto.
  - injection H as <-. cbn [f_path] in K. auto.
Qed.
Lemma mods_inside : forall l m, In m (mods_of l) -> exists x, In x l /\ inside ("@"%char :: m) x.
Proof.
  induction l as [|x l IH]; intros m H; cbn [mods_of] in H; [destruct H|].
  destruct (trim_space_part x) as [p [q E]].
  destruct (trim_space x) as [|c n] eqn:T; [destruct (IH m H) as [y [A B]]; exists y; split; auto; now right|].
  destruct (Ascii.eqb c "@") eqn:C.
  - apply Ascii.eqb_eq in C. subst c. destruct H as [<-|H].
    + exists x. split; [now left|]. exists p, q. exact E.
    + destruct (IH m H) as [y [A B]]. exists y. split; auto. now right.
  - destruct (IH m H) as [y [A B]]. exists y. split; auto. now right.
Qed.
Lemma strip_in : forall p s r c, strip_prefix p s = Some r -> In c r -> In c s.
Proof.
  induction p as [|a p IH]; intros s r c H K; cbn [strip_prefix] in H; [injection H as ->; auto|]. destruct s as [|b s]; [discriminate|].
  destruct (Ascii.eqb a b); [|discriminate]. right. eapply IH; eauto.
Qed.
Lemma firstn_In : forall A n (l : list A) x, In x (firstn n l) -> In x l.
Proof. induction n; destruct l; cbn; intros x H; auto; destruct H; auto. Qed.

(** A part of a path: its modifiers stand in it, its condition has no bar. *)
Lemma part_named : forall x s, parse_part x = Ok (PSeg s) ->
  (forall m, In m (s_mods s) -> inside ("@"%char :: m) x) /\ forall f, s_filter s = Some f -> ~ In "|"%char (f_path f).
Proof.
  intros x s H. unfold parse_part in H. destruct x as [|x0 x1]; [discriminate|]. set (x := x0 :: x1) in *.
  unfold parse_modifiers in H. destruct (split_on "|" x) as [pp t] eqn:SP. pose proof (split_on_clean _ _ _ _ SP) as CL.
  assert (MI : forall m, In m (mods_of t) -> inside ("@"%char :: m) x).
  { intros m K. destruct (mods_inside t m K) as [y [A B]]. eapply inside_trans; eauto. eapply split_on_inside; eauto. }
  destruct (strip_prefix (bs "#(") pp) as [body|] eqn:B.
  - cbv zeta in H. destruct (if has_suffix (bs ")#") pp then _ else _) as [[all endidx]|]; [|discriminate].
    destruct (Nat.leb endidx 2); [discriminate|]. apply bind_ok in H. destruct H as [f [H1 H2]]. destruct f as [f|]; [|discriminate].
    injection H2 as <-. cbn [s_mods s_filter]. split; auto. intros f' [= <-] K. apply CL. eapply strip_in; eauto. eapply firstn_In. eapply filter_path_in; eauto.
  - cbv zeta in H. assert (Q : s_mods s = mods_of t /\ s_filter s = None).
    { destruct pp as [|c v]; [injection H as <-; auto|].
      repeat match type of H with context [if ?b then _ else _] => destruct b; [injection H as <-; auto|] end. injection H as <-; auto. }
    destruct Q as [-> ->]. split; auto. discriminate.
Qed.
Definition seg_part (path : bytes) (s : seg) : Prop :=
  (forall m, In m (s_mods s) -> mentions path m) /\ forall f, s_filter s = Some f -> ~ In "|"%char (f_path f).
Lemma parts_named : forall path l ss, (forall x, In x l -> inside (bare x) (bare path)) -> parse_parts l = Ok (Some ss) -> Forall (seg_part path) ss.
Proof.
  induction l as [|x l IH]; intros ss I H; cbn [parse_parts] in H.
  - injection H as <-. constructor.
  - apply bind_ok in H. destruct H as [o [H1 H2]]. destruct o as [| |sg].
    + apply IH; auto. intros y Hy. apply I. now right.
    + discriminate.
    + apply bind_ok in H2. destruct H2 as [r [H2 H3]]. destruct r as [ss'|]; [|discriminate]. injection H3 as <-.
      constructor; [|apply IH; auto; intros y Hy; apply I; now right]. destruct (part_named _ _ H1) as [A B]. split; auto.
      intros m K. specialize (A m K). apply inside_bare in A. destruct (inside_trans _ _ _ A (I x (or_introl eq_refl))) as [a [b E]].
      exists a, b. exact E.
Qed.
Lemma merge_named : forall path n l, (List.length l <= n)%nat -> Forall (seg_part path) l -> Forall (seg_part path) (merge_fields l).
Proof.
  induction n as [|n IH]; intros l Hn H; destruct l as [|x l]; cbn [List.length] in *; auto; try lia.
  inversion H as [|? ? Hx Hl]; subst.
  assert (H1 : Forall (seg_part path) (merge_fields l)) by (apply IH; auto; lia).
  cbn [merge_fields]. destruct (s_type x); try (constructor; auto; fail).
  destruct l as [|nx l2]; [constructor; auto|].
  inversion Hl as [|? ? Hn2 Hl2]; subst.
  assert (H2 : Forall (seg_part path) (merge_fields l2)) by (apply IH; cbn [List.length] in *; auto; lia).
  destruct (s_type nx);
   try (match goal with |- context [if ?b then _ else _] => destruct b end);
   constructor; auto; (split; cbn [s_mods s_filter]; [exact (proj1 Hn2)|discriminate]).
Qed.
Lemma path_named : forall path l, parse_path path = Ok l -> Forall (seg_part path) l.
Proof.
  intros path l H. destruct path as [|c path]; [injection H as <-; constructor|]. unfold parse_path in H. apply bind_ok in H. destruct H as [r [H1 H2]].
  destruct r as [ss|]; [|injection H2 as <-; constructor]. injection H2 as <-. unfold parse_path_internal in H1. cbv zeta in H1.
  destruct (Nat.ltb MaxPathSegments _); [discriminate|].
  apply bind_ok in H1. destruct H1 as [r [H3 H4]]. destruct r as [ss'|]; [|discriminate]. injection H4 as <-.
  apply (merge_named _ _ _ (le_n _)). eapply parts_named; [|exact H3]. intros x Hx. now apply split_path_bare.
Qed.

(** Without a bar there are no modifiers. *)
Lemma part_plain : forall x s, ~ In "|"%char x -> parse_part x = Ok (PSeg s) -> s_mods s = [].
Proof.
  intros x s N H. unfold parse_part in H. destruct x as [|x0 x1]; [discriminate|]. set (x := x0 :: x1) in *.
  unfold parse_modifiers in H.
  assert (SP : split_on "|" x = (x, [])).
  { clear H. induction x as [|c x IH]; auto. cbn [split_on]. rewrite IH by (intros K; apply N; now right).
    destruct (Ascii.eqb c "|") eqn:C; auto. apply Ascii.eqb_eq in C. elim N. now left. }
  rewrite SP in H. cbn [mods_of] in H.
  destruct (strip_prefix (bs "#(") x) as [body|] eqn:B.
  - cbv zeta in H. destruct (if has_suffix (bs ")#") x then _ else _) as [[all endidx]|]; [|discriminate].
    destruct (Nat.leb endidx 2); [discriminate|]. apply bind_ok in H. destruct H as [f [H1 H2]]. destruct f as [f|]; [|discriminate].
    injection H2 as <-. reflexivity.
  - cbv zeta in H. destruct x as [|c v]; [injection H as <-; auto|].
      repeat match type of H with context [if ?b then _ else _] => destruct b; [injection H as <-; auto|] end. injection H as <-; auto.
Qed.
Lemma parts_plain : forall l ss, (forall x, In x l -> ~ In "|"%char x) -> parse_parts l = Ok (Some ss) -> Forall (fun s => s_mods s = []) ss.
Proof.
  induction l as [|x l IH]; intros ss I H; cbn [parse_parts] in H.
  - injection H as <-. constructor.
  - apply bind_ok in H. destruct H as [o [H1 H2]]. destruct o as [| |sg].
    + apply IH; auto. intros y Hy. apply I. now right.
    + discriminate.
    + apply bind_ok in H2. destruct H2 as [r [H2 H3]]. destruct r as [ss'|]; [|discriminate]. injection H3 as <-.
      constructor; [|apply IH; auto; intros y Hy; apply I; now right]. eapply part_plain; [|exact H1]. apply I. now left.
Qed.
Lemma merge_plain : forall n l, (List.length l <= n)%nat -> Forall (fun s => s_mods s = []) l -> Forall (fun s => s_mods s = []) (merge_fields l).
Proof.
  induction n as [|n IH]; intros l Hn H; destruct l as [|x l]; cbn [List.length] in *; auto; try lia.
  inversion H as [|? ? Hx Hl]; subst.
  assert (H1 : Forall (fun s => s_mods s = []) (merge_fields l)) by (apply IH; auto; lia).
  cbn [merge_fields]. destruct (s_type x); try (constructor; auto; fail).
  destruct l as [|nx l2]; [constructor; auto|].
  inversion Hl as [|? ? Hn2 Hl2]; subst.
  assert (H2 : Forall (fun s => s_mods s = []) (merge_fields l2)) by (apply IH; cbn [List.length] in *; auto; lia).
  destruct (s_type nx);
   try (match goal with |- context [if ?b then _ else _] => destruct b end);
   constructor; auto.
Qed.
Lemma path_plain : forall path l, ~ In "|"%char path -> parse_path path = Ok l -> Forall (fun s => s_mods s = []) l.
Proof.
  intros path l N H. destruct path as [|c path]; [injection H as <-; constructor|]. unfold parse_path in H. apply bind_ok in H. destruct H as [r [H1 H2]].
  destruct r as [ss|]; [|injection H2 as <-; constructor]. injection H2 as <-. unfold parse_path_internal in H1. cbv zeta in H1.
  destruct (Nat.ltb MaxPathSegments _); [discriminate|].
  apply bind_ok in H1. destruct H1 as [r [H3 H4]]. destruct r as [ss'|]; [|discriminate]. injection H4 as <-.
  apply (merge_plain _ _ (le_n _)). eapply parts_plain; [|exact H3]. intros x Hx K. apply N. eapply split_path_in; eauto.
Qed.
Lemma plain_named : forall (P : bytes -> Prop) path l, ~ In "|"%char path -> parse_path path = Ok l -> Forall (seg_named P) l.
Proof.
  intros P path l N H. pose proof (path_plain _ _ N H) as A. pose proof (path_named _ _ H) as B.
  rewrite Forall_forall in *. intros s Hs. specialize (A s Hs). specialize (B s Hs). destruct B as [_ B]. split; auto. rewrite A. constructor.
Qed.
Lemma named_path : forall path l, parse_path path = Ok l -> Forall (seg_named (mentions path)) l.
Proof.
  intros path l H. pose proof (path_named _ _ H) as B. rewrite Forall_forall in *. intros s Hs. destruct (B s Hs) as [B1 B2]. split; auto.
  apply Forall_forall. exact B1.
Qed.
Lemma lower_named : forall P l, Forall (seg_named P) l -> Forall (seg_named P) (map lower_seg l).
Proof.
  intros P l H. rewrite Forall_forall in *. intros s Hs. apply in_map_iff in Hs. destruct Hs as [x [<- Hx]]. destruct (H x Hx) as [A B].
  unfold seg_named, lower_seg. destruct (s_type x); auto.
Qed.

Lemma get_opts_names : forall E E' o xml path, same_but_modifiers E E' -> (forall n, mentions path n -> e_custom E n = e_custom E' n) ->
  get_opts E o xml path = get_opts E' o xml path.
Proof.
  intros E [o1 o2 o3 o4 o5 c'] o xml path [S1 [S2 [S3 [S4 S5]]]] H. cbn [e_ord e_parse_float e_sort e_codec e_to_lower e_custom] in *. subst.
  unfold get_opts. destruct (MaxDocumentSize <? blen xml)%N; auto. destruct (is_default_options o).
  - destruct (parse_path path) as [l| |] eqn:PP; auto. cbn [bind]. destruct l as [|s l]; auto.
    apply (exec_same E c' (mentions path) H (plain_named (mentions path))). now apply named_path.
  - unfold parse_path_opts. destruct (parse_path path) as [l| |] eqn:PP; auto. cbn [bind].
    assert (N : Forall (seg_named (mentions path)) (if o_case o then l else map lower_seg l)).
    { pose proof (named_path _ _ PP) as K. destruct (o_case o); auto. now apply lower_named. }
    destruct (if o_case o then l else map lower_seg l) as [|s l'] eqn:L; auto.
    apply (exec_opts_same E c' (mentions path) H (plain_named (mentions path))). exact N.
Qed.

