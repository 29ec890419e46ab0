(** Modifiers at the end of a query: parsing. *)
From Coq Require Import List Ascii String NArith ZArith Bool Lia.
From Verif Require Import GoStr ModelParser ModelPath ModelResult ModelQuery SpecText SpecPath SpecTree SpecQuery SpecEdit SpecContent SpecFilter SpecLang SpecWhole
  ProofBase ProofPath ProofScan ProofSyntax ProofFuel ProofMono ProofMod ProofTree4 ProofLang ProofWhole.
Import ListNotations.

Lemma parse_part_mods : forall p sg ms, ~ In "|"%char p -> Forall good_mod ms -> parse_part p = Ok (PSeg sg) ->
  parse_part (p ++ mods_text ms) = Ok (PSeg (with_mods sg ms)).
Proof.
  intros p sg ms Hbar Hms H. unfold parse_part in *. destruct p as [|c p0]; [discriminate|]. set (p := c :: p0) in *.
  destruct (p ++ mods_text ms) as [|a r] eqn:E1; [apply app_eq_nil in E1; destruct E1; discriminate|].
  rewrite <- E1. rewrite (parse_modifiers_written ms _ Hbar Hms).
  pose proof (parse_modifiers_written [] _ Hbar (Forall_nil _)) as PM. cbn [mods_text flat_map] in PM. rewrite app_nil_r in PM.
  rewrite PM in H. destruct (strip_prefix (bs "#(") p) as [body|].
  - destruct (has_suffix (bs ")#") p).
    + destruct (Nat.leb (len p - 2) 2); [discriminate|].
      destruct (parse_filter_condition (firstn (len p - 2 - 2) body)) as [[f|]| |]; try discriminate. cbn [bind] in *. now injection H as <-.
    + destruct (has_suffix (bs ")") p); [|discriminate]. destruct (Nat.leb (len p - 1) 2); [discriminate|].
      destruct (parse_filter_condition (firstn (len p - 1 - 2) body)) as [[f|]| |]; try discriminate. cbn [bind] in *. now injection H as <-.
  - unfold p in *. destruct (Ascii.eqb c "@"); [now injection H as <-|].
    destruct (bytes_eqb (c :: p0) (bs "%")); [now injection H as <-|].
    destruct (bytes_eqb (c :: p0) (bs "#")); [now injection H as <-|].
    destruct (bytes_eqb (c :: p0) (bs "*")); [now injection H as <-|].
    destruct (bytes_eqb (c :: p0) (bs "**")); [now injection H as <-|].
    destruct (is_numeric (c :: p0)); now injection H as <-.
Qed.
Lemma quote_plain : forall t, ~ In "."%char t -> ~ In backslash t -> quote_name t = t.
Proof.
  induction t as [|c t IH]; intros H1 H2; auto. cbn [quote_name flat_map]. fold (quote_name t). rewrite IH; [|intros K; apply H1; now right|intros K; apply H2; now right].
  unfold quote_byte. destruct (Ascii.eqb_spec c "."); [subst; exfalso; apply H1; now left|].
  destruct (Ascii.eqb_spec c backslash); [subst; exfalso; apply H2; now left|]. reflexivity.
Qed.
Lemma mods_plain : forall ms, Forall plain_mod ms -> quote_name (mods_text ms) = mods_text ms.
Proof.
  intros ms H. apply quote_plain; induction H as [|m ms [_ [H1 H2]] H IH]; auto; unfold mods_text; cbn [flat_map]; intros K; apply in_app_or in K; destruct K as [K|K]; auto;
    apply in_app_or in K; destruct K as [K|K]; auto; vm_compute in K; intuition discriminate.
Qed.
Lemma path_text_last : forall (init : list bytes) (p t : bytes), quote_name t = t -> path_text (init ++ [p]) ++ t = path_text (init ++ [p ++ t]).
Proof.
  intros init p t H. induction init as [|x init IH].
  - cbn [app path_text]. unfold quote_name. rewrite flat_map_app. f_equal. symmetry. exact H.
  - cbn [app]. destruct (init ++ [p]) as [|a l] eqn:Q1; [destruct init; discriminate|]. destruct (init ++ [p ++ t]) as [|b l2] eqn:Q2; [destruct init; discriminate|].
    cbn [path_text] in *. rewrite <- app_assoc. cbn [app]. now rewrite IH.
Qed.
Lemma addm_last : forall ms init sg, addm ms (init ++ [sg]) = init ++ [with_mods sg ms].
Proof. intros ms init sg. induction init as [|a init IH]; auto. cbn [app]. rewrite addm_cons by (destruct init; discriminate). now rewrite IH. Qed.

Definition raw_segs (steps : list qstep) (e : qend) : list seg := flat_map qstep_segs steps ++ qend_raw_segs e.
Lemma query_parsed : forall steps e, good_query steps e -> Forall2 parsed (query_parts steps e) (raw_segs steps e).
Proof.
  intros steps e [H1 H2 _ H4 H5]. apply Forall2_app; [|eapply parsed_qend; eauto]. clear - H2. induction H2 as [|s steps H1 H2 IH]; [constructor|].
  cbn [flat_map]. apply Forall2_app; auto using parsed_qstep.
Qed.
Lemma field_no_bar : forall f, good_field f -> ~ In "|"%char (field_text f).
Proof.
  intros [n|x|] H; cbn [good_field field_text] in *.
  - now apply pn_no_bar, field_plain.
  - intros [K|K]; [discriminate|]. revert K. now apply pn_no_bar, field_plain.
  - intros [K|[]]. discriminate.
Qed.
Lemma query_no_bar : forall steps e, good_query steps e -> Forall (fun p : bytes => ~ In "|"%char p) (query_parts steps e).
Proof.
  intros steps e [H1 H2 _ H4 _]. apply Forall_app. split.
  - clear - H2. assert (W : forall c all, good_condition c -> ~ In "|"%char (where_text c all)).
    { intros c all (_ & K & _) Q. unfold where_text in Q. apply in_app_or in Q. destruct Q as [Q|Q]; [vm_compute in Q; intuition discriminate|].
      apply in_app_or in Q. destruct Q as [Q|Q]; [auto|]. destruct all; vm_compute in Q; intuition discriminate. }
    induction H2 as [|s steps H1 H2 IH]; [constructor|]. cbn [flat_map]. apply Forall_app. split; auto.
    destruct s as [n [|ds|c all]| |c all|[n|]]; cbn [qstep_parts good_qstep good_which] in *;
      repeat match goal with |- Forall _ (_ :: _) => constructor | |- Forall _ [] => constructor end; auto; try (now apply pn_no_bar, H1);
      try (vm_compute; intuition discriminate); try (apply W, H1).
    apply in_digits_not; [apply H1|reflexivity].
  - assert (T : ~ In "|"%char (bs "%")) by (vm_compute; intuition discriminate). assert (C : ~ In "|"%char (bs "#")) by (vm_compute; intuition discriminate).
    destruct e as [|x| | |f]; cbn [qend_parts good_qend] in *.
    + constructor.
    + constructor; [|constructor]. intros [K|K]; [discriminate|auto].
    + constructor; [exact T|constructor].
    + constructor; [exact C|constructor].
    + constructor; [exact C|constructor; [now apply field_no_bar|constructor]].
Qed.
Lemma addm_app : forall ms a b, b <> [] -> addm ms (a ++ b) = a ++ addm ms b.
Proof. intros ms a b H. induction a as [|x a IH]; auto. cbn [app]. rewrite addm_cons; [now rewrite IH|]. destruct a; [exact H|discriminate]. Qed.
Lemma steps_no_count : forall steps, Forall (fun sg => s_type sg <> SCount) (flat_map qstep_segs steps).
Proof.
  intros steps. apply Forall_forall. intros sg Hsg. apply in_flat_map in Hsg. destruct Hsg as [s [_ K]].
  destruct s as [n [| |]| | |[|]]; cbn [qstep_segs In] in K; repeat (destruct K as [<-|K]; [discriminate|]); destruct K.
Qed.
Lemma merge_none : forall l, Forall (fun sg => s_type sg <> SCount) l -> merge_fields l = l.
Proof. intros l H. rewrite <- (app_nil_r l) at 1. rewrite merge_pre by auto. cbn [merge_fields]. apply app_nil_r. Qed.
Lemma merge_addm : forall ms steps e, good_qend steps e -> merge_fields (addm ms (raw_segs steps e)) = addm ms (query_segs steps e).
Proof.
  intros ms steps e H. unfold raw_segs, query_segs. pose proof (steps_no_count steps) as NC. destruct e as [|x| | |f]; cbn [qend_raw_segs qend_segs].
  - rewrite app_nil_r. apply merge_none. destruct (flat_map qstep_segs steps) as [|a l] eqn:Q using rev_ind; [constructor|]. rewrite addm_last.
    apply Forall_app in NC. destruct NC as [N1 N2]. apply Forall_app. split; auto. constructor; [|constructor]. inversion N2; auto.
  - rewrite addm_app by discriminate. rewrite merge_pre by auto. reflexivity.
  - rewrite addm_app by discriminate. rewrite merge_pre by auto. reflexivity.
  - rewrite addm_app by discriminate. rewrite merge_pre by auto. reflexivity.
  - rewrite !addm_app by discriminate. rewrite merge_pre by auto. f_equal. destruct H as [H _]. destruct (field_valid f H) as [V1 V2].
    assert (K : field_of (with_mods (field_raw_seg f) ms) = field_text f) by (destruct f; reflexivity).
    cbn [addm merge_fields]. change (s_type (step_seg (CountOf, []))) with SCount. cbn iota. rewrite K, V1, V2. cbn [andb].
    destruct f; reflexivity.
Qed.
Lemma raw_nonempty : forall steps e, steps <> [] -> raw_segs steps e <> [].
Proof. intros [|s steps] e H; [easy|]. unfold raw_segs. cbn [flat_map]. destruct s as [n [| |]| | |[|]]; discriminate. Qed.
Lemma whole_parses : forall steps e ms, good_query steps e -> Forall plain_mod ms ->
  parse_path (query_text steps e ++ mods_text ms) = Ok (addm ms (query_segs steps e)).
Proof.
  intros steps e ms G M. pose proof (query_parsed _ _ G) as P. pose proof (query_no_bar _ _ G) as B. pose proof (gq_length _ _ G) as L.
  pose proof (raw_nonempty steps e (gq_some _ _ G)) as NE. rewrite <- (merge_addm ms steps e (gq_end _ _ G)). unfold query_text.
  assert (PE : query_parts steps e <> []) by (intros K; rewrite K in P; inversion P; auto).
  destruct (exists_last PE) as (init & p & EP). destruct (exists_last NE) as (ri & rl & ER). rewrite EP, ER in *.
  assert (FF : Forall2 parsed init ri /\ parsed p rl).
  { clear - P. apply Forall2_app_inv_l in P. destruct P as (l1 & l2 & P1 & P2 & EQ). inversion P2 as [|? y ? l' P3 P4]; subst. inversion P4; subst.
    apply app_inj_tail in EQ. destruct EQ as [-> ->]. auto. }
  destruct FF as [F1 F2]. rewrite path_text_last by now apply mods_plain. rewrite addm_last. apply parsed_path.
  - destruct init; discriminate.
  - rewrite app_length in L |- *. exact L.
  - apply Forall2_app; auto. constructor; auto. split.
    + apply parse_part_mods; [|eapply Forall_impl; [|exact M]; now intros m [K _]|apply F2]. apply Forall_app in B. destruct B as [_ B]. now inversion B.
    + destruct F2 as [_ F2]. intros K. apply app_eq_nil in K. destruct K. contradiction.
Qed.

Lemma whole_shape : forall steps e, good_query steps e -> whole steps e -> shape (query_segs steps e) /\ root_ok (query_segs steps e).
Proof.
  intros steps e [H1 H2 H3 H4 H5] (pre & s & -> & N & ND & TOP).
  assert (LAST : shape (qstep_segs s ++ qend_segs e)).
  { assert (ST : forall x, In x (qstep_segs s) -> s_mods x = []).
    { intros x K. destruct s as [n [| |]| | |[|]]; cbn [qstep_segs In] in K; repeat (destruct K as [<-|K]; [reflexivity|]); destruct K. }
    assert (E1 : forall x, narrow_seg x -> s_mods x = [] -> s_wild x = false -> shape (x :: qend_segs e)).
    { intros x Nx Mx Wx. destruct e; cbn [qend_segs]; try (apply sh_last; assumption); apply sh_step; auto; apply sh_last; reflexivity. }
    assert (E2 : forall w, wide_seg w -> s_mods w = [] -> s_wild w = false -> e <> ECount -> (forall f, e = EField f -> s_type w = SFilter) -> shape (w :: qend_segs e)).
    { intros w Ww Mw Vw NC NF. destruct e as [|x| | |f]; cbn [qend_segs].
      - now apply sh_last.
      - apply sh_pair; auto.
      - apply sh_pair; auto.
      - congruence.
      - apply sh_pair; auto. right. right. split; auto. now apply (NF f). }
    assert (NCT : forall n, s <> Child n Leading -> e <> ECount \/ exists n, s = Child n Leading).
    { intros n _. destruct e; try (left; discriminate). cbn [good_qend] in H4. destruct H4 as (a & n0 & Q). apply app_inj_tail in Q. right. exists n0. apply Q. }
    destruct s as [n [|ds|c []]| |c []|d]; cbn [qstep_segs app].
    - apply E1; auto. left; auto.
    - apply sh_step; [left; auto|reflexivity|]. apply E1; auto. right; left; auto.
    - apply sh_step; [left; auto|reflexivity|]. apply E2; auto. { left; auto. } destruct (NCT n) as [K|[m K]]; auto; discriminate.
    - apply sh_step; [left; auto|reflexivity|]. apply E1; auto. right; right; auto.
    - apply E2; auto. { right; auto. } { destruct (NCT []) as [K|[m K]]; auto; discriminate. }
      intros f ->. destruct H4 as [_ K]. destruct (K pre) as [K' _]. now contradiction K'.
    - apply E2; auto. { left; auto. } destruct (NCT []) as [K|[m K]]; auto; discriminate.
    - apply E1; auto. right; right; auto.
    - destruct (ND d eq_refl). }
  assert (EQ : query_segs (pre ++ [s]) e = flat_map qstep_segs pre ++ (qstep_segs s ++ qend_segs e)).
  { unfold query_segs. rewrite flat_map_app. cbn [flat_map]. rewrite app_nil_r. now rewrite app_assoc. }
  rewrite EQ. split.
  - clear - N LAST. induction N as [|x pre Hx N IH]; auto. cbn [flat_map]. rewrite <- app_assoc.
    destruct x as [n [|ds|c []]| |c []|d]; cbn [narrow] in Hx; try contradiction; cbn [qstep_segs app];
      repeat (apply sh_step; [unfold narrow_seg; cbn; auto|reflexivity|]); exact IH.
  - destruct pre as [|x pre].
    + destruct (TOP eq_refl) as [T1 T2]. cbn [flat_map app].
      destruct s as [n [|ds|c all]| |c all|d]; cbn [qstep_segs app].
      * destruct e; cbn [qend_segs root_ok]; auto; intros _; cbn; split; congruence.
      * destruct (T1 n ds eq_refl).
      * destruct e; cbn; auto; intros _; split; discriminate.
      * destruct e; cbn; auto; discriminate.
      * destruct e; cbn; auto; discriminate.
      * destruct (ND d eq_refl).
    + inversion N as [|? ? Nx N2]; subst. cbn [flat_map]. rewrite <- app_assoc.
      assert (HD : exists h t, flat_map qstep_segs pre ++ qstep_segs s ++ qend_segs e = h :: t /\ s_type h <> SIndex /\ s_type h <> SCount /\ s_type h <> SAttr /\ s_type h <> SText).
      { destruct pre as [|y pre].
        - cbn [flat_map app]. destruct s as [n [|ds|c all]| |c all|[d|]]; cbn [qstep_segs app]; eexists; eexists; (split; [reflexivity|repeat split; discriminate]).
        - cbn [flat_map]. rewrite <- app_assoc. destruct y as [n [|ds|c all]| |c all|[d|]]; cbn [qstep_segs app]; eexists; eexists; (split; [reflexivity|repeat split; discriminate]). }
      destruct HD as (h & t & -> & K1 & K2 & K3 & K4).
      destruct x as [n [|ds|c []]| |c []|d]; cbn [narrow] in Nx; try contradiction; cbn [qstep_segs app root_ok].
      * destruct t as [|t1 [|t2 t]]; auto; intros _ K; congruence.
      * destruct t as [|t1 t]; auto.
      * destruct t as [|t1 t]; auto; cbn; discriminate.
      * destruct t as [|t1 [|t2 t]]; auto; cbn; discriminate.
Qed.
Lemma get_whole : forall E xml steps e ms, (blen xml <= 10485760)%N -> good_query steps e -> whole steps e -> Forall plain_mod ms ->
  (forall r, workable r -> r_exists (apply_modifiers E r ms) = true) ->
  get E xml (query_text steps e ++ mods_text ms) = let* r := get E xml (query_text steps e) in Ok (if nothing r then r else apply_modifiers E r ms).
Proof.
  intros E xml steps e ms HL G W M K. pose proof (whole_parses _ _ _ G M) as P1. pose proof (query_parses _ _ G) as P2. destruct (whole_shape _ _ G W) as [S R].
  assert (NE : query_segs steps e <> []) by (intros Q; rewrite Q in S; inversion S).
  assert (NE' : addm ms (query_segs steps e) <> []) by (destruct (query_segs steps e) as [|a [|b l]]; [easy|discriminate|discriminate]).
  set (f := Datatypes.S (cost (query_segs steps e) + cost (addm ms (query_segs steps e)))).
  rewrite (get_exec E xml _ _ f HL P1 NE'); [|unfold f; lia]. rewrite (get_exec E xml _ _ f HL P2 NE); [|unfold f; lia].
  apply (exec_whole E ms K f [] true xml _ S (fun _ => R)).
Qed.
Lemma get_solid : forall E xml steps e r, (blen xml <= 10485760)%N -> good_query steps e -> whole steps e ->
  get E xml (query_text steps e) = Ok r -> nothing r = true \/ workable r.
Proof.
  intros E xml steps e r HL G W H. pose proof (query_parses _ _ G) as P2. destruct (whole_shape _ _ G W) as [S R].
  assert (NE : query_segs steps e <> []) by (intros Q; rewrite Q in S; inversion S).
  rewrite (get_exec E xml _ _ (Datatypes.S (cost (query_segs steps e))) HL P2 NE) in H by lia.
  assert (K : forall x, workable x -> r_exists (apply_modifiers E x []) = true).
  { intros x [[V _]|[V _]]; rewrite apply_nil; unfold r_exists; [destruct (r_type x); auto; contradiction|now rewrite V]. }
  destruct (exec_whole E [] K (Datatypes.S (cost (query_segs steps e))) [] true xml _ S (fun _ => R)) as [_ B].
  apply B in H. destruct H as [H|[[H1 H2]|H]]; auto; left; unfold nothing; [now rewrite H|now rewrite H1, H2].
Qed.
