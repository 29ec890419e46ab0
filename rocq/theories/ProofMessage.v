(** Proofs about the wording of validation errors. *)
From Coq Require Import List Ascii String NArith ZArith Bool Lia.
From Verif Require Import GoStr ModelParser ModelValidate ModelResult ModelMessage SpecText SpecPath SpecTree SpecValid SpecFault SpecContent SpecMessage
  ProofBase ProofValid ProofValid2 ProofValid3 ProofLang2 ProofFault ProofFault2 ProofFault3 ProofFault4.
Import ListNotations.

Ltac all_bytes c := destruct c as [b0 b1 b2 b3 b4 b5 b6 b7]; destruct b0, b1, b2, b3, b4, b5, b6, b7; vm_compute.
Lemma show_name_char : forall c, name_char c = true -> show_char c = [c].
Proof. intros c. all_bytes c; congruence. Qed.
Lemma first_bad : forall c, name_head c \/
  negb (is_lower c) && negb (is_upper c) && negb (Ascii.eqb c "_") && negb (Ascii.eqb c ":") = true.
Proof.
  intros c. destruct (name_start c) eqn:N; [left; now apply name_start_byte|].
  right. revert N. all_bytes c; congruence.
Qed.
Lemma is_digit_ok : forall c, is_digit c = true <-> digit c.
Proof. intros c. unfold digit, is_digit, in_range, code. rewrite andb_true_iff, !N.leb_le. tauto. Qed.
Lemma not_digit : forall c, ~ digit c -> is_digit c = false.
Proof. intros c H. destruct (is_digit c) eqn:Q; auto. exfalso. apply H. now apply is_digit_ok. Qed.
Lemma digit_bad : forall c, digit c -> is_digit c = true /\ ~ name_head c.
Proof.
  intros c H. apply is_digit_ok in H. split; auto. intros K. apply name_start_byte in K. revert H K. all_bytes c; congruence.
Qed.
Lemma misnamed_error : forall c n why, name_letter c -> misnamed (c :: n) why -> show_name_error (c :: n) = why.
Proof.
  intros c n why L M. inversion M as [c0 n0 D0|c0 n0 D0 H0]; subst; unfold show_name_error, name_error.
  - destruct (digit_bad c D0) as [D N]. destruct (first_bad c) as [K|K]; [contradiction|]. rewrite K, D. reflexivity.
  - destruct (first_bad c) as [K|K]; [contradiction|]. rewrite K, (not_digit c D0). apply name_stop, negb_false_iff in L. now rewrite (show_name_char c L).
Qed.
Lemma error_misnamed : forall c n, name_letter c -> ~ name_head c -> misnamed (c :: n) (show_name_error (c :: n)).
Proof.
  intros c n L N. unfold show_name_error, name_error. destruct (first_bad c) as [K|K]; [contradiction|]. rewrite K.
  destruct (is_digit c) eqn:D; [apply mn_digit; now apply is_digit_ok|].
  apply name_stop, negb_false_iff in L. rewrite (show_name_char c L). apply mn_other; auto. intros E. apply digit_bad in E. destruct E. congruence.
Qed.

(** What the messages of faults carry. *)
Definition fit_name (n : bytes) : Prop := exists c r, n = c :: r /\ name_letter c /\ ~ name_head c.
Definition fit (m : vmsg) : Prop :=
  match m with
  | VBadName n | VBadAttrName (Some n) => fit_name n
  | VEndOfDoc d => d = ">"%char \/ d = dquote \/ d = squote
  | _ => True
  end.
Lemma leading_fit : forall s n r, leading_name s n r -> avoids name_head n -> fit_name n.
Proof.
  intros s n r [_ [NE [A _]]] [->|[c [x [-> C]]]]; [congruence|]. exists c, x. inversion A; subst. auto.
Qed.
Lemma unended_fit : forall d s m r, unended d s m r -> d = ">"%char \/ d = dquote \/ d = squote -> fit m.
Proof. intros d s m r H D. inversion H; subst; cbn; auto. Qed.
Lemma attr_fit : forall k s m r, attr_fault k s m r -> fit m.
Proof.
  intros k s m r H. induction H; cbn; auto; [eapply leading_fit; eauto|]. eapply unended_fit; eauto.
Qed.
Lemma fault_fit : forall whole found open s m r, fault whole found open s m r -> fit m.
Proof.
  intros whole found open s m r H. induction H; cbn; auto.
  - inversion H; subst; cbn; auto; eapply unended_fit; eauto.
  - inversion H; subst; cbn; auto.
  - inversion H0; subst; cbn; auto; [eapply leading_fit; eauto|]. eapply attr_fit; eauto.
Qed.
Lemma first_fit : forall s m r, first_fault s m r -> fit m.
Proof. intros s m r H. inversion H; subst; cbn; auto. eapply fault_fit; eauto. Qed.

(** The elements named in messages are in the document. *)
Definition opened (whole s : bytes) (x : bytes * bytes) : Prop :=
  (exists p, whole = p ++ snd x) /\ exists q, snd x = "<"%char :: fst x ++ q ++ s.
Definition cites (whole : bytes) (m : vmsg) (r : bytes) : Prop :=
  match m with
  | VUnclosedTag n => exists q, r = "<"%char :: n ++ q
  | VNoOpen n => exists q, r = bs "</" ++ n ++ q
  | VMismatch n o t => o <> n /\ (exists q, r = bs "</" ++ n ++ q) /\ (exists p, whole = p ++ t) /\ exists q, t = "<"%char :: o ++ q ++ r
  | VBadName n | VBadAttrName (Some n) => exists q, r = n ++ q
  | _ => True
  end.
Lemma opened_less : forall whole a s x, opened whole (a ++ s) x -> opened whole s x.
Proof. intros whole a s x [A [q Q]]. split; auto. exists (q ++ a). now rewrite Q, <- app_assoc. Qed.
Lemma all_less : forall whole a s l, Forall (opened whole (a ++ s)) l -> Forall (opened whole s) l.
Proof. intros whole a s l. apply Forall_impl. intros x. apply opened_less. Qed.
Lemma suffix_less : forall (whole a s : bytes), (exists p, whole = p ++ a ++ s) -> exists p, whole = p ++ s.
Proof. intros whole a s [p ->]. exists (p ++ a). now rewrite <- app_assoc. Qed.
Lemma unended_cites : forall whole d s m r, unended d s m r -> cites whole m r.
Proof. intros whole d s m r H. inversion H; subst; exact I. Qed.
Lemma attr_cites : forall whole k s m r, attr_fault k s m r -> cites whole m r.
Proof.
  intros whole k s m r H. induction H; cbn; auto; [destruct H0 as [-> _]; eauto|]. eapply unended_cites; eauto.
Qed.
Lemma fault_cites : forall whole found open s m r, fault whole found open s m r ->
  Forall (opened whole s) open -> (exists p, whole = p ++ s) -> cites whole m r.
Proof.
  intros whole found open s m r H. induction H; intros O W; cbn; auto.
  - apply IHfault; [exact (all_less _ [c] _ _ O)|exact (suffix_less _ [c] _ W)].
  - apply IHfault; [exact (all_less _ [c] _ _ O)|exact (suffix_less _ [c] _ W)].
  - apply IHfault; [exact (all_less _ _ _ _ O)|exact (suffix_less _ _ _ W)].
  - assert (E : "<"%char :: n ++ a ++ ">"%char :: s = ("<"%char :: n ++ a ++ [">"%char]) ++ s) by (cbn [app]; now rewrite <- !app_assoc).
    pose proof W as W0. rewrite E in O, W0.
    apply IHfault; [constructor|exact (suffix_less _ _ _ W0)]; [|exact (all_less _ _ _ _ O)]. split; [exact W|]. cbn [fst snd]. exists (a ++ [">"%char]).
    now rewrite <- !app_assoc.
  - replace ("<"%char :: n ++ a ++ "/"%char :: ">"%char :: s) with (("<"%char :: n ++ a ++ bs "/>") ++ s) in O, W by (cbn [app]; now rewrite <- !app_assoc).
    apply IHfault; [exact (all_less _ _ _ _ O)|exact (suffix_less _ _ _ W)].
  - replace ("<"%char :: "/"%char :: n ++ w ++ ">"%char :: s) with (("<"%char :: "/"%char :: n ++ w ++ [">"%char]) ++ s) in O, W by (cbn [app]; now rewrite <- !app_assoc).
    inversion O; subst. apply IHfault; [exact (all_less _ _ _ _ H4)|exact (suffix_less _ _ _ W)].
  - inversion O; subst. destruct H1 as [_ [q Q]]. cbn [fst snd] in Q. exists (q ++ []). exact Q.
  - inversion H; subst; cbn; auto; eapply unended_cites; eauto.
  - inversion H; subst; cbn; auto.
    + destruct H0 as [-> _]. eauto.
    + inversion O; subst. destruct H5 as [P [q Q]]. cbn [fst snd] in *. split; auto. split; [destruct H0 as [-> _]; eauto|]. split; auto. exists q. exact Q.
  - inversion H0; subst; cbn; auto; [destruct H1 as [-> _]; eauto|]. eapply attr_cites; eauto.
Qed.
Lemma first_cites : forall s m r, first_fault s m r -> cites s m r.
Proof. intros s m r H. inversion H; subst; cbn; auto. eapply fault_cites; eauto. now exists []. Qed.

Lemma place_line_col : forall whole r line col, place whole r line col <-> (exists p, whole = p ++ r) /\ line_col whole r = (line, col).
Proof.
  intros whole r line col. split.
  - intros [p [-> [L1 L2]]]. split; [eauto|]. rewrite line_col_prefix. destruct (line_col_spec p) as [K1 K2].
    destruct (fold_left advance_lc p (1, 0)) as [l c]. cbn [fst snd] in *. f_equal; [lia|]. eapply last_line_fun; eauto.
  - intros [[p ->] H]. rewrite line_col_prefix in H. destruct (line_col_spec p) as [K1 K2]. rewrite H in K1, K2. exists p. auto.
Qed.
Lemma dec_itoa : forall n, itoa n = dec n. Proof. exact itoa_decimal. Qed.
Lemma show_delim : forall d, d = ">"%char \/ d = dquote \/ d = squote -> show_char d = [d].
Proof. intros d [->|[->| ->]]; reflexivity. Qed.
Lemma message_worded : forall s m r, first_fault s m r -> forall t, message s m = t <-> worded s m t.
Proof.
  intros s m r F t. pose proof (first_fit _ _ _ F) as I. pose proof (first_cites _ _ _ F) as C. split.
  - intros <-. destruct m; cbn [message]; try constructor; cbn [fit] in I.
    + destruct I as [c [x [-> [L N]]]]. now apply error_misnamed.
    + destruct C as [_ [_ [P _]]]. destruct (line_col s opened_at) as [l c] eqn:Q. rewrite !dec_itoa. apply wo_mismatch. apply place_line_col. auto.
    + destruct name as [n|]; constructor. destruct I as [c [x [-> [L N]]]]. now apply error_misnamed.
    + rewrite (show_delim _ I). constructor.
  - intros W. inversion W; subst; cbn [message]; try reflexivity; cbn [fit] in I.
    + destruct I as [c [x [-> [L N]]]]. now rewrite (misnamed_error _ _ _ L H).
    + apply place_line_col in H. destruct H as [_ ->]. now rewrite !dec_itoa.
    + destruct I as [c [x [-> [L N]]]]. now rewrite (misnamed_error _ _ _ L H).
    + now rewrite (show_delim _ I).
Qed.
Lemma report_worded : forall xml line col t, validate_report xml = Some (line, col, t) <->
  exists m r, first_fault xml m r /\ place xml r line col /\ worded xml m t.
Proof.
  intros xml line col t. unfold validate_report. split.
  - destruct (validate_with_error xml) as [[[l c] m]|] eqn:V; [|discriminate]. intros H. injection H as <- <- <-.
    apply with_error_fault in V. destruct V as [p [r [E [F [L1 L2]]]]]. exists m, r. split; [exact F|]. split; [exists p; auto|]. eapply message_worded; eauto.
  - intros [m [r [F [[p [E [L1 L2]]] W]]]]. assert (V : validate_with_error xml = Some (line, col, m)) by (apply with_error_fault; exists p, r; auto).
    rewrite V. f_equal. f_equal. eapply message_worded; eauto.
Qed.
Lemma text_worded : forall xml e, validate_error_text xml = Some e <->
  exists m r line col t, first_fault xml m r /\ place xml r line col /\ worded xml m t /\ e = error_sentence line col t.
Proof.
  intros xml e. unfold validate_error_text. split.
  - destruct (validate_report xml) as [[[l c] t]|] eqn:V; [|discriminate]. intros H. injection H as <-. rewrite !dec_itoa.
    apply report_worded in V. destruct V as [m [r [F [P W]]]]. exists m, r, l, c, t. auto.
  - intros [m [r [l [c [t [F [P [W ->]]]]]]]]. assert (V : validate_report xml = Some (l, c, t)) by (apply report_worded; exists m, r; auto).
    rewrite V, !dec_itoa. reflexivity.
Qed.
Lemma no_report : forall xml, validate_report xml = None <-> valid xml = true.
Proof.
  intros xml. unfold validate_report, validate_with_error, valid. destruct (validate xml) as [[e|]|] eqn:V.
  - destruct (line_col xml (ve_at e)). split; discriminate.
  - split; auto.
  - destruct (validate_total xml) as [x Q]. congruence.
Qed.
Lemma silent_accepted : forall xml, validate_report xml = None <-> accepted_document xml.
Proof. intros xml. rewrite no_report. apply valid_accepted. Qed.
Lemma cited_names : forall xml m r, first_fault xml m r -> (exists p, xml = p ++ r) /\
  match m with
  | VUnclosedTag n => exists q, r = "<"%char :: n ++ q
  | VNoOpen n => exists q, r = bs "</" ++ n ++ q
  | VBadName n | VBadAttrName (Some n) => exists q, r = n ++ q
  | _ => True
  end.
Proof.
  intros xml m r F. split; [eapply first_fault_suffix; eauto|]. pose proof (first_cites _ _ _ F) as C. destruct m; auto.
Qed.
Lemma line_col_last : forall p r, exists line col, line_col (p ++ r) r = (line, col) /\ line = 1 + newlines p /\ last_line p col.
Proof.
  intros p r. rewrite line_col_prefix. destruct (line_col_spec p) as [K1 K2]. destruct (fold_left advance_lc p (1, 0)) as [l c]. exists l, c. auto.
Qed.
Lemma written_mismatch : forall p F L n a K m w s, strict_prolog p -> Forall good F -> Forall top_node F -> shallow F -> writable 0 (L ++ [(n, a, K)]) ->
  xml_name m -> blanks w -> n <> m ->
  let outer := p ++ forest_text F ++ levels_text L in
  let before := outer ++ start_tag n a false ++ forest_text K in
  let xml := before ++ bs "</" ++ m ++ w ++ bs ">" ++ s in
  (N.of_nat (List.length xml) <= 10485760)%N -> exists col col',
  validate_report xml = Some (1 + newlines before, col, bs "mismatched closing tag '" ++ m ++ bs "' (expected '" ++ n ++
    bs "' opened at line " ++ dec (1 + newlines outer) ++ bs ", column " ++ dec col' ++ bs ")") /\
  last_line before col /\ last_line outer col'.
Proof.
  intros p F L n a K m w s P G T S W M B D outer before xml SZ.
  assert (EB : before = p ++ forest_text F ++ levels_text L ++ start_tag n a false ++ forest_text K) by (unfold before, outer; now rewrite <- !app_assoc).
  unfold xml in *. destruct (mismatch_report p F L n a K m w s P G T S W M B D) as [line [col [V [L1 L2]]]]; [rewrite EB in SZ; exact SZ|].
  rewrite <- EB in V, L1, L2. unfold validate_report. rewrite V. cbn [message].
  destruct (line_col_last outer (start_tag n a false ++ forest_text K ++ bs "</" ++ m ++ w ++ bs ">" ++ s)) as [l [c [Q [Q1 Q2]]]].
  replace (before ++ bs "</" ++ m ++ w ++ bs ">" ++ s) with (outer ++ start_tag n a false ++ forest_text K ++ bs "</" ++ m ++ w ++ bs ">" ++ s)
    by (unfold before; now rewrite <- !app_assoc). rewrite Q. exists col, c. rewrite !dec_itoa, L1, Q1. auto.
Qed.
