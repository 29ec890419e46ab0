(** The reports of the validator: tags and documents. *)
From Coq Require Import List Ascii String NArith ZArith Bool Lia.
From Verif Require Import GoStr ModelParser ModelValidate SpecText SpecPath SpecTree SpecQuery SpecValid SpecFault
  ProofBase ProofScan ProofTree ProofTree2 ProofTree3 ProofEdit ProofValid ProofValid2 ProofValid3 ProofFault.
Import ListNotations.

Lemma blank_dec : forall c, blank c \/ ~ blank c.
Proof. intros c. destruct (is_ws c) eqn:Q; [left; now apply ws_blank|right; intros B; apply ws_blank in B; congruence]. Qed.
Lemma skip_blanks : forall w s, blanks w -> avoids blank s -> skip_ws (w ++ s) = s.
Proof. intros w s W [->|[c [r [-> N]]]]; rewrite skip_ws_app by auto; [reflexivity|now apply skip_ws_none]. Qed.
Lemma skip_avoids : forall s, avoids blank (skip_ws s).
Proof.
  induction s as [|c s IH]; [now left|]. cbn [skip_ws]. destruct (is_ws c) eqn:Q; auto. right. exists c, s. split; auto. intros B. apply ws_blank in B. congruence.
Qed.
Lemma avoids_weak : forall (P Q : ascii -> Prop) s, (forall c, Q c -> P c) -> avoids P s -> avoids Q s.
Proof. intros P Q s H [->|[c [r [-> N]]]]; [now left|]. right. exists c, r. auto. Qed.
Lemma name_avoids_blank : forall (n r : bytes), n <> [] -> Forall name_letter n -> avoids blank (n ++ r).
Proof.
  intros [|c n] r NE A; [contradiction|]. right. exists c, (n ++ r). split; auto. inversion A; subst. intros B. now apply (name_byte_blank c B).
Qed.
Lemma leading_start : forall s n r, leading_name s n r -> exists c s', s = c :: s' /\ name_byte c.
Proof. intros s n r [-> [NE [A _]]]. destruct n as [|c n]; [contradiction|]. inversion A; subst. exists c, (n ++ r). auto. Qed.
Lemma peek_avoids : forall d s, d <> nul -> avoids (fun c => c = d) s -> Ascii.eqb (peek s) d = false.
Proof. intros d s N [->|[c [r [-> K]]]]; cbn [peek]; apply ascii_eqb_false; auto. Qed.
Lemma avoids_peek : forall d s, Ascii.eqb (peek s) d = false -> avoids (fun c => c = d) s.
Proof. intros d [|c r] H; [now left|]. right. exists c, r. split; auto. cbn [peek] in H. now apply ascii_eqb_false. Qed.
Lemma avoids_or : forall (P Q : ascii -> Prop) s, avoids P s -> avoids Q s -> avoids (fun c => P c \/ Q c) s.
Proof. intros P Q s [->|[c [r [-> H]]]] [K|[d [x [E K]]]]; try (now left); try discriminate. injection E as <- <-. right. exists c, r. tauto. Qed.

(** ** Attributes *)
Lemma attr_fault_sound : forall n s0 e, v_attributes n s0 = inl e -> attr_fault n s0 (ve_msg e) (ve_at e).
Proof.
  assert (ST : forall s1, avoids blank s1 -> forall c r, s1 = c :: r -> Ascii.eqb c ">" || Ascii.eqb c "/" = false -> starts (fun c => ~ blank c /\ ~ In c (bs ">/")) s1).
  { intros s1 B c r -> Q. exists c, r. split; auto. split; [destruct B as [B|[d [x [E B]]]]; [discriminate|now injection E as <- <-]|].
    intros [<-|[<-|[]]]; discriminate. }
  induction n as [|n IH]; intros s0 e H; cbn [v_attributes] in H; destruct (skip_ws_split s0) as [w [E0 W]]; pose proof (skip_avoids s0) as B; remember (skip_ws s0) as s1; clear Heqs1; subst s0;
    destruct s1 as [|c r]; try (injection H as <-; cbn [ve_msg ve_at]; rewrite app_nil_r; now constructor); destruct (Ascii.eqb c ">" || Ascii.eqb c "/") eqn:Q; try discriminate; specialize (ST _ B c r eq_refl Q).
  - injection H as <-. now apply af_many.
  - destruct (v_read_name (c :: r)) as [name s1] eqn:R. apply read_cases in R. destruct name as [|n0 name].
    { injection H as <-. apply af_nameless; auto. destruct R as [R|[[_ [_ R]]|[_ R]]]; [now destruct R as [_ [R _]]|now left|right; eauto]. }
    destruct R as [R|[[R _]|[R _]]]; try discriminate. remember (n0 :: name) as m. clear Heqm n0 name.
    destruct (head_cases m) as [HC|HC].
    2:{ destruct (validate_name m) eqn:V; [apply (validate_head _ _ _ R) in V; now apply starts_not in V|]. injection H as <-. eapply af_name; eauto. }
    rewrite (proj2 (validate_head _ _ _ R) HC) in H. cbn [negb] in H. remember (c :: r) as s. clear Heqs.
    destruct (skip_ws_split s1) as [w2 [E2 W2]]. pose proof (skip_avoids s1) as B2. remember (skip_ws s1) as s2. clear Heqs2. subst s1.
    destruct (Ascii.eqb (peek s2) "=") eqn:P; cbn [negb] in H.
    2:{ injection H as <-. cbn [ve_msg ve_at]. eapply af_equals; eauto. apply avoids_or; auto. now apply avoids_peek. }
    apply Ascii.eqb_eq in P. destruct (peek_head _ _ P ltac:(discriminate)) as [r2 [-> E3]]. rewrite E3 in H. clear E3 P.
    destruct (skip_ws_split r2) as [w3 [E3 W3]]. pose proof (skip_avoids r2) as B3. remember (skip_ws r2) as s3. clear Heqs3. subst r2.
    destruct (negb (Ascii.eqb (peek s3) dquote) && negb (Ascii.eqb (peek s3) squote)) eqn:QQ.
    { injection H as <-. apply andb_true_iff in QQ. rewrite !negb_true_iff in QQ. destruct QQ as [Q1 Q2]. cbn [ve_msg ve_at]. eapply af_quote; eauto.
      apply avoids_or; auto. apply avoids_or; now apply avoids_peek. }
    apply andb_false_iff in QQ. rewrite !negb_false_iff, !Ascii.eqb_eq in QQ.
    destruct (peek_head s3 (peek s3) eq_refl) as [r3 [E4 E5]]; [destruct QQ as [->| ->]; discriminate|]. rewrite E5 in H. rewrite E4 in R.
    destruct (v_skip_until (peek s3) r3) as [e'|s4] eqn:SU.
    + injection H as <-. apply skip_until_fault in SU. eapply af_value; eauto.
    + apply v_skip_until_spec in SU. destruct SU as [v [-> [V1 V2]]].
      assert (X : xml_name m) by (eapply leading_xml; eauto; destruct w2; discriminate).
      destruct R as [-> _]. apply af_next; auto.
Qed.
Lemma attr_name_run : forall k w s n r, blanks w -> leading_name s n r -> v_attributes (S k) (w ++ s) =
  if negb (validate_name n) then inl (mkVerr (VBadAttrName (Some n)) s)
                else
                  let s2 := skip_ws r in
                  if negb (Ascii.eqb (peek s2) "=") then inl (mkVerr VExpectEq s2)
                  else
                    let s3 := skip_ws (next s2) in
                    let q := peek s3 in
                    if negb (Ascii.eqb q dquote) && negb (Ascii.eqb q squote)
                    then inl (mkVerr VUnquoted s3)
                    else
                      match v_skip_until q (next s3) with
                      | inl e => inl e
                      | inr s4 => v_attributes k s4
                      end.
Proof.
  intros k w s n r W L. destruct (leading_start _ _ _ L) as [c [s' [E N]]]. pose proof (read_leading _ _ _ L) as R. destruct L as [Es [NE [A _]]].
  cbn [v_attributes]. rewrite skip_blanks by (auto; rewrite Es; now apply name_avoids_blank). rewrite R. rewrite E.
  rewrite (name_eqb c ">" N), (name_eqb c "/" N) by inlist. cbn [orb]. destruct n; [contradiction|]. reflexivity.
Qed.
Lemma starts_avoids : forall (P Q : ascii -> Prop) s, (forall c, Q c -> ~ P c) -> starts Q s -> avoids P s.
Proof. intros P Q s H [c [r [-> K]]]. right. exists c, r. split; auto. Qed.
Lemma attr_fault_complete : forall k s m r, attr_fault k s m r -> v_attributes k s = inl (mkVerr m r).
Proof.
  assert (ST : forall s, starts (fun c => ~ blank c /\ ~ In c (bs ">/")) s -> avoids blank s /\ exists c r, s = c :: r /\ Ascii.eqb c ">" || Ascii.eqb c "/" = false).
  { intros s [c [r [-> [H1 H2]]]]. split; [right; exists c, r; auto|]. exists c, r. split; auto. apply orb_false_iff. split; apply ascii_eqb_false; intros ->; apply H2; cbn; auto. }
  induction 1 as [k w W|w s W SS|k w s W SS N|k w s n r W L H|k w s n w2 r W L H W2 A|k w s n w2 w3 r W L H W2 W3 A|k w s n w2 w3 q v m r W L H W2 W3 Q U|k w1 n w2 w3 q v s m r W1 N W2 W3 Q V1 V2 A IH].
  - destruct k; cbn [v_attributes]; rewrite <- (app_nil_r w), skip_blanks by (auto; now left); reflexivity.
  - destruct (ST s SS) as [B [c [r [-> E]]]]. cbn [v_attributes]. rewrite skip_blanks by auto. now rewrite E.
  - destruct (ST s SS) as [B [c [r [-> E]]]]. cbn [v_attributes]. rewrite skip_blanks by auto. rewrite E.
    destruct N as [N|[x N]]; [rewrite (read_avoids _ N)|rewrite (read_overlong _ _ N)]; reflexivity.
  - rewrite (attr_name_run k w s n r W L). destruct (validate_name n) eqn:V; [|reflexivity]. apply (validate_head _ _ _ L) in V. now apply starts_not in V.
  - rewrite (attr_name_run k w s n _ W L), (proj2 (validate_head _ _ _ L) H). cbn [negb]. cbv zeta.
    assert (AB : avoids blank r) by (eapply avoids_weak; [|exact A]; cbn; tauto). rewrite skip_blanks by auto. rewrite (peek_avoids "="); [reflexivity|discriminate|].
    eapply avoids_weak; [|exact A]; cbn; auto.
  - rewrite (attr_name_run k w s n _ W L), (proj2 (validate_head _ _ _ L) H). cbn [negb]. cbv zeta.
    rewrite skip_blanks by (auto; right; exists "="%char, (w3 ++ r); split; auto; intros B; apply (blank_eq _ "=" B); cbn; auto). cbn [peek next].
    change (negb (Ascii.eqb "=" "=")) with false. cbn iota. assert (AB : avoids blank r) by (eapply avoids_weak; [|exact A]; cbn; tauto). rewrite skip_blanks by auto.
    rewrite (peek_avoids dquote), (peek_avoids squote); [reflexivity|discriminate| |discriminate|]; eapply avoids_weak; try exact A; cbn; auto.
  - rewrite (attr_name_run k w s n _ W L), (proj2 (validate_head _ _ _ L) H). cbn [negb]. cbv zeta.
    rewrite skip_blanks by (auto; right; exists "="%char, (w3 ++ q :: v); split; auto; intros B; apply (blank_eq _ "=" B); cbn; auto). cbn [peek next].
    change (negb (Ascii.eqb "=" "=")) with false. cbn iota.
    rewrite skip_blanks by (auto; right; exists q, v; split; auto; intros B; apply (blank_eq _ q B); auto). cbn [peek next].
    assert (QQ : negb (Ascii.eqb q dquote) && negb (Ascii.eqb q squote) = false) by (destruct Q; subst; reflexivity). rewrite QQ.
    apply (skip_until_fault q v (mkVerr m r)) in U. now rewrite U.
  - assert (L : leading_name (n ++ w2 ++ "="%char :: w3 ++ q :: v ++ q :: s) n (w2 ++ "="%char :: w3 ++ q :: v ++ q :: s)).
    { apply xml_leading; auto. destruct (attr_name_end w2 "=" (w3 ++ q :: v ++ q :: s) W2) as [d [x [E1 E2]]]; [apply not_name; cbn; tauto|]. rewrite E1. right. exists d, x. auto. }
    rewrite (attr_name_run k w1 _ n _ W1 L), (proj2 (validate_head _ _ _ L) (xml_starts n N)). cbn [negb]. cbv zeta.
    rewrite skip_blanks by (auto; right; exists "="%char, (w3 ++ q :: v ++ q :: s); split; auto; intros B; apply (blank_eq _ "=" B); cbn; auto). cbn [peek next].
    change (negb (Ascii.eqb "=" "=")) with false. cbn iota.
    rewrite skip_blanks by (auto; right; exists q, (v ++ q :: s); split; auto; intros B; apply (blank_eq _ q B); auto). cbn [peek next].
    assert (QQ : negb (Ascii.eqb q dquote) && negb (Ascii.eqb q squote) = false) by (destruct Q; subst; reflexivity). rewrite QQ.
    rewrite (proj2 (v_skip_until_spec q (v ++ q :: s) s)) by eauto. exact IH.
Qed.

(** ** Tags *)
Lemma open_fault : forall st s e, v_open st ("<"%char :: s) s = inl e <-> start_fault (len (v_stack st)) s (ve_msg e) (ve_at e).
Proof.
  intros st s e. split.
  - intros H. unfold v_open in H. rewrite max_depth, max_attrs in H. destruct (v_read_name s) as [name s1] eqn:R. apply read_cases in R. destruct name as [|n0 name].
    { injection H as <-. cbn [ve_msg ve_at]. destruct R as [[_ [R _]]|[[_ [-> R]]|[_ R]]]; [contradiction| |].
      - rewrite Nat.ltb_irrefl. now apply sf_empty.
      - assert (L : len s1 < len s) by (destruct R as [v [-> [_ [L _]]]]; rewrite app_length; lia). apply Nat.ltb_lt in L. rewrite L. eapply sf_long; eauto. }
    destruct R as [R|[[R _]|[R _]]]; try discriminate. remember (n0 :: name) as m. clear Heqm n0 name.
    destruct (head_cases m) as [HC|HC].
    2:{ destruct (validate_name m) eqn:V; [apply (validate_head _ _ _ R) in V; now apply starts_not in V|]. injection H as <-. eapply sf_name; eauto. }
    rewrite (proj2 (validate_head _ _ _ R) HC) in H. cbn [negb] in H. destruct (Nat.leb 100 (len (v_stack st))) eqn:D.
    { injection H as <-. apply Nat.leb_le in D. eapply sf_depth; eauto. }
    apply Nat.leb_gt in D. destruct (v_attributes 100 s1) as [e'|s2] eqn:A.
    { injection H as <-. apply attr_fault_sound in A. eapply sf_attr; eauto. }
    destruct (v_attributes_sound _ _ _ A) as [k [a [K [At [-> T]]]]]. rewrite (stop_not_blank s2 T) in H.
    destruct T as [c [r [-> Tc]]]. cbn [peek next] in H. destruct Tc as [->| ->].
    + change (Ascii.eqb ">" "/") with false in H. cbn iota in H. cbn [peek] in H. change (negb (Ascii.eqb ">" ">")) with false in H. discriminate.
    + change (Ascii.eqb "/" "/") with true in H. cbn iota in H. destruct (Ascii.eqb (peek r) ">") eqn:P; [discriminate|]. cbn [negb] in H. injection H as <-.
      apply avoids_peek in P. cbn [ve_msg ve_at]. eapply sf_slash; eauto.
  - destruct e as [m r]. cbn [ve_msg ve_at]. intros H. unfold v_open. rewrite max_depth, max_attrs.
    inversion H as [A|x O|n x L N|n x L N D|n a m' x L N D A|n k a x L N D K A G]; subst.
    + rewrite (read_avoids _ A). now rewrite Nat.ltb_irrefl.
    + rewrite (read_overlong _ _ O). assert (L : len x < len r) by (destruct O as [v [-> [_ [L _]]]]; rewrite app_length; lia). apply Nat.ltb_lt in L. now rewrite L.
    + rewrite (read_leading _ _ _ L). destruct (validate_name n) eqn:V; [apply (validate_head _ _ _ L) in V; now apply starts_not in V|]. destruct n; [|reflexivity].
      now destruct L as [_ [L _]].
    + rewrite (read_leading _ _ _ L), (proj2 (validate_head _ _ _ L) N). apply Nat.leb_le in D. rewrite D. destruct n; [|reflexivity]. now destruct L as [_ [L _]].
    + rewrite (read_leading _ _ _ L), (proj2 (validate_head _ _ _ L) N). apply Nat.leb_gt in D. rewrite D, (attr_fault_complete _ _ _ _ A). destruct n; [|reflexivity]. now destruct L as [_ [L _]].
    + rewrite (read_leading _ _ _ L), (proj2 (validate_head _ _ _ L) N). apply Nat.leb_gt in D. rewrite D.
      assert (T : tag_stop ("/"%char :: r)) by (exists "/"%char, r; auto). rewrite (v_attributes_complete k a A 100 _ K T), (stop_not_blank _ T). cbn [peek next].
      change (Ascii.eqb "/" "/") with true. cbn iota. rewrite (peek_avoids ">"); [|discriminate|exact G]. destruct n; [|reflexivity]. now destruct L as [_ [L _]].
Qed.
Lemma close_fault : forall st s e, v_close st (bs "</" ++ s) s = inl e <-> end_fault (v_stack st) s (ve_msg e) (ve_at e).
Proof.
  intros st s e. split.
  - intros H. unfold v_close in H. destruct (v_read_name s) as [name s1] eqn:R. apply read_cases in R. destruct name as [|n0 name].
    { injection H as <-. apply ef_name. destruct R as [[_ [R _]]|[[_ [-> R]]|[_ R]]]; [contradiction|now left|right; eauto]. }
    destruct R as [R|[[R _]|[R _]]]; try discriminate. remember (n0 :: name) as m. clear Heqm n0 name.
    destruct (skip_ws_split s1) as [w [E W]]. pose proof (skip_avoids s1) as B. remember (skip_ws s1) as s2. clear Heqs2. subst s1.
    destruct (Ascii.eqb (peek s2) ">") eqn:P; cbn [negb] in H.
    2:{ injection H as <-. cbn [ve_msg ve_at]. eapply ef_more; eauto. apply avoids_or; auto. now apply avoids_peek. }
    apply Ascii.eqb_eq in P. destruct (peek_head _ _ P ltac:(discriminate)) as [r2 [-> E3]].
    destruct (v_stack st) as [|[o t0] stack'] eqn:ST; [injection H as <-; eapply ef_open; eauto|]. destruct (bytes_eqb o m) eqn:Q; [discriminate|]. cbn [negb] in H.
    injection H as <-. cbn [ve_msg ve_at]. eapply ef_other; eauto. intros ->. rewrite bytes_eqb_refl in Q. discriminate.
  - destruct e as [m r]. cbn [ve_msg ve_at]. intros H. unfold v_close.
    assert (NE : forall n x, leading_name s n x -> exists c n', n = c :: n') by (intros [|c n'] x [_ [L _]]; [contradiction|eauto]).
    inversion H as [N|n w x L W A|n w x L W A|n w x o t op L W A D]; subst.
    + destruct N as [N|[x N]]; [rewrite (read_avoids _ N)|rewrite (read_overlong _ _ N)]; reflexivity.
    + rewrite (read_leading _ _ _ L). destruct (NE _ _ L) as [c [n' ->]]. assert (AB : avoids blank r) by (eapply avoids_weak; [|exact A]; cbn; tauto).
      rewrite skip_blanks by auto. rewrite (peek_avoids ">"); [reflexivity|discriminate|]. eapply avoids_weak; [|exact A]; cbn; auto.
    + rewrite (read_leading _ _ _ L). destruct (NE _ _ L) as [c [n' ->]].
      rewrite skip_blanks by (auto; right; exists ">"%char, x; split; auto; intros B; apply (blank_eq _ ">" B); cbn; auto). cbn [peek].
      change (negb (Ascii.eqb ">" ">")) with false. cbn iota. now rewrite A.
    + rewrite (read_leading _ _ _ L). destruct (NE _ _ L) as [c [n' ->]].
      rewrite skip_blanks by (auto; right; exists ">"%char, x; split; auto; intros B; apply (blank_eq _ ">" B); cbn; auto). cbn [peek].
      change (negb (Ascii.eqb ">" ">")) with false. cbn iota. rewrite A. destruct (bytes_eqb o (c :: n')) eqn:Q; [apply bytes_eqb_eq in Q; contradiction|reflexivity].
Qed.
(** What the report of one piece of markup says. *)
Definition tag_fault (open : list (bytes * bytes)) (s : bytes) (m : vmsg) (r : bytes) : Prop :=
  (s = ["<"%char] /\ m = VEndInTag /\ r = ["<"%char]) \/ aside_fault s m r \/
  (exists x, s = bs "</" ++ x /\ end_fault open x m r) \/
  (exists x, s = "<"%char :: x /\ starts (fun c => ~ In c (bs "?!/")) x /\ start_fault (len open) x m r).
Lemma with_rest_error : forall st r e, v_with_rest st r = inl e <-> r = inl e.
Proof. intros st [e'|s] e; cbn [v_with_rest]; split; intros H; try discriminate; congruence. Qed.
Lemma v_tag_fault_sound : forall st s e, v_tag st ("<"%char :: s) s = inl e -> tag_fault (v_stack st) ("<"%char :: s) (ve_msg e) (ve_at e).
Proof.
  intros st s e H. unfold v_tag in H. destruct s as [|n s1]; [injection H as <-; left; auto|]. right.
  destruct (Ascii.eqb_spec n "?") as [->|N1].
  { apply with_rest_error, skip_until_fault in H. left. change ("<"%char :: "?"%char :: s1) with (bs "<?" ++ s1). now constructor. }
  destruct (Ascii.eqb_spec n "!") as [->|N2].
  { left. destruct (has_prefix (bs "DOCTYPE") s1 || has_prefix (bs "doctype") s1) eqn:D.
    { assert (X : exists w y, s1 = w ++ y /\ (w = bs "DOCTYPE" \/ w = bs "doctype")).
      { apply orb_true_iff in D. rewrite !has_prefix_spec in D. destruct D as [[y ->]|[y ->]]; eauto. }
      destruct X as [w [y [-> Hw]]]. rewrite doctype_word in H by auto. apply with_rest_error, doctype_fault in H. destruct H as [-> H].
      exact (xf_doctype w y Hw H). }
    destruct (strip_prefix (bs "--") s1) as [s2|] eqn:P1.
    { apply strip_prefix_spec in P1. subst s1. apply with_rest_error, comment_fault_sound in H. destruct H as [[E [c [-> [C SS]]]]|[E [C L]]]; rewrite E.
      - exact (xf_hyphens c _ C SS).
      - exact (xf_comment s2 _ C L). }
    destruct (strip_prefix (bs "[CDATA[") s1) as [s2|] eqn:P2.
    { apply strip_prefix_spec in P2. subst s1. apply with_rest_error, cdata_fault_sound in H. destruct H as [E [C L]]. rewrite E. exact (xf_cdata s2 _ C L). }
    apply with_rest_error, skip_until_fault in H. change ("<"%char :: "!"%char :: s1) with (bs "<!" ++ s1). apply xf_other; auto.
    intros w x Hw ->. apply orb_false_iff in D. destruct D as [D1 D2]. cbn [In] in Hw. destruct Hw as [<-|[<-|[<-|[<-|[]]]]].
    - rewrite (proj2 (has_prefix_spec _ _)) in D1; [discriminate|]. eauto.
    - rewrite (proj2 (has_prefix_spec _ _)) in D2; [discriminate|]. eauto.
    - rewrite strip_prefix_none in P1. exact (P1 _ eq_refl).
    - rewrite strip_prefix_none in P2. exact (P2 _ eq_refl). }
  destruct (Ascii.eqb_spec n "/") as [->|N3].
  - right. left. exists s1. split; [reflexivity|]. now apply close_fault.
  - right. right. exists (n :: s1). split; [reflexivity|]. split; [|now apply open_fault]. exists n, s1. split; auto. cbn. intuition congruence.
Qed.
Lemma v_tag_fault_complete : forall st s m r, tag_fault (v_stack st) s m r -> exists x, s = "<"%char :: x /\ v_tag st s x = inl (mkVerr m r).
Proof.
  intros st s m r [[-> [-> ->]]|[H|[[x [-> H]]|[x [-> [SS H]]]]]].
  - exists []. auto.
  - destruct H as [s m r U|c s C SS|s r C L|s r C L|w s Hw C|s m r U C].
    + exists ("?"%char :: s). split; [reflexivity|]. cbn [app v_tag]. change (Ascii.eqb "?" "?") with true. cbn iota. apply with_rest_error. now apply (skip_until_fault ">" s (mkVerr m r)).
    + exists (bs "!--" ++ c ++ bs "--" ++ s). split; [reflexivity|].
      assert (K : v_comment (c ++ bs "--" ++ s) = inl (mkVerr VDashDash s)) by now apply comment_hyphens.
      unfold v_tag. cbn [app bs list_ascii_of_string]. change (Ascii.eqb "!" "?") with false. change (Ascii.eqb "!" "!") with true. cbn iota.
      rewrite !no_prefix by (intros r K2; discriminate). cbn [orb]. match goal with |- context [strip_prefix _ ("-"%char :: "-"%char :: ?x)] => change ("-"%char :: "-"%char :: x) with (bs "--" ++ x) end.
      change ["-"%char; "-"%char] with (bs "--"). rewrite strip_prefix_app. apply with_rest_error. exact K.
    + exists (bs "!--" ++ s). split; [reflexivity|].
      assert (K : v_comment s = inl (mkVerr VUnclosedComment r)) by (apply comment_fault_complete; right; auto).
      unfold v_tag. cbn [app bs list_ascii_of_string]. change (Ascii.eqb "!" "?") with false. change (Ascii.eqb "!" "!") with true. cbn iota.
      rewrite !no_prefix by (intros r0 K2; discriminate). cbn [orb]. match goal with |- context [strip_prefix _ ("-"%char :: "-"%char :: ?x)] => change ("-"%char :: "-"%char :: x) with (bs "--" ++ x) end.
      change ["-"%char; "-"%char] with (bs "--"). rewrite strip_prefix_app. apply with_rest_error. exact K.
    + exists (bs "![CDATA[" ++ s). split; [reflexivity|].
      assert (K : v_cdata s = inl (mkVerr VUnclosedCDATA r)) by now apply cdata_fault_complete.
      unfold v_tag. change (bs "![CDATA[" ++ s) with ("!"%char :: bs "[CDATA[" ++ s). cbn iota. change (Ascii.eqb "!" "?") with false. change (Ascii.eqb "!" "!") with true. cbn iota.
      rewrite !no_prefix by (intros r0 K2; discriminate). cbn [orb]. rewrite (proj2 (strip_prefix_none (bs "--") _)) by (intros r0 K2; discriminate).
      rewrite strip_prefix_app. apply with_rest_error. exact K.
    + exists ("!"%char :: w ++ s). split; [reflexivity|]. cbn [v_tag]. change (Ascii.eqb "!" "?") with false. change (Ascii.eqb "!" "!") with true. cbn iota.
      assert (P : has_prefix (bs "DOCTYPE") (w ++ s) || has_prefix (bs "doctype") (w ++ s) = true).
      { apply orb_true_iff. rewrite !has_prefix_spec. destruct Hw as [->| ->]; eauto. }
      rewrite P, doctype_word by auto. apply with_rest_error, doctype_fault. auto.
    + exists ("!"%char :: s). split; [reflexivity|]. cbn [v_tag]. change (Ascii.eqb "!" "?") with false. change (Ascii.eqb "!" "!") with true. cbn iota.
      rewrite !no_prefix by (intros x; apply C; cbn [In]; tauto). cbn [orb].
      rewrite (proj2 (strip_prefix_none (bs "--") _)) by (intros x; apply C; cbn [In]; tauto).
      rewrite (proj2 (strip_prefix_none (bs "[CDATA[") _)) by (intros x; apply C; cbn [In]; tauto).
      apply with_rest_error. now apply (skip_until_fault ">" s (mkVerr m r)).
  - exists ("/"%char :: x). split; [reflexivity|]. cbn [v_tag]. change (Ascii.eqb "/" "?") with false. change (Ascii.eqb "/" "!") with false. change (Ascii.eqb "/" "/") with true. cbn iota.
    now apply (close_fault st x (mkVerr m r)).
  - exists x. split; [reflexivity|]. destruct SS as [c [y [-> N]]]. cbn [v_tag].
    assert (E : Ascii.eqb c "?" = false /\ Ascii.eqb c "!" = false /\ Ascii.eqb c "/" = false) by (repeat split; apply ascii_eqb_false; intros ->; apply N; cbn; auto).
    destruct E as [E1 [E2 E3]]. rewrite E1, E2, E3. now apply (open_fault st (c :: y) (mkVerr m r)).
Qed.
