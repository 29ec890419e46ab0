(** Every scanner loop terminates within its fuel and never moves backwards. *)
From Coq Require Import List Ascii String NArith ZArith Bool Lia.
From Verif Require Import GoStr ModelParser ProofBase.
Import ListNotations.

Notation len := List.length.

Lemma skip_ws_le : forall s, len (skip_ws s) <= len s.
Proof. induction s; simpl; auto. destruct (is_ws a); simpl; lia. Qed.
Lemma next_le : forall s, len (next s) <= len s.
Proof. destruct s; simpl; lia. Qed.

Lemma read_loop_split : forall stop s n t r o, read_loop stop n s = (t, r, o) -> s = t ++ r.
Proof.
  induction s as [|c s IH]; simpl; intros n t r o H.
  - injection H; intros; subst; auto.
  - destruct (MaxTokenSize <? n)%N; [injection H; intros; subst; auto|].
    destruct (stop c); [injection H; intros; subst; auto|].
    destruct (read_loop stop (n + 1) s) as [[t1 r1] o1] eqn:E.
    injection H; intros; subst. simpl. f_equal. eapply IH; eauto.
Qed.
Lemma read_stop_le : forall stop s t r, read_stop stop s = (t, r) -> len r <= len s.
Proof.
  unfold read_stop; intros stop s t r H. destruct (read_loop stop 0 s) as [[t1 r1] o1] eqn:E.
  injection H; intros; subst. apply read_loop_split in E. subst. rewrite app_length. lia.
Qed.
Lemma read_stop_tok : forall stop s t r, read_stop stop s = (t, r) -> t <> [] -> s = t ++ r.
Proof.
  unfold read_stop; intros stop s t r H Ht. destruct (read_loop stop 0 s) as [[t1 r1] o1] eqn:E.
  injection H; intros; subst. apply read_loop_split in E. destruct o1; [congruence|auto].
Qed.
Lemma read_until_le : forall d s t r, read_until d s = (t, r) -> len r <= len s.
Proof. intros; eapply read_stop_le; eauto. Qed.
Lemma read_until_any_le : forall d s t r, read_until_any d s = (t, r) -> len r <= len s.
Proof. intros; eapply read_stop_le; eauto. Qed.

Lemma parse_attrs_loop_le : forall n attrs s, len (snd (parse_attrs_loop n attrs s)) <= len s.
Proof.
  induction n as [|n IH]; intros attrs s; cbn [parse_attrs_loop].
  - simpl. apply skip_ws_le.
  - pose proof (skip_ws_le s) as H0. destruct (skip_ws s) as [|c s1] eqn:E; [simpl; lia|].
    destruct (Ascii.eqb c ">" || Ascii.eqb c "/"); [simpl; simpl in H0; lia|].
    destruct (read_until_any attr_delims (c :: s1)) as [name s2] eqn:R.
    apply read_until_any_le in R.
    destruct name as [|nc name]; [simpl; lia|].
    pose proof (skip_ws_le s2).
    destruct (negb (Ascii.eqb (peek (skip_ws s2)) "=")); [simpl; lia|].
    pose proof (next_le (skip_ws s2)). pose proof (skip_ws_le (next (skip_ws s2))).
    set (s3 := skip_ws (next (skip_ws s2))) in *.
    destruct (Ascii.eqb (peek s3) dquote || Ascii.eqb (peek s3) squote).
    + destruct (read_until (peek s3) (next s3)) as [v s4] eqn:R2. apply read_until_le in R2.
      pose proof (next_le s3). pose proof (next_le s4).
      specialize (IH (map_set (nc :: name) (unescape_xml v) attrs) (next s4)). lia.
    + destruct (read_until_any name_delims s3) as [v s4] eqn:R2. apply read_until_any_le in R2.
      specialize (IH (map_set (nc :: name) (unescape_xml v) attrs) s4). lia.
Qed.
Lemma parse_attributes_le : forall s attrs r, parse_attributes s = (attrs, r) -> len r <= len s.
Proof.
  intros s attrs r H. replace r with (snd (parse_attributes s)) by (now rewrite H).
  unfold parse_attributes. generalize MaxAttributes. intros n. apply parse_attrs_loop_le.
Qed.
Lemma parse_element_name_le : forall s name attrs self r,
  parse_element_name s = (name, attrs, self, r) -> len r <= len s.
Proof.
  unfold parse_element_name; intros s name attrs self r H.
  destruct (read_until_any name_delims s) as [nm s1] eqn:R. apply read_until_any_le in R.
  destruct (parse_attributes s1) as [at1 s2] eqn:A. apply parse_attributes_le in A.
  pose proof (next_le s2).
  destruct (Ascii.eqb (peek s2) "/").
  - pose proof (next_le (next s2)).
    destruct (Ascii.eqb (peek (next s2)) ">"); injection H; intros; subst; lia.
  - destruct (Ascii.eqb (peek s2) ">"); injection H; intros; subst; lia.
Qed.

Lemma content_loop_total : forall ord key fuel ename d s, len s < fuel ->
  exists t r, content_loop ord key fuel ename d s = Some (t, r) /\ len r <= len s.
Proof.
  induction fuel as [|f IH]; intros ename d s Hf; [lia|].
  cbn [content_loop]. destruct d as [|d]; [eauto|].
  destruct s as [|c s1]; [eauto|]. simpl in Hf.
  assert (K : forall s2 d2 pre, len s2 <= len s1 ->
     exists t r, match content_loop ord key f ename d2 s2 with Some (t, r) => Some (pre ++ t, r) | None => None end
        = Some (t, r) /\ len r <= S (len s1)).
  { intros s2 d2 pre Hs2. destruct (IH ename d2 s2) as [t [r [E Hr]]]; [lia|]. rewrite E. do 2 eexists; split; eauto. lia. }
  destruct (Ascii.eqb c "<").
  - destruct s1 as [|n s2]; [apply (K [] (S d) [c]); auto|].
    destruct (Ascii.eqb n "/").
    + destruct (read_until ">" s2) as [t0 s3] eqn:R. apply read_until_le in R.
      pose proof (next_le s3).
      destruct (if bytes_eqb (close_name t0) ename then d else S d) eqn:D.
      * do 2 eexists; split; eauto. simpl; lia.
      * destruct (K (next s3) (S n0) (bs "</" ++ close_name t0 ++ bs ">")) as [t [r [E Hr]]]; [simpl; lia|].
        exists t, r; split; [|exact Hr].
        destruct (content_loop ord key f ename (S n0) (next s3)) as [[t1 r1]|]; [|discriminate].
        etransitivity; [|exact E]. do 2 f_equal. rewrite <- !app_assoc. reflexivity.
    + destruct (Ascii.eqb n "!"); [apply (K (n :: s2) (S d) [c]); auto|].
      destruct (read_until_any name_delims (n :: s2)) as [nn s3] eqn:R. apply read_until_any_le in R.
      destruct (parse_attributes s3) as [attrs s4] eqn:A. apply parse_attributes_le in A.
      pose proof (next_le s4).
      destruct (if Ascii.eqb (peek s4) "/" then (true, next s4) else (false, s4)) as [self s5] eqn:S5.
      assert (len s5 <= len s4) by (destruct (Ascii.eqb (peek s4) "/"); injection S5; intros; subst; lia).
      pose proof (next_le s5).
      destruct (if Ascii.eqb (peek s5) ">" then (bs ">", next s5) else ([], s5)) as [gt s6] eqn:S6.
      assert (len s6 <= len s5) by (destruct (Ascii.eqb (peek s5) ">"); injection S6; intros; subst; lia).
      set (d2 := if negb self && bytes_eqb nn ename then S (S d) else S d).
      destruct (K s6 d2 (bs "<" ++ nn ++ write_attrs (ord (len (c :: n :: s2) :: key) attrs)
                                  ++ (if self then bs "/" else []) ++ gt)) as [t [r [E Hr]]]; [lia|].
      destruct (content_loop ord key f ename d2 s6) as [[t1 r1]|]; [|discriminate].
      exists t, r; split; [|exact Hr]. etransitivity; [|exact E]. do 2 f_equal. rewrite <- !app_assoc. reflexivity.
  - apply (K s1 (S d) [c]); auto.
Qed.
Lemma parse_content_total : forall ord key ename s,
  exists t r, parse_content ord key ename s = Some (t, r) /\ len r <= len s.
Proof. intros; apply content_loop_total; lia. Qed.

Lemma skip_doctype_le : forall s d, len (skip_doctype d s) <= len s.
Proof.
  induction s as [|c s IH]; intros d; simpl; auto.
  destruct (Ascii.eqb c "["); [specialize (IH (d + 1)%Z); lia|].
  destruct (Ascii.eqb c "]"); [specialize (IH (d - 1)%Z); lia|].
  destruct (Ascii.eqb c ">" && (d =? 0)%Z); [lia|]. specialize (IH d); lia.
Qed.
Lemma skip_comment_le : forall s, len (skip_comment_body s) <= len s.
Proof.
  induction s as [|a s IH]; simpl; auto. destruct s as [|b [|c r]]; simpl; try lia.
  destruct (Ascii.eqb a "-" && Ascii.eqb b "-" && Ascii.eqb c ">"); [simpl; lia|].
  simpl in IH. lia.
Qed.

Lemma skip_next_total : forall fuel s, len s < fuel ->
  exists o, skip_next_loop fuel s = Some o /\
    match o with
    | None => True
    | Some s1 => len s1 <= len s /\ exists n s2, s1 = "<"%char :: n :: s2
                    /\ n <> "!"%char /\ n <> "?"%char /\ n <> "/"%char
    end.
Proof.
  induction fuel as [|f IH]; intros s Hf; [lia|].
  destruct s as [|c s1]; [exists None; split; [reflexivity|exact I]|].
  assert (K : forall s2, len s2 <= len s1 -> exists o, skip_next_loop f s2 = Some o /\
    match o with
    | None => True
    | Some s3 => len s3 <= len (c :: s1) /\ exists n s2, s3 = "<"%char :: n :: s2
                    /\ n <> "!"%char /\ n <> "?"%char /\ n <> "/"%char
    end).
  { intros s2 H2. simpl in Hf. destruct (IH s2) as [o [E Ho]]; [lia|]. exists o; split; auto.
    destruct o; auto. destruct Ho as [H3 H4]. split; auto. simpl; lia. }
  cbn [skip_next_loop]. destruct (Ascii.eqb c "<") eqn:Ec; [|apply K; auto].
  apply Ascii.eqb_eq in Ec; subst c.
  destruct s1 as [|n s2]; [exists None; split; [reflexivity|exact I]|].
  destruct (negb (Ascii.eqb n "!") && negb (Ascii.eqb n "?") && negb (Ascii.eqb n "/")) eqn:En.
  - eexists; split; [reflexivity|]. split; auto.
    apply andb_true_iff in En; destruct En as [En E3]. apply andb_true_iff in En; destruct En as [E1 E2].
    exists n, s2. repeat split; try (apply Ascii.eqb_neq; now apply negb_true_iff).
  - destruct (Ascii.eqb n "!").
    + destruct ((8 <? blen ("<"%char :: n :: s2))%N && eq_fold_prefix (bs "<!DOCTYPE") ("<"%char :: n :: s2)).
      * apply K. pose proof (skip_doctype_le (skipn 9 ("<"%char :: n :: s2)) 0).
        rewrite skipn_length in H. simpl len in *. lia.
      * destruct s2 as [|a [|b s3]]; try (apply K; simpl; lia).
        destruct (Ascii.eqb a "-" && Ascii.eqb b "-").
        -- apply K. pose proof (skip_comment_le (a :: b :: s3)). simpl in *; lia.
        -- apply K; simpl; lia.
    + destruct (read_until ">" ("<"%char :: n :: s2)) as [t s3] eqn:R.
      apply K. unfold read_until, read_stop in R.
      destruct (read_loop (Ascii.eqb ">") 0 ("<"%char :: n :: s2)) as [[t1 r1] o1] eqn:RL.
      injection R; intros; subst. change (read_loop (Ascii.eqb ">") 0 ("<"%char :: n :: s2)) with
        (let '(t, r, o) := read_loop (Ascii.eqb ">") (0 + 1) (n :: s2) in ("<"%char :: t, r, o)) in RL.
      destruct (read_loop (Ascii.eqb ">") (0 + 1) (n :: s2)) as [[t2 r2] o2] eqn:RL2.
      injection RL; intros; subst.
      apply read_loop_split in RL2. rewrite RL2, app_length. pose proof (next_le s3). lia.
Qed.
Lemma skip_to_next_total : forall s,
  exists o, skip_to_next s = Some o /\
    match o with
    | None => True
    | Some s1 => len s1 <= len s /\ exists n s2, s1 = "<"%char :: n :: s2
                    /\ n <> "!"%char /\ n <> "?"%char /\ n <> "/"%char
    end.
Proof. intros; apply skip_next_total; lia. Qed.

Lemma scan_loop_total : forall ord key fuel s, len s < fuel -> exists l, scan_loop ord key fuel s = Some l.
Proof.
  induction fuel as [|f IH]; intros s Hf; [lia|]. cbn [scan_loop].
  destruct (skip_to_next_total s) as [o [E Ho]]. rewrite E.
  destruct o as [s1|]; [|eauto]. destruct Ho as [H1 [n [s2 [-> _]]]].
  destruct (parse_element_name (next ("<"%char :: n :: s2))) as [[[name attrs] self] s3] eqn:P.
  apply parse_element_name_le in P. simpl in H1, P.
  destruct self.
  - destruct (IH s3) as [l El]; [lia|]. rewrite El; eauto.
  - destruct (parse_content_total ord key name s3) as [t [r [Ec Hr]]]. rewrite Ec.
    destruct (IH r) as [l El]; [lia|]. rewrite El; eauto.
Qed.
Lemma scan_total : forall ord key s, exists l, scan ord key s = Some l.
Proof. intros; apply scan_loop_total; lia. Qed.
