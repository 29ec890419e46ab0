(** The scanner recognises exactly what SpecScan describes. *)
From Coq Require Import List Ascii String NArith ZArith Bool Lia Permutation.
From Verif Require Import GoStr ModelParser SpecText SpecPath SpecTree SpecScan
  ProofBase ProofEscape ProofScan ProofTree ProofTree2 ProofFault.
Import ListNotations.

(** ** Tokens *)
Lemma blank_is : forall c, is_ws c = true <-> blank c.
Proof.
  intros c. unfold is_ws, blank. rewrite !orb_true_iff, !Ascii.eqb_eq. cbn [In]. split.
  - intros [[[->| ->]| ->]| ->]; vm_compute; auto.
  - intros H. rewrite <- (ascii_N_embedding c). destruct H as [<-|[<-|[<-|[<-|[]]]]]; vm_compute; auto.
Qed.
Lemma forall_not : forall (P : ascii -> Prop) stop t, (forall c, stop c = true <-> P c) ->
  Forall (fun c => stop c = false) t <-> Forall (fun c => ~ P c) t.
Proof.
  intros P stop t H. split; intros K; (eapply Forall_impl; [|exact K]); intros c Hc; cbv beta in *.
  - intros Q. apply H in Q. congruence.
  - destruct (stop c) eqn:E; auto. apply H in E. contradiction.
Qed.
Lemma cut_of : forall P stop s t r, (forall c, stop c = true <-> P c) -> read_stop stop s = (t, r) -> cut P s t r.
Proof.
  intros P stop s t r H R. unfold read_stop in R. destruct (read_loop stop 0 s) as [[t0 r0] o] eqn:Q.
  destruct (rl_cases _ _ _ _ _ _ Q) as [E [A B]]; [lia|]. apply (proj1 (forall_not P stop t0 H)) in A.
  change MaxTokenSize with 1048576%N in B. destruct B as [[-> [B C]]|[[-> [-> C]]|[-> [c [r' [-> [C D]]]]]]]; injection R as <- <-; subst s.
  - apply cut_long; auto; lia.
  - destruct (N.leb_spec (N.of_nat (len t0)) 1048576) as [L|L].
    + apply cut_short; auto.
    + rewrite app_nil_r. apply cut_last; auto; lia.
  - apply cut_short; auto; try lia. right. exists c, r'. split; auto. now apply H.
Qed.
Lemma cut_read : forall P stop s t r, (forall c, stop c = true <-> P c) -> cut P s t r -> read_stop stop s = (t, r).
Proof.
  intros P stop s t r H C. unfold read_stop. destruct C as [t r A L K|t A L|t r A L K]; apply (forall_not P stop t H) in A.
  - destruct K as [->|[c [r' [-> K]]]].
    + rewrite app_nil_r, rl_end; auto; lia.
    + apply H in K. rewrite rl_stop; auto.
  - rewrite rl_end; auto; lia.
  - rewrite rl_long; auto.
Qed.
Lemma mem_is : forall ds P, (forall c, In c ds <-> P c) -> forall c, mem c ds = true <-> P c.
Proof. intros ds P H c. rewrite <- H. apply mem_In. Qed.
Lemma name_delims_is : forall c, mem c name_delims = true <-> ends_name c.
Proof.
  apply mem_is. intros c. unfold ends_name. rewrite <- blank_is. unfold is_ws, name_delims, ws_chars. rewrite !orb_true_iff, !Ascii.eqb_eq. cbn [app In].
  split; [intros [<-|[<-|[<-|[<-|[<-|[<-|[]]]]]]]|intros [[[[->| ->]| ->]| ->]|[->| ->]]]; auto 8.
Qed.
Lemma attr_delims_is : forall c, mem c attr_delims = true <-> ends_attr c.
Proof.
  intros c. unfold ends_attr. rewrite <- name_delims_is. rewrite !mem_In. unfold attr_delims, name_delims. cbn [app In]. split; [intros [<-|H]|intros [H| ->]]; auto.
Qed.
Lemma eqb_is : forall q c, Ascii.eqb q c = true <-> c = q.
Proof. intros q c. rewrite Ascii.eqb_eq. split; auto. Qed.
Lemma gap_skip : forall s, gap s (skip_ws s).
Proof.
  induction s as [|c s IH]; [exists []; repeat split; auto; intros (? & ? & ? & _); discriminate|]. cbn [skip_ws].
  destruct (is_ws c) eqn:W.
  - destruct IH as [w [E [A B]]]. exists (c :: w). cbn [app]. rewrite <- E. repeat split; auto. constructor; auto. now apply blank_is.
  - exists []. repeat split; auto. intros (d & r & H & K). injection H as <- <-. apply blank_is in K. congruence.
Qed.
Lemma skip_gap : forall s r, gap s r -> skip_ws s = r.
Proof.
  intros s r [w [-> [A B]]]. induction A as [|c w C A IH]; cbn [app].
  - destruct r as [|c r]; auto. cbn [skip_ws]. destruct (is_ws c) eqn:W; auto. exfalso. apply B. exists c, r. split; auto. now apply blank_is.
  - cbn [skip_ws]. apply blank_is in C. now rewrite C.
Qed.
Lemma next_rest : forall s, next s = rest_of s.
Proof. destruct s; reflexivity. Qed.

(** ** Attributes *)
Definition sets (l : list (bytes * bytes)) (m : attrmap) : attrmap := fold_left (fun m a => map_set (fst a) (snd a) m) l m.
Lemma begins_head : forall P c r, begins P (c :: r) <-> P c.
Proof. intros P c r. split; [intros (d & r' & H & K); injection H as <- <-; auto|]. intros H. exists c, r. auto. Qed.
Lemma begins_nil : forall P, ~ begins P [].
Proof. intros P (d & r' & H & K). discriminate. Qed.
Lemma quote_is : forall q, Ascii.eqb q dquote || Ascii.eqb q squote = true <-> quote q.
Proof. intros q. rewrite orb_true_iff, !Ascii.eqb_eq. reflexivity. Qed.
Lemma end_is : forall q, Ascii.eqb q ">" || Ascii.eqb q "/" = true <-> q = ">"%char \/ q = "/"%char.
Proof. intros q. rewrite orb_true_iff, !Ascii.eqb_eq. reflexivity. Qed.
Lemma attributes_of : forall n s acc m r, parse_attrs_loop n acc s = (m, r) -> exists l, attributes n s l r /\ m = sets l acc.
Proof.
  induction n as [|n IH]; intros s acc m r H; cbn [parse_attrs_loop] in H.
  { injection H as <- <-. exists []. split; auto. apply attributes_enough. apply gap_skip. }
  pose proof (gap_skip s) as G. destruct (skip_ws s) as [|c s1] eqn:S1.
  { injection H as <- <-. exists []. split; auto. apply attributes_end; auto. }
  destruct (Ascii.eqb c ">" || Ascii.eqb c "/") eqn:C.
  { injection H as <- <-. exists []. split; auto. apply attributes_end; auto. right. apply begins_head. now apply end_is. }
  assert (NE : ~ begins (fun c => c = ">"%char \/ c = "/"%char) (c :: s1)).
  { rewrite begins_head. intros K. apply end_is in K. congruence. }
  destruct (read_until_any attr_delims (c :: s1)) as [x s2] eqn:R. apply (cut_of _ _ _ _ _ attr_delims_is) in R.
  destruct x as [|x0 x]; [injection H as <- <-; exists []; split; auto; eapply attributes_nameless; eauto; discriminate|].
  pose proof (gap_skip s2) as G2. destruct (negb (Ascii.eqb (peek (skip_ws s2)) "=")) eqn:P.
  { injection H as <- <-. exists []. split; auto. eapply attributes_bare; eauto; [discriminate|].
    destruct (skip_ws s2) as [|d s3]; [apply begins_nil|]. rewrite begins_head. intros ->. discriminate. }
  apply negb_false_iff in P. destruct (skip_ws s2) as [|d s3]; [discriminate|]. cbn [peek] in P. apply Ascii.eqb_eq in P. subst d. cbn [next] in H.
  pose proof (gap_skip s3) as G3. destruct (Ascii.eqb (peek (skip_ws s3)) dquote || Ascii.eqb (peek (skip_ws s3)) squote) eqn:Q.
  - destruct (skip_ws s3) as [|q s4]; [discriminate|]. cbn [peek next] in *. apply quote_is in Q.
    destruct (read_until q s4) as [v s5] eqn:R2. apply (cut_of (fun c => c = q) _ _ _ _ (eqb_is q)) in R2.
    destruct (IH _ _ _ _ H) as [l [A ->]]. exists ((x0 :: x, unescape_xml v) :: l). split; auto.
    rewrite next_rest in A. eapply attributes_quoted; eauto; try discriminate. apply unescape_decodes.
  - destruct (read_until_any name_delims (skip_ws s3)) as [v s5] eqn:R2. apply (cut_of _ _ _ _ _ name_delims_is) in R2.
    destruct (IH _ _ _ _ H) as [l [A ->]]. exists ((x0 :: x, unescape_xml v) :: l). split; auto.
    eapply attributes_unquoted; eauto; try discriminate; [|apply unescape_decodes].
    intros B. destruct (skip_ws s3) as [|q s4]; [now apply begins_nil in B|]. apply (proj1 (begins_head _ _ _)) in B. apply quote_is in B. cbn [peek] in Q. congruence.
Qed.
Lemma read_attributes : forall n s l r, attributes n s l r -> forall acc, parse_attrs_loop n acc s = (sets l acc, r).
Proof.
  assert (D : forall v d, Decodes v d -> unescape_xml v = d) by (intros v d H; exact (decodes_fun _ _ (unescape_decodes v) _ H)).
  induction 1 as [s r G|k s r G B|k s s1 r G N B C|k s s1 x s2 r G B C X G2 N|k s s1 x s2 s3 q s4 v s5 d l r G B C X G2 G3 Q C2 DD A IH
                 |k s s1 x s2 s3 s4 v s5 d l r G B C X G2 G3 Q C2 DD A IH]; intros acc; cbn [parse_attrs_loop]; rewrite ?(skip_gap _ _ G); auto.
  - destruct B as [->|B]; auto. destruct r as [|c r]; auto. apply (proj1 (begins_head _ _ _)) in B. apply end_is in B. now rewrite B.
  - destruct s1 as [|c s1]; [contradiction|]. destruct (Ascii.eqb c ">" || Ascii.eqb c "/") eqn:K.
    { exfalso. apply B. apply begins_head. now apply end_is. }
    unfold read_until_any. rewrite (cut_read _ _ _ _ _ attr_delims_is C). reflexivity.
  - destruct s1 as [|c s1].
    { exfalso. apply X. inversion C as [t r0 H1 H2 H3 H4|t H1 H2 H3|t r0 H1 H2 H3]; subst; auto. now apply app_eq_nil in H4. }
    destruct (Ascii.eqb c ">" || Ascii.eqb c "/") eqn:K.
    { exfalso. apply B. apply begins_head. now apply end_is. }
    unfold read_until_any. rewrite (cut_read _ _ _ _ _ attr_delims_is C). destruct x as [|x0 x]; [contradiction|]. rewrite (skip_gap _ _ G2).
    destruct r as [|c2 r]; auto. cbn [peek]. destruct (Ascii.eqb c2 "=") eqn:K2; auto. exfalso. apply N. apply begins_head. now apply Ascii.eqb_eq in K2.
  - destruct s1 as [|c s1].
    { exfalso. apply X. inversion C as [t r0 H1 H2 H3 H4|t H1 H2 H3|t r0 H1 H2 H3]; subst; auto. now apply app_eq_nil in H4. }
    destruct (Ascii.eqb c ">" || Ascii.eqb c "/") eqn:K.
    { exfalso. apply B. apply begins_head. now apply end_is. }
    unfold read_until_any. rewrite (cut_read _ _ _ _ _ attr_delims_is C). destruct x as [|x0 x]; [contradiction|]. rewrite (skip_gap _ _ G2).
    cbn [peek next]. change (negb (Ascii.eqb "=" "=")) with false. cbn iota. rewrite (skip_gap _ _ G3). cbn [peek next]. apply quote_is in Q. rewrite Q.
    unfold read_until. rewrite (cut_read _ _ _ _ _ (eqb_is q) C2). rewrite next_rest, IH, (D _ _ DD). reflexivity.
  - destruct s1 as [|c s1].
    { exfalso. apply X. inversion C as [t r0 H1 H2 H3 H4|t H1 H2 H3|t r0 H1 H2 H3]; subst; auto. now apply app_eq_nil in H4. }
    destruct (Ascii.eqb c ">" || Ascii.eqb c "/") eqn:K.
    { exfalso. apply B. apply begins_head. now apply end_is. }
    unfold read_until_any. rewrite (cut_read _ _ _ _ _ attr_delims_is C). destruct x as [|x0 x]; [contradiction|]. rewrite (skip_gap _ _ G2).
    cbn [peek next]. change (negb (Ascii.eqb "=" "=")) with false. cbn iota. rewrite (skip_gap _ _ G3).
    destruct (Ascii.eqb (peek s4) dquote || Ascii.eqb (peek s4) squote) eqn:QQ.
    { exfalso. destruct s4 as [|q s4]; [discriminate|]. apply Q. apply begins_head. now apply quote_is. }
    rewrite (cut_read _ _ _ _ _ name_delims_is C2). rewrite IH, (D _ _ DD). reflexivity.
Qed.
(** The map of a list of attributes. *)
Lemma sets_nodup : forall l m, NoDup (map fst m) -> NoDup (map fst (sets l m)).
Proof. unfold sets. induction l as [|a l IH]; intros m H; cbn [fold_left]; auto. apply IH. now apply map_set_nodup. Qed.
Lemma sets_get : forall l m x, map_get x (sets l m) =
  match find (fun a => bytes_eqb x (fst a)) (rev l) with Some a => Some (snd a) | None => map_get x m end.
Proof.
  unfold sets. induction l as [|a l IH] using rev_ind; intros m x; auto. rewrite fold_left_app, rev_app_distr. cbn [rev app find fold_left].
  destruct (bytes_eqb x (fst a)) eqn:E.
  - apply bytes_eqb_eq in E. subst x. apply map_get_set_same.
  - rewrite map_get_set_other; [apply IH|]. intros ->. now rewrite bytes_eqb_refl in E.
Qed.
Lemma find_last : forall (l : list (bytes * bytes)) x v,
  (exists a b, l = a ++ (x, v) :: b /\ ~ In x (map fst b)) <-> find (fun a => bytes_eqb x (fst a)) (rev l) = Some (x, v).
Proof.
  induction l as [|[y w] l IH] using rev_ind; intros x v.
  - split; [intros (a & b & H & _); now destruct a|discriminate].
  - rewrite rev_app_distr. cbn [rev app find fst]. destruct (bytes_eqb x y) eqn:E.
    + apply bytes_eqb_eq in E. subst y. split.
      * intros (a & b & H & N). destruct b as [|b0 b] using rev_ind.
        -- apply app_inj_tail in H. destruct H as [_ H]. now injection H as ->.
        -- exfalso. apply N. rewrite app_comm_cons, app_assoc in H. apply app_inj_tail in H. destruct H as [_ <-].
           rewrite map_app. apply in_or_app. right. now left.
      * intros H. injection H as ->. exists l, []. split; auto.
    + rewrite <- IH. split.
      * intros (a & b & H & N). destruct b as [|b0 b _] using rev_ind.
        -- apply app_inj_tail in H. destruct H as [_ H]. injection H as -> ->. now rewrite bytes_eqb_refl in E.
        -- rewrite app_comm_cons, app_assoc in H. apply app_inj_tail in H. destruct H as [-> <-]. exists a, b. split; auto.
           intros K. apply N. rewrite map_app. apply in_or_app. now left.
      * intros (a & b & -> & N). exists a, (b ++ [(y, w)]). rewrite <- app_assoc. split; auto. rewrite map_app. intros K. apply in_app_or in K.
        destruct K as [K|[K|[]]]; auto. cbn [fst] in K. subst y. now rewrite bytes_eqb_refl in E.
Qed.
Lemma settled_sets : forall l m, Permutation (sets l []) m -> settled l m.
Proof.
  intros l m P. assert (N : NoDup (map fst (sets l []))) by (apply sets_nodup; constructor). split.
  - eapply Permutation_NoDup; [|exact N]. now apply Permutation_map.
  - intros x v. rewrite find_last. pose proof (sets_get l [] x) as G. split.
    + intros H. apply (Permutation_in _ (Permutation_sym P)) in H. apply (map_get_nodup x v) in H; auto. rewrite H in G. destruct (find _ (rev l)) as [[y w]|] eqn:F; [|discriminate].
      apply find_some in F as F2. destruct F2 as [_ F2]. cbn [fst] in F2. apply bytes_eqb_eq in F2. subst y. cbn [snd] in G. now injection G as ->.
    + intros H. rewrite H in G. cbn [snd] in G. apply (Permutation_in _ P). now apply map_get_In.
Qed.
