(** Laws of the editing API that hold for every document. *)
From Coq Require Import List Ascii String NArith ZArith Bool Lia.
From Verif Require Import GoStr ModelParser ModelPath ModelResult ModelQuery ModelValidate ModelBuilder ModelQueryOpts
  ModelApi ProofBase ProofScan ProofFuel ProofFuel2.
Import ListNotations.

Lemma edit_of_err : forall xml m d e, edit_of xml m = Ok (d, Some e) -> d = xml.
Proof.
  intros xml m d e H. unfold edit_of in H. apply bind_ok in H. destruct H as [[x|x] [_ H]]; injection H; auto.
  discriminate.
Qed.
Lemma delete_err : forall E o xml path d e, delete_opts E o xml path = Ok (d, Some e) -> d = xml.
Proof.
  intros E o xml path d e H. unfold delete_opts in H.
  destruct (MaxDocumentSize <? blen xml)%N; [injection H; auto|].
  destruct (negb (valid xml)); [injection H; auto|].
  apply bind_ok in H. destruct H as [segs [_ H]]. destruct segs; [injection H; auto|].
  eapply edit_of_err; eauto.
Qed.
Lemma set_err : forall E fmt_g o xml path v d e, set_opts E fmt_g o xml path v = Ok (d, Some e) -> d = xml.
Proof.
  intros E fmt_g o xml path v d e H. unfold set_opts in H.
  destruct (MaxDocumentSize <? blen xml)%N; [injection H; auto|].
  destruct (match xml with [] => false | _ :: _ => negb (valid xml) end); [injection H; auto|].
  destruct v; try (eapply delete_err; eassumption);
  apply bind_ok in H; destruct H as [segs [_ H]]; (destruct segs; [injection H; auto|]); eapply edit_of_err; eauto.
Qed.
Lemma set_bytes_err : forall E fmt_g o xml path v d e,
  set_bytes_opts E fmt_g o xml path v = Ok (d, Some e) -> d = xml.
Proof.
  intros E fmt_g o [x|] path v d e H; cbn [set_bytes_opts] in H; [|injection H; auto].
  apply bind_ok in H. destruct H as [[d' e'] [H1 H2]]. cbn [fst snd] in H2. injection H2 as <- ->.
  f_equal. eapply set_err; eauto.
Qed.
Lemma set_raw_err : forall E fmt_g xml path raw d e, set_raw E fmt_g xml path raw = Ok (d, Some e) -> d = xml.
Proof.
  intros E fmt_g xml path raw d e H. unfold set_raw in H. destruct (validate_raw raw); [|injection H; auto].
  eapply set_err; eauto.
Qed.
Lemma set_each_err : forall E fmt_g xml0 l xml d e, set_each E fmt_g xml0 xml l = Ok (d, Some e) -> d = xml0.
Proof.
  intros E fmt_g xml0 l. induction l as [|[p v] l IH]; intros xml d e H; cbn [set_each] in H; [discriminate|].
  apply bind_ok in H. destruct H as [[d1 [e1|]] [_ H]]; cbn [fst snd] in H; eauto. injection H; auto.
Qed.
Lemma set_many_err : forall E fmt_g xml paths values d e,
  set_many E fmt_g xml paths values = Ok (d, Some e) -> d = xml.
Proof.
  intros E fmt_g xml paths values d e H. unfold set_many in H.
  destruct (MaxDocumentSize <? blen xml)%N; [injection H; auto|].
  destruct (negb (Nat.eqb (List.length paths) (List.length values))); [injection H; auto|].
  eapply set_each_err; eauto.
Qed.
Lemma delete_each_err : forall E xml0 l xml d e, delete_each E xml0 xml l = Ok (d, Some e) -> d = xml0.
Proof.
  intros E xml0 l. induction l as [|p l IH]; intros xml d e H; cbn [delete_each] in H; [discriminate|].
  apply bind_ok in H. destruct H as [[d1 [e1|]] [_ H]]; cbn [fst snd] in H; eauto. injection H; auto.
Qed.
Lemma delete_many_err : forall E xml paths d e, delete_many E xml paths = Ok (d, Some e) -> d = xml.
Proof.
  intros E xml paths d e H. unfold delete_many in H.
  destruct (MaxDocumentSize <? blen xml)%N; [injection H; auto|]. eapply delete_each_err; eauto.
Qed.

(** ** Batches *)
Inductive set_seq (E : env) (fmt_g : f64 -> bytes) : bytes -> list (bytes * value) -> bytes -> Prop :=
| ss_nil : forall d, set_seq E fmt_g d [] d
| ss_cons : forall d d1 d2 p v l, set E fmt_g d p v = Ok (d1, None) -> set_seq E fmt_g d1 l d2 ->
    set_seq E fmt_g d ((p, v) :: l) d2.
Lemma set_each_ok : forall E fmt_g xml0 l xml d,
  set_each E fmt_g xml0 xml l = Ok (d, None) <-> set_seq E fmt_g xml l d.
Proof.
  intros E fmt_g xml0 l. induction l as [|[p v] l IH]; intros xml d; cbn [set_each].
  - split; intros H; [injection H as <-; constructor|inversion H; auto].
  - split; intros H.
    + apply bind_ok in H. destruct H as [[d1 [e1|]] [H1 H2]]; cbn [fst snd] in H2; [discriminate|].
      econstructor; [exact H1|]. now apply IH.
    + inversion H; subst. match goal with K : set _ _ _ _ _ = _ |- _ => rewrite K end. cbn [bind fst snd]. now apply IH.
Qed.
Lemma set_each_fail : forall E fmt_g xml0 l xml d e,
  set_each E fmt_g xml0 xml l = Ok (d, Some e) <->
  d = xml0 /\ exists a p v b d1, l = a ++ (p, v) :: b /\ set_seq E fmt_g xml a d1 /\
    exists d2, set E fmt_g d1 p v = Ok (d2, Some e).
Proof.
  intros E fmt_g xml0 l. induction l as [|[p v] l IH]; intros xml d e; cbn [set_each].
  - split; [discriminate|]. intros [_ [a [p [v [b [d1 [H _]]]]]]]. destruct a; discriminate.
  - split; intros H.
    + apply bind_ok in H. destruct H as [[d1 [e1|]] [H1 H2]]; cbn [fst snd] in H2.
      * injection H2 as <- <-. split; auto. exists [], p, v, l, xml. split; auto. split; [constructor|eauto].
      * apply IH in H2. destruct H2 as [-> [a [p2 [v2 [b [d2 [-> [H2 H3]]]]]]]]. split; auto.
        exists ((p, v) :: a), p2, v2, b, d2. split; auto. split; auto. econstructor; eauto.
    + destruct H as [-> [a [p2 [v2 [b [d1 [H [H2 [d2 H3]]]]]]]]]. destruct a as [|x a].
      * injection H as -> -> ->. inversion H2; subst. rewrite H3. reflexivity.
      * injection H as <- ->. inversion H2; subst.
        match goal with K : set _ _ xml p v = _ |- _ => rewrite K end. cbn [bind fst snd]. apply IH. split; auto.
        exists a, p2, v2, b, d1. eauto.
Qed.
Inductive delete_seq (E : env) : bytes -> list bytes -> bytes -> Prop :=
| ds_nil : forall d, delete_seq E d [] d
| ds_cons : forall d d1 d2 p l, delete E d p = Ok (d1, None) -> delete_seq E d1 l d2 ->
    delete_seq E d (p :: l) d2.
Lemma delete_each_ok : forall E xml0 l xml d,
  delete_each E xml0 xml l = Ok (d, None) <-> delete_seq E xml l d.
Proof.
  intros E xml0 l. induction l as [|p l IH]; intros xml d; cbn [delete_each].
  - split; intros H; [injection H as <-; constructor|inversion H; auto].
  - split; intros H.
    + apply bind_ok in H. destruct H as [[d1 [e1|]] [H1 H2]]; cbn [fst snd] in H2; [discriminate|].
      econstructor; [exact H1|]. now apply IH.
    + inversion H; subst. match goal with K : delete _ _ _ = _ |- _ => rewrite K end. cbn [bind fst snd]. now apply IH.
Qed.
Lemma delete_each_fail : forall E xml0 l xml d e,
  delete_each E xml0 xml l = Ok (d, Some e) <->
  d = xml0 /\ exists a p b d1, l = a ++ p :: b /\ delete_seq E xml a d1 /\
    exists d2, delete E d1 p = Ok (d2, Some e).
Proof.
  intros E xml0 l. induction l as [|p l IH]; intros xml d e; cbn [delete_each].
  - split; [discriminate|]. intros [_ [a [p [b [d1 [H _]]]]]]. destruct a; discriminate.
  - split; intros H.
    + apply bind_ok in H. destruct H as [[d1 [e1|]] [H1 H2]]; cbn [fst snd] in H2.
      * injection H2 as <- <-. split; auto. exists [], p, l, xml. split; auto. split; [constructor|eauto].
      * apply IH in H2. destruct H2 as [-> [a [p2 [b [d2 [-> [H2 H3]]]]]]]. split; auto.
        exists (p :: a), p2, b, d2. split; auto. split; auto. econstructor; eauto.
    + destruct H as [-> [a [p2 [b [d1 [H [H2 [d2 H3]]]]]]]]. destruct a as [|x a].
      * injection H as -> ->. inversion H2; subst. rewrite H3. reflexivity.
      * injection H as -> ->. inversion H2; subst.
        match goal with K : delete _ xml x = _ |- _ => rewrite K end. cbn [bind fst snd]. apply IH. split; auto.
        exists a, p2, b, d1. eauto.
Qed.
(** Deduplication keeps the first occurrence of every path, in order. *)
Lemma existsb_eqb_In : forall p l, existsb (bytes_eqb p) l = true <-> In p l.
Proof.
  intros p l. rewrite existsb_exists. split.
  - intros [x [H1 H2]]. apply bytes_eqb_eq in H2. now subst.
  - intros H. exists p. split; auto. apply bytes_eqb_refl.
Qed.
Lemma dedupe_snoc : forall l seen p,
  dedupe seen (l ++ [p]) = dedupe seen l ++ (if in_dec bytes_eq_dec p (seen ++ l) then [] else [p]).
Proof.
  induction l as [|x l IH]; intros seen p; cbn [app dedupe].
  - rewrite app_nil_r. destruct (existsb (bytes_eqb p) seen) eqn:X; destruct (in_dec bytes_eq_dec p seen); auto.
    + apply existsb_eqb_In in X. contradiction.
    + apply existsb_eqb_In in i. congruence.
  - destruct (existsb (bytes_eqb x) seen) eqn:X.
    + rewrite IH. f_equal. apply existsb_eqb_In in X.
      destruct (in_dec bytes_eq_dec p (seen ++ l)) as [i|i], (in_dec bytes_eq_dec p (seen ++ x :: l)) as [j|j]; auto; exfalso.
      * apply j. rewrite in_app_iff in *. simpl. tauto.
      * apply i. rewrite in_app_iff in *. simpl in j. destruct j as [j|[<-|j]]; auto.
    + rewrite IH. cbn [app]. f_equal. f_equal.
      destruct (in_dec bytes_eq_dec p (x :: seen ++ l)) as [i|i], (in_dec bytes_eq_dec p (seen ++ x :: l)) as [j|j]; auto; exfalso.
      * apply j. simpl in i. rewrite in_app_iff in *. simpl. tauto.
      * apply i. rewrite in_app_iff in *. simpl in *. rewrite in_app_iff. tauto.
Qed.

(** ** Nil, refusals *)
Lemma set_nil_delete : forall E fmt_g o xml path, set_opts E fmt_g o xml path VNil = delete_opts E o xml path.
Proof.
  intros E fmt_g o xml path. unfold set_opts. unfold delete_opts at 2.
  destruct (MaxDocumentSize <? blen xml)%N eqn:L; auto.
  destruct xml as [|c xml].
  - unfold delete_opts. rewrite L. reflexivity.
  - destruct (negb (valid (c :: xml))) eqn:V; auto. unfold delete_opts. rewrite L, V. reflexivity.
Qed.
Lemma delete_refuses : forall E o xml path, (10485760 < blen xml)%N \/ valid xml = false ->
  delete_opts E o xml path = Ok (xml, Some ErrMalformedXML).
Proof.
  intros E o xml path H. unfold delete_opts. destruct H as [H|H].
  - change 10485760%N with MaxDocumentSize in H. now rewrite (proj2 (N.ltb_lt _ _) H).
  - rewrite H. now destruct (MaxDocumentSize <? blen xml)%N.
Qed.
Lemma set_refuses : forall E fmt_g o xml path v, (10485760 < blen xml)%N \/ (xml <> [] /\ valid xml = false) ->
  set_opts E fmt_g o xml path v = Ok (xml, Some ErrMalformedXML).
Proof.
  intros E fmt_g o xml path v H. unfold set_opts. destruct H as [H|[H1 H2]].
  - change 10485760%N with MaxDocumentSize in H. now rewrite (proj2 (N.ltb_lt _ _) H).
  - destruct xml; [easy|]. rewrite H2. now destruct (MaxDocumentSize <? blen (a :: xml))%N.
Qed.
Lemma set_big_value : forall E fmt_g o xml path v x segs,
  (blen xml <= 10485760)%N -> xml = [] \/ valid xml = true ->
  parse_path_opts o path = Ok segs -> segs <> [] -> v <> VNil ->
  value_to_xml fmt_g v = inr x -> (5242880 < blen x)%N ->
  set_opts E fmt_g o xml path v = Ok (xml, Some ErrInvalidValue).
Proof.
  intros E fmt_g o xml path v x segs Hx Hv Hp Hs Hn Hvx Hb. unfold set_opts.
  change 10485760%N with MaxDocumentSize in Hx. change 5242880%N with MaxValueSize in Hb.
  rewrite (proj2 (N.ltb_ge _ _) Hx).
  assert (G : match xml with [] => false | _ :: _ => negb (valid xml) end = false).
  { destruct Hv as [->| ->]; auto. destruct xml; auto. }
  rewrite G.
  assert (K : edit_of xml (set_element E fmt_g o xml segs v) = Ok (xml, Some ErrInvalidValue)).
  { unfold set_element. destruct segs; [easy|]. rewrite Hvx, (proj2 (N.ltb_lt _ _) Hb). reflexivity. }
  rewrite Hp. cbn [bind]. destruct segs; [easy|]. destruct v; try contradiction; exact K.
Qed.
Lemma set_unsupported : forall E fmt_g o xml path segs,
  (blen xml <= 10485760)%N -> xml = [] \/ valid xml = true ->
  parse_path_opts o path = Ok segs -> segs <> [] ->
  set_opts E fmt_g o xml path VOther = Ok (xml, Some ErrInvalidValue).
Proof.
  intros E fmt_g o xml path segs Hx Hv Hp Hs. unfold set_opts.
  change 10485760%N with MaxDocumentSize in Hx.
  rewrite (proj2 (N.ltb_ge _ _) Hx).
  assert (G : match xml with [] => false | _ :: _ => negb (valid xml) end = false).
  { destruct Hv as [->| ->]; auto. destruct xml; auto. }
  rewrite G, Hp. cbn [bind]. destruct segs; [easy|]. reflexivity.
Qed.

(** ** Variants *)
Lemma get_many_spec : forall E xml ps rs,
  get_many E xml ps = Ok rs <-> Forall2 (fun p r => get E xml p = Ok r) ps rs.
Proof.
  intros E xml. induction ps as [|p ps IH]; intros rs; cbn [get_many].
  - split; intros H; [injection H as <-; constructor|inversion H; auto].
  - split; intros H.
    + apply bind_ok in H. destruct H as [r [H1 H]]. apply bind_ok in H. destruct H as [rs' [H2 H]]. injection H as <-.
      constructor; auto. now apply IH.
    + inversion H as [|? ? ? ? H1 H2]; subst. rewrite H1. cbn [bind]. apply IH in H2. rewrite H2. reflexivity.
Qed.
Lemma is_default_iff : forall o, is_default_options o = true <-> o = default_options.
Proof.
  intros [c i p n]. unfold is_default_options, default_options. cbn [o_case o_indent o_preserve o_namespaces]. split.
  - destruct c, i, p, n; cbn; try discriminate. auto.
  - intros H. injection H as -> -> -> ->. reflexivity.
Qed.
Lemma get_opts_default : forall E xml path, get_opts E default_options xml path = get E xml path.
Proof. reflexivity. Qed.
