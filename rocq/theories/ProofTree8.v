(** Decidable sufficient conditions used in examples, counts, and the public statements
    about queries on canonical documents. *)
From Coq Require Import List Ascii String NArith ZArith Bool Lia Permutation.
From Verif Require Import GoStr ModelParser ModelPath ModelResult ModelQuery ModelApi SpecText SpecPath SpecTree SpecQuery
  ProofBase ProofEscape ProofPath ProofScan ProofSyntax ProofFuel ProofMono ProofTree ProofTree2 ProofTree3 ProofTree4 ProofTree5 ProofTree6 ProofTree7.
Import ListNotations.

(** ** Checkers *)
Definition in_range (a b : N) (c : ascii) : bool := ((a <=? N_of_ascii c) && (N_of_ascii c <=? b))%N.
Definition letter_b (c : ascii) : bool := in_range 65 90 c || in_range 97 122 c.
Definition digit_b (c : ascii) : bool := in_range 48 57 c.
Definition xml_name_b (n : bytes) : bool :=
  match n with
  | c :: _ => (letter_b c || mem c (bs "_:")) && forallb (fun c => letter_b c || digit_b c || mem c (bs ".-_:")) n &&
              (N.of_nat (len n) <=? 1048576)%N
  | [] => false
  end.
Definition no_angle_b (t : bytes) : bool := negb (mem "<" t) && negb (mem ">" t).
Fixpoint no_hh (s : bytes) : bool :=
  match s with
  | a :: ((b :: _) as s') => negb (Ascii.eqb a "-" && Ascii.eqb b "-") && no_hh s'
  | _ => true
  end.
Definition misc_b (b : bytes) : bool :=
  (let c := firstn (len b - 4) (skipn 2 b) in
   bytes_eqb b (bs "--" ++ c ++ bs "--") && no_angle_b c && no_hh (c ++ bs "-")) ||
  (let c := firstn (len b - 9) (skipn 7 b) in bytes_eqb b (bs "[CDATA[" ++ c ++ bs "]]") && no_angle_b c).
Fixpoint nodup_b (l : list bytes) : bool :=
  match l with [] => true | x :: l' => negb (existsb (bytes_eqb x) l') && nodup_b l' end.
Definition attrs_b (a : list (bytes * bytes)) : bool :=
  Nat.leb (len a) 100 && nodup_b (map fst a) && forallb xml_name_b (map fst a) &&
  forallb (fun p => (N.of_nat (len (esc (snd p))) <=? 1048576)%N) a.
Fixpoint good_b (nd : node) : bool :=
  match nd with
  | Elem n a self kids =>
      xml_name_b n && attrs_b a && (negb self || match kids with [] => true | _ => false end) && forallb good_b kids
  | Text t => no_angle_b t
  | Misc b => misc_b b
  end.
Lemma letter_b_ok : forall c, letter_b c = true -> letter c.
Proof.
  intros c H. unfold letter_b, in_range in H. apply orb_true_iff in H. unfold letter.
  destruct H as [H|H]; apply andb_true_iff in H; destruct H as [H1 H2]; apply N.leb_le in H1; apply N.leb_le in H2; auto.
Qed.
Lemma digit_b_ok : forall c, digit_b c = true -> digit c.
Proof.
  intros c H. unfold digit_b, in_range in H. apply andb_true_iff in H; destruct H as [H1 H2]; apply N.leb_le in H1; apply N.leb_le in H2. now split.
Qed.
Lemma xml_name_b_ok : forall n, xml_name_b n = true -> xml_name n.
Proof.
  intros n H. destruct n as [|c r]; [discriminate|]. unfold xml_name_b in H. apply andb_true_iff in H. destruct H as [H H3].
  apply andb_true_iff in H. destruct H as [H1 H2]. split; [|split].
  - exists c, r. split; auto. apply orb_true_iff in H1. destruct H1 as [H1|H1]; [left; now apply letter_b_ok|right; now apply mem_In].
  - intros x Hx. rewrite forallb_forall in H2. apply H2 in Hx. apply orb_true_iff in Hx. destruct Hx as [Hx|Hx].
    + apply orb_true_iff in Hx. destruct Hx as [Hx|Hx]; [left; now apply letter_b_ok|right; left; now apply digit_b_ok].
    + right. right. now apply mem_In.
  - unfold small. now apply N.leb_le.
Qed.
Lemma no_angle_b_ok : forall t, no_angle_b t = true -> no_angle t.
Proof.
  intros t H. unfold no_angle_b in H. apply andb_true_iff in H. destruct H as [H1 H2].
  split; intros K; apply mem_In in K; rewrite K in *; discriminate.
Qed.
Lemma no_hh_ok : forall s x y, no_hh s = true -> s <> x ++ bs "--" ++ y.
Proof.
  intros s x y. revert s. induction x as [|c x IH]; intros s H K.
  - subst s. discriminate.
  - destruct s as [|a s]; [discriminate|]. injection K as <- K. apply (IH s); auto.
    destruct s as [|b s]; [destruct x; discriminate|]. cbn [no_hh] in H. apply andb_true_iff in H. apply H.
Qed.
Lemma misc_b_ok : forall b, misc_b b = true -> misc_body b.
Proof.
  intros b H. unfold misc_b in H. apply orb_true_iff in H. destruct H as [H|H].
  - apply andb_true_iff in H. destruct H as [H H3]. apply andb_true_iff in H. destruct H as [H1 H2]. left. eexists.
    split; [apply bytes_eqb_eq; exact H1|]. split; [now apply no_angle_b_ok|]. intros x y. now apply no_hh_ok.
  - apply andb_true_iff in H. destruct H as [H1 H2]. right. eexists. split; [apply bytes_eqb_eq; exact H1|]. now apply no_angle_b_ok.
Qed.
Lemma nodup_b_ok : forall l, nodup_b l = true -> NoDup l.
Proof.
  induction l as [|x l IH]; intros H; constructor; cbn [nodup_b] in H; apply andb_true_iff in H; destruct H as [H1 H2]; auto.
  intros K. assert (existsb (bytes_eqb x) l = true) by (apply existsb_exists; exists x; split; auto using bytes_eqb_refl).
  rewrite H in H1. discriminate.
Qed.
Lemma attrs_b_ok : forall a, attrs_b a = true -> good_attrs a.
Proof.
  intros a H. unfold attrs_b in H. apply andb_true_iff in H. destruct H as [H H4]. apply andb_true_iff in H. destruct H as [H H3].
  apply andb_true_iff in H. destruct H as [H1 H2]. constructor.
  - now apply Nat.leb_le.
  - now apply nodup_b_ok.
  - apply Forall_forall. intros x Hx. apply xml_name_b_ok. rewrite forallb_forall in H3. now apply H3.
  - apply Forall_forall. intros x Hx. rewrite forallb_forall in H4. apply H4 in Hx. unfold small. now apply N.leb_le.
Qed.
Lemma good_b_ok : forall nd, good_b nd = true -> good nd.
Proof.
  induction nd as [n a self kids IH|t|b] using node_ind'; intros H; cbn [good_b] in H.
  - apply andb_true_iff in H. destruct H as [H H4]. apply andb_true_iff in H. destruct H as [H H3].
    apply andb_true_iff in H. destruct H as [H1 H2]. constructor; auto using xml_name_b_ok, attrs_b_ok.
    + intros ->. cbn [negb orb] in H3. destruct kids; [reflexivity|discriminate].
    + clear -IH H4. induction IH; constructor; cbn [forallb] in H4; apply andb_true_iff in H4; destruct H4; auto.
  - constructor. now apply no_angle_b_ok.
  - constructor. now apply misc_b_ok.
Qed.
Lemma forest_b_ok : forall F, forallb good_b F = true -> Forall good F.
Proof. intros F H. apply Forall_forall. intros x Hx. rewrite forallb_forall in H. apply good_b_ok. auto. Qed.

Definition plain_b (n : bytes) : bool :=
  match n with
  | [] => false
  | c :: r =>
      negb (mem "|" n) && negb (Ascii.eqb c "@") && negb (has_prefix (bs "#(") n) &&
      negb (existsb (bytes_eqb n) [bs "%"; bs "#"; bs "*"; bs "**"]) &&
      existsb (fun c => negb (Ascii.eqb c "-") && negb (digit_b c)) n
  end.
Lemma plain_b_ok : forall n, plain_b n = true -> plain_name n.
Proof.
  intros n H. destruct n as [|c r]; [discriminate|]. unfold plain_b in H.
  apply andb_true_iff in H. destruct H as [H H5]. apply andb_true_iff in H. destruct H as [H H4].
  apply andb_true_iff in H. destruct H as [H H3]. apply andb_true_iff in H. destruct H as [H1 H2]. constructor.
  - discriminate.
  - intros K. apply mem_In in K. rewrite K in H1. discriminate.
  - intros x K. injection K as -> ->. discriminate.
  - intros x K. rewrite K in H3. discriminate.
  - intros K. assert (X : existsb (bytes_eqb (c :: r)) [bs "%"; bs "#"; bs "*"; bs "**"] = true)
      by (apply existsb_exists; exists (c :: r); split; auto using bytes_eqb_refl). rewrite X in H4. discriminate.
  - apply existsb_exists in H5. destruct H5 as [x [K1 K2]]. exists x. split; auto. apply andb_true_iff in K2. destruct K2 as [K2 K3].
    split.
    + intros ->. discriminate.
    + intros D. unfold digit_b, in_range in K3. destruct D as [D1 D2]. apply N.leb_le in D1. apply N.leb_le in D2.
      rewrite D1, D2 in K3. discriminate.
Qed.
Definition step_name_b (n : bytes) : bool :=
  plain_b n && match split_first ":" n with
               | None => true
               | Some (p, l) => negb (bytes_eqb p []) && negb (bad_prefix_b p)
               end.
Lemma step_name_b_ok : forall n, step_name_b n = true -> step_name n.
Proof.
  intros n H. unfold step_name_b in H. apply andb_true_iff in H. destruct H as [H1 H2]. split; [now apply plain_b_ok|].
  destruct (split_first ":" n) as [[p l]|] eqn:Q.
  - apply split_first_spec in Q. destruct Q as [-> Q]. right. exists p, l. apply andb_true_iff in H2. destruct H2 as [H2 H3].
    repeat split.
    + intros ->. discriminate.
    + exact Q.
    + apply (good_prefix_b p). split; auto. now destruct (bad_prefix_b p).
    + assert (GP : good_prefix p) by (apply (good_prefix_b p); split; auto; now destruct (bad_prefix_b p)). now apply GP.
    + assert (GP : good_prefix p) by (apply (good_prefix_b p); split; auto; now destruct (bad_prefix_b p)). now apply GP.
  - left. now apply split_first_none.
Qed.
Definition tstep_b (s : tstep) : bool :=
  step_name_b (fst s) && match snd s with Some [] => false | Some ds => forallb digit_b ds | None => true end.
Definition final_b (steps : list tstep) (fin : final) : bool :=
  let idx := match rev steps with (_, Some _) :: _ => true | _ => false end in
  match fin, steps with
  | TheChildren, _ => true
  | _, [] => false
  | TheElement, _ => true
  | TheAttribute a, _ => negb (mem "|" a)
  | _, _ => negb idx
  end.
Lemma tpath_b_ok : forall steps fin, forallb tstep_b steps = true -> final_b steps fin = true ->
  Nat.leb (len (tpath_steps steps fin)) 100 = true -> good_tpath steps fin.
Proof.
  intros steps fin H1 H2 H3. constructor; [| |now apply Nat.leb_le].
  - apply Forall_forall. intros [n idx] Hx. rewrite forallb_forall in H1. apply H1 in Hx. unfold tstep_b in Hx. cbn [fst snd] in Hx.
    apply andb_true_iff in Hx. destruct Hx as [K1 K2]. split; cbn [fst snd]; [now apply step_name_b_ok|].
    destruct idx as [[|d ds]|]; auto; [discriminate|]. split; [discriminate|]. apply Forall_forall. intros c Hc.
    rewrite forallb_forall in K2. apply digit_b_ok. auto.
  - assert (IDX : ends_in_index steps -> match rev steps with (_, Some _) :: _ => true | _ => false end = true).
    { intros [a [n [ds ->]]]. rewrite rev_app_distr. reflexivity. }
    unfold final_b in H2. destruct steps as [|s steps]; [destruct fin; try discriminate; exact I|].
    destruct fin; cbn [good_final]; try discriminate; auto.
    + split; [|discriminate]. intros K. apply mem_In in K. rewrite K in H2. discriminate.
    + split; [|discriminate]. intros K. rewrite (IDX K) in H2. discriminate.
    + split; [|discriminate]. intros K. rewrite (IDX K) in H2. discriminate.
Qed.

(** ** Counts and indexes *)
Lemma firstn_nth : forall A (l : list A) k i, i < len (firstn k l) -> exists x, nth_error (firstn k l) i = Some x.
Proof. intros A l k i H. destruct (nth_error (firstn k l) i) eqn:Q; eauto. apply nth_error_None in Q. lia. Qed.
Definition all_indexed (ps : list tstep) : Prop := Forall (fun s => snd s <> None) ps.
Lemma query_indexed : forall ps q fin, all_indexed ps -> ps <> [] -> more_steps q fin -> forall top F,
  query top (ps ++ q) fin F = match query top ps TheElement F with Element kids => query false q fin kids | _ => Nothing end.
Proof.
  induction ps as [|[n idx] rest IH]; intros q fin HI Hne Hq top F; [easy|]. inversion HI as [|? ? H1 H2]; subst. cbn [snd] in H1.
  destruct idx as [ds|]; [|congruence].
  change (((n, Some ds) :: rest) ++ q) with ((n, Some ds) :: (rest ++ q)). rewrite !query_cons. cbv zeta.
  rewrite (last_app rest q fin Hq). destruct (nth_error _ _) as [nd|]; [|reflexivity].
  destruct rest as [|s rest]; [reflexivity|]. cbn [is_last]. apply IH; auto. discriminate.
Qed.
Lemma count_index : forall ps n ds k, (forall top F,
  query top (ps ++ [(n, None)]) TheCount F = Nothing -> query top (ps ++ [(n, Some ds)]) TheElement F = Nothing) /\
  (forall top F, query top (ps ++ [(n, None)]) TheCount F = Count k -> (decimal_value ds < N.of_nat k)%N ->
     query top (ps ++ [(n, Some ds)]) TheElement F <> Nothing) /\
  (forall top F, match query top (ps ++ [(n, None)]) TheCount F with Nothing | Count _ => True | _ => False end).
Proof.
  intros ps n ds k. induction ps as [|[m idx] rest IH].
  - cbn [app]. repeat split; intros top F; rewrite !query_cons; cbv zeta; cbn [is_last];
      generalize (firstn 1000 (called (if top then bytes_eqb n else selects n) F)); intros l.
    + intros H. destruct l; [|discriminate]. destruct (N.to_nat (decimal_value ds)); reflexivity.
    + intros H L. unfold count_answer in H. destruct (len l) eqn:Q; [discriminate|]. injection H as <-.
      destruct (nth_error l (N.to_nat (decimal_value ds))) eqn:X; [discriminate|]. apply nth_error_None in X. lia.
    + unfold count_answer. now destruct (len l).
  - destruct IH as [I1 [I2 I3]]. cbn [app]. repeat split; intros top F; rewrite !query_cons; cbv zeta;
      rewrite !(last_app rest _ _) by (left; discriminate); destruct idx as [es|].
    + destruct (nth_error _ _); auto.
    + intros H. apply first_nothing in H. apply first_nothing. eapply Forall_impl; [|exact H]. cbv beta. auto.
    + destruct (nth_error _ _); [intros; now apply I2|discriminate].
    + intros H L. generalize dependent (called (selects m) F). intros l. induction l as [|nd l IHl]; intros H; [discriminate|].
      cbn [first_answer] in *. pose proof (I3 false (kids_of nd)) as T.
      destruct (query false (rest ++ [(n, None)]) TheCount (kids_of nd)) eqn:Q; try contradiction.
      * rewrite (I1 _ _ Q). auto.
      * injection H as ->. specialize (I2 _ _ Q L). destruct (query false (rest ++ [(n, Some ds)]) TheElement (kids_of nd)); congruence.
    + destruct (nth_error _ _); [apply I3|exact I].
    + generalize (called (selects m) F). intros l. induction l as [|nd l IHl]; [exact I|]. cbn [first_answer].
      pose proof (I3 false (kids_of nd)) as T. destruct (query false (rest ++ [(n, None)]) TheCount (kids_of nd)); auto.
Qed.
Lemma element_only : forall steps top F, match query top steps TheElement F with Nothing | Element _ => True | _ => False end.
Proof.
  induction steps as [|[n idx] rest IH]; intros top F; [exact I|]. rewrite query_cons. cbv zeta.
  destruct idx as [ds|].
  - destruct (nth_error _ _); [|exact I]. destruct (is_last rest TheElement); [exact I|apply IH].
  - destruct (is_last rest TheElement).
    + now destruct (called (selects n) F).
    + generalize (called (selects n) F). intros l. induction l as [|nd l IHl]; [exact I|]. cbn [first_answer].
      pose proof (IH false (kids_of nd)) as T. destruct (query false rest TheElement (kids_of nd)); auto.
Qed.
Lemma count_beyond : forall ps n ds k top F, all_indexed ps ->
  query top (ps ++ [(n, None)]) TheCount F = Count k -> (N.of_nat k <= decimal_value ds)%N ->
  query top (ps ++ [(n, Some ds)]) TheElement F = Nothing.
Proof.
  assert (B : forall n ds k top F, query top [(n, None)] TheCount F = Count k -> (N.of_nat k <= decimal_value ds)%N ->
    query top [(n, Some ds)] TheElement F = Nothing).
  { intros n ds k top F. rewrite !query_cons; cbv zeta; cbn [is_last].
    generalize (firstn 1000 (called (if top then bytes_eqb n else selects n) F)); intros l H L.
    unfold count_answer in H. destruct (len l) eqn:Q; [discriminate|]. injection H as <-.
    rewrite (proj2 (nth_error_None _ _)) by lia. reflexivity. }
  intros ps n ds k top F HI H L. destruct ps as [|s ps]; [eapply B; eauto|].
  rewrite query_indexed in H by (auto; try discriminate; left; discriminate).
  rewrite query_indexed by (auto; try discriminate; left; discriminate).
  destruct (query top (s :: ps) TheElement F); try reflexivity. eapply B; eauto.
Qed.

(** ** The content of an element is no longer than the document *)
Lemma node_in_length : forall F nd, In nd F -> len (node_text nd) <= len (forest_text F).
Proof.
  induction F as [|x F IH]; intros nd H; [easy|]. unfold forest_text in *. cbn [flat_map]. rewrite app_length.
  destruct H as [->|H]; [lia|]. specialize (IH _ H). lia.
Qed.
Lemma kids_length : forall nd, good nd -> len (forest_text (kids_of nd)) <= len (node_text nd).
Proof.
  intros nd H. inversion H as [n a self kids N A S K| |]; subst; cbn [kids_of]; [|cbn; lia|cbn; lia]. unfold forest_text. cbn [node_text].
  rewrite app_length. destruct self; [rewrite (S eq_refl); cbn; lia|]. rewrite app_length. lia.
Qed.
Lemma firstn_In : forall A k (l : list A) x, In x (firstn k l) -> In x l.
Proof. intros A k l x H. rewrite <- (firstn_skipn k l). apply in_or_app. now left. Qed.
Lemma query_length : forall steps top F kids, Forall good F -> query top steps TheElement F = Element kids ->
  len (forest_text kids) <= len (forest_text F).
Proof.
  induction steps as [|[n idx] rest IH]; intros top F kids G H; [discriminate|]. rewrite query_cons in H. cbv zeta in H.
  assert (AT : forall nd, In nd F -> (if is_last rest TheElement then final_answer TheElement nd else query false rest TheElement (kids_of nd)) = Element kids ->
    len (forest_text kids) <= len (forest_text F)).
  { intros nd Hin K. assert (Gn : good nd) by (rewrite Forall_forall in G; auto).
    pose proof (node_in_length F nd Hin). pose proof (kids_length nd Gn). destruct (is_last rest TheElement).
    - injection K as <-. lia.
    - specialize (IH false (kids_of nd) kids (good_kids nd Gn) K). lia. }
  destruct idx as [ds|].
  - destruct (nth_error _ _) as [nd|] eqn:Q; [|discriminate]. apply (AT nd); auto. apply nth_error_In, firstn_In in Q.
    unfold called in Q. now apply filter_In in Q.
  - destruct (is_last rest TheElement) eqn:IL.
    + destruct (called (selects n) F) as [|nd l] eqn:Q; [discriminate|]. apply (AT nd); auto.
      assert (K : In nd (called (selects n) F)) by (rewrite Q; now left). unfold called in K. now apply filter_In in K.
    + assert (S : forall x, In x (called (selects n) F) -> In x F) by (intros x Hx; unfold called in Hx; now apply filter_In in Hx).
      revert H S. generalize (called (selects n) F). intros l. induction l as [|nd l IHl]; intros H S; [discriminate|].
      cbn [first_answer] in H. destruct (query false rest TheElement (kids_of nd)) eqn:Q; try discriminate.
      * apply IHl; auto. intros x Hx. apply S. now right.
      * apply (AT nd); [apply S; now left|congruence].
Qed.
Lemma raw_length : forall steps F kids r, Forall good F -> query true steps TheElement F = Element kids ->
  same_element kids r -> len (r_raw r) <= len (forest_text F).
Proof.
  intros steps F kids r G Q [kids' [S ->]]. cbn [r_raw r_element]. rewrite <- (same_length_all _ _ S). eapply query_length; eauto.
Qed.
