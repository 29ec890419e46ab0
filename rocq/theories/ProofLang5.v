(** Consequences for single kinds of queries, and decision procedures for the examples. *)
From Coq Require Import List Ascii String NArith ZArith Bool Lia Permutation.
From Verif Require Import GoStr ModelParser ModelPath ModelResult ModelQuery SpecText SpecPath SpecTree SpecQuery SpecValid SpecEdit SpecContent SpecFilter SpecLang
  ProofBase ProofEscape ProofPath ProofScan ProofSyntax ProofFuel ProofFuel2 ProofMono ProofFilter ProofTree ProofTree2 ProofTree3 ProofTree4 ProofTree5 ProofTree8 ProofRaw2
  ProofLang ProofLang2 ProofLang3 ProofLang4.
Import ListNotations.

(** ** Results that say the same *)
Lemma item_alike : forall i x y, item_is i x -> item_is i y -> r_type x = r_type y /\ r_string x = r_string y.
Proof.
  intros [k|v|k|n] x y H1 H2; cbn [item_is describes] in *.
  - destruct H1 as [T1 [D1 _]], H2 as [T2 [D2 _]]. split; [congruence|]. eapply decodes_fun; eauto.
  - destruct H1, H2. split; congruence.
  - destruct H1 as [T1 D1], H2 as [T2 D2]. split; [congruence|]. eapply decodes_fun; eauto.
  - destruct H1 as [[T1 _] D1], H2 as [[T2 _] D2]. split; congruence.
Qed.
Lemma says_alike : forall a x y, says x a -> says y a -> same_reading x y.
Proof.
  intros [|i|l] x y H1 H2; cbn [says] in *; unfold same_reading.
  - rewrite H1, H2. repeat split; congruence.
  - destruct (item_alike _ _ _ H1 H2) as [A B]. destruct (item_type _ _ H1) as [_ C]. repeat split; auto. intros K. contradiction.
  - destruct H1 as [T1 F1], H2 as [T2 F2]. rewrite T1, T2. repeat split; [congruence|]. intros _.
    clear T1 T2. revert F2. generalize (r_results y). induction F1 as [|i r l rs A B IH]; intros ys F2; inversion F2; subst; constructor; auto. eapply item_alike; eauto.
Qed.

(** ** Searches *)
Lemma gather_ones : forall l, gather (map (fun x => [x]) l) = firstn 1000 l.
Proof.
  intros l. unfold gather. fold gather_step.
  assert (G : forall l acc, fold_left gather_step (map (fun x : item => [x]) l) acc = acc ++ firstn (1000 - len acc) l).
  { clear l. induction l as [|x l IH]; intros acc; cbn [map fold_left]; [now rewrite firstn_nil, app_nil_r|].
    unfold gather_step at 2. destruct (Nat.leb 1000 (len acc)) eqn:Q.
    - apply Nat.leb_le in Q. replace (1000 - len acc) with 0 by lia. rewrite gather_full by auto. cbn [firstn]. now rewrite app_nil_r.
    - apply Nat.leb_gt in Q. rewrite IH, app_length. cbn [List.length]. replace (1000 - len acc) with (Datatypes.S (1000 - (len acc + 1))) by lia.
      cbn [firstn]. now rewrite <- app_assoc. }
  rewrite G. cbn [List.length app]. reflexivity.
Qed.
Lemma post_node_inside : forall nd k, In nd (post_node k) <-> (nd = k /\ is_elem k = true) \/ In nd (post (kids_of k)).
Proof.
  intros nd [n a self kids|t|b]; cbn [post_node kids_of is_elem]; try (split; [intros []|intros [[_ K]|[]]; discriminate]).
  rewrite in_app_iff. fold (post kids). cbn [In]. split; intros [H|H]; auto.
  - destruct H as [<-|[]]; auto.
  - destruct H as [-> _]. auto.
Qed.
Lemma post_inside : forall F nd, In nd (post F) <-> inside nd F.
Proof.
  intros F nd. split.
  - assert (K : forall n F, height F <= n -> In nd (post F) -> inside nd F).
    { clear F. induction n as [|n IH]; intros F L H; unfold post in H; apply in_flat_map in H; destruct H as [k [H1 H2]];
        pose proof (height_in k F H1) as HL; fold (height F) in HL.
      - exfalso. destruct k; try contradiction. cbn [levels] in HL. lia.
      - apply post_node_inside in H2. destruct H2 as [[-> H2]|H2]; [now apply inside_here|]. apply inside_below with k; auto.
        apply IH; auto. destruct k; cbn [kids_of levels] in *; try (cbn; lia). fold (height kids) in HL. lia. }
    apply (K _ _ (le_n _)).
  - intros H. induction H as [F H E|F k H1 H2 IH]; unfold post; apply in_flat_map.
    + exists nd. split; auto. apply post_node_inside. auto.
    + exists k. split; auto. apply post_node_inside. auto.
Qed.

Lemma sublist_filter : forall (P : node -> Prop) (f : node -> bool) l l', (forall x, f x = true <-> P x) -> sublist_by P l l' -> filter f l = l'.
Proof.
  intros P f l l' Hf H. induction H as [|x l l' H1 H2 IH|x l l' H1 H2 IH]; auto; cbn [filter].
  - apply Hf in H1. rewrite H1. now f_equal.
  - destruct (f x) eqn:Q; auto. apply Hf in Q. contradiction.
Qed.
Lemma filter_sublist : forall (P : node -> Prop) (f : node -> bool) l, (forall x, f x = true <-> P x) -> sublist_by P l (filter f l).
Proof.
  intros P f l Hf. induction l as [|x l IH]; cbn [filter]; [constructor|]. destruct (f x) eqn:Q; constructor; auto.
  - now apply Hf.
  - intros K. apply Hf in K. congruence.
Qed.
Lemma number_ext : forall pf pf' s x, (forall s, pf s = pf' s) -> number pf s x -> number pf' s x.
Proof. intros pf pf' s x H (A & B & C). split; auto. split; auto. now rewrite <- H. Qed.
Lemma holds_ext : forall pf pf' op o lit, (forall s, pf s = pf' s) -> holds pf op o lit -> holds pf' op o lit.
Proof. intros pf pf' op o lit H K. inversion K; subst; try (econstructor; eauto using number_ext; fail). Qed.
Lemma true_of_ext : forall pf pf' c nd, (forall s, pf s = pf' s) -> true_of pf c nd <-> true_of pf' c nd.
Proof. intros pf pf' c nd H. split; intros (o & A & B); exists o; (split; [exact A|]); (eapply holds_ext; [|exact B]); auto. Qed.

(** ** Decision procedures *)
Definition visible_b (c : ascii) : bool := in_range 33 126 c.
Definition no_control_b (s : bytes) : bool := forallb (fun c => negb (existsb (N.eqb (N_of_ascii c)) [0; 9; 10; 13]%N)) s.
Lemma no_control_b_ok : forall s, no_control_b s = true -> no_control s.
Proof.
  intros s H c Hc K. unfold no_control_b in H. rewrite forallb_forall in H. apply H in Hc.
  assert (X : existsb (N.eqb (N_of_ascii c)) [0; 9; 10; 13]%N = true) by (apply existsb_exists; exists (N_of_ascii c); split; auto; apply N.eqb_refl).
  rewrite X in Hc. discriminate.
Qed.
Lemma visible_b_ok : forall c, visible_b c = true -> visible c.
Proof. intros c H. unfold visible_b, in_range in H. apply andb_true_iff in H. destruct H as [H1 H2]. apply N.leb_le in H1, H2. split; auto. Qed.
Definition operand_b (s : bytes) : bool :=
  match s, rev s with c :: _, d :: _ => visible_b c && visible_b d && no_control_b s | _, _ => false end.
Lemma operand_b_ok : forall s, operand_b s = true -> operand s.
Proof.
  intros s H. unfold operand_b in H. destruct s as [|c s]; [discriminate|]. destruct (rev (c :: s)) as [|d t] eqn:R; [discriminate|].
  apply andb_true_iff in H. destruct H as [H H3]. apply andb_true_iff in H. destruct H as [H1 H2]. constructor.
  - exists c, s. split; auto. now apply visible_b_ok.
  - exists (rev t), d. split; [|now apply visible_b_ok]. rewrite <- (rev_involutive (c :: s)), R. reflexivity.
  - now apply no_control_b_ok.
Qed.
Definition op_free_b (s : bytes) : bool := forallb (fun c => negb (mem c (bs "=!<>%"))) s.
Lemma op_free_b_ok : forall s, op_free_b s = true -> op_free s.
Proof. intros s H c Hc K. unfold op_free_b in H. rewrite forallb_forall in H. apply H in Hc. apply mem_In in K. rewrite K in Hc. discriminate. Qed.
Definition is_children (fin : final) : bool := match fin with TheChildren => true | _ => false end.
Definition subject_b (s : subject) : bool :=
  operand_b (subject_text s) && op_free_b (subject_text s) &&
  match s with
  | OfAttr _ => true
  | OfPath steps fin => forallb tstep_b steps && final_b steps fin && Nat.leb (len (tpath_steps steps fin)) 100 && negb (is_children fin)
  end.
Definition op_b (op : fop) : bool := match op with OpLt | OpGt | OpMatch => true | _ => false end.
Definition condition_b (c : condition) : bool :=
  subject_b (c_about c) && negb (mem "|" (condition_text c)) && Nat.leb (len (condition_text c)) 256 && no_control_b (c_lit c) &&
  match c_op c with OpExists => bytes_eqb (c_lit c) [] | _ => true end &&
  (negb (op_b (c_op c)) || (negb (mem "=" (c_lit c)) && negb (mem "!" (c_lit c)))).
Ltac split_b H := repeat match type of H with (_ && _) = true => apply andb_true_iff in H; let K := fresh "B" in destruct H as [H K] end.
Lemma not_mem : forall c s, negb (mem c s) = true -> ~ In c s.
Proof. intros c s H K. apply mem_In in K. rewrite K in H. discriminate. Qed.
Lemma condition_b_ok : forall c, condition_b c = true -> good_condition c.
Proof.
  intros c H. unfold condition_b in H. split_b H.
  assert (SU : good_subject (c_about c)).
  { unfold subject_b in H. split_b H. split; [now apply operand_b_ok|]. split; [now apply op_free_b_ok|]. destruct (c_about c) as [x|steps fin]; auto.
    split_b B4. split; [now apply tpath_b_ok|]. intros ->. discriminate. }
  split; auto. split; [now apply not_mem|]. split; [now apply Nat.leb_le|]. split; [now apply no_control_b_ok|]. split.
  - intros K. rewrite K in B0. now apply bytes_eqb_eq.
  - intros K. assert (O : op_b (c_op c) = true) by (cbn [In] in K; destruct K as [<-|[<-|[<-|[]]]]; reflexivity).
    rewrite O in B. cbn [negb orb] in B. apply andb_true_iff in B. destruct B. split; now apply not_mem.
Qed.
Definition which_b (w : which) : bool :=
  match w with Leading => true | Number ds => match ds with [] => false | _ => forallb digit_b ds end | Where c _ => condition_b c end.
Definition qstep_b (s : qstep) : bool :=
  match s with
  | Child n w => step_name_b n && which_b w
  | AnyKid | Descendant None => true
  | Kid c _ => condition_b c
  | Descendant (Some n) => step_name_b n
  end.
Lemma qstep_b_ok : forall s, qstep_b s = true -> good_qstep s.
Proof.
  intros [n w| |c all|[n|]] H; cbn [qstep_b good_qstep] in *; auto using condition_b_ok, step_name_b_ok.
  apply andb_true_iff in H. destruct H as [H1 H2]. split; [now apply step_name_b_ok|]. destruct w as [|ds|c all]; cbn [which_b good_which] in *; auto using condition_b_ok.
  destruct ds as [|d ds]; [discriminate|]. split; [discriminate|]. apply Forall_forall. intros x Hx. rewrite forallb_forall in H2. apply digit_b_ok. auto.
Qed.
Definition letter_b (c : ascii) : bool := in_range 65 90 c || in_range 97 122 c.
Lemma letter_b_ok : forall c, letter_b c = true -> letter c.
Proof.
  intros c H. unfold letter_b, in_range in H. unfold letter. apply orb_true_iff in H. destruct H as [H|H]; apply andb_true_iff in H; destruct H as [H1 H2]; apply N.leb_le in H1, H2; unfold code in *; lia.
Qed.
Definition field_name_b (n : bytes) : bool :=
  match n with c :: _ => letter_b c || Ascii.eqb c "_" | [] => false end &&
  forallb (fun c => letter_b c || digit_b c || mem c (bs "-_:")) n && Nat.ltb (len n) 256.
Lemma field_name_b_ok : forall n, field_name_b n = true -> field_name n.
Proof.
  intros n H. unfold field_name_b in H. split_b H. split; [|split].
  - destruct n as [|c r]; [discriminate|]. exists c, r. split; auto. apply orb_true_iff in H. destruct H as [H|H]; [left; now apply letter_b_ok|right; now apply Ascii.eqb_eq].
  - intros c Hc. rewrite forallb_forall in B0. apply B0 in Hc. apply orb_true_iff in Hc. destruct Hc as [Hc|Hc].
    + apply orb_true_iff in Hc. destruct Hc as [Hc|Hc]; [left; now apply letter_b_ok|right; left; now apply digit_b_ok].
    + right. right. now apply mem_In.
  - now apply Nat.ltb_lt.
Qed.
Definition qend_b (steps : list qstep) (e : qend) : bool :=
  match e, rev steps with
  | EElement, _ => true
  | EAttr x, _ => negb (mem "|" x)
  | EText, Child _ (Number _) :: _ => false
  | EText, _ => true
  | ECount, Child _ Leading :: _ => true
  | ECount, _ => false
  | EField f, s => match f with FieldName n => field_name_b n | FieldAttr x => field_name_b x | FieldText => true end &&
      match s with AnyKid :: _ => false | Child _ (Number _) :: _ => false | _ => true end
  end.
Lemma qend_b_ok : forall steps e, qend_b steps e = true -> good_qend steps e.
Proof.
  intros steps [|x| | |f] H; cbn [good_qend]; unfold qend_b in H.
  - exact I.
  - now apply not_mem.
  - intros a n ds ->. rewrite rev_app_distr in H. discriminate.
  - destruct (rev steps) as [|[n [| |]| | |] t] eqn:R; try discriminate. exists (rev t), n. rewrite <- (rev_involutive steps), R. reflexivity.
  - apply andb_true_iff in H. destruct H as [H1 H2]. split.
    + destruct f; cbn [good_field]; auto using field_name_b_ok.
    + intros a. split; [intros ->|intros n ds ->]; rewrite rev_app_distr in H2; discriminate.
Qed.
Fixpoint well_split_b (steps : list qstep) : bool :=
  match steps with
  | Child _ Leading :: Kid _ _ :: _ => false
  | _ :: rest => well_split_b rest
  | [] => true
  end.
Lemma well_split_b_ok : forall steps, well_split_b steps = true -> well_split steps.
Proof.
  induction steps as [|s rest IH]; intros H; [exact I|]. cbn [well_split well_split_b] in *. destruct s as [n [| |]| | |]; auto.
  destruct rest as [|[ | | | ] rest']; auto. discriminate.
Qed.
Lemma query_b_ok : forall steps e, steps <> [] -> forallb qstep_b steps = true -> well_split_b steps = true -> qend_b steps e = true ->
  Nat.leb (len (query_parts steps e)) 100 = true -> good_query steps e.
Proof.
  intros steps e H1 H2 H3 H4 H5. constructor; auto.
  - apply Forall_forall. intros x Hx. rewrite forallb_forall in H2. apply qstep_b_ok. auto.
  - now apply well_split_b_ok.
  - now apply qend_b_ok.
  - now apply Nat.leb_le.
Qed.
