(** What Get says about canonical documents. *)
From Coq Require Import List Ascii String NArith ZArith Bool Lia Permutation DecimalString DecimalN.
From Coq Require Decimal.
From Verif Require Import GoStr ModelParser ModelPath ModelResult ModelQuery ModelApi SpecText SpecPath SpecTree SpecQuery
  ProofBase ProofEscape ProofPath ProofScan ProofSyntax ProofFuel ProofMono ProofTree ProofTree2 ProofTree3 ProofTree4.
Import ListNotations.

(** ** Decimal numerals *)
Definition dstep (n : N) (c : ascii) : N := (n * 10 + (N_of_ascii c - 48))%N.
Lemma uint_fold : forall d p, fold_left dstep (bs (NilEmpty.string_of_uint d)) (Npos p) = Npos (Pos.of_uint_acc d p).
Proof.
  induction d; intros p; cbn [NilEmpty.string_of_uint bs list_ascii_of_string fold_left Pos.of_uint_acc]; auto;
    try (rewrite <- IHd; f_equal; unfold dstep; cbn -[N.mul N.add Pos.mul Pos.add]; lia).
Qed.
Lemma uint_fold0 : forall d, fold_left dstep (bs (NilEmpty.string_of_uint d)) 0%N = N.of_uint d.
Proof.
  induction d; cbn [NilEmpty.string_of_uint bs list_ascii_of_string fold_left]; auto;
    try (match goal with |- fold_left _ _ ?a = _ => let v := eval vm_compute in a in change a with v end;
         fold (bs (NilEmpty.string_of_uint d)); rewrite ?uint_fold; auto).
Qed.
Lemma uint_digits : forall d, Forall digit (bs (NilEmpty.string_of_uint d)).
Proof. induction d; cbn; constructor; auto; unfold digit; cbn; lia. Qed.
Lemma itoa_spec : forall n, Forall digit (itoa n) /\ decimal_value (itoa n) = N.of_nat n.
Proof.
  intros n. unfold itoa, NilZero.string_of_uint. pose proof (Unsigned.of_to (N.of_nat n)) as H.
  destruct (N.to_uint (N.of_nat n)) as [|u|u|u|u|u|u|u|u|u|u]; rewrite <- H;
    try (split; [apply (uint_digits _)|apply (uint_fold0 _)]).
  split; [repeat constructor; unfold digit; cbn; lia|reflexivity].
Qed.

(** ** Paths *)
Lemma segs_parse : forall steps fin, good_tpath steps fin -> parse_path (tpath steps fin) = Ok (segs_of steps fin).
Proof.
  intros steps fin [Hs Hf Hl]. unfold tpath. set (l := map (fun s => (s, [])) (tpath_steps steps fin)).
  assert (NE : tpath_steps steps fin <> []).
  { unfold tpath_steps. destruct steps as [|[n [ds|]] steps]; [|discriminate|discriminate].
    destruct fin; cbn [good_final final_steps flat_map app] in *; try discriminate; now try tauto. }
  replace (segs_of steps fin) with (map step_seg l) by (unfold l, segs_of; now rewrite map_map).
  apply parse_steps.
  - unfold l. intros K. apply NE. destruct (tpath_steps steps fin); [auto|discriminate].
  - unfold l. rewrite Forall_map. apply Forall_forall. intros st Hst. cbn [fst snd]. split; [|constructor].
    unfold tpath_steps in Hst. apply in_app_or in Hst. destruct Hst as [Hst|Hst].
    + apply in_flat_map in Hst. destruct Hst as [[n idx] [K1 K2]]. rewrite Forall_forall in Hs. destruct (Hs _ K1) as [G1 G2].
      cbn [fst snd] in G1, G2. destruct idx as [ds|]; cbn [tstep_steps In] in K2.
      * destruct K2 as [<-|[<-|[]]]; cbn [good_step]; auto. apply G1.
      * destruct K2 as [<-|[]]. apply G1.
    + destruct fin; cbn [final_steps In] in Hst; repeat (destruct Hst as [<-|Hst]); try contradiction; cbn [good_step good_final] in *; tauto.
  - unfold l, tpath_steps. clear -l. clearbody l. clear l. induction steps as [|[n [ds|]] steps IH]; cbn [flat_map tstep_steps app map].
    + destruct fin; exact I.
    + exact IH.
    + exact IH.
  - unfold l. rewrite map_length. exact Hl.
Qed.

(** ** Results *)
Lemma is_element_text : forall kids r, same_element kids r -> Forall good kids -> is_element kids r.
Proof.
  intros kids r [kids' [H ->]] G. split; [reflexivity|].
  assert (G' : Forall good kids') by (eapply same_good_all; eauto). split.
  - unfold r_element. cbn [r_string]. rewrite extract_text_forest by auto. rewrite (same_all_text _ _ H). apply unescape_decodes.
  - exists kids'. auto.
Qed.
Definition good_answer (a : answer) : Prop :=
  match a with
  | Element kids | TextAnswer kids => Forall good kids
  | Elements l => Forall (Forall good) l
  | _ => True
  end.
Lemma denotes_describes : forall a r, denotes a r -> good_answer a -> describes r a.
Proof.
  intros [|kids|v|kids|n|l] r H G; cbn [denotes describes good_answer] in *.
  - now subst.
  - now apply is_element_text.
  - subst. split; reflexivity.
  - destruct H as [kids' [H ->]]. split; [reflexivity|]. unfold r_text. cbn [r_string].
    rewrite extract_direct_forest by (eapply same_good_all; eauto). rewrite (same_own_text _ _ H). apply unescape_decodes.
  - subst. destruct (itoa_spec n). repeat split; auto.
  - destruct H as [rs [-> H]]. split; [reflexivity|]. cbn [r_array r_results].
    induction H; inversion G; subst; constructor; auto. now apply is_element_text.
Qed.
Lemma called_good : forall f F, Forall good F -> Forall good (called f F).
Proof. intros f F H. apply Forall_forall. intros x Hx. apply filter_In in Hx. rewrite Forall_forall in H. now apply H. Qed.
Lemma final_good : forall fin nd, good nd -> good_answer (final_answer fin nd).
Proof.
  intros fin nd H. destruct fin; cbn [final_answer good_answer]; auto using good_kids.
  destruct (attr_value a (attrs_of nd)); exact I.
Qed.
Lemma first_good : forall f l, Forall good l -> (forall nd, good nd -> good_answer (f nd)) -> good_answer (first_answer f l).
Proof.
  intros f l H Hf. induction H; cbn [first_answer]; [exact I|]. pose proof (Hf x H) as K. now destruct (f x).
Qed.
Lemma query_good : forall steps fin top F, Forall good F -> good_answer (query top steps fin F).
Proof.
  induction steps as [|[n idx] rest IH]; intros fin top F G.
  - destruct fin; try exact I. cbn [query].
    assert (K : Forall good (firstn 1000 (elems F))).
    { apply Forall_forall. intros x Hx. apply (fun h => proj1 (Forall_forall _ _) (good_elems _ G) x h).
      rewrite <- (firstn_skipn 1000). apply in_or_app. now left. }
    revert K. generalize (firstn 1000 (elems F)). intros l K. destruct K as [|a l K1 K2]; [exact I|].
    destruct K2 as [|b l K2 K3]; cbn [list_answer good_answer map]; auto using good_kids.
    constructor; auto using good_kids. constructor; auto using good_kids. apply Forall_map. eapply Forall_impl; [|exact K3].
    auto using good_kids.
  - rewrite query_cons. cbv zeta.
    assert (AT : forall nd, good nd -> good_answer (if is_last rest fin then final_answer fin nd else query false rest fin (kids_of nd))).
    { intros nd Hnd. destruct (is_last rest fin); auto using final_good, good_kids. }
    destruct idx as [ds|].
    + destruct (nth_error _ _) as [nd|] eqn:Q; [|exact I]. apply AT. apply nth_error_In in Q.
      apply (fun h => proj1 (Forall_forall _ _) (called_good (if top then bytes_eqb n else selects n) F G) nd h).
      rewrite <- (firstn_skipn 1000). apply in_or_app. now left.
    + destruct (is_last rest fin) eqn:IL.
      * pose proof (called_good (selects n) F G) as K.
        destruct fin; try (destruct K; [exact I|now apply final_good]).
        unfold count_answer. now destruct (List.length _).
      * apply first_good; auto using called_good.
Qed.

Section Get.
  Variable E : env.
  Hypothesis Hord : forall k l, Permutation l (e_ord E k l).
  Lemma get_query : forall s F steps fin, reads E s F -> (blen s <= 10485760)%N -> good_tpath steps fin ->
    exists r, get E s (tpath steps fin) = Ok r /\ denotes (query true steps fin F) r.
  Proof.
    intros s F steps fin HR HS HP. pose proof (segs_parse _ _ HP) as P.
    assert (NE : segs_of steps fin <> []).
    { intros K. unfold segs_of in K. apply map_eq_nil in K. destruct HP as [_ Hf _]. unfold tpath_steps in K.
      apply app_eq_nil in K. destruct K as [K1 K2]. destruct steps as [|[n [ds|]] steps]; try discriminate.
      destruct fin; cbn [good_final] in Hf; try discriminate; tauto. }
    rewrite (get_exec E s _ _ (S (Nat.max (cost (segs_of steps fin)) (len (segs_of steps fin)))) HS P NE) by lia.
    destruct HP as [H1 H2 _]. apply exec_query; auto. lia.
  Qed.
  Lemma get_query_text : forall p F F' steps fin, prolog p -> Forall2 same F F' -> Forall good F ->
    (blen (p ++ forest_text F') <= 10485760)%N -> good_tpath steps fin ->
    exists r, get E (p ++ forest_text F') (tpath steps fin) = Ok r /\ denotes (query true steps fin F) r.
  Proof. intros p F F' steps fin Hp HS HG HL HP. apply get_query; auto. apply reads_text; auto using skippable_prolog. Qed.
End Get.
