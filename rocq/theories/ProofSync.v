(** Lemmas for C109. *)
From Coq Require Import List Ascii String NArith ZArith Bool Lia Permutation.
From Verif Require Import GoStr ModelParser ModelPath ModelResult ModelQuery ModelValidate ModelBuilder SpecText SpecPath SpecTree SpecQuery SpecEdit SpecContent SpecValid SpecMod SpecHistory SpecTable SpecStore SpecBudget SpecFill SpecLayer SpecSync
  ProofBase ProofStore ProofUndo ProofLedger ProofLayer PropStore.
Import ListNotations.
Open Scope nat_scope.

(** ** Maps *)
Lemma do_all_app : forall a b D, do_all (a ++ b) D = do_all b (do_all a D).
Proof. intros. unfold do_all. apply fold_left_app. Qed.
Lemma adjustments_app : forall T a b D, adjustments T (a ++ b) D = adjustments T a D ++ adjustments T b (do_all (adjustments T a D) D).
Proof. intros T. induction a as [|q a IH]; intros b D; [reflexivity|]. cbn [app adjustments]. rewrite IH, <- app_assoc, do_all_app. reflexivity. Qed.
Lemma adjustments_one : forall T q D, adjustments T [q] D = adjustment T q D.
Proof. intros. cbn [adjustments]. apply app_nil_r. Qed.
Lemma value_trim : forall T k v, value_at T (Content k) = Some v -> trim_space v = v.
Proof. intros T k v H. unfold value_at in H. cbn [place_key] in H. destruct (T k); [|discriminate]. injection H as <-. apply trim_space_idem. Qed.
(** A place that has been adjusted agrees with the target. *)
Lemma adjusted : forall T q D, value_at (do_all (adjustment T q D) D) q = value_at T q.
Proof.
  intros T q D. unfold adjustment. destruct (value_at T q) as [v|] eqn:QT, (value_at D q) as [w|] eqn:QD.
  - destruct (bytes_eqb v w) eqn:B; [apply bytes_eqb_eq in B; subst; exact QD|]. cbn [do_all fold_left].
    destruct q as [k|k x]; unfold value_at, do_store; cbn [writing key_of place_key]; rewrite (proj2 (same_key_spec k k) eq_refl).
    + destruct (D k); cbn [in_entry content_of]; now rewrite (value_trim _ _ _ QT).
    + destruct (D k); cbn [in_entry attribute]; unfold put_mark; now rewrite bytes_eqb_refl.
  - cbn [do_all fold_left]. destruct q as [k|k x]; unfold value_at, do_store; cbn [writing key_of place_key]; rewrite (proj2 (same_key_spec k k) eq_refl).
    + destruct (D k); cbn [in_entry content_of]; now rewrite (value_trim _ _ _ QT).
    + destruct (D k); cbn [in_entry attribute]; unfold put_mark; now rewrite bytes_eqb_refl.
  - cbn [do_all fold_left]. destruct q as [k|k x]; unfold value_at, do_store; cbn [removing key_of place_key]; rewrite (proj2 (same_key_spec k k) eq_refl); cbn [in_entry]; [reflexivity|].
    destruct (D k); [|reflexivity]. cbn [attribute]. unfold put_mark. now rewrite bytes_eqb_refl.
  - exact QD.
Qed.
(** Adjusting another place keeps the agreement. *)
Lemma agreement_kept : forall T q q' D, value_at D q = value_at T q -> value_at (do_all (adjustment T q' D) D) q = value_at T q.
Proof.
  intros T q q' D A. destruct (same_place q q') eqn:SP; [apply same_place_spec in SP; subst q'; apply adjusted|].
  destruct (same_key (place_key q) (place_key q')) eqn:SK.
  - apply same_key_spec in SK. destruct q as [k|k x], q' as [k'|k' x']; cbn [place_key] in SK; subst k'; cbn [same_place] in SP; rewrite ?(proj2 (same_key_spec k k) eq_refl) in SP; cbn [andb] in SP; try discriminate SP.
    + unfold adjustment. unfold value_at in *. cbn [place_key] in *. destruct (T k) as [t|] eqn:QT, (D k) as [e|] eqn:QD; cbn [do_all fold_left]; try discriminate A; try (rewrite QD; exact A).
      destruct (attribute t x') as [v|], (attribute e x') as [w|]; try destruct (bytes_eqb v w); cbn [do_all fold_left]; unfold do_store; cbn [writing removing key_of]; rewrite ?(proj2 (same_key_spec k k) eq_refl), QD; cbn [in_entry content_of]; exact A.
    + unfold adjustment. unfold value_at in *. cbn [place_key] in *. destruct (T k) as [t|] eqn:QT, (D k) as [e|] eqn:QD; cbn [do_all fold_left].
      * destruct (bytes_eqb _ _); cbn [do_all fold_left]; unfold do_store; cbn [writing key_of]; rewrite ?(proj2 (same_key_spec k k) eq_refl), QD; cbn [in_entry attribute]; exact A.
      * unfold do_store. cbn [writing key_of]. rewrite (proj2 (same_key_spec k k) eq_refl), QD. cbn [in_entry attribute]. exact A.
      * unfold do_store. cbn [removing key_of]. rewrite (proj2 (same_key_spec k k) eq_refl). cbn [in_entry]. reflexivity.
      * rewrite QD. reflexivity.
    + unfold adjustment. unfold value_at in *. cbn [place_key] in *. destruct (T k) as [t|] eqn:QT, (D k) as [e|] eqn:QD; cbn [do_all fold_left].
      * destruct (attribute t x') as [v|], (attribute e x') as [w|]; try destruct (bytes_eqb v w); cbn [do_all fold_left]; unfold do_store; cbn [writing removing key_of]; rewrite ?(proj2 (same_key_spec k k) eq_refl), QD; cbn [in_entry attribute]; unfold put_mark; rewrite ?SP; exact A.
      * destruct (attribute t x') as [v|]; cbn [do_all fold_left]; unfold do_store; cbn [writing key_of]; rewrite ?(proj2 (same_key_spec k k) eq_refl), QD; cbn [in_entry attribute]; unfold put_mark; rewrite ?SP; exact A.
      * destruct (attribute e x') as [w|]; cbn [do_all fold_left]; unfold do_store; cbn [removing key_of]; rewrite ?(proj2 (same_key_spec k k) eq_refl), QD; cbn [in_entry attribute]; unfold put_mark; rewrite ?SP; exact A.
      * rewrite QD. reflexivity.
  - assert (X : forall o, In o (adjustment T q' D) -> key_of o = place_key q').
    { unfold adjustment. intros o I. destruct (value_at T q'), (value_at D q'); try destruct (bytes_eqb _ _); cbn [In] in I; destruct I as [<-|[]] || destruct I; now destruct q'. }
    assert (Y : do_all (adjustment T q' D) D (place_key q) = D (place_key q)).
    { assert (Z : forall ops D, (forall o, In o ops -> key_of o = place_key q') -> do_all ops D (place_key q) = D (place_key q)); [|now apply Z].
      clear - SK. induction ops as [|o ops IH]; intros D H; [reflexivity|]. cbn [do_all fold_left]. change (do_all ops (do_store o D) (place_key q) = D (place_key q)). rewrite IH by (intros; apply H; now right).
      unfold do_store. rewrite (H o (or_introl eq_refl)), SK. reflexivity. }
    unfold value_at in *. rewrite Y. exact A.
Qed.
Lemma all_adjusted : forall T ps D q, In q ps \/ value_at D q = value_at T q -> value_at (do_all (adjustments T ps D) D) q = value_at T q.
Proof.
  intros T. induction ps as [|p ps IH]; intros D q [I|A]; cbn [adjustments]; [destruct I|exact A| |]; rewrite do_all_app; apply IH.
  - destruct I as [->|I]; [right; apply adjusted|now left].
  - right. now apply agreement_kept.
Qed.
Lemma nothing_left : forall T ps D, (forall q, In q ps -> value_at D q = value_at T q) -> adjustments T ps D = [].
Proof.
  intros T. induction ps as [|q ps IH]; intros D A; [reflexivity|]. cbn [adjustments]. assert (X : adjustment T q D = []).
  { unfold adjustment. rewrite (A q (or_introl eq_refl)). destruct (value_at T q) as [v|]; [|reflexivity]. now rewrite bytes_eqb_refl. }
  rewrite X. cbn [app do_all fold_left]. apply IH. intros; apply A; now right.
Qed.
(** Keys outside stay. *)
Lemma adjustments_key : forall T ps D o, In o (adjustments T ps D) -> In (key_of o) (map place_key ps).
Proof.
  intros T. induction ps as [|q ps IH]; intros D o I; [destruct I|]. cbn [adjustments] in I. apply in_app_or in I as [I|I]; [left|right; eauto].
  unfold adjustment in I. destruct (value_at T q), (value_at D q); try destruct (bytes_eqb _ _); cbn [In] in I; destruct I as [<-|[]] || destruct I; now destruct q.
Qed.
Lemma do_all_other : forall ops D k, ~ In k (map key_of ops) -> do_all ops D k = D k.
Proof.
  induction ops as [|o ops IH]; intros D k N; [reflexivity|]. cbn [map In] in N. cbn [do_all fold_left]. change (do_all ops (do_store o D) k = D k). rewrite IH by tauto. unfold do_store.
  destruct (same_key k (key_of o)) eqn:Q; [|reflexivity]. apply same_key_spec in Q. subst. tauto.
Qed.

(** ** Calls *)
Lemma removing_call : forall E fmt_g q d, call E fmt_g (store_edit (removing q)) d = delete E d (place_path q).
Proof. intros E g [k|k x] d; reflexivity. Qed.
Lemma one_call : forall E fmt_g o d, calls E fmt_g [o] d = call E fmt_g o d.
Proof. intros. rewrite calls_cons. destruct (call E fmt_g o d) as [[d' [e|]]| |]; reflexivity. Qed.
Lemma adjust_calls : forall E fmt_g K target T q d D, reads_store E target K T -> reads_store E d K D -> K (place_key q) -> good_place q ->
  adjust E fmt_g target q d = calls E fmt_g (map store_edit (adjustment T q D)) d.
Proof.
  intros E g K target T q d D RT RD Kq Gq. unfold adjust. destruct (reads_value E target K T q RT Kq Gq) as (r & G & A). destruct (reads_value E d K D q RD Kq Gq) as (s & G' & A').
  rewrite G, G'. cbn [bind]. unfold adjustment. destruct (value_at T q) as [v|], (value_at D q) as [w|].
  - destruct A as [-> ->], A' as [-> ->]. cbn [andb]. destruct (bytes_eqb v w); [reflexivity|]. cbn [map]. now rewrite one_call, writing_call.
  - destruct A as [-> ->]. rewrite A'. cbn [andb map]. now rewrite one_call, writing_call.
  - rewrite A. destruct A' as [-> _]. cbn [map]. now rewrite one_call, removing_call.
  - now rewrite A, A'.
Qed.
Lemma sync_app : forall E fmt_g target a b d, sync E fmt_g target (a ++ b) d =
  (let* x := sync E fmt_g target a d in match x with (d', None) => sync E fmt_g target b d' | (_, Some _) => Ok x end).
Proof.
  intros E g target. induction a as [|q a IH]; intros b d; [reflexivity|]. cbn [app sync]. destruct (adjust E g target q d) as [[d' [e|]]| |]; cbn [bind]; try reflexivity. apply IH.
Qed.
Lemma sync_one : forall E fmt_g target q d, sync E fmt_g target [q] d = adjust E fmt_g target q d.
Proof. intros. cbn [sync]. destruct (adjust E fmt_g target q d) as [[d' [e|]]| |]; reflexivity. Qed.

Section Sync.
  Variable E : env.
  Variable fmt_g : f64 -> bytes.
  Hypothesis Hord : forall k l, Permutation l (e_ord E k l).
  Variable p : bytes.
  Hypothesis Hp : prolog p.
  Hypothesis SP : strict_prolog p.
  Variable F : list node.
  Hypothesis HG : Forall good F.
  Hypothesis HT : Forall top_node F.
  Hypothesis HS : shallow F.
  Hypothesis HR : room p F.
  Variable K : list bytes -> Prop.
  Hypothesis HK : keys K.
  Variable D : store.
  Hypothesis ST : stores K F D.
  Variable target : bytes.
  Variable T : store.
  Hypothesis RT : reads_store E target K T.
  Lemma sync_ok : forall ps F', Forall (fun q => K (place_key q) /\ good_place q) ps -> history p (map store_edit (adjustments T ps D)) F F' ->
    exists d, sync E fmt_g target ps (p ++ forest_text F) = Ok (d, None) /\ calls E fmt_g (map store_edit (adjustments T ps D)) (p ++ forest_text F) = Ok (d, None) /\
      valid d = true /\ reads_store E d K (do_all (adjustments T ps D) D).
  Proof.
    induction ps as [|q ps IH] using rev_ind; intros F' FP H.
    - destruct (C93_store E fmt_g p F K D [] F Hord Hp SP HG HT HS HR HK ST (Forall_nil _) (his_nil _ _)) as (d & C & V & R). exists d. split; [exact C|]. split; [exact C|]. now split.
    - apply Forall_app in FP as [FP FQ]. inversion FQ as [|? ? [Kq Gq] _]; subst. rewrite adjustments_app, adjustments_one in *. rewrite map_app in H. destruct (history_app _ _ _ _ _ H) as (F1 & H1 & H2).
      destruct (IH F1 FP H1) as (d & S & C & V & R). set (D1 := do_all (adjustments T ps D) D) in *.
      pose proof (adjust_calls E fmt_g K target T q d D1 RT R Kq Gq) as AC.
      assert (KO : Forall (fun o => K (key_of o)) (adjustments T ps D ++ adjustment T q D1)).
      { apply Forall_forall. intros o I. apply in_app_or in I. assert (X : In (key_of o) (map place_key (ps ++ [q]))).
        { rewrite map_app. apply in_or_app. destruct I as [I|I]; [left; now apply adjustments_key in I|right]. rewrite <- adjustments_one in I. now apply adjustments_key in I. }
        apply in_map_iff in X as (q' & <- & X). apply in_app_or in X as [X|[<-|[]]]; [|exact Kq]. rewrite Forall_forall in FP. now apply FP. }
      assert (HA : history p (map store_edit (adjustments T ps D ++ adjustment T q D1)) F F') by (rewrite map_app; exact H).
      destruct (C93_store E fmt_g p F K D _ F' Hord Hp SP HG HT HS HR HK ST KO HA) as (d' & C' & V' & R'). exists d'.
      split; [|split; [exact C'|split; [exact V'|exact R']]].
      rewrite sync_app, S. cbn [bind]. rewrite sync_one, AC. rewrite map_app, calls_app, C in C'. exact C'.
  Qed.
End Sync.
Lemma sync_quiet : forall E fmt_g K target T ps d D, reads_store E target K T -> reads_store E d K D -> Forall (fun q => K (place_key q) /\ good_place q) ps ->
  (forall q, In q ps -> value_at D q = value_at T q) -> sync E fmt_g target ps d = Ok (d, None).
Proof.
  intros E g K target T ps d D RT RD. induction ps as [|q ps IH]; intros FP A; [reflexivity|]. inversion FP as [|? ? [Kq Gq] FP']; subst. cbn [sync]. rewrite (adjust_calls E g K target T q d D RT RD Kq Gq).
  pose proof (nothing_left T [q] D) as X. rewrite adjustments_one in X. rewrite X by (intros q' [<-|[]]; apply A; now left). cbn [map calls bind]. apply IH; [exact FP'|]. intros; apply A; now right.
Qed.
