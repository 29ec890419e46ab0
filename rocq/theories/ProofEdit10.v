(** On canonical documents the editing functions return for every path. *)
From Coq Require Import List Ascii String NArith ZArith Bool Lia Permutation.
From Verif Require Import GoStr ModelParser ModelPath ModelResult ModelQuery ModelValidate ModelBuilder SpecText SpecPath SpecTree SpecQuery SpecEdit SpecValid SpecHistory
  ProofBase ProofEscape ProofPath ProofScan ProofSyntax ProofApi2 ProofTree ProofTree2 ProofTree3 ProofTree4 ProofTree5 ProofTree7 ProofEdit ProofEdit2 ProofEdit3 ProofFuel2 ProofEdit5.
Import ListNotations.

(** A good element of the text, with what is around it. *)
Definition within (F : list node) (A : bytes) (nd : node) (B : bytes) : Prop :=
  forest_text F = A ++ node_text nd ++ B /\ good nd /\ is_elem nd = true.
Lemma within_here : forall F1 n a self kids F2, Forall good (F1 ++ Elem n a self kids :: F2) ->
  within (F1 ++ Elem n a self kids :: F2) (forest_text F1) (Elem n a self kids) (forest_text F2).
Proof. intros F1 n a self kids F2 G. split; [now rewrite forest_app, forest_cons|]. apply Forall_app in G. destruct G as [_ G]. inversion G. auto. Qed.
Lemma within_down : forall F1 n a kids F2 A nd B, within kids A nd B ->
  within (F1 ++ Elem n a false kids :: F2) (forest_text F1 ++ start_tag n a false ++ A) nd (B ++ end_tag n ++ forest_text F2).
Proof.
  intros F1 n a kids F2 A nd B [H1 H2]. split; auto. rewrite forest_app, forest_cons, node_elem, H1, <- !app_assoc. reflexivity.
Qed.
Lemma scanned_in : forall F es, scanned F es -> forall e, In e es ->
  exists F1 n a self kids kids' F2, F = F1 ++ Elem n a self kids :: F2 /\ Forall2 same kids kids' /\
    e = mkElem n a self (forest_text kids') (forest_text (Elem n a self kids :: F2))
         ((if self then [] else forest_text kids ++ end_tag n) ++ forest_text F2) (forest_text F2).
Proof.
  intros F es H e I. apply In_nth_error in I. destruct I as [i I].
  assert (FT : filter (fun e => (fun _ => true) (e_name e)) es = es) by (clear; induction es as [|x es IH]; [reflexivity|]; cbn [filter]; now rewrite IH).
  rewrite <- FT in I. destruct (scanned_nth (fun _ => true) F es H i e I) as [F1 [n [a [self [kids [kids' [F2 [H1 [_ [_ [H2 H3]]]]]]]]]]].
  exists F1, n, a, self, kids, kids', F2. auto.
Qed.
Lemma nth_elem_in : forall l i e, nth_elem l i = Some e -> In e l.
Proof. intros l i e H. unfold nth_elem in H. destruct (_ && _)%bool; [|discriminate]. now apply nth_error_In in H. Qed.
Lemma filter_in : forall A (f : A -> bool) l x, In x (filter f l) -> In x l.
Proof. intros A f l x H. now apply filter_In in H. Qed.

Section Safe.
  Variable E : env.
  Hypothesis Hord : forall k l, Permutation l (e_ord E k l).

  Definition found_in (F : list node) (base : Z) (r : option location) : Prop :=
    match r with Some l => exists A nd B, within F A nd B /\ at_loc base A nd l | None => True end.
  (** One element of a level: its location, and the place of its content. *)
  Lemma level : forall F F' p key, Forall2 same F F' -> Forall good F -> skippable p ->
    exists es, scan_res E key (p ++ forest_text F') = Ok es /\ scanned F' es /\
    forall e, In e es ->
      (forall base, found_in F (base + Z.of_nat (len p)) (Some (elem_location (p ++ forest_text F') base e))) /\
      exists kids kids', Forall2 same kids kids' /\ Forall good kids /\ e_content e = forest_text kids' /\
        forall base r, found_in kids (base + pos_of (p ++ forest_text F') (e_body e)) r -> found_in F (base + Z.of_nat (len p)) r.
  Proof.
    intros F F' p key S G Hp. assert (G' : Forall good F') by (eapply same_good_all; eauto).
    destruct (scan_forest (e_ord E) key F' Hord G') as [es [SC SD]]. exists es.
    split; [unfold scan_res; rewrite scan_skip by auto; now rewrite SC|]. split; auto. intros e IN.
    destruct (scanned_in F' es SD e IN) as [F1' [m [a' [self [kids1 [kids' [F2' [EF [Sk Ee]]]]]]]]].
    pose proof S as S0. rewrite EF in S0. apply Forall2_app_inv_r in S0. destruct S0 as [F1 [Fr [S1 [S2 EF0]]]].
    inversion S2 as [|nd0 nd1 F2 F2x SA SB X1 X2]; subst nd1 F2x. inversion SA as [m0 a a0 self0 kids k0 Pa Sk1| |]; subst m0 a0 self0 k0. subst nd0 Fr.
    pose proof (same_length_all _ _ S1) as L1. pose proof (same_length_all _ _ SB) as L2. pose proof (same_length_all _ _ Sk1) as L3.
    pose proof (start_tag_len m a a' self Pa) as L4. rewrite EF0 in G. pose proof (within_here F1 m a self kids F2 G) as W.
    assert (GE : good (Elem m a self kids)) by apply W.
    assert (GE' : good (Elem m a' self kids1)) by (rewrite EF in G'; apply Forall_app in G'; destruct G' as [_ G']; now inversion G').
    inversion GE as [? ? ? ? XN XA XS XK| |]; subst n a0 self0 kids0. inversion GE' as [? ? ? ? XN' XA' XS' XK'| |]; subst n a0 self0 kids0.
    assert (EB : e_body e = (if self then [] else forest_text kids1 ++ end_tag m) ++ forest_text F2') by (rewrite Ee; reflexivity).
    assert (EL : len (p ++ forest_text F') = len p + (len (forest_text F1') + (len (start_tag m a' self) + len (if self then [] else forest_text kids1 ++ end_tag m)) + len (forest_text F2'))).
    { rewrite EF, app_length, forest_app, forest_cons, !app_length, node_len by auto. lia. }
    assert (PB : pos_of (p ++ forest_text F') (e_body e) = Z.of_nat (len p + (len (forest_text F1') + len (start_tag m a' self)))).
    { unfold pos_of. rewrite EL, EB, app_length. lia. }
    rewrite EF0. split.
    - intros base. exists (forest_text F1), (Elem m a self kids), (forest_text F2). split; auto.
      assert (EN : e_name e = m) by (rewrite Ee; reflexivity). assert (EA : e_attrs e = a') by (rewrite Ee; reflexivity).
      assert (ES : e_self e = self) by (rewrite Ee; reflexivity).
      unfold elem_location. constructor; cbn [l_start l_content_start l_content_end l_end_tag l_name l_attrs l_self]; auto; try (now rewrite EA).
      + rewrite Ee. cbn [e_start]. unfold pos_of. rewrite EL, forest_cons, app_length, node_len by auto. lia.
      + rewrite PB. lia.
      + rewrite PB, ES. destruct self; [lia|].
        rewrite Ee. cbn [e_after e_name]. unfold pos_of. rewrite EL, app_length, end_tag_len. lia.
    - exists kids, kids'. split; [eapply same_all_trans; eauto|]. split; auto. split; [rewrite Ee; reflexivity|].
      intros base r FI. destruct r as [l|]; [|exact I]. destruct FI as [A [nd [B [W1 AT]]]].
      destruct self.
      { exfalso. destruct W1 as [W1 [_ W2]]. rewrite (XS eq_refl) in W1. cbn [forest_text flat_map] in W1. destruct nd as [n3 a3 s3 k3| |]; try discriminate.
        symmetry in W1. apply app_eq_nil in W1. destruct W1 as [_ W1]. apply app_eq_nil in W1. destruct W1 as [W1 _]. cbn [node_text] in W1. discriminate. }
      exists (forest_text F1 ++ start_tag m a false ++ A), nd, (B ++ end_tag m ++ forest_text F2). split; [now apply within_down|].
      rewrite PB in AT. inversion AT as [n1 a1 self1 kids2 l1 B1 B2 B3 B4 B5 B6 B7]; subst nd l1. constructor; auto.
      + rewrite B1, !app_length. lia.
      + rewrite B2, !app_length. lia.
  Qed.
  Lemma find_loc_safe : forall o k segs, len segs <= k -> forall F F' p base key, Forall2 same F F' -> Forall good F -> skippable p ->
    exists r, find_loc E o key (p ++ forest_text F') segs base = Ok r /\ found_in F (base + Z.of_nat (len p)) r.
  Proof.
    intros o. induction k as [|k IH]; intros segs LS F F' p base key S G Hp.
    { destruct segs; [|cbn in LS; lia]. exists None. split; [|exact I]. cbn [find_loc]. now destruct (_ <? _)%Z. }
    destruct segs as [|sg rest]; [exists None; split; [|exact I]; cbn [find_loc]; now destruct (_ <? _)%Z|].
    cbn [find_loc]. destruct (_ <? _)%Z; [exists None; split; [reflexivity|exact I]|].
    destruct (level F F' p key S G Hp) as [es [SR [SD LV]]]. rewrite SR. cbn [bind]. cbn [List.length] in LS.
    assert (NX : forall e segs2, In e es -> len segs2 <= k ->
      exists r, find_loc E o (child_key site_query e key) (e_content e) segs2 (base + pos_of (p ++ forest_text F') (e_body e)) = Ok r /\ found_in F (base + Z.of_nat (len p)) r).
    { intros e segs2 IN L2. destruct (LV e IN) as [_ L]. destruct L as [kids [kids' [Sk [Gk [Ec T]]]]].
      destruct (IH segs2 L2 kids kids' [] (base + pos_of (p ++ forest_text F') (e_body e))%Z (child_key site_query e key) Sk Gk skippable_nil) as [r [R1 R2]].
      cbn [app List.length] in R1, R2. rewrite Z.add_0_r in R2. rewrite Ec. exists r. split; auto. }
    set (ms := filter _ es). assert (MI : forall e, In e ms -> In e es) by (intros e; apply filter_in).
    destruct rest as [|nx rest2].
    - destruct ms as [|e ms]; [exists None; split; [reflexivity|exact I]|]. eexists. split; [reflexivity|]. apply LV. apply MI. now left.
    - assert (G1 : exists r, match ms with [] => Ok None | e :: _ => let nb := (base + pos_of (p ++ forest_text F') (e_body e))%Z in
        if (MaxPositionOffset <? nb)%Z then Ok None else find_loc E o (child_key site_query e key) (e_content e) (nx :: rest2) nb end = Ok r /\ found_in F (base + Z.of_nat (len p)) r).
      { destruct ms as [|e ms]; [exists None; split; [reflexivity|exact I]|]. cbv zeta. destruct (_ <? _)%Z; [exists None; split; [reflexivity|exact I]|].
        apply NX; [apply MI; now left|lia]. }
      destruct (s_type nx); auto.
      destruct (nth_elem ms (s_index nx)) as [e|] eqn:Q; [|exists None; split; [reflexivity|exact I]]. apply nth_elem_in in Q. apply MI in Q.
      destruct rest2 as [|r3 rest3]; [eexists; split; [reflexivity|]; now apply LV|]. cbv zeta. destruct (_ <? _)%Z; [exists None; split; [reflexivity|exact I]|].
      apply NX; auto. cbn [List.length] in LS |- *. lia.
  Qed.

  Section Doc.
  Variable p : bytes.
  Variable F : list node.
  Hypothesis Hp : prolog p.
  Hypothesis Hg : Forall good F.
  Let d := p ++ forest_text F.

  Definition returns {A} (m : Res A) : Prop := exists x, m = Ok x.
  Lemma returns_bind : forall A B (m : Res A) (f : A -> Res B), returns m -> (forall x, m = Ok x -> returns (f x)) -> returns (bind m f).
  Proof. intros A B m f [x ->] H. cbn [bind]. now apply H. Qed.
  Lemma returns_ok : forall A (x : A), returns (Ok x).
  Proof. intros. now exists x. Qed.
  Lemma slice_to_in : forall (x : bytes) n, (0 <= n <= Z.of_nat (len x))%Z -> returns (slice_to x n).
  Proof. intros x n H. unfold slice_to. rewrite (proj2 (andb_true_iff _ _)); [apply returns_ok|]. split; apply Z.leb_le; lia. Qed.
  Lemma slice_from_in : forall (x : bytes) n, (0 <= n <= Z.of_nat (len x))%Z -> returns (slice_from x n).
  Proof. intros x n H. unfold slice_from. rewrite (proj2 (andb_true_iff _ _)); [apply returns_ok|]. split; apply Z.leb_le; lia. Qed.

  (** The positions of a found element lie inside the document, in order. *)
  Definition inside (l : location) : Prop :=
    (0 <= l_start l)%Z /\ (l_start l <= l_content_start l)%Z /\ (l_content_start l <= l_content_end l)%Z /\ l_end_tag l = l_content_end l /\
    (l_content_end l + (if l_self l then 0 else Z.of_nat (len (l_name l)) + 3) <= Z.of_nat (len d))%Z.
  Lemma within_inside : forall A nd B l, within F A nd B -> at_loc (Z.of_nat (len p)) A nd l -> inside l.
  Proof.
    intros A nd B l [W1 [W2 _]] AT. inversion AT as [n a self kids l1 B1 B2 B3 B4 B5 B6 B7]; subst nd l1. unfold inside, d. rewrite B4, B3, B2, B1, B7, B5, app_length, W1, !app_length.
    inversion W2 as [? ? ? ? N0 A0 S0 K0| |]; subst. rewrite node_len by auto. destruct (l_self l); repeat split; try lia. rewrite app_length, end_tag_len. lia.
  Qed.
  Lemma find_inside : forall o key segs, exists r, find_loc E o key d segs 0 = Ok r /\ forall l, r = Some l ->
    inside l /\ exists A n a self kids B, within F A (Elem n a self kids) B /\ at_loc (Z.of_nat (len p)) A (Elem n a self kids) l.
  Proof.
    intros o key segs. destruct (find_loc_safe o (len segs) segs (le_n _) F F p 0%Z key (same_all_refl F) Hg (skippable_prolog p Hp)) as [r [R1 R2]].
    exists r. split; [exact R1|]. intros l ->. destruct R2 as [A [nd [B [W AT]]]]. cbn [Z.add] in AT. split; [eapply within_inside; eauto|].
    inversion AT; subst. eexists _, _, _, _, _, _. eauto.
  Qed.
  Lemma replace_element_returns : forall l v, inside l -> returns (replace_element d l v).
  Proof.
    intros l v [H1 [H2 [H3 [H4 H5]]]]. unfold replace_element. apply returns_bind; [apply slice_to_in; destruct (l_self l); lia|]. intros x _.
    apply returns_bind; [apply slice_from_in; destruct (l_self l); lia|]. intros. apply returns_ok.
  Qed.
  Lemma replace_attribute_returns : forall o l n v, inside l -> returns (replace_attribute o d l n v).
  Proof.
    intros o l n v [H1 [H2 [H3 [H4 H5]]]]. unfold replace_attribute. apply returns_bind; [apply slice_to_in; destruct (l_self l); lia|]. intros x _.
    apply returns_bind; [apply slice_from_in; destruct (l_self l); lia|]. intros. apply returns_ok.
  Qed.
  Lemma delete_attribute_returns : forall o l n, inside l -> returns (delete_attribute o d l n).
  Proof.
    intros o l n [H1 [H2 [H3 [H4 H5]]]]. unfold delete_attribute. destruct (negb _); [apply returns_ok|]. apply returns_bind; [apply slice_to_in; destruct (l_self l); lia|]. intros x _.
    apply returns_bind; [apply slice_from_in; destruct (l_self l); lia|]. intros. apply returns_ok.
  Qed.
  Lemma create_in_parent_returns : forall o key l path v, inside l -> returns (create_in_parent E o key d l path v).
  Proof.
    intros o key l path v [H1 [H2 [H3 [H4 H5]]]]. unfold create_in_parent. destruct (l_self l); (apply returns_bind; [apply slice_to_in; lia|]; intros x _;
    apply returns_bind; [apply slice_from_in; lia|]; intros; apply returns_ok).
  Qed.
  Lemma find_parent_returns : forall o key path n, exists r, find_parent E o key d path n = Ok r /\ forall l i, r = Some (l, i) -> inside l.
  Proof.
    intros o key path. induction n as [|n IH]; [exists None; split; [reflexivity|discriminate]|]. cbn [find_parent].
    destruct (find_inside o (S n :: key) (firstn (S n) path)) as [r [R1 R2]]. rewrite R1. cbn [bind]. destruct r as [l|]; [|exact IH].
    eexists. split; [reflexivity|]. intros l2 i K. injection K as <- <-. now apply R2.
  Qed.
  Lemma create_in_root_returns : forall o key path v, returns (create_in_root E o key d path v).
  Proof.
    intros o key path v. unfold create_in_root. destruct (level F F p (0 :: key) (same_all_refl F) Hg (skippable_prolog p Hp)) as [es [SR [SD LV]]]. fold d in SR. rewrite SR. cbn [bind]. cbv zeta.
    destruct (match path with [] => false | sg :: _ => _ end); [apply returns_ok|]. destruct es as [|e es]; [apply returns_ok|].
    destruct (match path with [] => path | sg :: rest => _ end); [apply returns_ok|].
    destruct (LV e (or_introl eq_refl)) as [L1 _]. specialize (L1 0%Z). destruct L1 as [A [nd [B [W AT]]]]. cbn [Z.add] in AT.
    pose proof (within_inside _ _ _ _ W AT) as [H1 [H2 [H3 [H4 H5]]]]. unfold elem_location in *. cbn [l_start l_content_start l_content_end l_end_tag l_name l_self] in *. fold d in H1, H2, H3, H4, H5.
    destruct (e_self e).
    - apply returns_bind; [apply slice_to_in; lia|]. intros x _. apply returns_bind; [apply slice_from_in; lia|]. intros. apply returns_ok.
    - apply returns_bind; [apply slice_to_in; lia|]. intros x _. apply returns_bind; [apply slice_from_in; lia|]. intros. apply returns_ok.
  Qed.
  Lemma create_element_returns : forall o key path v, returns (create_element E o key d path v).
  Proof.
    intros o key path v. unfold create_element. destruct d as [|c0 d0] eqn:Q; [apply returns_ok|]. rewrite <- Q. clear c0 d0 Q.
    destruct (find_parent_returns o (0 :: key) path (len path - 1)) as [r [R1 R2]]. rewrite R1. cbn [bind]. destruct r as [[l i]|].
    - apply returns_bind; [|intros; apply returns_ok]. apply create_in_parent_returns. eapply R2; eauto.
    - apply create_in_root_returns.
  Qed.
  Lemma last_match_in : forall o sg x es dflt, (0 <= dflt <= Z.of_nat (len x))%Z -> (forall e, In e es -> (0 <= pos_of x (e_after e) <= Z.of_nat (len x))%Z) ->
    (0 <= last_match_pos o sg x es dflt <= Z.of_nat (len x))%Z.
  Proof.
    intros o sg x. induction es as [|e es IH]; intros dflt H1 H2; [exact H1|]. cbn [last_match_pos]. apply IH.
    - destruct (seg_matches_opts _ _ _); auto. apply H2. now left.
    - intros e2 I2. apply H2. now right.
  Qed.
  Lemma after_in : forall G key q es, Forall good G -> skippable q -> scan_res E key (q ++ forest_text G) = Ok es ->
    forall e, In e es -> (0 <= pos_of (q ++ forest_text G) (e_after e) <= Z.of_nat (len (q ++ forest_text G)))%Z.
  Proof.
    intros G key q es GG SK SR e IN. destruct (level G G q key (same_all_refl G) GG SK) as [es2 [SR2 [SD _]]]. rewrite SR in SR2. injection SR2 as <-.
    destruct (scanned_in G es SD e IN) as [F1 [m [a [self [kids [kids' [F2 [EF [_ ->]]]]]]]]]. cbn [e_after]. unfold pos_of. rewrite EF, forest_app, forest_cons, !app_length. lia.
  Qed.
  Lemma append_root_returns : forall o key sg v, returns (append_root E o key d sg v).
  Proof.
    intros o key sg v. unfold append_root. destruct d as [|c0 d0] eqn:Q; [apply returns_ok|]. rewrite <- Q. clear c0 d0 Q.
    destruct (level F F p key (same_all_refl F) Hg (skippable_prolog p Hp)) as [es [SR _]]. fold d in SR. rewrite SR. cbn [bind]. cbv zeta.
    assert (B : (0 <= last_match_pos o sg d es (Z.of_nat (len d)) <= Z.of_nat (len d))%Z).
    { apply last_match_in; [lia|]. exact (after_in F key p es Hg (skippable_prolog p Hp) SR). }
    apply returns_bind; [apply slice_to_in; lia|]. intros x _. apply returns_bind; [apply slice_from_in; lia|]. intros. destruct (_ <? _)%N; apply returns_ok.
  Qed.
  Lemma append_element_returns : forall o key path v, returns (append_element E o key d path v).
  Proof.
    intros o key path v. unfold append_element. destruct (rev path) as [|ls [|sg rp]]; try apply returns_ok. cbv zeta. destruct (_ || _)%bool; [apply returns_ok|]. destruct (negb _); [apply returns_ok|].
    destruct (rev rp) as [|x r] eqn:QP; [apply append_root_returns|]. rewrite <- QP. clear x r QP.
    destruct (find_inside o (1 :: key) (rev rp)) as [l [R1 R2]]. rewrite R1. cbn [bind]. destruct l as [l|]; [|apply create_element_returns].
    destruct (R2 l eq_refl) as [[H1 [H2 [H3 [H4 H5]]]] [A [n [a [self [kids [B [W AT]]]]]]]]. destruct (l_self l) eqn:SL.
    - apply returns_bind; [apply slice_to_in; lia|]. intros x _. apply returns_bind; [apply slice_from_in; lia|]. intros. apply returns_ok.
    - inversion AT as [n1 a1 self1 kids1 l1 B1 B2 B3 B4 B5 B6 B7]; subst n1 a1 self1 kids1 l1. rewrite SL in B7. subst self.
      destruct W as [W1 [W2 _]]. inversion W2 as [? ? ? ? N0 A0 S0 K0| |]; subst n0 a0 self kids0.
      assert (D : d = (p ++ A ++ start_tag n a false) ++ forest_text kids ++ end_tag n ++ B).
      { unfold d. rewrite W1, node_elem, <- !app_assoc. reflexivity. }
      assert (SC : sliced d (l_content_start l) (l_content_end l) = Ok (forest_text kids)).
      { unfold sliced. rewrite (proj2 (Z.leb_le _ _) H3). rewrite D, app_assoc, slice_to_app by (rewrite B3, B2, !app_length; lia). cbn [bind].
        apply slice_from_app. rewrite B2, !app_length. lia. }
      apply returns_bind.
      + unfold find_last_match. rewrite SC. cbn [bind]. destruct (level kids kids [] (3 :: key) (same_all_refl kids) K0 skippable_nil) as [es [SR _]]. cbn [app] in SR. rewrite SR. cbn [bind]. apply returns_ok.
      + intros pos PQ. unfold find_last_match in PQ. rewrite SC in PQ. cbn [bind] in PQ. destruct (level kids kids [] (3 :: key) (same_all_refl kids) K0 skippable_nil) as [es [SR _]]. cbn [app] in SR. rewrite SR in PQ. cbn [bind] in PQ. injection PQ as PQ.
        assert (BD : (0 <= last_match_pos o sg (forest_text kids) es (l_content_end l - l_content_start l) <= Z.of_nat (len (forest_text kids)))%Z).
        { apply last_match_in; [lia|]. exact (after_in kids (3 :: key) [] es K0 skippable_nil SR). }
        assert (PB : (0 <= pos <= Z.of_nat (len d))%Z) by lia.
        apply returns_bind; [apply slice_to_in; lia|]. intros x _. apply returns_bind; [apply slice_from_in; lia|]. intros. destruct (_ <? _)%N; apply returns_ok.
  Qed.
  Lemma delete_element_returns : forall o path, returns (delete_element E o d path).
  Proof.
    intros o path. unfold delete_element. destruct path as [|sg path0] eqn:QP; [apply returns_ok|]. rewrite <- QP. clear sg path0 QP. destruct (_ <? _)%N; [apply returns_ok|]. cbv zeta.
    destruct (segtype_eqb _ _).
    - destruct (removelast path) as [|s r] eqn:Q; [apply returns_ok|]. rewrite <- Q. clear s r Q. cbv zeta. destruct (find_inside o [5] (removelast path)) as [l [R1 R2]]. rewrite R1. cbn [bind].
      destruct l as [l|]; [|apply returns_ok]. unfold lift. apply returns_bind; [|intros; apply returns_ok]. apply delete_attribute_returns. now apply R2.
    - destruct (find_inside o [6] path) as [l [R1 R2]]. rewrite R1. cbn [bind]. destruct l as [l|]; [|apply returns_ok].
      destruct (R2 l eq_refl) as [[H1 [H2 [H3 [H4 H5]]]] _]. apply returns_bind; [apply slice_to_in; destruct (l_self l); lia|]. intros x _.
      apply returns_bind; [apply slice_from_in; destruct (l_self l); lia|]. intros. apply returns_ok.
  Qed.
  Lemma set_element_returns : forall fmt_g o path v, s_type (last path (mkSeg SElem [] 0 false None false [] [])) <> SAttr \/
    (exists l, find_loc E o [1] d (removelast path) 0 = Ok (Some l)) -> returns (set_element E fmt_g o d path v).
  Proof.
    intros fmt_g o path v HA. unfold set_element. destruct path as [|sg path0] eqn:QP; [apply returns_ok|]. rewrite <- QP in *. clear sg path0 QP.
    destruct (value_to_xml fmt_g v) as [e|xv]; [apply returns_ok|]. destruct (_ <? _)%N; [apply returns_ok|]. destruct (_ <? _)%N; [apply returns_ok|]. cbv zeta.
    assert (FIN : forall m : Res (err + bytes), returns m -> returns (let* r := m in match r with inl e => Ok (inl e) | inr r0 => Ok (inr (get_result d r0)) end)).
    { intros m H. apply returns_bind; auto. intros [e|r] _; apply returns_ok. }
    destruct (check_intents path); [|apply FIN, append_element_returns|apply returns_ok].
    destruct (segtype_eqb _ SAttr) eqn:ST.
    - destruct HA as [HA|[l HA]]; [exfalso; apply HA; destruct (s_type _); try discriminate; reflexivity|]. rewrite HA. cbn [bind]. apply FIN. unfold lift. apply returns_bind; [|intros; apply returns_ok].
      apply replace_attribute_returns. destruct (find_inside o [1] (removelast path)) as [r [R1 R2]]. rewrite HA in R1. injection R1 as <-. now apply R2.
    - destruct (find_inside o [3] path) as [l [R1 R2]]. rewrite R1. cbn [bind]. destruct l as [l|].
      + apply FIN. unfold lift. apply returns_bind; [|intros; apply returns_ok]. apply replace_element_returns. now apply R2.
      + apply FIN, create_element_returns.
  Qed.
  Lemma delete_opts_returns : forall o path segs, parse_path_opts o path = Ok segs -> returns (delete_opts E o d path).
  Proof.
    intros o path segs P. unfold delete_opts. destruct (_ <? _)%N; [apply returns_ok|]. destruct (negb _); [apply returns_ok|]. rewrite P. cbn [bind].
    destruct segs; [apply returns_ok|]. unfold edit_of. apply returns_bind; [apply delete_element_returns|]. intros. apply returns_ok.
  Qed.
  Lemma set_opts_returns : forall fmt_g o path v segs, parse_path_opts o path = Ok segs ->
    s_type (last segs (mkSeg SElem [] 0 false None false [] [])) <> SAttr \/ (exists l, find_loc E o [1] d (removelast segs) 0 = Ok (Some l)) -> returns (set_opts E fmt_g o d path v).
  Proof.
    intros fmt_g o path v segs P HA. unfold set_opts. destruct (_ <? _)%N; [apply returns_ok|]. destruct (match d with [] => false | _ :: _ => _ end); [apply returns_ok|].
    pose proof (delete_opts_returns o path segs P) as D. destruct v; auto; rewrite P; cbn [bind]; (destruct segs; [apply returns_ok|]);
    unfold edit_of; (apply returns_bind; [now apply set_element_returns|]); intros; apply returns_ok.
  Qed.
  End Doc.
End Safe.

(** ** Paths without attributes *)
Lemma parse_part_attr : forall part s, parse_part part = Ok (PSeg s) -> s_type s = SAttr -> exists t, part = "@"%char :: t.
Proof.
  intros part s. unfold parse_part. destruct part as [|c0 part]; [discriminate|]. unfold parse_modifiers. destruct (split_on "|" (c0 :: part)) as [pp mods] eqn:M.
  apply split_on_head in M. destruct M as [r M]. destruct (strip_prefix (bs "#(") pp) as [body|].
  - intros H T. destruct (if has_suffix _ _ then _ else _) as [[all e]|]; [|discriminate]. destruct (Nat.leb e 2); [discriminate|]. apply bind_ok in H. destruct H as [f [_ H]].
    destruct f; [|discriminate]. injection H as <-. discriminate T.
  - destruct pp as [|c pp]; [intros H T; injection H as <-; discriminate T|]. destruct (Ascii.eqb_spec c "@") as [->|_].
    + intros _ _. injection M as -> _. eauto.
    + intros H T. exfalso. repeat match type of H with context [if ?b then _ else _] => destruct b end; injection H as <-; discriminate T.
Qed.
Lemma parse_parts_attr : forall l ss, parse_parts l = Ok (Some ss) -> (forall t, ~ In ("@"%char :: t) l) -> forall s, In s ss -> s_type s <> SAttr.
Proof.
  induction l as [|x l IH]; intros ss H N s IN; [injection H as <-; destruct IN|]. cbn [parse_parts] in H. apply bind_ok in H. destruct H as [o [H1 H2]].
  assert (N2 : forall t, ~ In ("@"%char :: t) l) by (intros t K; apply (N t); now right).
  destruct o as [| |s1]; [eapply IH; eauto|discriminate|]. apply bind_ok in H2. destruct H2 as [[r|] [H2 H3]]; [|discriminate]. injection H3 as <-. destruct IN as [<-|IN]; [|eapply IH; eauto].
  intros T. destruct (parse_part_attr _ _ H1 T) as [t ->]. apply (N t). now left.
Qed.
Lemma merge_attr : forall k l, List.length l <= k -> forall s, In s (merge_fields l) -> s_type s = SAttr -> In s l.
Proof.
  induction k as [|k IH]; intros l L s IN T; [destruct l; [destruct IN|cbn in L; lia]|]. destruct l as [|x l1]; [destruct IN|]. cbn [List.length] in L.
  assert (D : In s (x :: merge_fields l1) -> In s (x :: l1)) by (intros [<-|K]; [now left|right; apply (IH l1); auto; lia]).
  cbn [merge_fields] in IN. destruct (s_type x); auto. destruct l1 as [|nx l2]; auto. destruct (s_type nx); auto.
  all: destruct (is_valid_field_name _ && _)%bool; auto. all: destruct IN as [<-|IN]; [discriminate T|]; right; right; apply (IH l2); auto; cbn [List.length] in L; lia.
Qed.
Lemma parse_path_no_attr : forall o path segs, parse_path_opts o path = Ok segs -> (forall t, ~ In ("@"%char :: t) (split_path path)) -> forall s, In s segs -> s_type s <> SAttr.
Proof.
  intros o path segs H N. assert (K : forall ss, parse_path path = Ok ss -> forall s, In s ss -> s_type s <> SAttr).
  { intros ss P s IN T. destruct path as [|c path]; [injection P as <-; destruct IN|]. unfold parse_path in P. apply bind_ok in P. destruct P as [r [P Q]]. unfold parse_path_internal in P.
    destruct (Nat.ltb _ _); [injection P as <-; injection Q as <-; destruct IN|]. apply bind_ok in P. destruct P as [[l|] [P P2]]; injection P2 as <-; injection Q as <-; [|destruct IN].
    apply (merge_attr (List.length l) l (le_n _)) in IN; auto. exact (parse_parts_attr _ _ P N s IN T). }
  unfold parse_path_opts in H. apply bind_ok in H. destruct H as [ss [P H]]. injection H as <-. destruct (o_case o); [now apply K|].
  intros s IN. apply in_map_iff in IN. destruct IN as [s2 [<- IN]]. pose proof (K _ P _ IN) as KK. unfold lower_seg. destruct (s_type s2) eqn:Q; rewrite ?Q in *; try discriminate; congruence.
Qed.
Lemma parse_opts_returns : forall o path, parse_path path <> Panic -> returns (parse_path_opts o path).
Proof.
  intros o path H. unfold parse_path_opts. destruct (parse_path path) as [ss| |] eqn:Q; [|contradiction|destruct (parse_path_fin path Q)]. cbn [bind]. apply returns_ok.
Qed.
