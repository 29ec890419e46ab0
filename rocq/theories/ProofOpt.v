(** Edits under options: positions found by the editor in canonical text. *)
From Coq Require Import List Ascii String NArith ZArith Bool Lia Permutation.
From Verif Require Import GoStr ModelParser ModelPath ModelResult ModelQuery ModelValidate ModelBuilder SpecText SpecPath SpecTree SpecQuery SpecEdit SpecContent SpecFilter SpecLang SpecCase SpecOptions
  ProofBase ProofEscape ProofPath ProofScan ProofSyntax ProofTree ProofTree2 ProofTree3 ProofTree4 ProofTree5 ProofEdit ProofEdit2 ProofEdit3 ProofEdit4 ProofEdit5 ProofCase.
Import ListNotations.

Lemma designated_text : forall x steps F A nd B, designated x steps F A nd B -> forest_text F = A ++ node_text nd ++ B.
Proof.
  induction 1 as [n idx F1 nd F2 H1 H2|n idx rest F1 m a kids F2 A nd B H1 H2 H3 IH].
  - now rewrite forest_app, forest_cons.
  - rewrite forest_app, forest_cons, node_elem, IH, <- !app_assoc. reflexivity.
Qed.
Lemma designated_good : forall x steps F A nd B, designated x steps F A nd B -> Forall good F -> good nd /\ is_elem nd = true.
Proof.
  induction 1 as [n idx F1 nd F2 H1 H2|n idx rest F1 m a kids F2 A nd B H1 H2 H3 IH]; intros G; apply Forall_app in G; destruct G as [_ G];
    inversion G as [|? ? G1 _]; subst.
  - split; auto. destruct nd; auto; discriminate.
  - apply IH. now inversion G1.
Qed.
Lemma designated_unique : forall x steps F A nd B, designated x steps F A nd B -> forall A' nd' B', designated x steps F A' nd' B' ->
  A' = A /\ nd' = nd /\ B' = B.
Proof.
  induction 1 as [n idx F1 nd F2 H1 H2|n idx rest F1 m a kids F2 A nd B H1 H2 H3 IH]; intros A' nd' B' L.
  - inversion L as [n0 idx0 G1 nd0 G2 K1 K2 Q1 Q2|n0 idx0 r0 G1 m0 a0 k0 G2 A0 nd0 B0 K1 K2 K3 Q1 Q2]; subst; [|inversion K3].
    match goal with Q : _ ++ _ = _ ++ _ |- _ => destruct (split_unique (finds x n) _ _ _ _ _ _ Q K1 H1) as [-> [-> ->]]; [congruence|auto] end.
  - inversion L as [n0 idx0 G1 nd0 G2 K1 K2 Q1 Q2|n0 idx0 r0 G1 m0 a0 k0 G2 A0 nd0 B0 K1 K2 K3 Q1 Q2]; subst; [inversion H3|].
    match goal with Q : _ ++ _ = _ ++ _ |- _ => destruct (split_unique (finds x n) _ _ _ _ _ _ Q K1 H1) as [-> [E ->]]; [congruence|] end.
    injection E as -> -> ->. destruct (IH _ _ _ K3) as [-> [-> ->]]. auto.
Qed.


Lemma filter_finds : forall o n F es, scanned F es -> Forall good F -> step_name n ->
  filter (fun e => seg_matches_opts (o_case o) (elem_seg (spelled (o_case o) n)) (e_name e)) es = filter (fun e => finds (o_case o) n (e_name e)) es.
Proof.
  intros o n F es H G S. induction H as [|t F es H IH|b F es H IH|m a self kids kids' F es K H IH]; auto; inversion G as [|? ? G1 G2]; subst; auto.
  cbn [filter e_name]. rewrite IH by auto. inversion G1; subst. replace (seg_matches_opts (o_case o) (elem_seg (spelled (o_case o) n)) m) with (finds (o_case o) n m); auto.
  unfold finds, spelled. destruct (o_case o); [|now rewrite alike_match]. rewrite match_cs. now rewrite selects_match.
Qed.
Section Find.
  Variable E : env.
  Hypothesis Hord : forall k l, Permutation l (e_ord E k l).

  Variable o : options.
  Let x := o_case o.
  Definition csteps (steps : list tstep) : list tstep := map (fun s => (spelled x (fst s), snd s)) steps.
  Lemma find_loc_step : forall key d n idx rest base es ms,
    scan_res E key d = Ok es -> ms = filter (fun e => seg_matches_opts (o_case o) (elem_seg n) (e_name e)) es ->
    (Z.of_nat (len ms) <= int64_max)%Z -> (base <= MaxPositionOffset)%Z -> (forall e, In e ms -> (base + pos_of d (e_body e) <= MaxPositionOffset)%Z) ->
    find_loc E o key d (segs_of ((n, idx) :: rest) TheElement) base =
    match pick idx ms with
    | None => Ok None
    | Some e =>
        match rest with
        | [] => Ok (Some (elem_location d base e))
        | _ :: _ => find_loc E o (child_key site_query e key) (e_content e) (segs_of rest TheElement) (base + pos_of d (e_body e))
        end
    end.
  Proof.
    intros key d n idx rest base es ms H1 H2 H3 H4 H5. rewrite segs_cons. cbn [find_loc].
    rewrite (proj2 (Z.ltb_ge MaxPositionOffset base)) by auto. rewrite H1. cbn [bind]. rewrite <- H2.
    destruct idx as [ds|]; cbn [app].
    - change (s_type (step_seg (Nth ds, []))) with SIndex. cbn iota. rewrite nth_elem_pick by auto.
      destruct (pick (Some ds) ms) as [e|] eqn:P; auto. unfold pick in P. apply nth_error_In in P.
      rewrite (proj2 (Z.ltb_ge _ _) (H5 e P)).
      destruct rest as [|[m j] rest]; [reflexivity|]. rewrite segs_cons. reflexivity.
    - unfold pick, index_of. destruct rest as [|[m j] rest].
      + cbn [segs_of tpath_steps flat_map final_steps app map]. destruct ms; reflexivity.
      + rewrite segs_cons. change (s_type (elem_seg m)) with SElem. cbn iota. destruct ms as [|e ms]; [reflexivity|].
        cbn [nth_error]. rewrite (proj2 (Z.ltb_ge _ _) (H5 e (or_introl eq_refl))). reflexivity.
  Qed.

  Lemma find_loc_tree : forall steps, steps <> [] -> Forall good_tstep steps -> forall F F' p base key,
    Forall2 same F F' -> Forall good F -> skippable p -> (0 <= base)%Z ->
    (base + Z.of_nat (len (p ++ forest_text F')) <= MaxPositionOffset)%Z ->
    exists r, find_loc E o key (p ++ forest_text F') (segs_of (csteps steps) TheElement) base = Ok r /\
      match r with
      | Some l => exists A nd B, designated x steps F A nd B /\ at_loc (base + Z.of_nat (len p)) A nd l
      | None => forall A nd B, ~ designated x steps F A nd B
      end.
  Proof.
    induction steps as [|[n idx] rest IH]; intros NE GS F F' p base key S G Hp Hb Hm; [contradiction|].
    inversion GS as [|? ? [SN GI] GS']; subst. cbn [fst snd] in *.
    assert (G' : Forall good F') by (eapply same_good_all; eauto).
    destruct (scan_forest (e_ord E) key F' Hord G') as [es [SC SD]].
    assert (SR : scan_res E key (p ++ forest_text F') = Ok es) by (unfold scan_res; rewrite scan_skip by auto; now rewrite SC).
    pose proof (filter_finds o n F' es SD G' SN) as FS. fold x in FS. remember (filter (fun e => finds x n (e_name e)) es) as ms eqn:Ems.
    pose proof (scanned_count (finds x n) F' es SD) as CNT. rewrite <- Ems in CNT.
    pose proof (called_small (finds x n) F') as CS. rewrite app_length in Hm.
    assert (I64 : (MaxPositionOffset < int64_max)%Z) by reflexivity.
    assert (POS : forall e, In e ms -> exists i, nth_error ms i = Some e) by (intros e He; now apply In_nth_error).
    match goal with |- exists r, ?x = Ok r /\ _ => eassert (ST : x = _) end.
    { apply (find_loc_step key _ (spelled x n) idx (csteps rest) base es ms SR (eq_sym FS)); [lia|lia|]. intros e He. destruct (POS e He) as [i Hi]. rewrite Ems in Hi. destruct (scanned_nth _ _ _ SD i e Hi) as [F1 [m [a [self [kids [kids' [F2 [EF [_ [_ [_ ->]]]]]]]]]]].
        cbn [e_body]. unfold pos_of. rewrite !app_length. lia. }
    rewrite ST. clear ST.
    destruct (pick idx ms) as [e|] eqn:P.
    2:{ exists None. split; auto. intros A nd B L. unfold pick in P. apply nth_error_None in P. rewrite CNT, <- (called_same (finds x n) _ _ S) in P.
        inversion L as [n0 idx0 F1 nd0 F2 Hn Hc|n0 idx0 r0 F1 m a kids F2 A0 nd0 B0 Hn Hc Hl]; subst;
          unfold called in *; rewrite filter_app, app_length in P; cbn [filter] in P; fold (called (finds x n) F1) in *.
        - fold (named (finds x n) nd) in P. rewrite Hn in P. cbn [List.length] in P. unfold called in *. lia.
        - rewrite Hn in P. cbn [List.length] in P. unfold called in *. lia. }
    unfold pick in P. rewrite Ems in P. destruct (scanned_nth _ _ _ SD _ e P) as [F1' [m [a' [self [kids1 [kids' [F2' [EF [Hn [Hc [Sk Ee]]]]]]]]]]].
    pose proof S as S0. rewrite EF in S0. apply Forall2_app_inv_r in S0. destruct S0 as [F1 [Fr [S1 [S2 EF0]]]].
    inversion S2 as [|nd0 nd1 F2 F2x SA SB X1 X2]; subst nd1 F2x. inversion SA as [m0 a a0 self0 kids k0 Pa Sk1| |]; subst m0 a0 self0 k0. subst nd0 Fr.
    assert (Hc0 : len (called (finds x n) F1) = index_of idx) by (rewrite (called_same _ _ _ S1); exact Hc).
    pose proof (same_length_all _ _ S1) as L1. pose proof (same_length_all _ _ SB) as L2. pose proof (same_length_all _ _ Sk1) as L3.
    pose proof (start_tag_len m a a' self Pa) as L4.
    assert (GE : good (Elem m a self kids)) by (rewrite EF0 in G; apply Forall_app in G; destruct G as [_ G]; now inversion G).
    assert (GE' : good (Elem m a' self kids1)) by (rewrite EF in G'; apply Forall_app in G'; destruct G' as [_ G']; now inversion G').
    inversion GE as [? ? ? ? XN XA XS XK| |]; subst n0 a0 self0 kids0.
    inversion GE' as [? ? ? ? XN' XA' XS' XK'| |]; subst n0 a0 self0 kids0.
    assert (EB : e_body e = (if self then [] else forest_text kids1 ++ end_tag m) ++ forest_text F2') by (rewrite Ee; reflexivity).
    assert (EL : len (p ++ forest_text F') = len p + (len (forest_text F1') + (len (start_tag m a' self) + len (if self then [] else forest_text kids1 ++ end_tag m)) + len (forest_text F2'))).
    { rewrite EF, app_length, forest_app, forest_cons, !app_length, node_len by auto. lia. }
    assert (PB : pos_of (p ++ forest_text F') (e_body e) = Z.of_nat (len p + (len (forest_text F1') + len (start_tag m a' self)))).
    { unfold pos_of. rewrite EL, EB, app_length. lia. }
    destruct rest as [|s rest].
    - eexists. split; [reflexivity|]. exists (forest_text F1), (Elem m a self kids), (forest_text F2). split.
      + rewrite EF0. constructor; auto.
      + assert (EN : e_name e = m) by (rewrite Ee; reflexivity). assert (EA : e_attrs e = a') by (rewrite Ee; reflexivity).
        assert (ES : e_self e = self) by (rewrite Ee; reflexivity).
        unfold elem_location. constructor; cbn [l_start l_content_start l_content_end l_end_tag l_name l_attrs l_self]; auto; try (now rewrite EA).
        * rewrite Ee. cbn [e_start]. unfold pos_of. rewrite EL, forest_cons, app_length, node_len by auto. lia.
        * rewrite PB. lia.
        * rewrite PB, ES. destruct self; [lia|].
          rewrite Ee. cbn [e_after e_name]. unfold pos_of. rewrite EL, app_length, end_tag_len. lia.
    - destruct (IH ltac:(discriminate) GS' kids kids' [] (base + pos_of (p ++ forest_text F') (e_body e))%Z (child_key site_query e key)) as [r [R1 R2]]; auto.
      + eapply same_all_trans; eauto.
      + apply skippable_nil.
      + rewrite PB. lia.
      + cbn [app]. rewrite PB. rewrite <- (same_length_all _ _ Sk).
        rewrite app_length in EL. destruct self; [rewrite (XS' eq_refl); cbn [forest_text flat_map List.length]; lia|].
        rewrite app_length in EL. lia.
      + cbn [app] in R1. assert (EC : e_content e = forest_text kids') by (rewrite Ee; reflexivity). rewrite EC. exists r. split; [exact R1|]. destruct r as [l|].
        * destruct R2 as [A [nd [B [L AT]]]]. destruct self; [rewrite (XS eq_refl) in L; inversion L; destruct F0; discriminate|].
          exists (forest_text F1 ++ start_tag m a false ++ A), nd, (B ++ end_tag m ++ forest_text F2). split.
          -- rewrite EF0. constructor; auto.
          -- rewrite PB in AT. inversion AT as [n1 a1 self1 kids2 l1 B1 B2 B3 B4 B5 B6 B7]; subst nd l1. cbn [List.length] in *.
             constructor; auto.
             ++ rewrite B1, !app_length. lia.
             ++ rewrite B2, !app_length. lia.
        * intros A nd B L. inversion L as [|n0 idx0 r0 G1 m0 a0 k0 G2 A0 nd0 B0 Hn0 Hcc Hl]; subst n0 idx0 r0 nd0 A B.
          match goal with Q : G1 ++ _ :: G2 = F |- _ => rewrite EF0 in Q; rename Q into H end.
          destruct (split_unique (finds x n) _ _ _ _ _ _ H) as [_ [Q _]]; auto; [congruence|].
          injection Q as -> -> <- ->. exact (R2 _ _ _ Hl).
  Qed.
End Find.
