(** Edits on documents with markup inside comments. *)
From Coq Require Import List Ascii String NArith ZArith Bool Lia Permutation.
From Verif Require Import GoStr ModelParser ModelPath ModelResult ModelQuery ModelValidate ModelBuilder SpecText SpecPath SpecTree SpecQuery SpecValid SpecEdit SpecContent SpecHidden
  ProofBase ProofEscape ProofPath ProofScan ProofSyntax ProofFuel ProofMono ProofTree ProofTree2 ProofTree3 ProofTree4 ProofTree5 ProofApi2 ProofEdit ProofEdit2 ProofEdit3 ProofEdit4 ProofEdit5 ProofHidden.
Import ListNotations.

Lemma step_length : forall b b', step b b' -> List.length b = List.length b'.
Proof. intros b b' (K & K' & _ & S & -> & ->). now rewrite !app_length, (same_length_all _ _ S). Qed.
Lemma steps_length : forall b b', steps b b' -> List.length b = List.length b'.
Proof. intros b b' H. induction H as [|y z H1 H2 IH]; auto. rewrite IH. now apply step_length. Qed.
Lemma varied_length : forall nd nd', varied nd nd' -> List.length (node_text nd) = List.length (node_text nd').
Proof.
  induction nd as [n a self kids IH|t|b] using node_ind'; intros nd' H; inversion H as [? ? a' ? ? kids' P K| |? ? K]; subst; auto.
  - rewrite !node_parts, !app_length, (start_tag_len n a a' self P). destruct self; auto. rewrite !app_length. do 2 f_equal.
    clear - IH K. induction K as [|x y F F' K1 K2 IHK]; auto. inversion IH; subst. rewrite !forest_cons, !app_length. rewrite IHK by auto. f_equal. auto.
  - cbn [node_text]. rewrite !app_length. now rewrite (steps_length _ _ K).
Qed.
Lemma varied_length_all : forall F F', Forall2 varied F F' -> List.length (forest_text F) = List.length (forest_text F').
Proof.
  intros F F' H. induction H as [|x y F F' H1 H2 IH]; auto. rewrite !forest_cons, !app_length, IH. f_equal. now apply varied_length.
Qed.

Inductive scanned : list node -> list elem -> Prop :=
| sc_nil : scanned [] []
| sc_text : forall t F es, scanned F es -> scanned (Text t :: F) es
| sc_misc : forall b F es, scanned F es -> scanned (Misc b :: F) es
| sc_elem : forall n a self kids kids' F es, Forall2 varied kids kids' -> scanned F es ->
    scanned (Elem n a self kids :: F)
      (mkElem n a self (forest_text kids') (forest_text (Elem n a self kids :: F))
         ((if self then [] else forest_text kids ++ end_tag n) ++ forest_text F) (forest_text F) :: es).

Lemma scan_fair_at : forall ord key F, (forall k l, Permutation l (ord k l)) -> Forall fair F ->
  exists es, scan ord key (forest_text F) = Some es /\ scanned F es.
Proof.
  intros ord key F Hord G. induction G as [|nd F G1 G2 IH].
  - exists []. split; [reflexivity|constructor].
  - destruct IH as [es [H1 H2]]. destruct (is_elem nd) eqn:IE.
    + destruct nd as [n a self kids| |]; try discriminate. inversion G1 as [? ? ? ? N A S K| | |]; subst.
      assert (SK : skip_to_next (forest_text (Elem n a self kids :: F)) = Some (Some (forest_text (Elem n a self kids :: F)))).
      { apply (skip_any 1). unfold forest_text. cbn [flat_map node_text]. rewrite start_tag_split.
        destruct (name_first n N) as [c [r [-> Hc]]]. cbn [app skip_next_loop].
        change (Ascii.eqb "<" "<") with true. cbn iota.
        rewrite (name_eqb c "!" Hc), (name_eqb c "?" Hc), (name_eqb c "/" Hc) by inlist. reflexivity. }
      assert (PE : parse_element_name (next (forest_text (Elem n a self kids :: F))) =
                   (n, a, self, (if self then [] else forest_text kids ++ end_tag n) ++ forest_text F)).
      { unfold forest_text at 1. cbn [flat_map node_text]. rewrite start_tag_split. cbn [next app].
        rewrite <- !app_assoc. apply parse_element_name_text; auto. }
      unfold scan in H1. destruct self.
      * exists (mkElem n a true [] (forest_text (Elem n a true kids :: F)) (forest_text F) (forest_text F) :: es).
        split; [|rewrite (S eq_refl); exact (sc_elem n a true [] [] F es (Forall2_nil _) H2)].
        apply (scan_any _ _ (Datatypes.S (Datatypes.S (len (forest_text F))))). remember (Datatypes.S (len (forest_text F))) as f.
        cbn [scan_loop]. rewrite SK, PE. cbn [app]. now rewrite H1.
      * destruct (parse_content_fair ord Hord key n kids (forest_text F) N K) as [kids' [P1 P2]].
        eexists. split; [|constructor; [exact P1|exact H2]].
        apply (scan_any _ _ (Datatypes.S (Datatypes.S (len (forest_text F))))). remember (Datatypes.S (len (forest_text F))) as f.
        cbn [scan_loop]. rewrite SK, PE. rewrite <- app_assoc, P2, H1. reflexivity.
    + exists es. split; [|destruct nd; [discriminate| |]; now constructor]. unfold forest_text in *. cbn [flat_map].
      rewrite scan_skip; auto using skippable_hidden.
Qed.

Lemma located_good : forall steps F A nd B, located steps F A nd B -> Forall fair F -> fair nd /\ is_elem nd = true.
Proof.
  induction 1 as [n idx F1 nd F2 H1 H2|n idx rest F1 m a kids F2 A nd B H1 H2 H3 IH]; intros G; apply Forall_app in G; destruct G as [_ G];
    inversion G as [|? ? G1 _]; subst.
  - split; auto. destruct nd; auto; discriminate.
  - apply IH. now inversion G1.
Qed.

Lemma scanned_count : forall f F es, scanned F es -> len (filter (fun e => f (e_name e)) es) = len (called f F).
Proof.
  intros f F es H. induction H as [|t F es H IH|b F es H IH|n a self kids kids' F es K H IH]; auto. unfold called in *. cbn [filter e_name].
  destruct (f n); cbn [List.length]; auto.
Qed.
Lemma scanned_nth : forall f F es, scanned F es -> forall i e, nth_error (filter (fun e => f (e_name e)) es) i = Some e ->
  exists F1 n a self kids kids' F2, F = F1 ++ Elem n a self kids :: F2 /\ f n = true /\ len (called f F1) = i /\ Forall2 varied kids kids' /\
    e = mkElem n a self (forest_text kids') (forest_text (Elem n a self kids :: F2))
         ((if self then [] else forest_text kids ++ end_tag n) ++ forest_text F2) (forest_text F2).
Proof.
  intros f F es H. induction H as [|t F es H IH|b F es H IH|n a self kids kids' F es K H IH]; intros i e Hn.
  - destruct i; discriminate.
  - destruct (IH i e Hn) as [F1 [n [a [self [kids [kids' [F2 [-> Q]]]]]]]]. exists (Text t :: F1), n, a, self, kids, kids', F2. auto.
  - destruct (IH i e Hn) as [F1 [n [a [self [kids [kids' [F2 [-> Q]]]]]]]]. exists (Misc b :: F1), n, a, self, kids, kids', F2. auto.
  - cbn [filter e_name] in Hn. destruct (f n) eqn:Q.
    + destruct i as [|i].
      * injection Hn as <-. exists [], n, a, self, kids, kids', F. auto.
      * destruct (IH i e Hn) as [F1 [n1 [a1 [self1 [kids1 [kids1' [F2 [-> [Q1 [Q2 Q3]]]]]]]]]].
        exists (Elem n a self kids :: F1), n1, a1, self1, kids1, kids1', F2. repeat split; auto; try apply Q3.
        unfold called in *. cbn [filter]. rewrite Q. cbn [List.length]. now rewrite Q2.
    + destruct (IH i e Hn) as [F1 [n1 [a1 [self1 [kids1 [kids1' [F2 [-> [Q1 [Q2 Q3]]]]]]]]]].
      exists (Elem n a self kids :: F1), n1, a1, self1, kids1, kids1', F2. repeat split; auto; try apply Q3.
      unfold called in *. cbn [filter]. now rewrite Q.
Qed.
Lemma called_varied : forall f F F', Forall2 varied F F' -> len (called f F) = len (called f F').
Proof.
  intros f F F' H. induction H as [|x y F F' H1 H2 IH]; auto. unfold called in *. cbn [filter].
  inversion H1; subst; auto. destruct (f n); cbn [List.length]; auto.
Qed.

Lemma filter_selects : forall n F es, scanned F es -> Forall fair F -> step_name n ->
  filter (fun e => seg_matches_opts (o_case default_options) (elem_seg n) (e_name e)) es = filter (fun e => selects n (e_name e)) es.
Proof.
  intros n F es H G S. induction H as [|t F es H IH|b F es H IH|m a self kids kids' F es K H IH]; auto; inversion G as [|? ? G1 G2]; subst; auto.
  cbn [filter e_name]. rewrite IH by auto. inversion G1; subst. rewrite matches_default, selects_match by auto. reflexivity.
Qed.

Section Find.
  Variable E : env.
  Hypothesis Hord : forall k l, Permutation l (e_ord E k l).
  Lemma find_loc_tree : forall steps, steps <> [] -> Forall good_tstep steps -> forall F F' p base key,
    Forall2 varied F F' -> Forall fair F -> skippable p -> (0 <= base)%Z ->
    (base + Z.of_nat (len (p ++ forest_text F')) <= MaxPositionOffset)%Z ->
    exists r, find_loc E default_options key (p ++ forest_text F') (segs_of steps TheElement) base = Ok r /\
      match r with
      | Some l => exists A nd B, located steps F A nd B /\ at_loc (base + Z.of_nat (len p)) A nd l
      | None => forall A nd B, ~ located steps F A nd B
      end.
  Proof.
    induction steps as [|[n idx] rest IH]; intros NE GS F F' p base key S G Hp Hb Hm; [contradiction|].
    inversion GS as [|? ? [SN GI] GS']; subst. cbn [fst snd] in *.
    assert (G' : Forall fair F') by (eapply varied_fair_all; eauto).
    destruct (scan_fair_at (e_ord E) key F' Hord G') as [es [SC SD]].
    assert (SR : scan_res E key (p ++ forest_text F') = Ok es) by (unfold scan_res; rewrite scan_skip by auto; now rewrite SC).
    pose proof (filter_selects n F' es SD G' SN) as FS. remember (filter (fun e => selects n (e_name e)) es) as ms eqn:Ems.
    pose proof (scanned_count (selects n) F' es SD) as CNT. rewrite <- Ems in CNT.
    pose proof (called_small (selects n) F') as CS. rewrite app_length in Hm.
    assert (I64 : (MaxPositionOffset < int64_max)%Z) by reflexivity.
    assert (POS : forall e, In e ms -> exists i, nth_error ms i = Some e) by (intros e He; now apply In_nth_error).
    match goal with |- exists r, ?x = Ok r /\ _ => eassert (ST : x = _) end.
    { apply (find_loc_step E key _ n idx rest base es ms SR (eq_sym FS)); [lia|lia|]. intros e He. destruct (POS e He) as [i Hi]. rewrite Ems in Hi. destruct (scanned_nth _ _ _ SD i e Hi) as [F1 [m [a [self [kids [kids' [F2 [EF [_ [_ [_ ->]]]]]]]]]]].
        cbn [e_body]. unfold pos_of. rewrite !app_length. lia. }
    rewrite ST. clear ST.
    destruct (pick idx ms) as [e|] eqn:P.
    2:{ exists None. split; auto. intros A nd B L. unfold pick in P. apply nth_error_None in P. rewrite CNT, <- (called_varied (selects n) _ _ S) in P.
        inversion L as [n0 idx0 F1 nd0 F2 Hn Hc|n0 idx0 r0 F1 m a kids F2 A0 nd0 B0 Hn Hc Hl]; subst;
          unfold called in *; rewrite filter_app, app_length in P; cbn [filter] in P; fold (called (selects n) F1) in *.
        - fold (named (selects n) nd) in P. rewrite Hn in P. cbn [List.length] in P. unfold called in *. lia.
        - rewrite Hn in P. cbn [List.length] in P. unfold called in *. lia. }
    unfold pick in P. rewrite Ems in P. destruct (scanned_nth _ _ _ SD _ e P) as [F1' [m [a' [self [kids1 [kids' [F2' [EF [Hn [Hc [Sk Ee]]]]]]]]]]].
    pose proof S as S0. rewrite EF in S0. apply Forall2_app_inv_r in S0. destruct S0 as [F1 [Fr [S1 [S2 EF0]]]].
    inversion S2 as [|nd0 nd1 F2 F2x SA SB X1 X2]; subst nd1 F2x. inversion SA as [m0 a a0 self0 kids k0 Pa Sk1| |]; subst m0 a0 self0 k0. subst nd0 Fr.
    assert (Hc0 : len (called (selects n) F1) = index_of idx) by (rewrite (called_varied _ _ _ S1); exact Hc).
    pose proof (varied_length_all _ _ S1) as L1. pose proof (varied_length_all _ _ SB) as L2. pose proof (varied_length_all _ _ Sk1) as L3.
    pose proof (start_tag_len m a a' self Pa) as L4.
    assert (GE : fair (Elem m a self kids)) by (rewrite EF0 in G; apply Forall_app in G; destruct G as [_ G]; now inversion G).
    assert (GE' : fair (Elem m a' self kids1)) by (rewrite EF in G'; apply Forall_app in G'; destruct G' as [_ G']; now inversion G').
    inversion GE as [? ? ? ? XN XA XS XK| | |]; subst n0 a0 self0 kids0.
    inversion GE' as [? ? ? ? XN' XA' XS' XK'| | |]; subst n0 a0 self0 kids0.
    assert (EB : e_body e = (if self then [] else forest_text kids1 ++ end_tag m) ++ forest_text F2') by (rewrite Ee; reflexivity).
    assert (EL : len (p ++ forest_text F') = len p + (len (forest_text F1') + (len (start_tag m a' self) + len (if self then [] else forest_text kids1 ++ end_tag m)) + len (forest_text F2'))).
    { rewrite EF, app_length, forest_app, forest_cons, !app_length, node_len by auto. lia. }
    assert (PB : pos_of (p ++ forest_text F') (e_body e) = Z.of_nat (len p + (len (forest_text F1') + len (start_tag m a' self)))).
    { unfold pos_of. rewrite EL, EB, app_length. lia. }
    destruct rest as [|s rest].
    - eexists. split; [reflexivity|]. exists (forest_text F1), (Elem m a self kids), (forest_text F2). split.
      + rewrite EF0. constructor; auto.
      + assert (EN : e_name e = m) by (rewrite Ee; reflexivity). assert (EA : e_attrs e = a') by (rewrite Ee; reflexivity).
        assert (ES : e_self e = self) by (rewrite Ee; reflexivity).
        unfold elem_location. constructor; cbn [l_start l_content_start l_content_end l_end_tag l_name l_attrs l_self]; auto; try (now rewrite EA).
        * rewrite Ee. cbn [e_start]. unfold pos_of. rewrite EL, forest_cons, app_length, node_len by auto. lia.
        * rewrite PB. lia.
        * rewrite PB, ES. destruct self; [lia|].
          rewrite Ee. cbn [e_after e_name]. unfold pos_of. rewrite EL, app_length, end_tag_len. lia.
    - destruct (IH ltac:(discriminate) GS' kids kids' [] (base + pos_of (p ++ forest_text F') (e_body e))%Z (child_key site_query e key)) as [r [R1 R2]]; auto.
      + eapply varied_all_trans; eauto.
      + apply skippable_nil.
      + rewrite PB. lia.
      + cbn [app]. rewrite PB. rewrite <- (varied_length_all _ _ Sk).
        rewrite app_length in EL. destruct self; [rewrite (XS' eq_refl); cbn [forest_text flat_map List.length]; lia|].
        rewrite app_length in EL. lia.
      + cbn [app] in R1. assert (EC : e_content e = forest_text kids') by (rewrite Ee; reflexivity). rewrite EC. exists r. split; [exact R1|]. destruct r as [l|].
        * destruct R2 as [A [nd [B [L AT]]]]. destruct self; [rewrite (XS eq_refl) in L; inversion L; destruct F0; discriminate|].
          exists (forest_text F1 ++ start_tag m a false ++ A), nd, (B ++ end_tag m ++ forest_text F2). split.
          -- rewrite EF0. constructor; auto.
          -- rewrite PB in AT. inversion AT as [n1 a1 self1 kids2 l1 B1 B2 B3 B4 B5 B6 B7]; subst nd l1. cbn [List.length] in *.
             constructor; auto.
             ++ rewrite B1, !app_length. lia.
             ++ rewrite B2, !app_length. lia.
        * intros A nd B L. inversion L as [|n0 idx0 r0 G1 m0 a0 k0 G2 A0 nd0 B0 Hn0 Hcc Hl]; subst n0 idx0 r0 nd0 A B.
          match goal with Q : G1 ++ _ :: G2 = F |- _ => rewrite EF0 in Q; rename Q into H end.
          destruct (split_unique (selects n) _ _ _ _ _ _ H) as [_ [Q _]]; auto; [congruence|].
          injection Q as -> -> <- ->. exact (R2 _ _ _ Hl).
  Qed.
End Find.

Section Set_.
  Variable E : env.
  Variable fmt_g : f64 -> bytes.
  Hypothesis Hord : forall k l, Permutation l (e_ord E k l).
  Section Doc.
  Variable p : bytes.
  Variable F : list node.
  Hypothesis Hp : prolog p.
  Hypothesis Hg : Forall fair F.
  Let d := p ++ forest_text F.
  Hypothesis Hd : (blen d <= 10485760)%N.

  (** What the search for an element finds. *)
  Lemma find_doc : forall steps key, steps <> [] -> Forall good_tstep steps ->
    exists r, find_loc E default_options key d (segs_of steps TheElement) 0 = Ok r /\
      match r with
      | Some l => exists A nd B, located steps F A nd B /\ at_loc (Z.of_nat (len p)) A nd l
      | None => forall A nd B, ~ located steps F A nd B
      end.
  Proof.
    intros steps key NE GS. destruct (find_loc_tree E Hord steps NE GS F F p 0 key) as [r [R1 R2]]; auto using varied_all_refl, skippable_prolog; [lia| |].
    - pose proof (size_pos _ Hd). unfold d in *. lia.
    - exists r. split; auto.
  Qed.
  Lemma find_some : forall steps key A nd B, Forall good_tstep steps -> located steps F A nd B ->
    exists l, find_loc E default_options key d (segs_of steps TheElement) 0 = Ok (Some l) /\ at_loc (Z.of_nat (len p)) A nd l.
  Proof.
    intros steps key A nd B GS L. destruct (find_doc steps key (located_nonempty _ _ _ _ _ L) GS) as [[l|] [R1 R2]].
    - destruct R2 as [A' [nd' [B' [L' AT]]]]. destruct (located_unique _ _ _ _ _ L _ _ _ L') as [-> [-> ->]]. eauto.
    - destruct (R2 _ _ _ L).
  Qed.
  Lemma find_none : forall steps key, Forall good_tstep steps -> steps <> [] -> (forall A nd B, ~ located steps F A nd B) ->
    find_loc E default_options key d (segs_of steps TheElement) 0 = Ok None.
  Proof.
    intros steps key GS NE H. destruct (find_doc steps key NE GS) as [[l|] [R1 R2]]; auto. destruct R2 as [A' [nd' [B' [L' AT]]]]. destruct (H _ _ _ L').
  Qed.

  Hypothesis Hv : valid d = true.
  Lemma set_start : forall path v segs, v <> VNil -> parse_path path = Ok segs -> segs <> [] ->
    set E fmt_g d path v = edit_of d (set_element E fmt_g default_options d segs v).
  Proof.
    intros path v segs NV P NE. unfold set, set_opts. rewrite (size_ok _ Hd), Hv. cbn [negb].
    replace (match d with [] => false | _ :: _ => false end) with false by (destruct d; reflexivity). rewrite (parse_default _ _ P).
    destruct segs; [contradiction|]. destruct v; try reflexivity. contradiction.
  Qed.
  (** Replacing the content of an element. *)
  Lemma set_found : forall steps A n a self kids B v xv, good_tpath steps TheElement -> located steps F A (Elem n a self kids) B ->
    v <> VNil -> value_to_xml fmt_g v = inr xv -> (blen xv <= 5242880)%N ->
    set E fmt_g d (tpath steps TheElement) v =
      Ok (p ++ A ++ start_tag n a self ++ xv ++ (if self then [] else end_tag n) ++ B, None).
  Proof.
    intros steps A n a self kids B v xv GT L NV XV SZ. pose proof (located_nonempty _ _ _ _ _ L) as NE.
    destruct (segs_nonempty steps NE) as [sg [r Q]]. pose proof (segs_parse _ _ GT) as P. rewrite (set_start _ v _ NV P) by (rewrite Q; discriminate).
    unfold set_element. rewrite Q. cbn iota. rewrite XV. rewrite (proj2 (N.ltb_ge MaxValueSize (blen xv)) SZ), (size_ok _ Hd).
    rewrite <- Q. rewrite <- (app_nil_r (segs_of steps TheElement)), intents_steps, app_nil_r by (intros ? []).
    rewrite (type_attr_false _ (last_steps steps _ NE)). destruct GT as [GS _ _].
    destruct (find_some steps [3] A _ B GS L) as [l [R AT]]. rewrite R. cbn [bind]. inversion AT as [n1 a1 self1 kids1 l1 B1 B2 B3 B4 B5 B6 B7]; subst n1 a1 self1 kids1 l1.
    pose proof (located_text _ _ _ _ _ L) as T. destruct (located_good _ _ _ _ _ L Hg) as [GE _]. inversion GE as [? ? ? ? GN GA GSf GK| | |]; subst n0 a0 self0 kids0.
    unfold lift, replace_element.
    assert (D1 : d = (p ++ A ++ start_tag n a self) ++ (if self then [] else forest_text kids ++ end_tag n) ++ B).
    { unfold d. rewrite T. cbn [node_text]. unfold forest_text. now rewrite <- !app_assoc. }
    assert (D2 : d = (p ++ A ++ start_tag n a self ++ (if self then [] else forest_text kids)) ++ (if self then [] else end_tag n) ++ B).
    { rewrite D1, <- !app_assoc. destruct self; [reflexivity|]. now rewrite <- !app_assoc. }
    assert (S1 : slice_to d (l_content_start l) = Ok (p ++ A ++ start_tag n a self)).
    { rewrite D1. apply slice_to_app. rewrite B2, !app_length. lia. }
    assert (S2 : slice_from d (l_content_end l) = Ok ((if self then [] else end_tag n) ++ B)).
    { rewrite D2. apply slice_from_app. rewrite B3, B2, !app_length. destruct self; cbn [List.length]; lia. }
    rewrite S1. cbn [bind]. rewrite S2. cbn [bind edit_of].
    rewrite get_result_some; [now rewrite <- !app_assoc|]. unfold start_tag. intros K. apply (f_equal (@List.length ascii)) in K.
    rewrite !app_length in K. change (len (bs "<")) with 1 in K. cbn [List.length] in K. lia.
  Qed.
  End Doc.
End Set_.

Section Edits.
  Variable E : env.
  Variable fmt_g : f64 -> bytes.
  Hypothesis Hord : forall k l, Permutation l (e_ord E k l).
  Section Doc.
  Variable p : bytes.
  Variable F : list node.
  Hypothesis Hp : prolog p.
  Hypothesis Hg : Forall fair F.
  Let d := p ++ forest_text F.
  Hypothesis Hd : (blen d <= 10485760)%N.

  (** Reading at a located element. *)
  Hypothesis Hv : valid d = true.
  Lemma around : forall steps A n a self kids B, located steps F A (Elem n a self kids) B ->
    d = (p ++ A) ++ start_tag n a self ++ (if self then [] else forest_text kids ++ end_tag n) ++ B.
  Proof. intros steps A n a self kids B L. unfold d. rewrite (located_text _ _ _ _ _ L), node_parts, <- !app_assoc. reflexivity. Qed.
  Lemma slices : forall steps A n a self kids B l, located steps F A (Elem n a self kids) B -> at_loc (Z.of_nat (len p)) A (Elem n a self kids) l ->
    slice_to d (l_start l) = Ok (p ++ A) /\
    slice_from d (l_content_start l) = Ok ((if self then [] else forest_text kids ++ end_tag n) ++ B) /\
    slice_to d (l_content_start l) = Ok (p ++ A ++ start_tag n a self) /\
    slice_from d (l_content_end l) = Ok ((if self then [] else end_tag n) ++ B) /\
    slice_to d (l_content_end l) = Ok (p ++ A ++ start_tag n a self ++ (if self then [] else forest_text kids)) /\
    slice_from d (if l_self l then l_content_start l else (l_end_tag l + Z.of_nat (len (l_name l)) + 3)%Z) = Ok B.
  Proof.
    intros steps A n a self kids B l L AT. pose proof (around _ _ _ _ _ _ _ L) as D. inversion AT as [n1 a1 self1 kids1 l1 B1 B2 B3 B4 B5 B6 B7]; subst n1 a1 self1 kids1 l1.
    assert (D1 : d = (p ++ A ++ start_tag n a self) ++ (if self then [] else forest_text kids ++ end_tag n) ++ B) by (rewrite D, <- !app_assoc; reflexivity).
    assert (D2 : d = (p ++ A ++ start_tag n a self ++ (if self then [] else forest_text kids)) ++ (if self then [] else end_tag n) ++ B)
      by (rewrite D1, <- !app_assoc; destruct self; [|rewrite <- !app_assoc]; reflexivity).
    assert (D3 : d = (p ++ A ++ start_tag n a self ++ (if self then [] else forest_text kids ++ end_tag n)) ++ B)
      by (rewrite D1, <- !app_assoc; reflexivity).
    repeat split.
    - rewrite D. apply slice_to_app. rewrite B1, app_length. lia.
    - rewrite D1. apply slice_from_app. rewrite B2, !app_length. lia.
    - rewrite D1. apply slice_to_app. rewrite B2, !app_length. lia.
    - rewrite D2. apply slice_from_app. rewrite B3, B2, !app_length. destruct self; cbn [List.length]; lia.
    - rewrite D2. apply slice_to_app. rewrite B3, B2, !app_length. destruct self; cbn [List.length]; lia.
    - rewrite D3. apply slice_from_app. rewrite B7, B5, B4, B3, B2, !app_length. destruct self; cbn [List.length]; [lia|]. rewrite app_length, end_tag_len. lia.
  Qed.
  Lemma set_attr_found : forall steps A n a self kids B x v, good_tpath steps (TheAttribute x) -> located steps F A (Elem n a self kids) B ->
    (blen (esc v) <= 5242880)%N -> exists a', Permutation a' (put_attr x v a) /\
    set E fmt_g d (tpath steps (TheAttribute x)) (VStr v) =
      Ok (p ++ A ++ start_tag n a' self ++ (if self then [] else forest_text kids ++ end_tag n) ++ B, None).
  Proof.
    intros steps A n a self kids B x v GT L SZ. pose proof (located_nonempty _ _ _ _ _ L) as NE. pose proof (segs_parse _ _ GT) as P.
    destruct (located_good _ _ _ _ _ L Hg) as [GE _]. inversion GE as [? ? ? ? GN GA GSf GK| | |]; subst n0 a0 self0 kids0.
    destruct GT as [GS _ _]. destruct (find_some E Hord p F Hp Hg Hd steps [1] A _ B GS L) as [l [R AT]]. fold d in R.
    destruct (slices _ _ _ _ _ _ _ l L AT) as [S1 [S2 _]]. inversion AT as [n1 a1 self1 kids1 l1 B1 B2 B3 B4 B5 B6 B7]; subst n1 a1 self1 kids1 l1.
    destruct (replaced_attrs a (l_attrs l) x v (ga_distinct _ GA) B6) as [a' [PA TA]]. exists a'. split; auto.
    unfold d. rewrite (set_start E fmt_g p F Hd Hv _ (VStr v) _ ltac:(discriminate) P (segs_attr_nonempty _ _)). fold d.
    unfold set_element. rewrite segs_attr. destruct (segs_nonempty steps NE) as [sg [rr Q]]. rewrite Q. cbn [app]. cbn [value_to_xml]. rewrite <- esc_escape.
    rewrite (proj2 (N.ltb_ge MaxValueSize (blen (esc v))) SZ), (size_ok _ Hd).
    change (sg :: rr ++ [step_seg (Attr x, [])]) with ((sg :: rr) ++ [step_seg (Attr x, [])]). rewrite <- Q.
    rewrite intents_steps by (intros ? [<-|[]]; discriminate). rewrite last_last, removelast_last. cbn [step_seg s_type segtype_eqb s_value].
    rewrite R. cbn [bind]. unfold lift, replace_attribute. rewrite S1. cbn [bind]. rewrite S2. cbn [bind]. cbn [step_seg s_value] in *. rewrite TA. rewrite B5, B7.
    cbn [bind edit_of].
    replace ((p ++ A) ++ bs "<" ++ n ++ attrs_text a' ++ (if self then bs "/>" else bs ">") ++ (if self then [] else forest_text kids ++ end_tag n) ++ B)
      with ((p ++ A) ++ start_tag n a' self ++ (if self then [] else forest_text kids ++ end_tag n) ++ B) by (unfold start_tag; now rewrite <- !app_assoc).
    rewrite get_result_some by apply start_tag_nonempty. now rewrite <- app_assoc.
  Qed.

  (** ** Delete *)
  Lemma delete_start : forall path segs, parse_path path = Ok segs -> segs <> [] ->
    delete E d path = edit_of d (delete_element E default_options d segs).
  Proof.
    intros path segs P NE. unfold delete, delete_opts. rewrite (size_ok _ Hd), Hv. cbn [negb]. rewrite (parse_default _ _ P). cbn [bind]. destruct segs; [contradiction|reflexivity].
  Qed.
  Lemma delete_found : forall steps A nd B, good_tpath steps TheElement -> located steps F A nd B ->
    delete E d (tpath steps TheElement) = Ok (match p ++ A ++ B with [] => d | r => r end, None).
  Proof.
    intros steps A nd B GT L. pose proof (located_nonempty _ _ _ _ _ L) as NE. destruct (segs_nonempty steps NE) as [sg [r Q]]. pose proof (segs_parse _ _ GT) as P.
    rewrite (delete_start _ _ P) by (rewrite Q; discriminate). destruct GT as [GS _ _]. destruct (find_some E Hord p F Hp Hg Hd steps [6] A _ B GS L) as [l [R AT]].
    destruct (located_good _ _ _ _ _ L Hg) as [GE EL]. destruct nd as [n a self kids| |]; try discriminate.
    destruct (slices _ _ _ _ _ _ _ l L AT) as [S1 [_ [_ [_ [_ S6]]]]].
    unfold delete_element. rewrite Q. cbn iota. rewrite <- Q. rewrite (size_ok _ Hd), (type_attr_false _ (last_steps steps _ NE)). fold d in R. rewrite R. cbn [bind].
    rewrite S1. cbn [bind]. rewrite S6. cbn [bind edit_of]. unfold get_result. rewrite <- app_assoc. now destruct (p ++ A ++ B).
  Qed.
  Lemma delete_missing : forall steps fin, good_tpath steps fin -> fin = TheElement \/ (exists x, fin = TheAttribute x) -> (forall A nd B, ~ located steps F A nd B) ->
    delete E d (tpath steps fin) = Ok (d, None).
  Proof.
    intros steps fin GT HF NL. pose proof (segs_parse _ _ GT) as P. destruct GT as [GS GF _].
    assert (NE : steps <> []) by (destruct HF as [->|[x ->]]; cbn [good_final] in GF; tauto).
    destruct (segs_nonempty steps NE) as [sg [r Q]]. destruct HF as [->|[x ->]].
    - rewrite (delete_start _ _ P) by (rewrite Q; discriminate). unfold delete_element. rewrite Q. cbn iota. rewrite <- Q.
      rewrite (size_ok _ Hd), (type_attr_false _ (last_steps steps _ NE)). pose proof (find_none E Hord p F Hp Hg Hd steps [6] GS NE NL) as R. fold d in R. rewrite R. reflexivity.
    - rewrite (delete_start _ _ P (segs_attr_nonempty _ _)). unfold delete_element. rewrite segs_attr. rewrite Q. cbn [app]. change (sg :: r ++ [step_seg (Attr x, [])]) with ((sg :: r) ++ [step_seg (Attr x, [])]).
      rewrite (size_ok _ Hd). rewrite last_last, removelast_last. cbn [step_seg s_type segtype_eqb]. rewrite <- Q.
      pose proof (find_none E Hord p F Hp Hg Hd steps [5] GS NE NL) as R. fold d in R. rewrite R. reflexivity.
  Qed.
  Lemma delete_attr_found : forall steps A n a self kids B x, good_tpath steps (TheAttribute x) -> located steps F A (Elem n a self kids) B ->
    match attr_value x a with
    | None => delete E d (tpath steps (TheAttribute x)) = Ok (d, None)
    | Some _ => exists a', Permutation a' (drop_attr x a) /\
        delete E d (tpath steps (TheAttribute x)) =
          Ok (p ++ A ++ start_tag n a' self ++ (if self then [] else forest_text kids ++ end_tag n) ++ B, None)
    end.
  Proof.
    intros steps A n a self kids B x GT L. pose proof (located_nonempty _ _ _ _ _ L) as NE. pose proof (segs_parse _ _ GT) as P.
    destruct (located_good _ _ _ _ _ L Hg) as [GE _]. inversion GE as [? ? ? ? GN GA GSf GK| | |]; subst n0 a0 self0 kids0.
    destruct GT as [GS _ _]. destruct (find_some E Hord p F Hp Hg Hd steps [5] A _ B GS L) as [l [R AT]]. fold d in R.
    destruct (slices _ _ _ _ _ _ _ l L AT) as [S1 [S2 _]]. inversion AT as [n1 a1 self1 kids1 l1 B1 B2 B3 B4 B5 B6 B7]; subst n1 a1 self1 kids1 l1.
    rewrite (delete_start _ _ P (segs_attr_nonempty _ _)). unfold delete_element. rewrite segs_attr. destruct (segs_nonempty steps NE) as [sg [r Q]]. rewrite Q. cbn [app]. change (sg :: r ++ [step_seg (Attr x, [])]) with ((sg :: r) ++ [step_seg (Attr x, [])]).
    rewrite (size_ok _ Hd). rewrite last_last, removelast_last. cbn [step_seg s_type segtype_eqb s_value]. rewrite <- Q. rewrite R. cbn [bind].
    unfold lift, delete_attribute. cbn [o_case default_options]. rewrite <- attr_map, (attr_perm a _ x (ga_distinct _ GA) B6). cbn [step_seg s_value].
    destruct (attr_value x a) as [w|]; cbn [negb].
    - destruct (dropped_attrs a (l_attrs l) x (ga_distinct _ GA) B6) as [a' [PA TA]]. exists a'. split; auto. rewrite S1. cbn [bind]. rewrite S2. cbn [bind edit_of].
      rewrite TA, B5, B7.
      replace ((p ++ A) ++ bs "<" ++ n ++ attrs_text a' ++ (if self then bs "/>" else bs ">") ++ (if self then [] else forest_text kids ++ end_tag n) ++ B)
        with ((p ++ A) ++ start_tag n a' self ++ (if self then [] else forest_text kids ++ end_tag n) ++ B) by (unfold start_tag; now rewrite <- !app_assoc).
      rewrite get_result_some by apply start_tag_nonempty. now rewrite <- app_assoc.
    - cbn [bind edit_of]. unfold get_result. now destruct d.
  Qed.
  End Doc.
End Edits.

Section Create.
  Variable E : env.
  Variable fmt_g : f64 -> bytes.
  Hypothesis Hord : forall k l, Permutation l (e_ord E k l).
  Section Doc.
  Variable p : bytes.
  Variable F : list node.
  Hypothesis Hp : prolog p.
  Hypothesis Hg : Forall fair F.
  Let d := p ++ forest_text F.
  Hypothesis Hd : (blen d <= 10485760)%N.

  Lemma firstn_names : forall pre names j, j <= len names ->
    firstn (len (segs_of pre TheElement) + j) (segs_of (pre ++ by_name names) TheElement) = segs_of (pre ++ by_name (firstn j names)) TheElement.
  Proof. intros pre names j H. rewrite !segs_app, firstn_app_2, !segs_names. f_equal. apply firstn_map. Qed.
  Lemma find_parent_found : forall pre m ms key A n a self kids B, Forall good_tstep (pre ++ by_name (m :: ms)) -> located pre F A (Elem n a self kids) B ->
    called (selects m) kids = [] -> forall j, j <= len (m :: ms) -> exists l,
    find_parent E default_options key d (segs_of (pre ++ by_name (m :: ms)) TheElement) (len (segs_of pre TheElement) + j) = Ok (Some (l, len (segs_of pre TheElement))) /\
    at_loc (Z.of_nat (len p)) A (Elem n a self kids) l.
  Proof.
    intros pre m ms key A n a self kids B GS L C. pose proof (located_nonempty _ _ _ _ _ L) as NE. apply Forall_app in GS. destruct GS as [GP GN].
    assert (Q : exists k, len (segs_of pre TheElement) = S k) by (destruct (segs_nonempty pre NE) as [sg [r ->]]; cbn [List.length]; eauto).
    destruct Q as [k Q]. induction j as [|j IH]; intros Hj.
    - destruct (find_some E Hord p F Hp Hg Hd pre (S k :: key) A _ B GP L) as [l [R AT]]. fold d in R. exists l. split; auto.
      assert (FN : firstn (S k) (segs_of (pre ++ by_name (m :: ms)) TheElement) = segs_of pre TheElement).
      { rewrite segs_app, <- Q. rewrite firstn_app, Nat.sub_diag, firstn_all. apply app_nil_r. }
      rewrite Nat.add_0_r, Q. cbn [find_parent]. rewrite FN, R. reflexivity.
    - destruct (IH ltac:(lia)) as [l [R AT]]. exists l. split; auto. rewrite Nat.add_succ_r. cbn [find_parent]. rewrite <- Nat.add_succ_r at 2. rewrite firstn_names by auto.
      rewrite (find_none E Hord p F Hp Hg Hd); [exact R| | |].
      + apply Forall_app. split; auto. apply good_by_name. apply good_by_name in GN. now apply Forall_firstn.
      + destruct pre; [contradiction|discriminate].
      + cbn [firstn by_name map]. eapply absent_below; eauto.
  Qed.
  Lemma find_parent_none : forall m ms key, Forall good_tstep (by_name (m :: ms)) -> called (selects m) F = [] -> forall j, j <= len (m :: ms) ->
    find_parent E default_options key d (segs_of (by_name (m :: ms)) TheElement) j = Ok None.
  Proof.
    intros m ms key GS C. induction j as [|j IH]; intros Hj; [reflexivity|]. cbn [find_parent].
    assert (Q : firstn (S j) (segs_of (by_name (m :: ms)) TheElement) = segs_of (by_name (firstn (S j) (m :: ms))) TheElement) by (rewrite !segs_names; apply firstn_map).
    rewrite Q. pose proof (find_none E Hord p F Hp Hg Hd (by_name (firstn (S j) (m :: ms))) (S j :: key)) as R. fold d in R. rewrite R.
    - apply IH. lia.
    - apply good_by_name. apply good_by_name in GS. now apply Forall_firstn.
    - discriminate.
    - cbn [firstn by_name map]. now apply absent_here.
  Qed.

  Hypothesis Hv : valid d = true.
  Lemma doc_nonempty : exists c r, d = c :: r.
  Proof. destruct d as [|c r] eqn:Q; eauto. discriminate Hv. Qed.
  Lemma set_missing_start : forall steps v xv, good_tpath steps TheElement -> (forall A nd B, ~ located steps F A nd B) ->
    v <> VNil -> value_to_xml fmt_g v = inr xv -> (blen xv <= 5242880)%N ->
    set E fmt_g d (tpath steps TheElement) v =
    edit_of d (let* r := create_element E default_options [4] d (segs_of steps TheElement) xv in
               match r with inl e => Ok (inl e) | inr r => Ok (inr (get_result d r)) end).
  Proof.
    intros steps v xv GT NL NV XV SZ. pose proof (segs_parse _ _ GT) as P. destruct GT as [GS NE _]. cbn [good_final] in NE.
    destruct (segs_nonempty steps NE) as [sg [r Q]]. unfold d. rewrite (set_start E fmt_g p F Hd Hv _ v _ NV P) by (rewrite Q; discriminate). fold d.
    unfold set_element. rewrite Q. cbn iota. rewrite XV. rewrite (proj2 (N.ltb_ge MaxValueSize (blen xv)) SZ), (size_ok _ Hd).
    rewrite <- Q. rewrite <- (app_nil_r (segs_of steps TheElement)), intents_steps, app_nil_r by (intros ? []).
    rewrite (type_attr_false _ (last_steps steps _ NE)). pose proof (find_none E Hord p F Hp Hg Hd steps [3] GS NE NL) as R. fold d in R. rewrite R. reflexivity.
  Qed.
  Lemma create_below : forall pre m ms key xv A n a self kids B, Forall good_tstep (pre ++ by_name (m :: ms)) -> located pre F A (Elem n a self kids) B ->
    called (selects m) kids = [] -> exists a', Permutation a a' /\ (self = false -> a' = a) /\
    create_element E default_options key d (segs_of (pre ++ by_name (m :: ms)) TheElement) xv =
      Ok (inr ((p ++ A) ++ start_tag n a' false ++ forest_text kids ++ fold_right (fun n t => start_tag n [] false ++ t ++ end_tag n) xv (m :: ms) ++ end_tag n ++ B)).
  Proof.
    intros pre m ms key xv A n a self kids B GS L C. unfold create_element. destruct doc_nonempty as [c [r Dn]]. rewrite Dn. rewrite <- Dn.
    assert (LN : len (segs_of (pre ++ by_name (m :: ms)) TheElement) - 1 = len (segs_of pre TheElement) + len ms).
    { rewrite segs_app, app_length, segs_names, map_length. cbn [List.length]. lia. }
    rewrite LN. destruct (find_parent_found pre m ms (0 :: key) A n a self kids B GS L C (len ms) ltac:(cbn; lia)) as [l [R AT]]. rewrite R. cbn [bind].
    assert (SK : skipn (len (segs_of pre TheElement)) (segs_of (pre ++ by_name (m :: ms)) TheElement) = map elem_seg (m :: ms)).
    { rewrite segs_app, skipn_app, skipn_all, Nat.sub_diag. cbn [skipn app]. apply segs_names. }
    rewrite SK. destruct (slices p F Hd _ _ _ _ _ _ _ l L AT) as [S1 [_ [_ [S4 [S5 _]]]]]. fold d in S1, S4, S5.
    inversion AT as [n1 a1 self1 kids1 l1 B1 B2 B3 B4 B5 B6 B7]; subst n1 a1 self1 kids1 l1.
    unfold create_in_parent. rewrite B7. destruct self.
    - destruct (located_good _ _ _ _ _ L Hg) as [GE _]. inversion GE as [? ? ? ? GN GA GSf GK| | |]; subst n0 a0 self kids0.
      exists (e_ord E (2 :: key) (l_attrs l)). split; [etransitivity; [exact B6|apply Hord]|]. split; [discriminate|].
      rewrite S1. cbn [bind]. rewrite S4. cbn [bind app]. cbn [o_indent default_options]. rewrite (build_names (m :: ms) xv 0) by discriminate.
      do 2 f_equal. rewrite (GSf eq_refl). unfold reopen_tag. rewrite write_attrs_text, B5, close_end. unfold start_tag at 2. cbn [forest_text flat_map app]. now rewrite <- !app_assoc.
    - exists a. split; [reflexivity|]. split; [reflexivity|]. rewrite S5. cbn [bind]. rewrite S4. cbn [bind]. cbn [o_indent default_options].
      rewrite (build_names (m :: ms) xv 0) by discriminate. do 2 f_equal. now rewrite <- !app_assoc.
  Qed.
  Lemma create_root : forall m ms key xv, Forall good_tstep (by_name (m :: ms)) -> called (selects m) F = [] ->
    create_element E default_options key d (segs_of (by_name (m :: ms)) TheElement) xv =
      Ok (inr (d ++ fold_right (fun n t => start_tag n [] false ++ t ++ end_tag n) xv (m :: ms))).
  Proof.
    intros m ms key xv GS C. unfold create_element. destruct doc_nonempty as [c [r Dn]]. rewrite Dn. rewrite <- Dn.
    rewrite (find_parent_none m ms _ GS C) by (rewrite segs_names, map_length; cbn [List.length]; lia). cbn [bind].
    unfold create_in_root. destruct (scan_fair_at (e_ord E) (0 :: 1 :: key) F Hord Hg) as [es [SC SD]].
    assert (SR : scan_res E (0 :: 1 :: key) d = Ok es) by (unfold scan_res, d; rewrite scan_skip by (now apply skippable_prolog); now rewrite SC).
    rewrite SR. cbn [bind]. rewrite segs_names. cbn [map]. change (s_type (elem_seg m)) with SElem. change (s_value (elem_seg m)) with m. cbn [segtype_eqb andb].
    assert (SB : should_create_sibling es m = true).
    { unfold should_create_sibling. apply negb_true_iff. destruct (existsb _ es) eqn:Q; auto. apply existsb_exists in Q. destruct Q as [e [I Q]].
      apply bytes_eqb_eq in Q. pose proof (scanned_count (selects m) F es SD) as K. rewrite C in K. cbn [List.length] in K.
      assert (I2 : In e (filter (fun e0 => selects m (e_name e0)) es)) by (apply filter_In; split; auto; rewrite Q; apply selects_self).
      destruct (filter (fun e0 => selects m (e_name e0)) es); [destruct I2|discriminate]. }
    rewrite SB. cbn [o_indent default_options]. change (elem_seg m :: map elem_seg ms) with (map elem_seg (m :: ms)). now rewrite (build_names (m :: ms) xv 0) by discriminate.
  Qed.
  End Doc.
End Create.

Lemma last_pos_none : forall n d F es, scanned F es -> Forall fair F -> step_name n -> called (selects n) F = [] ->
  forall dflt, last_match_pos default_options (elem_seg n) d es dflt = dflt.
Proof.
  intros n d F es H G S C. pose proof (filter_selects n F es H G S) as FS. pose proof (scanned_count (selects n) F es H) as K. rewrite C in K. rewrite <- FS in K. clear FS C H G.
  induction es as [|e es IH]; intros dflt; [reflexivity|]. cbn [last_match_pos]. cbn [filter] in K. cbn [o_case default_options] in *. destruct (seg_matches_opts true (elem_seg n) (e_name e)); [discriminate|]. auto.
Qed.
Lemma last_pos_some : forall n d F1 m a self kids F2 es, scanned (F1 ++ Elem m a self kids :: F2) es -> Forall fair (F1 ++ Elem m a self kids :: F2) -> step_name n ->
  selects n m = true -> called (selects n) F2 = [] -> forall dflt, last_match_pos default_options (elem_seg n) d es dflt = pos_of d (forest_text F2).
Proof.
  intros n d. induction F1 as [|x F1 IH]; intros m a self kids F2 es H G S M C dflt; cbn [app] in *; inversion G as [|? ? G1 G2]; subst.
  - inversion H; subst. cbn [last_match_pos e_name e_after]. rewrite matches_default. inversion G1; subst. rewrite selects_match by auto. rewrite M. eapply last_pos_none; eauto.
  - inversion H; subst; eauto. cbn [last_match_pos]. eapply IH; eauto.
Qed.
Lemma last_pos : forall n d F es dflt F1 F2, scanned F es -> Forall fair F -> step_name n -> F = F1 ++ F2 -> called (selects n) F2 = [] ->
  (called (selects n) F = [] -> F2 = []) -> (called (selects n) F <> [] -> exists G nd, F1 = G ++ [nd] /\ named (selects n) nd = true) ->
  (called (selects n) F = [] -> dflt = pos_of d []) -> last_match_pos default_options (elem_seg n) d es dflt = pos_of d (forest_text F2).
Proof.
  intros n d F es dflt F1 F2 H G S EF C K1 K2 D. destruct (called (selects n) F) as [|y l] eqn:Q.
  - rewrite (K1 eq_refl), (last_pos_none n d F es H G S Q), (D eq_refl). reflexivity.
  - destruct (K2 ltac:(discriminate)) as [G0 [nd [-> N]]]. destruct nd as [m a self kids| |]; try discriminate. rewrite <- app_assoc in EF. cbn [app] in EF. subst F.
    eapply last_pos_some; eauto.
Qed.

Section Append.
  Variable E : env.
  Variable fmt_g : f64 -> bytes.
  Hypothesis Hord : forall k l, Permutation l (e_ord E k l).
  Section Doc.
  Variable p : bytes.
  Variable F : list node.
  Hypothesis Hp : prolog p.
  Hypothesis Hg : Forall fair F.
  Let d := p ++ forest_text F.
  Hypothesis Hv : valid d = true.
  Let Hd : (blen d <= 10485760)%N := valid_size d Hv.

  Lemma append_start : forall steps n v xv, Forall good_tstep (steps ++ [(n, None)]) -> len (flat_map tstep_steps (steps ++ [(n, None)])) < 100 ->
    v <> VNil -> value_to_xml fmt_g v = inr xv -> (blen xv <= 5242880)%N ->
    set E fmt_g d (tpath (steps ++ [(n, None)]) TheElement ++ bs ".-1") v =
    edit_of d (let* r := append_element E default_options [0] d (segs_of steps TheElement ++ [elem_seg n; append_seg]) xv in
               match r with inl e => Ok (inl e) | inr r => Ok (inr (get_result d r)) end).
  Proof.
    intros steps n v xv GS LN NV XV SZ. assert (NE : steps ++ [(n, None)] <> []) by (intros K; now destruct steps).
    pose proof (append_parse _ NE GS LN) as P. unfold d.
    rewrite (set_start E fmt_g p F Hd Hv _ v _ NV P) by (intros K; now destruct (segs_of (steps ++ [(n, None)]) TheElement)). fold d.
    unfold set_element. destruct (segs_nonempty _ NE) as [sg [r Q]]. rewrite Q. cbn [app]. rewrite XV. rewrite (proj2 (N.ltb_ge MaxValueSize (blen xv)) SZ), (size_ok _ Hd).
    change (sg :: r ++ [append_seg]) with ((sg :: r) ++ [append_seg]). rewrite <- Q, intents_append. rewrite segs_app.
    replace (segs_of [(n, None)] TheElement) with [elem_seg n] by reflexivity. rewrite <- app_assoc. reflexivity.
  Qed.
  Lemma append_parts : forall steps n xv key, append_element E default_options key d (segs_of steps TheElement ++ [elem_seg n; append_seg]) xv =
    match segs_of steps TheElement with
    | [] => append_root E default_options (0 :: key) d (elem_seg n) xv
    | parent =>
        let* l := find_loc E default_options (1 :: key) d parent 0 in
        match l with
        | None => create_element E default_options (2 :: key) d (parent ++ [elem_seg n]) xv
        | Some l =>
            if l_self l then
              let* a := slice_to d (l_start l) in
              let* b := slice_from d (l_content_end l) in
              Ok (inr (a ++ bs "<" ++ l_name l ++ sorted_attrs (l_attrs l) ++ bs ">" ++ new_elem n xv ++ close_tag (l_name l) ++ b))
            else
              let* q := find_last_match E default_options (3 :: key) d l (elem_seg n) in
              let* a := slice_to d q in
              let* b := slice_from d q in
              let r := a ++ new_elem n xv ++ b in
              if (MaxDocumentSize <? blen r)%N then Ok (inl ErrInvalidValue) else Ok (inr r)
        end
    end.
  Proof.
    intros steps n xv key. unfold append_element.
    assert (RV : rev (segs_of steps TheElement ++ [elem_seg n; append_seg]) = append_seg :: elem_seg n :: rev (segs_of steps TheElement))
      by (rewrite rev_app_distr; reflexivity).
    rewrite RV. cbn [append_seg s_type s_index segtype_eqb negb orb elem_seg s_value]. rewrite Z.eqb_refl. cbn [negb]. rewrite rev_involutive.
    destruct (segs_of steps TheElement) as [|x l]; reflexivity.
  Qed.
  (** A non-self-closing parent. *)
  Lemma append_found : forall steps A n a kids B m v xv, Forall good_tstep (steps ++ [(m, None)]) -> len (flat_map tstep_steps (steps ++ [(m, None)])) < 100 ->
    located steps F A (Elem n a false kids) B -> v <> VNil -> value_to_xml fmt_g v = inr xv -> (blen xv <= 5242880)%N ->
    exists K1 K2, kids = K1 ++ K2 /\ (forall c, insert_last (selects m) c kids = K1 ++ c :: K2) /\
    let new := p ++ A ++ start_tag n a false ++ forest_text K1 ++ (start_tag m [] false ++ xv ++ end_tag m) ++ forest_text K2 ++ end_tag n ++ B in
    set E fmt_g d (tpath (steps ++ [(m, None)]) TheElement ++ bs ".-1") v =
      Ok (if (10485760 <? blen new)%N then (d, Some ErrInvalidValue) else (new, None)).
  Proof.
    intros steps A n a kids B m v xv GS LN L NV XV SZ. destruct (insert_split (selects m) kids) as [K1 [K2 [EK [IL [C2 [C3 C4]]]]]].
    exists K1, K2. split; auto. split; auto.
    rewrite append_start with (xv := xv) by auto. rewrite append_parts. pose proof (located_nonempty _ _ _ _ _ L) as NE.
    apply Forall_app in GS. destruct GS as [GP GM]. inversion GM as [|? ? [SM _] _]; subst. cbn [fst] in SM.
    destruct (segs_nonempty steps NE) as [sg [r Q]]. rewrite Q. cbn iota. cbv zeta. rewrite <- Q. destruct (find_some E Hord p F Hp Hg Hd steps [1; 0] A _ B GP L) as [l [R AT]]. fold d in R. rewrite R. cbn [bind].
    destruct (located_good _ _ _ _ _ L Hg) as [GE _]. inversion GE as [? ? ? ? GN GA GSf GK| | |]; subst n0 a0 self kids.
    destruct (slices p F Hd _ _ _ _ _ _ _ l L AT) as [_ [_ [S3 [S4 [S5 _]]]]]. fold d in S3, S4, S5.
    inversion AT as [n1 a1 self1 kids1 l1 B1 B2 B3 B4 B5 B6 B7]; subst n1 a1 self1 kids1 l1. rewrite B7.
    unfold find_last_match, sliced. rewrite (proj2 (Z.leb_le _ _)) by (rewrite B3; lia). rewrite S5. cbn [bind].
    rewrite !app_assoc in S5 |- *. rewrite slice_from_app by (rewrite B2, !app_length; lia). cbn [bind].
    destruct (scan_fair_at (e_ord E) [3; 0] (K1 ++ K2) Hord GK) as [es [SC SD]].
    assert (SR : scan_res E [3; 0] (forest_text (K1 ++ K2)) = Ok es) by (unfold scan_res; now rewrite SC). rewrite SR. cbn [bind].
    rewrite (last_pos m (forest_text (K1 ++ K2)) (K1 ++ K2) es _ K1 K2 SD GK SM eq_refl C2 C3 C4).
    2:{ intros _. rewrite B3. unfold pos_of. cbn [List.length]. lia. }
    set (q := (pos_of (forest_text (K1 ++ K2)) (forest_text K2) + l_content_start l)%Z).
    assert (DQ : d = (p ++ A ++ start_tag n a false ++ forest_text K1) ++ forest_text K2 ++ end_tag n ++ B).
    { unfold d. rewrite (located_text _ _ _ _ _ L), node_elem, forest_app, <- !app_assoc. reflexivity. }
    assert (QL : q = Z.of_nat (len (p ++ A ++ start_tag n a false ++ forest_text K1))).
    { unfold q, pos_of. rewrite B2, forest_app, !app_length. lia. }
    rewrite DQ, (slice_to_app _ _ q QL). cbn [bind]. rewrite (slice_from_app _ _ q QL). cbn [bind]. rewrite <- DQ.
    rewrite new_elem_text. rewrite <- !app_assoc. change MaxDocumentSize with 10485760%N.
    match goal with |- context [(10485760 <? blen ?x)%N] => set (w := x) end. destruct (N.ltb_spec 10485760 (blen w)) as [X|X]; cbn [bind edit_of]; [reflexivity|].
    rewrite get_result_some; [reflexivity|]. unfold w. rewrite app_assoc. apply start_tag_nonempty.
  Qed.
  (** A self-closing parent is expanded. *)
  Lemma append_self : forall steps A n a kids B m v xv, Forall good_tstep (steps ++ [(m, None)]) -> len (flat_map tstep_steps (steps ++ [(m, None)])) < 100 ->
    located steps F A (Elem n a true kids) B -> v <> VNil -> value_to_xml fmt_g v = inr xv -> (blen xv <= 5242880)%N ->
    exists a', Permutation a' a /\ set E fmt_g d (tpath (steps ++ [(m, None)]) TheElement ++ bs ".-1") v =
      Ok (p ++ A ++ start_tag n a' false ++ (start_tag m [] false ++ xv ++ end_tag m) ++ end_tag n ++ B, None).
  Proof.
    intros steps A n a kids B m v xv GS LN L NV XV SZ. pose proof (located_nonempty _ _ _ _ _ L) as NE.
    destruct (segs_nonempty steps NE) as [sg [r Q]]. apply Forall_app in GS as GS2. destruct GS2 as [GP _].
    destruct (find_some E Hord p F Hp Hg Hd steps [1; 0] A _ B GP L) as [l [R AT]]. fold d in R.
    destruct (located_good _ _ _ _ _ L Hg) as [GE _]. inversion GE as [? ? ? ? GN GA GSf GK| | |]; subst n0 a0 self kids0.
    destruct (slices p F Hd _ _ _ _ _ _ _ l L AT) as [S1 [_ [S3 [S4 [S5 _]]]]]. fold d in S1, S3, S4, S5.
    inversion AT as [n1 a1 self1 kids1 l1 B1 B2 B3 B4 B5 B6 B7]; subst n1 a1 self1 kids1 l1.
    destruct (sorted_attrs_text a (l_attrs l) (ga_distinct _ GA) B6) as [a' [PA TA]]. exists a'. split; auto.
    rewrite append_start with (xv := xv) by auto. rewrite append_parts, Q. cbn iota. cbv zeta. rewrite <- Q, R. cbn [bind]. rewrite B7, S1. cbn [bind]. rewrite S4. cbn [bind edit_of].
    rewrite TA, B5, new_elem_text. change (close_tag n) with (end_tag n). cbn [app].
    replace ((p ++ A) ++ bs "<" ++ n ++ attrs_text a' ++ bs ">" ++ (start_tag m [] false ++ xv ++ end_tag m) ++ end_tag n ++ B)
      with ((p ++ A) ++ start_tag n a' false ++ (start_tag m [] false ++ xv ++ end_tag m) ++ end_tag n ++ B) by (unfold start_tag; now rewrite <- !app_assoc).
    rewrite get_result_some by apply start_tag_nonempty. now rewrite <- !app_assoc.
  Qed.
  (** At the top level. *)
  Lemma append_top : forall m v xv, step_name m -> v <> VNil -> value_to_xml fmt_g v = inr xv -> (blen xv <= 5242880)%N ->
    exists F1 F2, F = F1 ++ F2 /\ (forall c, insert_last (selects m) c F = F1 ++ c :: F2) /\
    let new := p ++ forest_text F1 ++ (start_tag m [] false ++ xv ++ end_tag m) ++ forest_text F2 in
    set E fmt_g d (tpath [(m, None)] TheElement ++ bs ".-1") v =
      Ok (if (10485760 <? blen new)%N then (d, Some ErrInvalidValue) else (new, None)).
  Proof.
    intros m v xv SM NV XV SZ. destruct (insert_split (selects m) F) as [F1 [F2 [EF [IL [C2 [C3 C4]]]]]].
    exists F1, F2. split; auto. split; auto.
    assert (GM : Forall good_tstep ([] ++ [(m, None)])) by (constructor; [split; [exact SM|exact I]|constructor]).
    pose proof (append_start [] m v xv GM) as AS. cbn [app] in AS. rewrite AS by (auto; cbn; lia). pose proof (append_parts [] m xv [0]) as AP. cbn [app] in AP.
    cbn [segs_of tpath_steps flat_map final_steps app map] in *. rewrite AP. clear AP AS. unfold append_root.
    destruct d as [|c0 r0] eqn:Dn; [discriminate Hv|]. rewrite <- Dn in *.
    destruct (scan_fair_at (e_ord E) [0; 0] F Hord Hg) as [es [SC SD]].
    assert (SR : scan_res E [0; 0] d = Ok es) by (rewrite Dn, <- Dn; unfold scan_res, d; rewrite scan_skip by (now apply skippable_prolog); now rewrite SC).
    rewrite SR. cbn [bind].
    rewrite (last_pos m d F es _ F1 F2 SD Hg SM EF C2 C3 C4).
    2:{ intros _. unfold pos_of. cbn [List.length]. lia. }
    assert (DQ : d = (p ++ forest_text F1) ++ forest_text F2) by (unfold d; rewrite EF, forest_app, <- app_assoc; reflexivity).
    assert (QL : pos_of d (forest_text F2) = Z.of_nat (len (p ++ forest_text F1))) by (unfold pos_of; rewrite DQ at 1; rewrite !app_length; lia).
    set (q := pos_of d (forest_text F2)) in *. clearbody q.
    assert (S1 : slice_to d q = Ok (p ++ forest_text F1)) by (rewrite DQ; now apply slice_to_app).
    assert (S2 : slice_from d q = Ok (forest_text F2)) by (rewrite DQ; now apply slice_from_app).
    rewrite S1. cbn [bind]. rewrite S2. cbn [bind]. cbn [elem_seg s_value]. rewrite new_elem_text. rewrite <- !app_assoc. change MaxDocumentSize with 10485760%N.
    match goal with |- context [(10485760 <? blen ?x)%N] => set (w := x) end. destruct (N.ltb_spec 10485760 (blen w)) as [X|X]; cbn [bind edit_of]; [reflexivity|].
    rewrite get_result_some; [reflexivity|]. unfold w. rewrite app_assoc. apply start_tag_nonempty.
  Qed.
  End Doc.
End Append.
