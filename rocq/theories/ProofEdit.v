(** Positions found by the editor in canonical text. *)
From Coq Require Import List Ascii String NArith ZArith Bool Lia Permutation.
From Verif Require Import GoStr ModelParser ModelPath ModelResult ModelQuery ModelValidate ModelBuilder SpecText SpecPath SpecTree SpecQuery SpecEdit
  ProofBase ProofEscape ProofPath ProofScan ProofSyntax ProofTree ProofTree2 ProofTree3 ProofTree4 ProofTree5.
Import ListNotations.

(** ** Trees *)
Lemma edit_nth_split : forall f g F i F', edit_nth f i g F = Some F' <->
  exists F1 nd F2 l, F = F1 ++ nd :: F2 /\ named f nd = true /\ len (called f F1) = i /\ g nd = Some l /\ F' = F1 ++ l ++ F2.
Proof.
  intros f g. induction F as [|x F IH]; intros i F'.
  - split; [discriminate|]. intros [F1 [nd [F2 [l [H _]]]]]. destruct F1; discriminate.
  - cbn [edit_nth]. destruct (named f x) eqn:N.
    + destruct i as [|i].
      * split.
        -- intros H. destruct (g x) as [l|] eqn:Q; [|discriminate]. injection H as <-. exists [], x, F, l. auto.
        -- intros [F1 [nd [F2 [l [H1 [H2 [H3 [H4 ->]]]]]]]]. destruct F1 as [|y F1].
           ++ injection H1 as <- <-. rewrite H4. reflexivity.
           ++ injection H1 as <- _. unfold called in H3. cbn [filter] in H3. fold (named f x) in H3. rewrite N in H3. discriminate.
      * split.
        -- intros H. destruct (edit_nth f i g F) as [F0|] eqn:Q; [|discriminate]. injection H as <-. apply IH in Q.
           destruct Q as [F1 [nd [F2 [l [-> [H2 [H3 [H4 ->]]]]]]]]. exists (x :: F1), nd, F2, l. repeat split; auto.
           unfold called in *. cbn [filter]. fold (named f x). rewrite N. cbn [List.length]. now rewrite H3.
        -- intros [F1 [nd [F2 [l [H1 [H2 [H3 [H4 ->]]]]]]]]. destruct F1 as [|y F1]; [discriminate|]. injection H1 as <- ->.
           unfold called in H3. cbn [filter] in H3. fold (named f x) in H3. rewrite N in H3. injection H3 as H3.
           rewrite (proj2 (IH i (F1 ++ l ++ F2))); [reflexivity|]. exists F1, nd, F2, l. auto.
    + split.
      -- intros H. destruct (edit_nth f i g F) as [F0|] eqn:Q; [|discriminate]. injection H as <-. apply IH in Q.
         destruct Q as [F1 [nd [F2 [l [-> [H2 [H3 [H4 ->]]]]]]]]. exists (x :: F1), nd, F2, l. repeat split; auto.
         unfold called in *. cbn [filter]. fold (named f x). rewrite N. auto.
      -- intros [F1 [nd [F2 [l [H1 [H2 [H3 [H4 ->]]]]]]]]. destruct F1 as [|y F1]; [injection H1 as -> _; congruence|]. injection H1 as <- ->.
         unfold called in H3. cbn [filter] in H3. fold (named f x) in H3. rewrite N in H3.
         rewrite (proj2 (IH i (F1 ++ l ++ F2))); [reflexivity|]. exists F1, nd, F2, l. auto.
Qed.
Lemma forest_app : forall F G, forest_text (F ++ G) = forest_text F ++ forest_text G.
Proof. intros. unfold forest_text. apply flat_map_app. Qed.
Lemma forest_cons : forall nd F, forest_text (nd :: F) = node_text nd ++ forest_text F.
Proof. reflexivity. Qed.
Lemma node_elem : forall n a kids, node_text (Elem n a false kids) = start_tag n a false ++ forest_text kids ++ end_tag n.
Proof. reflexivity. Qed.

Lemma located_text : forall steps F A nd B, located steps F A nd B -> forest_text F = A ++ node_text nd ++ B.
Proof.
  induction 1 as [n idx F1 nd F2 H1 H2|n idx rest F1 m a kids F2 A nd B H1 H2 H3 IH].
  - now rewrite forest_app, forest_cons.
  - rewrite forest_app, forest_cons, node_elem, IH, <- !app_assoc. reflexivity.
Qed.
(** An edit changes exactly the bytes of the located element. *)
Lemma edit_located : forall steps g F F', Forall good F -> edit_at steps g F = Some F' ->
  exists A nd B, located steps F A nd B /\ forest_text F' = A ++ forest_text (g nd) ++ B.
Proof.
  induction steps as [|[n idx] rest IH]; intros g F F' G H; [discriminate|]. cbn [edit_at] in H. apply edit_nth_split in H.
  destruct H as [F1 [nd [F2 [l [-> [H2 [H3 [H4 ->]]]]]]]]. destruct rest as [|s rest].
  - injection H4 as <-. exists (forest_text F1), nd, (forest_text F2). split; [now constructor|]. now rewrite !forest_app.
  - destruct nd as [m a self kids| |]; try discriminate. apply Forall_app in G. destruct G as [_ G]. inversion G as [|? ? G1 _]; subst.
    inversion G1 as [? ? ? ? N A S K| |]; subst.
    destruct (edit_at (s :: rest) g kids) as [kids'|] eqn:Q; [|discriminate]. injection H4 as <-.
    destruct (IH g kids kids' K Q) as [A0 [nd [B [L1 L2]]]].
    assert (self = false) by (destruct self; auto; rewrite (S eq_refl) in Q; destruct s; discriminate). subst self.
    exists (forest_text F1 ++ start_tag m a false ++ A0), nd, (B ++ end_tag m ++ forest_text F2). split.
    + constructor; auto.
    + rewrite !forest_app, forest_cons, node_elem, L2, <- !app_assoc. reflexivity.
Qed.
Lemma located_edit : forall steps g F A nd B, located steps F A nd B -> exists F', edit_at steps g F = Some F'.
Proof.
  induction 1 as [n idx F1 nd F2 H1 H2|n idx rest F1 m a kids F2 A nd B H1 H2 H3 IH]; cbn [edit_at].
  - eexists. apply edit_nth_split. exists F1, nd, F2, (g nd). repeat split; auto.
  - destruct IH as [kids' IH]. eexists. apply edit_nth_split. exists F1, (Elem m a false kids), F2, [Elem m a false kids'].
    repeat split; auto. destruct rest; [inversion H3|]. now rewrite IH.
Qed.
Lemma located_good : forall steps F A nd B, located steps F A nd B -> Forall good F -> good nd /\ is_elem nd = true.
Proof.
  induction 1 as [n idx F1 nd F2 H1 H2|n idx rest F1 m a kids F2 A nd B H1 H2 H3 IH]; intros G; apply Forall_app in G; destruct G as [_ G];
    inversion G as [|? ? G1 _]; subst.
  - split; auto. destruct nd; auto; discriminate.
  - apply IH. now inversion G1.
Qed.
Lemma edit_same : forall steps g F F', edit_at steps g F = Some F' -> forall g', exists F'', edit_at steps g' F = Some F''.
Proof.
  induction steps as [|[n idx] rest IH]; intros g F F' H g'; [discriminate|]. cbn [edit_at] in *. apply edit_nth_split in H.
  destruct H as [F1 [nd [F2 [l [-> [H2 [H3 [H4 ->]]]]]]]]. destruct rest as [|s rest].
  - eexists. apply edit_nth_split. exists F1, nd, F2, (g' nd). repeat split; auto.
  - destruct nd as [m a self kids| |]; try discriminate.
    destruct (edit_at (s :: rest) g kids) as [kids'|] eqn:Q; [|discriminate]. destruct (IH _ _ _ Q g') as [k2 K2].
    eexists. apply edit_nth_split. exists F1, (Elem m a self kids), F2, [Elem m a self k2]. rewrite K2. repeat split; auto.
Qed.
Lemma edit_good : forall steps g F F', Forall good F -> edit_at steps g F = Some F' ->
  (forall nd, good nd -> is_elem nd = true -> Forall good (g nd)) -> Forall good F'.
Proof.
  induction steps as [|[n idx] rest IH]; intros g F F' G H Hg; [discriminate|]. cbn [edit_at] in H. apply edit_nth_split in H.
  destruct H as [F1 [nd [F2 [l [-> [H2 [H3 [H4 ->]]]]]]]]. apply Forall_app in G. destruct G as [G1 G2]. inversion G2 as [|? ? G3 G4]; subst.
  apply Forall_app. split; auto. apply Forall_app. split; auto. destruct rest as [|s rest].
  - injection H4 as <-. apply Hg; auto. destruct nd; auto; discriminate.
  - destruct nd as [m a self kids| |]; try discriminate. inversion G3 as [? ? ? ? N A S K| |]; subst.
    destruct (edit_at (s :: rest) g kids) as [kids'|] eqn:Q; [|discriminate]. injection H4 as <-. constructor; [|constructor].
    constructor; auto; [|eapply IH; eauto]. intros ->. rewrite (S eq_refl) in Q. destruct s; discriminate.
Qed.

(** ** Elements found *)
Lemma split_unique : forall f F1 G1 x y F2 G2, F1 ++ x :: F2 = G1 ++ y :: G2 -> named f x = true -> named f y = true ->
  len (called f F1) = len (called f G1) -> F1 = G1 /\ x = y /\ F2 = G2.
Proof.
  intros f. induction F1 as [|a F1 IH]; intros [|b G1] x y F2 G2 H X Y L.
  - injection H as -> ->. auto.
  - injection H as -> _. unfold called in L. cbn [filter] in L. fold (named f b) in L. rewrite X in L. discriminate.
  - injection H as -> _. unfold called in L. cbn [filter] in L. fold (named f y) in L. rewrite Y in L. discriminate.
  - injection H as -> H. destruct (IH G1 x y F2 G2 H X Y) as [-> [-> ->]]; auto.
    unfold called in *. cbn [filter] in L. fold (named f b) in L. destruct (named f b); auto.
Qed.
Lemma named_called : forall f nd, is_elem nd = true -> named f nd = f (name_of nd).
Proof. intros f [n a s k| |]; auto; discriminate. Qed.
Lemma scanned_count : forall f F es, scanned F es -> len (filter (fun e => f (e_name e)) es) = len (called f F).
Proof.
  intros f F es H. induction H as [|t F es H IH|b F es H IH|n a self kids kids' F es K H IH]; auto. unfold called in *. cbn [filter e_name].
  destruct (f n); cbn [List.length]; auto.
Qed.
Lemma scanned_nth : forall f F es, scanned F es -> forall i e, nth_error (filter (fun e => f (e_name e)) es) i = Some e ->
  exists F1 n a self kids kids' F2, F = F1 ++ Elem n a self kids :: F2 /\ f n = true /\ len (called f F1) = i /\ Forall2 same kids kids' /\
    e = mkElem n a self (forest_text kids') (forest_text (Elem n a self kids :: F2))
         ((if self then [] else forest_text kids ++ end_tag n) ++ forest_text F2) (forest_text F2).
Proof.
  intros f F es H. induction H as [|t F es H IH|b F es H IH|n a self kids kids' F es K H IH]; intros i e Hn.
  - destruct i; discriminate.
  - destruct (IH i e Hn) as [F1 [n [a [self [kids [kids' [F2 [-> Q]]]]]]]]. exists (Text t :: F1), n, a, self, kids, kids', F2. auto.
  - destruct (IH i e Hn) as [F1 [n [a [self [kids [kids' [F2 [-> Q]]]]]]]]. exists (Misc b :: F1), n, a, self, kids, kids', F2. auto.
  - cbn [filter e_name] in Hn. destruct (f n) eqn:Q.
    + destruct i as [|i].
      * injection Hn as <-. exists [], n, a, self, kids, kids', F. auto.
      * destruct (IH i e Hn) as [F1 [n1 [a1 [self1 [kids1 [kids1' [F2 [-> [Q1 [Q2 Q3]]]]]]]]]].
        exists (Elem n a self kids :: F1), n1, a1, self1, kids1, kids1', F2. repeat split; auto; try apply Q3.
        unfold called in *. cbn [filter]. rewrite Q. cbn [List.length]. now rewrite Q2.
    + destruct (IH i e Hn) as [F1 [n1 [a1 [self1 [kids1 [kids1' [F2 [-> [Q1 [Q2 Q3]]]]]]]]]].
      exists (Elem n a self kids :: F1), n1, a1, self1, kids1, kids1', F2. repeat split; auto; try apply Q3.
      unfold called in *. cbn [filter]. now rewrite Q.
Qed.
Lemma called_same : forall f F F', Forall2 same F F' -> len (called f F) = len (called f F').
Proof.
  intros f F F' H. induction H as [|x y F F' H1 H2 IH]; auto. unfold called in *. cbn [filter].
  inversion H1; subst; auto. destruct (f n); cbn [List.length]; auto.
Qed.
Lemma called_small : forall f F, len (called f F) <= len (forest_text F).
Proof.
  intros f. induction F as [|x F IH]; auto. unfold called in *. cbn [filter]. unfold forest_text in *. cbn [flat_map]. rewrite app_length.
  destruct x as [n a s k| |]; try lia. destruct (f n); cbn [List.length]; [|lia]. cbn [node_text]. rewrite app_length.
  unfold start_tag. rewrite app_length. change (len (bs "<")) with 1. lia.
Qed.

Inductive at_loc (base : Z) (A : bytes) : node -> location -> Prop :=
| at_elem : forall n a self kids l,
    l_start l = (base + Z.of_nat (len A))%Z ->
    l_content_start l = (base + Z.of_nat (len A) + Z.of_nat (len (start_tag n a self)))%Z ->
    l_content_end l = (l_content_start l + if self then 0 else Z.of_nat (len (forest_text kids)))%Z ->
    l_end_tag l = l_content_end l -> l_name l = n -> Permutation a (l_attrs l) -> l_self l = self ->
    at_loc base A (Elem n a self kids) l.
Lemma end_tag_len : forall n, len (end_tag n) = len n + 3.
Proof. intros. unfold end_tag. rewrite !app_length. change (len (bs "</")) with 2. change (len (bs ">")) with 1. lia. Qed.
Lemma perm_attrs_len : forall a a', Permutation a a' -> len (attrs_text a) = len (attrs_text a').
Proof. intros a a' H. unfold attrs_text. induction H; cbn [flat_map]; rewrite ?app_length; lia. Qed.
Lemma start_tag_len : forall n a a' self, Permutation a a' -> len (start_tag n a self) = len (start_tag n a' self).
Proof. intros. unfold start_tag. rewrite !app_length. f_equal. f_equal. f_equal. now apply perm_attrs_len. Qed.
Lemma node_len : forall n a self kids, (self = true -> kids = []) ->
  len (node_text (Elem n a self kids)) = len (start_tag n a self) + len (if self then [] else forest_text kids ++ end_tag n).
Proof. intros n a self kids H. cbn [node_text]. rewrite app_length. destruct self; reflexivity. Qed.
Lemma matches_default : forall sg n, seg_matches_opts (o_case default_options) sg n = seg_matches sg n.
Proof. reflexivity. Qed.
Lemma filter_selects : forall n F es, scanned F es -> Forall good F -> step_name n ->
  filter (fun e => seg_matches_opts (o_case default_options) (elem_seg n) (e_name e)) es = filter (fun e => selects n (e_name e)) es.
Proof.
  intros n F es H G S. induction H as [|t F es H IH|b F es H IH|m a self kids kids' F es K H IH]; auto; inversion G as [|? ? G1 G2]; subst; auto.
  cbn [filter e_name]. rewrite IH by auto. inversion G1; subst. rewrite matches_default, selects_match by auto. reflexivity.
Qed.
Lemma segs_cons : forall n idx rest, segs_of ((n, idx) :: rest) TheElement =
  elem_seg n :: (match idx with Some ds => [step_seg (Nth ds, [])] | None => [] end) ++ segs_of rest TheElement.
Proof. intros. unfold segs_of, tpath_steps. cbn [flat_map tstep_steps]. destruct idx; reflexivity. Qed.
Lemma segs_nil : forall steps, segs_of steps TheElement = [] -> steps = [].
Proof. intros [|[n i] r] H; auto. rewrite segs_cons in H. discriminate. Qed.

Section Find.
  Variable E : env.
  Hypothesis Hord : forall k l, Permutation l (e_ord E k l).

  (** The element a step selects, by its rank. *)
  Definition pick (idx : option bytes) (ms : list elem) : option elem := nth_error ms (index_of idx).
  Lemma nth_elem_pick : forall ds ms, (Z.of_nat (len ms) <= int64_max)%Z -> nth_elem ms (s_index (step_seg (Nth ds, []))) = pick (Some ds) ms.
  Proof.
    intros ds ms H. unfold pick, index_of. cbn [step_seg s_index]. destruct (Z.le_gt_cases (Z.of_N (decimal_value ds)) int64_max) as [C|C].
    - rewrite Z.min_l by auto. apply nth_elem_spec.
    - rewrite Z.min_r by lia. rewrite (proj2 (nth_error_None _ _)) by lia. unfold nth_elem.
      rewrite (proj2 (Z.ltb_ge int64_max (Z.of_nat (len ms)))) by lia. now rewrite andb_false_r.
  Qed.
  Lemma find_loc_step : forall key d n idx rest base es ms,
    scan_res E key d = Ok es -> ms = filter (fun e => seg_matches_opts (o_case default_options) (elem_seg n) (e_name e)) es ->
    (Z.of_nat (len ms) <= int64_max)%Z -> (base <= MaxPositionOffset)%Z -> (forall e, In e ms -> (base + pos_of d (e_body e) <= MaxPositionOffset)%Z) ->
    find_loc E default_options key d (segs_of ((n, idx) :: rest) TheElement) base =
    match pick idx ms with
    | None => Ok None
    | Some e =>
        match rest with
        | [] => Ok (Some (elem_location d base e))
        | _ :: _ => find_loc E default_options (child_key site_query e key) (e_content e) (segs_of rest TheElement) (base + pos_of d (e_body e))
        end
    end.
  Proof.
    intros key d n idx rest base es ms H1 H2 H3 H4 H5. rewrite segs_cons. cbn [find_loc].
    rewrite (proj2 (Z.ltb_ge MaxPositionOffset base)) by auto. rewrite H1. cbn [bind]. rewrite <- H2.
    destruct idx as [ds|]; cbn [app].
    - change (s_type (step_seg (Nth ds, []))) with SIndex. cbn iota. rewrite nth_elem_pick by auto.
      destruct (pick (Some ds) ms) as [e|] eqn:P; auto. unfold pick in P. apply nth_error_In in P.
      rewrite (proj2 (Z.ltb_ge _ _) (H5 e P)).
      destruct rest as [|[m j] rest]; [reflexivity|]. rewrite segs_cons. reflexivity.
    - unfold pick, index_of. destruct rest as [|[m j] rest].
      + cbn [segs_of tpath_steps flat_map final_steps app map]. destruct ms; reflexivity.
      + rewrite segs_cons. change (s_type (elem_seg m)) with SElem. cbn iota. destruct ms as [|e ms]; [reflexivity|].
        cbn [nth_error]. rewrite (proj2 (Z.ltb_ge _ _) (H5 e (or_introl eq_refl))). reflexivity.
  Qed.

  Lemma find_loc_tree : forall steps, steps <> [] -> Forall good_tstep steps -> forall F F' p base key,
    Forall2 same F F' -> Forall good F -> skippable p -> (0 <= base)%Z ->
    (base + Z.of_nat (len (p ++ forest_text F')) <= MaxPositionOffset)%Z ->
    exists r, find_loc E default_options key (p ++ forest_text F') (segs_of steps TheElement) base = Ok r /\
      match r with
      | Some l => exists A nd B, located steps F A nd B /\ at_loc (base + Z.of_nat (len p)) A nd l
      | None => forall A nd B, ~ located steps F A nd B
      end.
  Proof.
    induction steps as [|[n idx] rest IH]; intros NE GS F F' p base key S G Hp Hb Hm; [contradiction|].
    inversion GS as [|? ? [SN GI] GS']; subst. cbn [fst snd] in *.
    assert (G' : Forall good F') by (eapply same_good_all; eauto).
    destruct (scan_forest (e_ord E) key F' Hord G') as [es [SC SD]].
    assert (SR : scan_res E key (p ++ forest_text F') = Ok es) by (unfold scan_res; rewrite scan_skip by auto; now rewrite SC).
    pose proof (filter_selects n F' es SD G' SN) as FS. remember (filter (fun e => selects n (e_name e)) es) as ms eqn:Ems.
    pose proof (scanned_count (selects n) F' es SD) as CNT. rewrite <- Ems in CNT.
    pose proof (called_small (selects n) F') as CS. rewrite app_length in Hm.
    assert (I64 : (MaxPositionOffset < int64_max)%Z) by reflexivity.
    assert (POS : forall e, In e ms -> exists i, nth_error ms i = Some e) by (intros e He; now apply In_nth_error).
    match goal with |- exists r, ?x = Ok r /\ _ => eassert (ST : x = _) end.
    { apply (find_loc_step key _ n idx rest base es ms SR (eq_sym FS)); [lia|lia|]. intros e He. destruct (POS e He) as [i Hi]. rewrite Ems in Hi. destruct (scanned_nth _ _ _ SD i e Hi) as [F1 [m [a [self [kids [kids' [F2 [EF [_ [_ [_ ->]]]]]]]]]]].
        cbn [e_body]. unfold pos_of. rewrite !app_length. lia. }
    rewrite ST. clear ST.
    destruct (pick idx ms) as [e|] eqn:P.
    2:{ exists None. split; auto. intros A nd B L. unfold pick in P. apply nth_error_None in P. rewrite CNT, <- (called_same (selects n) _ _ S) in P.
        inversion L as [n0 idx0 F1 nd0 F2 Hn Hc|n0 idx0 r0 F1 m a kids F2 A0 nd0 B0 Hn Hc Hl]; subst;
          unfold called in *; rewrite filter_app, app_length in P; cbn [filter] in P; fold (called (selects n) F1) in *.
        - fold (named (selects n) nd) in P. rewrite Hn in P. cbn [List.length] in P. unfold called in *. lia.
        - rewrite Hn in P. cbn [List.length] in P. unfold called in *. lia. }
    unfold pick in P. rewrite Ems in P. destruct (scanned_nth _ _ _ SD _ e P) as [F1' [m [a' [self [kids1 [kids' [F2' [EF [Hn [Hc [Sk Ee]]]]]]]]]]].
    pose proof S as S0. rewrite EF in S0. apply Forall2_app_inv_r in S0. destruct S0 as [F1 [Fr [S1 [S2 EF0]]]].
    inversion S2 as [|nd0 nd1 F2 F2x SA SB X1 X2]; subst nd1 F2x. inversion SA as [m0 a a0 self0 kids k0 Pa Sk1| |]; subst m0 a0 self0 k0. subst nd0 Fr.
    assert (Hc0 : len (called (selects n) F1) = index_of idx) by (rewrite (called_same _ _ _ S1); exact Hc).
    pose proof (same_length_all _ _ S1) as L1. pose proof (same_length_all _ _ SB) as L2. pose proof (same_length_all _ _ Sk1) as L3.
    pose proof (start_tag_len m a a' self Pa) as L4.
    assert (GE : good (Elem m a self kids)) by (rewrite EF0 in G; apply Forall_app in G; destruct G as [_ G]; now inversion G).
    assert (GE' : good (Elem m a' self kids1)) by (rewrite EF in G'; apply Forall_app in G'; destruct G' as [_ G']; now inversion G').
    inversion GE as [? ? ? ? XN XA XS XK| |]; subst n0 a0 self0 kids0.
    inversion GE' as [? ? ? ? XN' XA' XS' XK'| |]; subst n0 a0 self0 kids0.
    assert (EB : e_body e = (if self then [] else forest_text kids1 ++ end_tag m) ++ forest_text F2') by (rewrite Ee; reflexivity).
    assert (EL : len (p ++ forest_text F') = len p + (len (forest_text F1') + (len (start_tag m a' self) + len (if self then [] else forest_text kids1 ++ end_tag m)) + len (forest_text F2'))).
    { rewrite EF, app_length, forest_app, forest_cons, !app_length, node_len by auto. lia. }
    assert (PB : pos_of (p ++ forest_text F') (e_body e) = Z.of_nat (len p + (len (forest_text F1') + len (start_tag m a' self)))).
    { unfold pos_of. rewrite EL, EB, app_length. lia. }
    destruct rest as [|s rest].
    - eexists. split; [reflexivity|]. exists (forest_text F1), (Elem m a self kids), (forest_text F2). split.
      + rewrite EF0. constructor; auto.
      + assert (EN : e_name e = m) by (rewrite Ee; reflexivity). assert (EA : e_attrs e = a') by (rewrite Ee; reflexivity).
        assert (ES : e_self e = self) by (rewrite Ee; reflexivity).
        unfold elem_location. constructor; cbn [l_start l_content_start l_content_end l_end_tag l_name l_attrs l_self]; auto; try (now rewrite EA).
        * rewrite Ee. cbn [e_start]. unfold pos_of. rewrite EL, forest_cons, app_length, node_len by auto. lia.
        * rewrite PB. lia.
        * rewrite PB, ES. destruct self; [lia|].
          rewrite Ee. cbn [e_after e_name]. unfold pos_of. rewrite EL, app_length, end_tag_len. lia.
    - destruct (IH ltac:(discriminate) GS' kids kids' [] (base + pos_of (p ++ forest_text F') (e_body e))%Z (child_key site_query e key)) as [r [R1 R2]]; auto.
      + eapply same_all_trans; eauto.
      + apply skippable_nil.
      + rewrite PB. lia.
      + cbn [app]. rewrite PB. rewrite <- (same_length_all _ _ Sk).
        rewrite app_length in EL. destruct self; [rewrite (XS' eq_refl); cbn [forest_text flat_map List.length]; lia|].
        rewrite app_length in EL. lia.
      + cbn [app] in R1. assert (EC : e_content e = forest_text kids') by (rewrite Ee; reflexivity). rewrite EC. exists r. split; [exact R1|]. destruct r as [l|].
        * destruct R2 as [A [nd [B [L AT]]]]. destruct self; [rewrite (XS eq_refl) in L; inversion L; destruct F0; discriminate|].
          exists (forest_text F1 ++ start_tag m a false ++ A), nd, (B ++ end_tag m ++ forest_text F2). split.
          -- rewrite EF0. constructor; auto.
          -- rewrite PB in AT. inversion AT as [n1 a1 self1 kids2 l1 B1 B2 B3 B4 B5 B6 B7]; subst nd l1. cbn [List.length] in *.
             constructor; auto.
             ++ rewrite B1, !app_length. lia.
             ++ rewrite B2, !app_length. lia.
        * intros A nd B L. inversion L as [|n0 idx0 r0 G1 m0 a0 k0 G2 A0 nd0 B0 Hn0 Hcc Hl]; subst n0 idx0 r0 nd0 A B.
          match goal with Q : G1 ++ _ :: G2 = F |- _ => rewrite EF0 in Q; rename Q into H end.
          destruct (split_unique (selects n) _ _ _ _ _ _ H) as [_ [Q _]]; auto; [congruence|].
          injection Q as -> -> <- ->. exact (R2 _ _ _ Hl).
  Qed.
End Find.
