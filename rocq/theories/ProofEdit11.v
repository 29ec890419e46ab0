(** Edits keep documents shallow and keep an element. *)
From Coq Require Import List Ascii String NArith ZArith Bool Lia Permutation.
From Verif Require Import GoStr SpecText SpecPath SpecTree SpecQuery SpecEdit SpecContent SpecValid SpecHistory ProofBase ProofTree ProofEdit ProofEdit8.
Import ListNotations.

Definition depth_le (k : nat) (F : list node) : Prop := Forall (fun nd => levels nd <= k) F.
Lemma depth_elem : forall k n a s kids, levels (Elem n a s kids) <= S k <-> depth_le k kids.
Proof.
  intros k n a s kids. cbn [levels]. unfold depth_le. induction kids as [|x kids IH]; cbn [fold_right].
  - split; [constructor|lia].
  - rewrite Forall_cons_iff, <- IH. lia.
Qed.
Lemma levels_attrs : forall n a a' s s' kids, levels (Elem n a s kids) = levels (Elem n a' s' kids).
Proof. reflexivity. Qed.
Lemma depth_app : forall k F G, depth_le k F -> depth_le k G -> depth_le k (F ++ G).
Proof. intros. apply Forall_app. auto. Qed.
Lemma edit_nth_depth : forall k f g F i F', edit_nth f i g F = Some F' -> depth_le k F ->
  (forall nd l, g nd = Some l -> levels nd <= k -> depth_le k l) -> depth_le k F'.
Proof.
  intros k f g. induction F as [|nd F IH]; intros i F' H D G; [discriminate|]. cbn [edit_nth] in H. inversion D; subst.
  destruct (named f nd).
  - destruct i.
    + destruct (g nd) as [l|] eqn:Q; [|discriminate]. injection H as <-. apply depth_app; eauto.
    + destruct (edit_nth f i g F) eqn:Q; [|discriminate]. injection H as <-. constructor; auto. eapply IH; eauto.
  - destruct (edit_nth f i g F) eqn:Q; [|discriminate]. injection H as <-. constructor; auto. eapply IH; eauto.
Qed.
Lemma change_depth : forall c g miss,
  (forall k nd l, 1 + c <= k -> g nd = Some l -> levels nd <= k -> depth_le k l) ->
  (forall st l, st <> [] -> miss st = Some l -> depth_le (List.length st + c) l) ->
  forall steps F F' k, change g miss steps F = Some F' -> List.length steps + c <= k -> depth_le k F -> depth_le k F'.
Proof.
  intros c g miss HG HM. induction steps as [|[n idx] rest IH]; intros F F' k H L D; [discriminate|]. cbn [change] in H. cbn [List.length] in L.
  destruct (nth_error _ _) eqn:N.
  - eapply edit_nth_depth; [exact H|exact D|]. intros nd l Q LV. destruct rest as [|st rest].
    + apply (HG k nd l); auto.
    + destruct nd as [m a s kids| |]; try discriminate. destruct (change g miss (st :: rest) kids) as [kids'|] eqn:Q2; [|discriminate]. injection Q as <-.
      destruct k as [|k]; [lia|]. constructor; [|constructor]. apply depth_elem. apply depth_elem in LV. apply (IH kids kids' k Q2); auto. cbn [List.length] in *. lia.
  - match type of H with option_map _ ?x = _ => destruct x as [l|] eqn:Q end; [|discriminate]. injection H as <-. apply depth_app; auto.
    apply HM in Q; [|discriminate]. eapply Forall_impl; [|exact Q]. cbn [List.length]. intros; lia.
Qed.
Lemma nest_depth : forall names F k, depth_le k F -> depth_le (List.length names + k) (nest names F).
Proof.
  induction names as [|n names IH]; intros F k D; [exact D|]. cbn [nest List.length]. constructor; [|constructor]. apply depth_elem. now apply IH.
Qed.
Lemma names_only_len : forall steps names, names_only steps = Some names -> List.length names = List.length steps.
Proof.
  induction steps as [|[n [ds|]] steps IH]; intros names H; cbn [names_only] in H; [injection H as <-; reflexivity|discriminate|].
  destruct (names_only steps) eqn:Q; [|discriminate]. injection H as <-. cbn [List.length]. now rewrite (IH _ eq_refl).
Qed.
Lemma tsteps_len : forall steps, List.length steps <= List.length (flat_map tstep_steps steps).
Proof. induction steps as [|[n [ds|]] steps IH]; cbn [flat_map tstep_steps app List.length]; lia. Qed.
Lemma insert_depth : forall k f c F, levels c <= k -> depth_le k F -> depth_le k (insert_last f c F).
Proof.
  intros k f c. induction F as [|nd F IH]; intros L D; cbn [insert_last]; [repeat constructor; auto|]. inversion D; subst.
  destruct (called f F); [destruct (named f nd)|]; repeat (constructor; auto); now apply IH.
Qed.
Lemma removelast_len : forall A (l : list A), List.length (removelast l) = List.length l - 1.
Proof. induction l as [|x [|y l] IH]; auto. cbn [removelast List.length] in *. rewrite IH. lia. Qed.
Lemma height_depth : forall F, depth_le (height F) F.
Proof.
  induction F as [|nd F IH]; [constructor|]. unfold height. cbn [fold_right]. fold (height F). constructor; [lia|]. eapply Forall_impl; [|exact IH]. cbv beta. intros; lia.
Qed.
Lemma apply_shallow : forall o F F', legal o -> apply_edit o F = Some F' -> shallow F -> shallow F'.
Proof.
  intros o F F' LG H SH. change (depth_le 100 F'). change (depth_le 100 F) in SH.
  assert (GL : forall steps fin, good_tpath steps fin -> List.length steps <= 100).
  { intros steps fin [_ _ L]. unfold tpath_steps in L. rewrite app_length in L. pose proof (tsteps_len steps). lia. }
  destruct o as [steps c|steps x v|steps|steps x|steps m c]; cbn [apply_edit legal] in *.
  - destruct LG as [GT [_ [_ HL]]]. eapply (change_depth (height (content_nodes c))); [| |exact H| |exact SH].
    + intros k nd l K Q LV. destruct nd as [n a [|] kids| |]; try discriminate. injection Q as <-. constructor; [|constructor]. change (S (height (content_nodes c)) <= k). lia.
    + intros st l NE Q. unfold new_kids in Q. destruct (names_only st) as [names|] eqn:QN; [|discriminate]. injection Q as <-. rewrite <- (names_only_len _ _ QN). apply nest_depth, height_depth.
    + exact HL.
  - destruct LG as [GT _]. eapply (change_depth 0); [| |exact H| |exact SH].
    + intros k nd l K Q LV. destruct nd as [n a s kids| |]; try discriminate. unfold attr_of in Q. destruct (_ <=? _) in Q; [|discriminate]. injection Q as <-. constructor; auto.
    + intros st l NE Q. unfold new_attr in Q. destruct (names_only st) as [names|] eqn:QN; [|discriminate]. injection Q as <-. rewrite <- (names_only_len _ _ QN).
      destruct names as [|n0 names]; [apply names_only_len in QN; destruct st; [contradiction|discriminate]|].
      replace (List.length (n0 :: names) + 0) with (List.length (removelast (n0 :: names)) + 1) by (rewrite removelast_len; cbn [List.length]; lia).
      apply nest_depth. constructor; [cbn; lia|constructor].
    + rewrite Nat.add_0_r. eauto.
  - destruct (change _ _ _ _) as [F1|] eqn:Q; injection H as <-; auto. eapply (change_depth 0); [| |exact Q| |exact SH].
    + intros k nd l K Q1 _. injection Q1 as <-. constructor.
    + discriminate.
    + rewrite Nat.add_0_r. eauto.
  - destruct (change _ _ _ _) as [F1|] eqn:Q; injection H as <-; auto. eapply (change_depth 0); [| |exact Q| |exact SH].
    + intros k nd l K Q1 LV. destruct nd as [n a s kids| |]; try discriminate. injection Q1 as <-. constructor; auto.
    + discriminate.
    + rewrite Nat.add_0_r. eauto.
  - destruct LG as [_ [_ [_ [_ HL]]]]. set (h := height (content_nodes c)) in *.
    assert (LC : levels (Elem m [] false (content_nodes c)) = S h) by reflexivity.
    assert (G1 : forall k nd l, 1 + (1 + h) <= k -> more_kids m (content_nodes c) nd = Some l -> levels nd <= k -> depth_le k l).
    { intros k nd l K Q1 LV. destruct nd as [n a s kids| |]; try discriminate. injection Q1 as <-. destruct k as [|k]; [lia|]. apply depth_elem in LV. constructor; [|constructor]. apply depth_elem.
      apply insert_depth; auto. lia. }
    destruct steps as [|st steps].
    + injection H as <-. apply insert_depth; auto.
    + eapply (change_depth (1 + h)); [| |exact H| |exact SH]; [exact G1|discriminate|lia].
Qed.

(** Only the removal of an element can leave a document without elements. *)
Lemma edit_nth_has : forall f g F i F', edit_nth f i g F = Some F' ->
  (forall nd l, g nd = Some l -> is_elem nd = true -> has_element l) -> has_element F'.
Proof.
  intros f g. induction F as [|nd F IH]; intros i F' H G; [discriminate|]. cbn [edit_nth] in H.
  destruct (named f nd) eqn:N.
  - destruct i.
    + destruct (g nd) as [l|] eqn:Q; [|discriminate]. injection H as <-. destruct (G _ _ Q) as [n [a [s [k I1]]]]; [destruct nd; auto|]. exists n, a, s, k. apply in_or_app. auto.
    + destruct (edit_nth f i g F) eqn:Q; [|discriminate]. injection H as <-. destruct (IH _ _ Q G) as [n [a [s [k I1]]]]. exists n, a, s, k. now right.
  - destruct (edit_nth f i g F) eqn:Q; [|discriminate]. injection H as <-. destruct (IH _ _ Q G) as [n [a [s [k I1]]]]. exists n, a, s, k. now right.
Qed.
Lemma change_has : forall g miss steps F F', change g miss steps F = Some F' -> has_element F ->
  (forall nd l, g nd = Some l -> is_elem nd = true -> has_element l) -> has_element F'.
Proof.
  intros g miss steps F F' H E G. destruct steps as [|[n idx] rest]; [discriminate|]. cbn [change] in H. destruct (nth_error _ _).
  - eapply edit_nth_has; [exact H|]. intros nd l Q EL. destruct rest; [now apply (G nd)|]. destruct nd as [m a s k| |]; try discriminate.
    destruct (change g miss _ k); [|discriminate]. injection Q as <-. exists m, a, false, l0. now left.
  - match type of H with option_map _ ?x = _ => destruct x as [l|] eqn:Q end; [|discriminate]. injection H as <-. destruct E as [x [a [s [k I1]]]]. exists x, a, s, k. apply in_or_app. auto.
Qed.
Lemma insert_in : forall f c F, In c (insert_last f c F).
Proof. intros f c. induction F as [|nd F IH]; cbn [insert_last]; [now left|]. destruct (called f F); [destruct (named f nd)|]; try (now right); right; now left. Qed.
Definition removes_element (o : edit) : bool := match o with Remove [_] => true | _ => false end.
Lemma apply_has : forall o F F', removes_element o = false -> apply_edit o F = Some F' -> has_element F -> has_element F'.
Proof.
  intros o F F' R H E. destruct o as [steps v|steps x v|steps|steps x|steps m v]; cbn [apply_edit] in H.
  - eapply change_has; eauto. intros nd l Q EL. destruct nd as [n a [|] kids| |]; try discriminate. injection Q as <-. unfold has_element. do 4 eexists. now left.
  - eapply change_has; eauto. intros nd l Q EL. destruct nd as [n a s kids| |]; try discriminate. unfold attr_of in Q. destruct (_ <=? _) in Q; [|discriminate]. injection Q as <-. do 4 eexists. now left.
  - destruct (change _ _ _ _) as [F1|] eqn:Q; injection H as <-; auto. destruct steps as [|[n idx] [|s2 rest]]; [discriminate|discriminate R|].
    cbn [change] in Q. destruct (nth_error _ _); [|discriminate Q]. eapply edit_nth_has; [exact Q|]. intros nd l Q2 EL. destruct nd as [m a s k| |]; try discriminate.
    match type of Q2 with option_map _ ?x = _ => destruct x end; [|discriminate]. injection Q2 as <-. do 4 eexists. now left.
  - destruct (change _ _ _ _) as [F1|] eqn:Q; injection H as <-; auto. eapply change_has; eauto. intros nd l Q1 EL. destruct nd as [n a s kids| |]; try discriminate. injection Q1 as <-. do 4 eexists. now left.
  - destruct steps as [|st steps].
    + injection H as <-. do 4 eexists. apply insert_in.
    + eapply change_has; eauto. intros nd l Q1 EL. destruct nd as [n a s kids| |]; try discriminate. injection Q1 as <-. do 4 eexists. now left.
Qed.
