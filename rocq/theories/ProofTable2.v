(** Tables kept in a document: there is room for the operations. *)
From Coq Require Import List Ascii String NArith ZArith Bool Lia Permutation.
From Verif Require Import GoStr ModelParser ModelPath ModelResult ModelQuery ModelValidate ModelBuilder SpecText SpecPath SpecTree SpecQuery SpecEdit SpecContent SpecValid SpecFilter SpecLang SpecHistory SpecTable
  ProofBase ProofEscape ProofScan ProofTree ProofTree2 ProofTree4 ProofTree5 ProofEdit ProofEdit2 ProofEdit4 ProofEdit5 ProofEdit6 ProofEdit7 ProofEdit8 ProofEdit9 ProofEdit11 ProofLang2 ProofLang3 ProofLang4 ProofList ProofTable.
Import ListNotations.
Notation called_cons := ProofEdit2.called_cons.

Section Measure.
  Variable mu : list node -> nat.
  Hypothesis mu_app : forall F G, mu (F ++ G) = mu F + mu G.
  Hypothesis mu_elem : forall n a kids kids', mu [Elem n a false kids'] + mu kids = mu [Elem n a false kids] + mu kids'.
  Lemma mu_cons : forall x F, mu (x :: F) = mu [x] + mu F.
  Proof. intros. apply (mu_app [x] F). Qed.
  Lemma mu_nil : mu [] = 0.
  Proof. pose proof (mu_app [] []) as H. cbn [app] in H. lia. Qed.

  Lemma one_edit : forall n F x g l, called (selects n) F = [x] -> g x = Some l -> exists F', edit_nth (selects n) 0 g F = Some F' /\ mu F' + mu [x] = mu F + mu l.
  Proof.
    intros n F x g l C GX. destruct (first_split n F) as (K1 & y & K2 & -> & E1 & N); [congruence|]. rewrite called_app, E1, called_cons, N in C. cbn [app] in C. injection C as -> C.
    exists (K1 ++ l ++ K2). split.
    - apply edit_nth_split. exists K1, x, K2, l. repeat split; auto. now rewrite E1.
    - rewrite !mu_app, (mu_cons x K2). lia.
  Qed.
  Lemma sole_forward : forall names F nd, sole names F nd -> forall n a kids, nd = Elem n a false kids -> forall g miss t kids', t <> [] -> change g miss t kids = Some kids' ->
    exists F', change g miss (by_name names ++ t) F = Some F' /\ mu F' + mu kids = mu F + mu kids'.
  Proof.
    induction 1 as [n0 F nd C|n0 rest F m0 a0 kids0 nd C SO IH]; intros n a kids -> g miss t kids' NT CH; cbn [by_name map app].
    - destruct t as [|s t]; [easy|]. rewrite change_more. cbn [index_of]. rewrite C. cbn [nth_error].
      match goal with |- exists F', edit_nth ?q1 ?q2 ?q3 ?q4 = _ /\ _ => destruct (one_edit n0 F _ q3 [Elem n a false kids'] C) as (F' & ED & MU) end; [now rewrite CH|]. exists F'. split; [exact ED|].
      pose proof (mu_elem n a kids kids'). lia.
    - destruct (IH n a kids eq_refl g miss t kids' NT CH) as (k1 & C1 & M1). assert (NR : by_name rest ++ t <> []) by (intros X; apply app_eq_nil in X; tauto).
      change ((n0, None) :: map (fun n => (n, None)) rest ++ t) with ((n0, None) :: (by_name rest ++ t)). destruct (by_name rest ++ t) as [|s0 t0] eqn:QR; [easy|].
      rewrite change_more. cbn [index_of]. rewrite C. cbn [nth_error].
      match goal with |- exists F', edit_nth ?q1 ?q2 ?q3 ?q4 = _ /\ _ => destruct (one_edit n0 F _ q3 [Elem m0 a0 false k1] C) as (F' & ED & MU) end; [now rewrite C1|]. exists F'. split; [exact ED|].
      pose proof (mu_elem m0 a0 kids0 k1). lia.
  Qed.
  Lemma sole_forward_at : forall names F nd, sole names F nd -> forall g miss l, g nd = Some l ->
    exists F', change g miss (by_name names) F = Some F' /\ mu F' + mu [nd] = mu F + mu l.
  Proof.
    induction 1 as [n0 F nd C|n0 rest F m0 a0 kids0 nd C SO IH]; intros g miss l GX; cbn [by_name map].
    - cbn [change index_of]. rewrite C. cbn [nth_error]. now apply one_edit.
    - destruct (IH g miss l GX) as (k1 & C1 & M1). assert (NR : by_name rest <> []) by (destruct rest; [inversion SO|discriminate]).
      change ((n0, None) :: map (fun n => (n, None)) rest) with ((n0, None) :: by_name rest). destruct (by_name rest) as [|s0 t0] eqn:QR; [easy|].
      rewrite change_more. cbn [index_of]. rewrite C. cbn [nth_error].
      match goal with |- exists F', edit_nth ?q1 ?q2 ?q3 ?q4 = _ /\ _ => destruct (one_edit n0 F _ q3 [Elem m0 a0 false k1] C) as (F' & ED & MU) end; [now rewrite C1|]. exists F'. split; [exact ED|].
      pose proof (mu_elem m0 a0 kids0 k1). lia.
  Qed.
  Lemma row_at : forall m kids T1 r T2, called (selects m) kids = map (row_node m) (T1 ++ r :: T2) ->
    exists K1 K2, kids = K1 ++ row_node m r :: K2 /\ called (selects m) K1 = map (row_node m) T1.
  Proof.
    intros m. induction kids as [|x kids IH]; intros T1 r T2 H; [destruct T1; discriminate|]. rewrite called_cons in H. destruct (named (selects m) x) eqn:N.
    - destruct T1 as [|t T1]; cbn [map app] in H.
      + injection H as -> H. exists [], kids. auto.
      + injection H as -> H. destruct (IH T1 r T2 H) as (K1 & K2 & -> & E1). exists (row_node m t :: K1), K2. split; auto. rewrite called_cons, N, E1. reflexivity.
    - destruct (IH T1 r T2 H) as (K1 & K2 & -> & E1). exists (x :: K1), K2. split; auto. rewrite called_cons, N. exact E1.
  Qed.
  Lemma put_mu : forall f v r, mu (map cell_node (put_attr f v r)) <= mu (map cell_node r) + mu [cell_node (f, v)].
  Proof.
    intros f v. induction r as [|[g w] r IH]; [cbn [put_attr map]; lia|]. cbn [put_attr map]. destruct (bytes_eqb f g) eqn:Q.
    - apply bytes_eqb_eq in Q. subst g. cbn [map]. rewrite (mu_cons (cell_node (f, v))), (mu_cons (cell_node (f, w))). lia.
    - cbn [map]. rewrite (mu_cons (cell_node (g, w)) (map cell_node (put_attr f v r))), (mu_cons (cell_node (g, w)) (map cell_node r)). lia.
  Qed.
  Lemma drop_mu : forall f r, mu (map cell_node (drop_attr f r)) <= mu (map cell_node r).
  Proof.
    intros f. unfold drop_attr. induction r as [|[g w] r IH]; [apply Nat.le_refl|]. cbn [map filter]. destruct (negb (bytes_eqb (fst (g, w)) f)); cbn [map];
      rewrite ?(mu_cons (cell_node (g, w)) (map cell_node (filter _ r))), (mu_cons (cell_node (g, w)) (map cell_node r)); lia.
  Qed.
  Lemma upd_inv : forall g T i T', upd i g T = Some T' -> exists T1 r T2, T = T1 ++ r :: T2 /\ len T1 = i.
  Proof.
    intros g. induction T as [|x T IH]; intros [|i] T' H; cbn [upd] in H; try discriminate.
    - exists [], x, T. auto.
    - destruct (upd i g T) as [T0|] eqn:Q; [|discriminate]. destruct (IH i T0 Q) as (T1 & r & T2 & -> & L). exists (x :: T1), r, T2. split; auto. cbn [List.length]. now rewrite L.
  Qed.
  Lemma op_room : forall names m o F T T', good_op o -> keeps names m F T -> do_op o T = Some T' ->
    exists F', apply_edit (op_edit names m o) F = Some F' /\ mu F' <= mu F + mu (added m o).
  Proof.
    intros names m o F T T' GO [GT (n & a & kids & SO & CA)] D. destruct o as [r|ds f v|ds|ds f]; cbn [op_edit added do_op good_op] in *.
    - assert (NN : by_name names <> []) by (destruct names; [inversion SO|discriminate]).
      destruct (sole_forward_at _ _ _ SO (more_kids m (map cell_node r)) nothing _ eq_refl) as (F' & CH & M). exists F'.
      split; [destruct (by_name names); [easy|exact CH]|]. destruct (up_exists m kids) as (K1 & K2 & U). rewrite (insert_up m kids K1 K2 _ U) in M. destruct U as (U & _).
      pose proof (mu_elem n a kids (K1 ++ Elem m [] false (map cell_node r) :: K2)) as ME. subst kids. rewrite !mu_app, (mu_cons (Elem m [] false (map cell_node r))) in ME. unfold row_node. lia.
    - destruct (upd_inv _ _ _ _ D) as (T1 & r & T2 & -> & L). destruct (row_at m kids T1 r T2 CA) as (K1 & K2 & -> & E1).
      assert (GR : good_row r) by (rewrite Forall_forall in GT; apply GT, in_or_app; right; now left).
      set (g := with_kids [Text (esc v)]). set (miss := new_kids [Text (esc v)]).
      assert (CH : change g miss [(m, Some ds); (f, None)] (K1 ++ row_node m r :: K2) = Some (K1 ++ [Elem m [] false (map cell_node (put_attr f v r))] ++ K2)).
      { rewrite change_more. rewrite (nth_row m _ _ _ CA), <- L, nth_error_app2, Nat.sub_diag by lia. cbn [nth_error option_map]. apply edit_nth_split. exists K1, (row_node m r), K2, [Elem m [] false (map cell_node (put_attr f v r))].
        repeat split; auto; [apply row_named|now rewrite E1, map_length|]. cbn [row_node]. unfold tstep, g, miss. now rewrite row_put. }
      destruct (sole_forward _ _ _ SO n a _ eq_refl g miss [(m, Some ds); (f, None)] _ ltac:(discriminate) CH) as (F' & CF & M). exists F'. split; [exact CF|].
      cbn [app] in M. rewrite !mu_app in M. rewrite (mu_cons (row_node m r)), (mu_cons (Elem m [] false _)) in M. pose proof (mu_elem m [] (map cell_node r) (map cell_node (put_attr f v r))) as ME. pose proof (put_mu f v r).
      unfold row_node in M. lia.
    - cbn [apply_edit]. rewrite mu_nil. set (i := index_of (Some ds)) in *. destruct (nth_error T i) as [r|] eqn:NE.
      + apply nth_error_split in NE. destruct NE as (T1 & T2 & -> & L). destruct (row_at m kids T1 r T2 CA) as (K1 & K2 & -> & E1).
        assert (CH : change (fun _ => Some []) nothing [(m, Some ds)] (K1 ++ row_node m r :: K2) = Some (K1 ++ [] ++ K2)).
        { cbn [change]. fold i. rewrite (nth_row m _ _ _ CA), <- L, nth_error_app2, Nat.sub_diag by lia. cbn [nth_error option_map]. apply edit_nth_split. exists K1, (row_node m r), K2, []. repeat split; auto; [apply row_named|now rewrite E1, map_length]. }
        destruct (sole_forward _ _ _ SO n a _ eq_refl (fun _ => Some []) nothing [(m, Some ds)] _ ltac:(discriminate) CH) as (F' & CF & M). rewrite CF. exists F'. split; auto. cbn [app] in M. rewrite !mu_app, (mu_cons (row_node m r)) in M. lia.
      + assert (CH : change (fun _ => Some []) nothing [(m, Some ds)] kids = None) by (cbn [change]; fold i; rewrite (nth_row m _ _ _ CA), NE; reflexivity).
        destruct (change (fun _ => Some []) nothing (by_name names ++ [(m, Some ds)]) F) as [F1|] eqn:CF; [|exists F; split; auto; lia].
        destruct (sole_change _ _ _ SO n a kids eq_refl _ _ [(m, Some ds)] F1 ltac:(discriminate) CF) as (kids' & CK & _). congruence.
    - cbn [apply_edit]. rewrite mu_nil. set (i := index_of (Some ds)) in *.
      destruct (change (fun _ => Some []) nothing (by_name names ++ [(m, Some ds); (f, None)]) F) as [F1|] eqn:CF; [|exists F; split; auto; lia].
      exists F1. split; auto. destruct (sole_change _ _ _ SO n a kids eq_refl _ _ [(m, Some ds); (f, None)] F1 ltac:(discriminate) CF) as (kids' & CK & _).
      destruct (sole_forward _ _ _ SO n a _ eq_refl (fun _ => Some []) nothing [(m, Some ds); (f, None)] _ ltac:(discriminate) CK) as (F' & CF' & M). rewrite CF' in CF. injection CF as ->.
      rewrite change_more in CK. fold i in CK. rewrite (nth_row m _ _ _ CA) in CK. destruct (nth_error T i) as [r|] eqn:NE; [|discriminate]. cbn [option_map] in CK.
      apply nth_error_split in NE. destruct NE as (T1 & T2 & -> & L). apply edit_nth_split in CK. destruct CK as (K1 & x & K2 & l & -> & N & LC & GX & ->).
      destruct (rows_split m _ K1 x K2 _ _ CA N eq_refl eq_refl) as (S1 & r0 & S2 & ET & E1 & -> & E2).
      assert (GR : good_row r0) by (rewrite Forall_forall in GT; apply GT; rewrite ET; apply in_or_app; right; now left).
      cbn [row_node] in GX. unfold tstep in GX. destruct (row_drop f r0 GO GR) as [R1 R2]. destruct (attr_value f r0) as [w|]; [|destruct (R2 eq_refl) as [R3 _]; rewrite R3 in GX; discriminate].
      rewrite R1 in GX by discriminate. cbn [option_map] in GX. injection GX as <-. cbn [app] in M. rewrite !mu_app, (mu_cons (row_node m r0)), (mu_cons (Elem m [] false _)) in M.
      pose proof (mu_elem m [] (map cell_node r0) (map cell_node (drop_attr f r0))) as ME. pose proof (drop_mu f r0). unfold row_node in M. lia.
  Qed.
End Measure.

Lemma text_app : forall F G, len (forest_text (F ++ G)) = len (forest_text F) + len (forest_text G).
Proof. intros. now rewrite forest_app, app_length. Qed.
Lemma text_elem : forall n a kids kids', len (forest_text [Elem n a false kids']) + len (forest_text kids) = len (forest_text [Elem n a false kids]) + len (forest_text kids').
Proof. intros. rewrite !forest_one, !node_elem, !app_length. lia. Qed.
Lemma post_app : forall F G, len (post (F ++ G)) = len (post F) + len (post G).
Proof. intros. unfold post. now rewrite flat_map_app, app_length. Qed.
Lemma post_elem : forall n a kids kids', len (post [Elem n a false kids']) + len (post kids) = len (post [Elem n a false kids]) + len (post kids').
Proof. intros. unfold post. cbn [flat_map post_node]. rewrite !app_nil_r, !app_length. cbn [List.length]. lia. Qed.
Lemma sole_has : forall names F n a kids, sole names F (Elem n a false kids) -> has_element F.
Proof.
  intros names F n a kids SO. assert (K : exists n0 x l, called (selects n0) F = x :: l) by (inversion SO; subst; eauto). destruct K as (n0 & x & l & K).
  pose proof (called_named _ _ _ _ K) as N. assert (I : In x (called (selects n0) F)) by (rewrite K; now left). unfold called in I. apply filter_In in I. destruct x as [n1 a1 s1 k1| |]; try discriminate. exists n1, a1, s1, k1. apply I.
Qed.
Lemma ops_room : forall p names m ops F T T', Forall good_op ops -> Forall (fun o => legal (op_edit names m o)) ops -> keeps names m F T -> do_ops ops T = Some T' ->
  (blen (p ++ forest_text F) + blen (forest_text (all_added m ops)) <= 10485760)%N ->
  exists F', history p (map (op_edit names m) ops) F F' /\ (elements F' <= elements F + elements (all_added m ops))%N.
Proof.
  intros p names m. induction ops as [|o ops IH]; intros F T T' GO LG KP D SZ.
  - exists F. split; [constructor|]. lia.
  - inversion GO; subst. inversion LG; subst. cbn [do_ops] in D. destruct (do_op o T) as [T1|] eqn:D1; [|discriminate].
    destruct (op_room (fun F => len (forest_text F)) text_app text_elem names m o F T T1) as (F1 & AP & M1); auto.
    destruct (op_room (fun F => len (post F)) post_app post_elem names m o F T T1) as (F2 & AP2 & M2); auto. rewrite AP in AP2. injection AP2 as <-.
    destruct (table_step names m o F F1 T) as (T1' & D1' & KP1); auto. rewrite D1 in D1'. injection D1' as <-.
    change (all_added m (o :: ops)) with (added m o ++ all_added m ops) in *. rewrite forest_app in SZ. unfold blen in *. rewrite !app_length in SZ.
    destruct (IH F1 T1 T') as (F' & H & EL); auto; [unfold blen in *; rewrite !app_length; lia|]. exists F'. split.
    + cbn [map]. econstructor; eauto. split; [|rewrite app_length; lia]. destruct KP1 as [_ (n & a & kids & SO & _)]. eapply sole_has; eauto.
    + unfold elements in *. rewrite post_app. lia.
Qed.
