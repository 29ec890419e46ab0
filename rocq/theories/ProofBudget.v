(** How much edits add to a document. *)
From Coq Require Import List Ascii String NArith ZArith Bool Lia Permutation.
From Verif Require Import GoStr ModelParser ModelPath ModelResult ModelQuery ModelBuilder SpecText SpecPath SpecTree SpecQuery SpecEdit SpecContent SpecValid SpecHistory SpecTable SpecStore SpecBudget
  ProofBase ProofTree ProofEdit ProofEdit3 ProofEdit8 ProofEdit11 ProofStore.
Import ListNotations.
Open Scope nat_scope.

Lemma full_nil : full [] = 0.
Proof. reflexivity. Qed.
Lemma full_app : forall F G, full (F ++ G) = full F + full G.
Proof. intros. unfold full. now rewrite map_app, forest_app, app_length. Qed.
Lemma full_cons : forall x F, full (x :: F) = full [x] + full F.
Proof. intros x F. apply (full_app [x] F). Qed.
Lemma full_elem : forall n a s kids, full [Elem n a s kids] = List.length (start_tag n a false) + full kids + List.length (end_tag n).
Proof.
  intros n a s kids. unfold full. cbn [map opened forest_text flat_map node_text]. rewrite app_nil_r. rewrite !app_length. fold (forest_text (map opened kids)). lia.
Qed.
Lemma full_text : forall t, full [Text t] = List.length t.
Proof. intros t. unfold full. cbn [map opened forest_text flat_map node_text]. now rewrite app_nil_r. Qed.
Lemma tag_length : forall n a, List.length (start_tag n a false) = 2 + List.length n + List.length (attrs_text a).
Proof. intros n a. unfold start_tag. rewrite !app_length. cbn. lia. Qed.
Lemma end_length : forall n, List.length (end_tag n) = 3 + List.length n.
Proof. intros n. unfold end_tag. rewrite !app_length. cbn. lia. Qed.
Lemma attr_length : forall x v, List.length (attr_text (x, v)) = List.length x + List.length (esc v) + 4.
Proof. intros x v. unfold attr_text. cbn [fst snd]. rewrite !app_length. cbn. lia. Qed.
Lemma full_ge : forall F, List.length (forest_text F) <= full F.
Proof.
  assert (X : forall nd, List.length (node_text nd) <= full [nd]).
  { induction nd as [n a s kids IH|t|b] using node_ind'; [|rewrite full_text; cbn [node_text]; lia|unfold full; cbn [map opened forest_text flat_map]; rewrite app_nil_r; lia].
    rewrite full_elem. cbn [node_text]. assert (K : List.length (flat_map node_text kids) <= full kids).
    { induction IH as [|x l Hx _ IHl]; [rewrite full_nil; cbn; lia|]. rewrite full_cons. cbn [flat_map]. rewrite app_length. lia. }
    rewrite app_length, tag_length, end_length. destruct s; cbn [List.length].
    - unfold start_tag. rewrite !app_length. cbn [List.length]. change (List.length (bs "<")) with 1. change (List.length (bs "/>")) with 2. lia.
    - rewrite app_length, tag_length, end_length. lia. }
  induction F as [|nd F IH]; [apply le_n|]. rewrite full_cons. unfold forest_text in *. cbn [flat_map]. rewrite app_length. specialize (X nd). lia.
Qed.
Lemma full_le : forall F, Forall good F -> full F <= 2 * List.length (forest_text F).
Proof.
  assert (X : forall nd, good nd -> full [nd] <= 2 * List.length (node_text nd)).
  { induction nd as [n a s kids IH|t|b] using node_ind'; intros G; [|rewrite full_text; cbn [node_text]; lia|unfold full; cbn [map opened forest_text flat_map]; rewrite app_nil_r; lia].
    inversion G as [? ? ? ? _ _ GS GK| |]; subst. rewrite full_elem. cbn [node_text]. assert (K : full kids <= 2 * List.length (flat_map node_text kids)).
    { clear G GS. induction IH as [|x l Hx _ IHl]; [rewrite full_nil; cbn; lia|]. inversion GK; subst. rewrite full_cons. cbn [flat_map]. rewrite app_length. specialize (IHl H2). specialize (Hx H1). lia. }
    rewrite app_length, tag_length, end_length. destruct s; cbn [List.length].
    - rewrite (GS eq_refl), full_nil in *. unfold start_tag. rewrite !app_length. change (List.length (bs "<")) with 1. change (List.length (bs "/>")) with 2. lia.
    - rewrite app_length, tag_length, end_length. lia. }
  induction 1 as [|nd F G _ IH]; [apply le_n|]. rewrite full_cons. unfold forest_text in *. cbn [flat_map]. rewrite app_length. specialize (X nd G). lia.
Qed.

Lemma tags_app : forall a b, tags (a ++ b) = tags a + tags b.
Proof. intros. unfold tags. rewrite map_app. apply list_sum_app. Qed.
Lemma tags_cons : forall n l, tags (n :: l) = 2 * List.length n + 5 + tags l.
Proof. reflexivity. Qed.
Lemma nest_full : forall names K, full (nest names K) = tags names + full K.
Proof.
  induction names as [|n names IH]; intros K; [reflexivity|]. cbn [nest]. rewrite full_elem, IH, tag_length, end_length, tags_cons. cbn [attrs_text flat_map List.length]. lia.
Qed.
Lemma edit_nth_full : forall c f g F i F', edit_nth f i g F = Some F' -> (forall nd l, g nd = Some l -> full l <= full [nd] + c) -> full F' <= full F + c.
Proof.
  intros c f g. induction F as [|nd F IH]; intros i F' H G; [discriminate|]. cbn [edit_nth] in H. rewrite (full_cons nd F).
  assert (K : forall j, option_map (cons nd) (edit_nth f j g F) = Some F' -> full F' <= full [nd] + full F + c).
  { intros j Q. destruct (edit_nth f j g F) as [F1|] eqn:Z; [|discriminate]. injection Q as <-. rewrite full_cons. specialize (IH _ _ Z G). lia. }
  destruct (named f nd); [|now apply (K i)]. destruct i as [|i]; [|now apply (K i)]. destruct (g nd) as [l|] eqn:Z; [|discriminate]. injection H as <-. rewrite full_app. specialize (G _ _ Z). lia.
Qed.
Lemma change_full : forall c g miss,
  (forall nd l, g nd = Some l -> full l <= full [nd] + c) -> (forall st l, st <> [] -> miss st = Some l -> full l <= tags (map fst st) + c) ->
  forall steps F F', change g miss steps F = Some F' -> full F' <= full F + tags (map fst steps) + c.
Proof.
  intros c g miss G M. induction steps as [|[n idx] rest IH]; intros F F' H; [discriminate|]. cbn [change] in H. destruct (nth_error _ _).
  - rewrite <- Nat.add_assoc. eapply edit_nth_full; [exact H|]. intros nd l Q. destruct rest as [|s r]; [specialize (G _ _ Q); lia|]. destruct nd as [m a s' k| |]; try discriminate.
    destruct (change g miss (s :: r) k) as [k'|] eqn:Z; [|discriminate]. injection Q as <-. rewrite !full_elem. specialize (IH _ _ Z). change (tags (map fst ((n, idx) :: s :: r))) with (2 * List.length n + 5 + tags (map fst (s :: r))). lia.
  - destruct (miss _) as [l|] eqn:Z; [|discriminate]. injection H as <-. rewrite full_app. rewrite <- !Nat.add_assoc. apply Nat.add_le_mono_l. exact (M ((n, idx) :: rest) l ltac:(discriminate) Z).
Qed.
Lemma names_only_fst : forall steps names, names_only steps = Some names -> map fst steps = names.
Proof.
  induction steps as [|[n [ds|]] steps IH]; intros names H; cbn [names_only] in H; [injection H as <-; reflexivity|discriminate|].
  destruct (names_only steps) eqn:Q; [|discriminate]. injection H as <-. cbn [map fst]. now rewrite (IH _ eq_refl).
Qed.
Lemma insert_full : forall f c F, full (insert_last f c F) = full [c] + full F.
Proof.
  intros f c. induction F as [|nd F IH]; cbn [insert_last]; [now rewrite full_nil, Nat.add_0_r|]. rewrite (full_cons nd F).
  destruct (called f F); [destruct (named f nd)|]; rewrite full_cons; try rewrite (full_cons c F); try rewrite IH; lia.
Qed.
Lemma put_length : forall x v a, List.length (attrs_text (put_attr x v a)) <= List.length (attrs_text a) + List.length x + List.length (esc v) + 4.
Proof.
  intros x v. unfold attrs_text. induction a as [|[n w] a IH]; cbn [put_attr flat_map].
  - rewrite app_nil_r, attr_length. cbn; lia.
  - destruct (bytes_eqb x n) eqn:Q; cbn [flat_map]; rewrite !app_length, !attr_length in *; [apply bytes_eqb_eq in Q; subst|]; lia.
Qed.
Lemma drop_length : forall x a, List.length (attrs_text (drop_attr x a)) <= List.length (attrs_text a).
Proof.
  intros x. unfold attrs_text, drop_attr. induction a as [|p a IH]; [apply le_n|]. cbn [filter flat_map]. rewrite app_length. destruct (negb _); cbn [flat_map]; rewrite ?app_length; lia.
Qed.
Lemma remove_full : forall (g : node -> option (list node)), (forall nd l, g nd = Some l -> full l <= full [nd]) ->
  forall steps F F', change g nothing steps F = Some F' -> full F' <= full F.
Proof.
  intros g G. induction steps as [|[n idx] rest IH]; intros F F' H; [discriminate|]. cbn [change] in H. destruct (nth_error _ _); [|discriminate].
  apply (edit_nth_full 0) in H; [lia|]. intros nd l Q. destruct rest as [|s r]; [specialize (G _ _ Q); lia|]. destruct nd as [m a s' k| |]; try discriminate.
  destruct (change g nothing (s :: r) k) as [k'|] eqn:Z; [|discriminate]. injection Q as <-. rewrite !full_elem. specialize (IH _ _ Z). lia.
Qed.
Lemma apply_full : forall o F F', apply_edit o F = Some F' -> full F' <= full F + spend o.
Proof.
  intros o F F' H. destruct o as [steps c|steps x v|steps|steps x|steps m c]; cbn [apply_edit spend] in *.
  - rewrite Nat.add_assoc. eapply change_full; [| |exact H].
    + intros nd l Q. destruct nd as [n a [|] kids| |]; try discriminate. injection Q as <-. rewrite !full_elem. lia.
    + intros st l NE Q. unfold new_kids in Q. destruct (names_only st) as [names|] eqn:Z; [|discriminate]. injection Q as <-. rewrite nest_full, (names_only_fst _ _ Z). lia.
  - apply (change_full (List.length x + List.length (esc v) + 4)) in H; [lia| |].
    + intros nd l Q. destruct nd as [n a s kids| |]; try discriminate. unfold attr_of in Q. destruct (_ <=? _) in Q; [|discriminate]. injection Q as <-. rewrite !full_elem, !tag_length. pose proof (put_length x v a). lia.
    + intros st l NE Q. unfold new_attr in Q. destruct (names_only st) as [names|] eqn:Z; [|discriminate]. injection Q as <-. rewrite (names_only_fst _ _ Z).
      assert (NN : names <> []) by (intros ->; apply names_only_fst in Z; now destruct st).
      rewrite (app_removelast_last (l := names) [] NN) at 3. rewrite tags_app, nest_full, full_elem, tag_length, end_length, full_nil, tags_cons. unfold attrs_text. cbn [flat_map]. rewrite app_nil_r, attr_length. cbn [tags map list_sum fold_right]. lia.
  - destruct (change _ _ _ _) as [F1|] eqn:Z; injection H as <-; [|lia]. apply remove_full in Z; [lia|]. intros nd l Q. injection Q as <-. rewrite full_nil. lia.
  - destruct (change _ _ _ _) as [F1|] eqn:Z; injection H as <-; [|lia]. apply remove_full in Z; [lia|]. intros nd l Q. destruct nd as [n a s kids| |]; try discriminate. injection Q as <-. rewrite !full_elem, !tag_length. pose proof (drop_length x a). lia.
  - assert (NEW : full [Elem m [] false (content_nodes c)] = tags [m] + full (content_nodes c)) by (rewrite full_elem, tag_length, end_length, tags_cons; cbn [attrs_text flat_map List.length tags map list_sum fold_right]; lia).
    destruct steps as [|s r]; [injection H as <-; rewrite insert_full; lia|].
    assert (X : forall st F F', change (more_kids m (content_nodes c)) nothing st F = Some F' -> full F' <= full F + (tags [m] + full (content_nodes c))).
    { clear H. induction st as [|[n idx] rest IH]; intros F0 F0' H; [discriminate|]. cbn [change] in H. destruct (nth_error _ _); [|discriminate].
      eapply edit_nth_full; [exact H|]. intros nd l Q. destruct rest as [|s0 r0].
      - destruct nd as [n1 a s' kids| |]; try discriminate. injection Q as <-. rewrite !full_elem, insert_full. lia.
      - destruct nd as [m0 a s' k| |]; try discriminate. destruct (change _ nothing (s0 :: r0) k) as [k'|] eqn:Z; [|discriminate]. injection Q as <-. rewrite !full_elem. specialize (IH _ _ Z). lia. }
    eapply X; eauto.
Qed.

(** Sequences. *)
Lemma leads_size : forall ops F F', leads ops F F' -> full F' <= full F + spend_all ops.
Proof.
  induction 1 as [F|o ops F F1 F2 _ A _ _ IH]; [lia|]. pose proof (apply_full _ _ _ A). change (spend_all (o :: ops)) with (spend o + spend_all ops). lia.
Qed.
Lemma leads_history : forall p ops F F', leads ops F F' -> (N.of_nat (List.length p + full F + spend_all ops) <= 10485760)%N -> history p ops F F'.
Proof.
  intros p ops F F' H. induction H as [F|o ops F F1 F2 LG A HE _ IH]; intros Z; [constructor|]. change (spend_all (o :: ops)) with (spend o + spend_all ops) in Z. pose proof (apply_full _ _ _ A) as X. pose proof (full_ge F1) as Y.
  econstructor; [exact LG|exact A| |apply IH; lia]. split; [exact HE|]. rewrite app_length. lia.
Qed.

(** Numbers of attributes other than those with names in [X]. *)
Section Beside.
  Variable X : list bytes.
  Definition beside (a : list (bytes * bytes)) : nat := List.length (filter (fun q => negb (existsb (bytes_eqb (fst q)) X)) a).
  Fixpoint most_beside (nd : node) : nat :=
    match nd with
    | Elem _ a _ kids => Nat.max (beside a) (fold_right (fun x k => Nat.max (most_beside x) k) 0 kids)
    | _ => 0
    end.
  Definition mosts (F : list node) : nat := fold_right (fun x k => Nat.max (most_beside x) k) 0 F.
  Lemma mosts_app : forall F G, mosts (F ++ G) = Nat.max (mosts F) (mosts G).
  Proof. induction F as [|x F IH]; intros G; [reflexivity|]. cbn [app mosts fold_right]. fold (mosts F) (mosts (F ++ G)). rewrite IH. lia. Qed.
  Lemma mosts_cons : forall x F, mosts (x :: F) = Nat.max (most_beside x) (mosts F).
  Proof. reflexivity. Qed.
  Lemma mosts_elem : forall n a s kids, most_beside (Elem n a s kids) = Nat.max (beside a) (mosts kids).
  Proof. reflexivity. Qed.
  Lemma edit_nth_mosts : forall c f g F i F', edit_nth f i g F = Some F' -> (forall nd l, g nd = Some l -> most_beside nd <= c -> mosts l <= c) -> mosts F <= c -> mosts F' <= c.
  Proof.
    intros c f g. induction F as [|nd F IH]; intros i F' H G B; [discriminate|]. cbn [edit_nth] in H. rewrite mosts_cons in B.
    assert (K : forall j, option_map (cons nd) (edit_nth f j g F) = Some F' -> mosts F' <= c).
    { intros j Q. destruct (edit_nth f j g F) as [F1|] eqn:Z; [|discriminate]. injection Q as <-. rewrite mosts_cons. specialize (IH _ _ Z G). lia. }
    destruct (named f nd); [|now apply (K i)]. destruct i as [|i]; [|now apply (K i)]. destruct (g nd) as [l|] eqn:Z; [|discriminate]. injection H as <-. rewrite mosts_app. specialize (G _ _ Z). lia.
  Qed.
  Lemma change_mosts : forall c g miss, (forall nd l, g nd = Some l -> most_beside nd <= c -> mosts l <= c) -> (forall st l, miss st = Some l -> mosts l <= c) ->
    forall steps F F', change g miss steps F = Some F' -> mosts F <= c -> mosts F' <= c.
  Proof.
    intros c g miss G M. induction steps as [|[n idx] rest IH]; intros F F' H B; [discriminate|]. cbn [change] in H. destruct (nth_error _ _).
    - eapply edit_nth_mosts; [exact H| |exact B]. intros nd l Q BN. destruct rest as [|s r]; [eauto|]. destruct nd as [m a s' k| |]; try discriminate.
      destruct (change g miss (s :: r) k) as [k'|] eqn:Z; [|discriminate]. injection Q as <-. rewrite mosts_cons, !mosts_elem in *. specialize (IH _ _ Z). cbn [mosts fold_right]. lia.
    - destruct (miss _) as [l|] eqn:Z; [|discriminate]. injection H as <-. rewrite mosts_app. specialize (M _ _ Z). lia.
  Qed.
  Lemma nest_mosts : forall names K, mosts (nest names K) = mosts K.
  Proof. induction names as [|n names IH]; intros K; [reflexivity|]. cbn [nest]. rewrite mosts_cons, mosts_elem, IH. cbn [beside filter List.length mosts fold_right]. lia. Qed.
  Lemma in_names : forall x, In x X -> existsb (bytes_eqb x) X = true.
  Proof. intros x I. apply existsb_exists. exists x. split; [exact I|apply bytes_eqb_refl]. Qed.
  Lemma beside_put : forall x v a, In x X -> beside (put_attr x v a) = beside a.
  Proof.
    intros x v a I. unfold beside. induction a as [|[n w] a IH]; cbn [put_attr filter fst]; [now rewrite (in_names x I)|]. destruct (bytes_eqb x n) eqn:Q; cbn [filter fst].
    - apply bytes_eqb_eq in Q. subst n. now rewrite (in_names x I).
    - destruct (negb _); cbn [List.length]; now rewrite IH.
  Qed.
  Lemma beside_drop : forall x a, beside (drop_attr x a) <= beside a.
  Proof. intros x a. unfold beside, drop_attr. induction a as [|q a IH]; [apply le_n|]. cbn [filter]. destruct (negb (bytes_eqb _ _)); cbn [filter]; destruct (negb (existsb _ _)); cbn [List.length]; lia. Qed.
  Lemma store_mosts : forall o F F', apply_edit (store_edit o) F = Some F' -> (forall k x v, o = Mark k x v -> In x X) -> mosts F' <= mosts F.
  Proof.
    intros o F F' H I. destruct o as [k v|k x v|k|k x]; cbn [store_edit apply_edit] in H.
    - eapply change_mosts; [| |exact H|apply le_n].
      + intros nd l Q B. destruct nd as [n a [|] kids| |]; try discriminate. injection Q as <-. rewrite mosts_cons, mosts_elem in *. cbn [content_nodes mosts fold_right most_beside]. lia.
      + intros st l Q. unfold new_kids in Q. destruct (names_only st); [|discriminate]. injection Q as <-. rewrite nest_mosts. cbn. lia.
    - specialize (I k x v eq_refl). eapply change_mosts; [| |exact H|apply le_n].
      + intros nd l Q B. destruct nd as [n a s kids| |]; try discriminate. unfold attr_of in Q. destruct (_ <=? _) in Q; [|discriminate]. injection Q as <-. rewrite mosts_cons, mosts_elem, (beside_put x v a I) in *. cbn [mosts fold_right] in *. lia.
      + intros st l Q. unfold new_attr in Q. destruct (names_only st); [|discriminate]. injection Q as <-. rewrite nest_mosts, mosts_cons, mosts_elem. unfold beside. cbn [filter fst]. rewrite (in_names x I). cbn [negb List.length mosts fold_right]. lia.
    - destruct (change _ _ _ _) as [F1|] eqn:Z; injection H as <-; [|lia]. eapply change_mosts; [| |exact Z|apply le_n]; [|discriminate]. intros nd l Q B. injection Q as <-. cbn. lia.
    - destruct (change _ _ _ _) as [F1|] eqn:Z; injection H as <-; [|lia]. eapply change_mosts; [| |exact Z|apply le_n]; [|discriminate]. intros nd l Q B. destruct nd as [n a s kids| |]; try discriminate. injection Q as <-.
      rewrite mosts_cons, mosts_elem in *. pose proof (beside_drop x a). cbn [mosts fold_right] in *. lia.
  Qed.
  Lemma called_mosts : forall f F nd, In nd (called f F) -> most_beside nd <= mosts F.
  Proof.
    intros f F nd H. unfold called in H. apply filter_In in H as [H _]. induction F as [|x F IH]; [destruct H|]. rewrite mosts_cons. destruct H as [->|H]; [lia|]. specialize (IH H). lia.
  Qed.
  Lemma sole_mosts : forall k F nd, sole k F nd -> most_beside nd <= mosts F.
  Proof.
    induction 1 as [n F nd C|n rest F m a kids nd C _ IH].
    - apply (called_mosts (selects n)). rewrite C. now left.
    - eapply Nat.le_trans; [exact IH|]. assert (Y : most_beside (Elem m a false kids) <= mosts F) by (apply (called_mosts (selects n)); rewrite C; now left). rewrite mosts_elem in Y. lia.
  Qed.
  Lemma mosts_le : forall F, mosts F <= most F.
  Proof.
    assert (L : forall a, beside a <= List.length a) by (intros a; unfold beside; induction a as [|q a IH]; cbn [filter]; [apply le_n|]; destruct (negb _); cbn [List.length]; lia).
    assert (N : forall nd, most_beside nd <= most_attrs nd); [|intros F; induction F as [|x F IH]; [apply le_n|]; specialize (N x); cbn [mosts most fold_right]; fold (mosts F) (most F); lia].
    fix IH 1. intros [n a s kids|t|b]; cbn [most_beside most_attrs]; [|lia|lia]. specialize (L a).
    assert (Z : fold_right (fun x k => Nat.max (most_beside x) k) 0 kids <= fold_right (fun x k => Nat.max (most_attrs x) k) 0 kids).
    { induction kids as [|x kids IHk]; cbn [fold_right]; [apply le_n|]. specialize (IH x). lia. }
    lia.
  Qed.
  Lemma beside_count : forall a, NoDup (map fst a) -> List.length a <= beside a + List.length X.
  Proof.
    intros a ND. set (f := fun q : bytes * bytes => existsb (bytes_eqb (fst q)) X).
    assert (S : List.length a = List.length (filter f a) + beside a).
    { unfold beside. fold f. clear. induction a as [|q a IH]; [reflexivity|]. cbn [filter]. unfold f at 1 3. destruct (existsb _ _); cbn [negb List.length]; fold f; lia. }
    assert (I : List.length (map fst (filter f a)) <= List.length X).
    { apply NoDup_incl_length.
      - clear S. induction a as [|q a IH]; [constructor|]. cbn [map] in ND. inversion ND as [|? ? N1 N2]; subst. cbn [filter]. destruct (f q); [|now apply IH]. cbn [map]. constructor; [|now apply IH].
        intros J. apply N1. apply in_map_iff in J as (z & <- & J). apply filter_In in J as [J _]. now apply in_map.
      - intros y J. apply in_map_iff in J as (z & <- & J). apply filter_In in J as [_ J]. unfold f in J. apply existsb_exists in J as (w & W & E). apply bytes_eqb_eq in E. now subst w. }
    rewrite map_length in I. lia.
  Qed.
End Beside.
Lemma sole_good : forall k F nd, sole k F nd -> Forall good F -> good nd.
Proof.
  assert (C : forall f F nd, In nd (called f F) -> Forall good F -> good nd) by (intros f F nd H G; unfold called in H; apply filter_In in H as [H _]; rewrite Forall_forall in G; now apply G).
  induction 1 as [n F nd Q|n rest F m a kids nd Q _ IH]; intros G.
  - apply (C (selects n) F); [rewrite Q; now left|exact G].
  - apply IH. assert (Y : good (Elem m a false kids)) by (apply (C (selects n) F); [rewrite Q; now left|exact G]). now inversion Y.
Qed.
Lemma mark_defined : forall K F D k x v, keys K -> stores K F D -> K k -> (forall m a s kids, sole k F (Elem m a s kids) -> List.length (put_attr x v a) <= 100) ->
  exists F', apply_edit (store_edit (Mark k x v)) F = Some F'.
Proof.
  intros K F D k x v HK ST Kk L. assert (S := ST k Kk). cbn [store_edit apply_edit]. destruct (D k) as [e|] eqn:Q.
  - destruct S as (m & a & kids & SO & _). specialize (L m a false kids SO). eapply edit_defined with (l := [Elem m (put_attr x v a) false kids]); eauto. cbn [attr_of]. apply Nat.leb_le in L. now rewrite L.
  - apply (op_defined K F D (Mark k x v) HK ST Kk). intros k' x' v' E m a s kids SO. injection E as <- <- <-. exfalso. pose proof (query_sole TheElement (or_introl eq_refl) _ _ _ SO true) as Q1. pose proof (query_absent TheElement (or_introl eq_refl) k F S true) as Q2. rewrite Q1 in Q2. discriminate Q2.
Qed.
Lemma store_leads_names : forall X K ops F D, keys K -> stores K F D -> Forall good F -> Forall top_node F -> Forall (fun o => K (key_of o)) ops -> Forall (fun o => legal (store_edit o)) ops ->
  Forall (fun o => forall n, o <> Forget [n]) ops -> has_element F -> incl (mark_names ops) X -> mosts X F + List.length X <= 100 -> exists F', leads (map store_edit ops) F F'.
Proof.
  intros X K ops F D HK. revert F D. induction ops as [|o ops IH]; intros F D ST GF TF KO LG NF HE IN MO; [exists F; constructor|].
  inversion KO as [|? ? KO1 KO2]; inversion LG as [|? ? LG1 LG2]; inversion NF as [|? ? NF1 NF2]; subst.
  assert (IO : forall k x v, o = Mark k x v -> In x X) by (intros k x v ->; apply IN; cbn; now left). assert (IN2 : incl (mark_names ops) X) by (intros y J; apply IN; cbn [mark_names flat_map]; apply in_or_app; now right).
  assert (A : exists F1, apply_edit (store_edit o) F = Some F1).
  { destruct o as [k v|k x v|k|k x]; try (apply (op_defined K F D _ HK ST KO1); discriminate). apply (mark_defined K F D k x v HK ST KO1). intros m a s kids SO.
    pose proof (sole_good _ _ _ SO GF) as G. inversion G as [? ? ? ? _ GA _ _| |]; subst. specialize (IO k x v eq_refl).
    pose proof (beside_count X (put_attr x v a) (put_nodup x v a (ga_distinct _ GA))) as B. rewrite (beside_put X x v a IO) in B. apply (sole_mosts X) in SO. rewrite mosts_elem in SO. lia. }
  destruct A as [F1 A].
  assert (HE1 : has_element F1).
  { eapply apply_has; [|exact A|exact HE]. destruct o as [k v|k x v|k|k x]; try reflexivity. cbn [store_edit removes_element]. destruct k as [|n [|n' k]]; try reflexivity. now elim (NF1 n). }
  pose proof (op_stores K F F1 D o HK ST KO1 A) as ST1. pose proof (store_mosts X o F F1 A IO). destruct (apply_good _ F F1 LG1 GF TF A) as [GF1 TF1].
  destruct (IH F1 _ ST1 GF1 TF1 KO2 LG2 NF2 HE1 IN2) as [F' L]; [lia|]. exists F'. cbn [map]. econstructor; eauto.
Qed.
Lemma store_leads : forall K ops F D, keys K -> stores K F D -> Forall good F -> Forall top_node F -> Forall (fun o => K (key_of o)) ops -> Forall (fun o => legal (store_edit o)) ops ->
  Forall (fun o => forall n, o <> Forget [n]) ops -> has_element F -> most F + marks ops <= 100 -> exists F', leads (map store_edit ops) F F'.
Proof.
  intros K ops F D HK ST GF TF KO LG NF HE MO. eapply (store_leads_names (nodup (list_eq_dec ascii_dec) (mark_names ops)) K ops F D); eauto.
  - intros y J. now apply nodup_In.
  - pose proof (mosts_le (nodup (list_eq_dec ascii_dec) (mark_names ops)) F). unfold marks in MO. eapply Nat.le_trans; [|exact MO]. apply Nat.add_le_mono_r. exact H.
Qed.
