(** The last of two edits of one place counts; numbers after an element is removed. *)
From Coq Require Import List Ascii String NArith ZArith Bool Lia Permutation.
From Verif Require Import GoStr SpecText SpecPath SpecTree SpecQuery SpecEdit SpecContent SpecFilter SpecLang SpecHistory SpecFrame ProofBase ProofScan ProofEdit5 ProofFrame ProofFrame2.
Import ListNotations.

Definition down (g : node -> option (list node)) (miss : list tstep -> option (list node)) (rest : list tstep) (nd : node) : option (list node) :=
  match nd with Elem m a _ kids => option_map (fun kids' => [Elem m a false kids']) (change g miss rest kids) | _ => None end.
Lemma change_step : forall g miss n i s rest F, change g miss ((n, i) :: s :: rest) F =
  match nth_error (called (selects n) F) (index_of i) with
  | None => option_map (fun l => F ++ l) (miss ((n, i) :: s :: rest))
  | Some _ => edit_nth (selects n) (index_of i) (down g miss (s :: rest)) F
  end.
Proof. reflexivity. Qed.
(** ** The same place twice *)
Section Again.
  Variables g1 g2 : node -> option (list node).
  Variables m1 m2 : list tstep -> option (list node).
  Hypothesis K1 : keeping g1.
  Hypothesis Hg : forall nd nd', g1 nd = Some [nd'] -> g2 nd' = g2 nd.
  Hypothesis Hm : forall s F l, s <> [] -> m1 s = Some l -> change g2 m2 s (F ++ l) = option_map (fun k => F ++ k) (m2 s) \/ called (selects (fst (hd ([], None) s))) F <> [].
  Lemma change_again : (forall s l, m1 s = Some l -> exists names, names_only s = Some names) -> forall s F F1, change g1 m1 s F = Some F1 -> change g2 m2 s F1 = change g2 m2 s F.
  Proof.
    intros HN. induction s as [|[n i] rest IH]; intros F F1 H; [discriminate|]. cbn [change] in H. destruct (nth_error (called (selects n) F) (index_of i)) as [nd0|] eqn:Q.
    - destruct (edit_nth_split _ _ _ _ _ H) as (G1 & nd & G2 & l & -> & -> & Nm & Ln & G). clear Q H.
      assert (KK : exists nd', l = [nd'] /\ namesake nd nd' /\
        match rest with [] => g2 nd' | _ :: _ => match nd' with Elem m a _ kids => option_map (fun kids' => [Elem m a false kids']) (change g2 m2 rest kids) | _ => None end end =
        match rest with [] => g2 nd | _ :: _ => match nd with Elem m a _ kids => option_map (fun kids' => [Elem m a false kids']) (change g2 m2 rest kids) | _ => None end end).
      { destruct rest as [|s rest].
        - destruct (K1 _ _ G) as (nd' & -> & NS). exists nd'. split; auto.
        - destruct nd as [m a sf kids| |]; try discriminate. destruct (change g1 m1 (s :: rest) kids) as [K|] eqn:C; [|discriminate]. injection G as <-.
          eexists. split; [reflexivity|]. split; [reflexivity|]. cbv iota beta. f_equal. now apply IH. }
      destruct KK as (nd' & -> & NS & QQ). assert (Nm' : named (selects n) nd' = true) by (rewrite (namesake_named _ _ _ NS); exact Nm).
      cbn [change app]. rewrite <- Ln. rewrite !nth_at, !edit_nth_at by auto. now rewrite QQ.
    - match type of H with option_map _ ?z = _ => destruct z as [l|] eqn:M end; [|discriminate]. injection H as <-. destruct (HN _ _ M) as [names NO]. destruct i as [ds|]; [discriminate|].
      cbn [index_of] in Q. assert (CF : called (selects n) F = []) by (destruct (called (selects n) F); [reflexivity|discriminate]).
      destruct (Hm ((n, None) :: rest) F l) as [X|X]; [discriminate|exact M| |now elim X]. etransitivity; [exact X|]. cbn [change index_of]. now rewrite CF.
  Qed.
End Again.
Lemma nest_again : forall K1 K2 s names F, names_only s = Some names -> s <> [] -> called (selects (fst (hd ([], None) s))) F = [] ->
  change (with_kids K2) (new_kids K2) s (F ++ nest names K1) = Some (F ++ nest names K2).
Proof.
  intros K1 K2. induction s as [|[n [ds|]] rest IH]; intros names F H N C; [easy|discriminate|]. cbn [names_only] in H. destruct (names_only rest) as [names'|] eqn:Q; [|discriminate].
  injection H as <-. cbn [hd fst] in C. cbn [nest change index_of]. pose proof (nth_at (selects n) (Elem n [] false (nest names' K1)) [] F (select_self n)) as X. rewrite C in X. cbn [List.length] in X. rewrite X.
  pose proof (fun g => edit_nth_at (selects n) g (Elem n [] false (nest names' K1)) [] F (select_self n)) as Y. rewrite C in Y. cbn [List.length] in Y. rewrite Y.
  destruct rest as [|s rest].
  - injection Q as <-. reflexivity.
  - pose proof (IH names' [] eq_refl ltac:(discriminate) eq_refl) as Z. cbn [app] in Z. cbn [option_map]. unfold tstep in *. rewrite Z. reflexivity.
Qed.
Lemma nest_attr_again : forall x v1 v2 s names F, names_only s = Some names -> s <> [] -> called (selects (fst (hd ([], None) s))) F = [] ->
  change (attr_of x v2) (new_attr x v2) s (F ++ nest (removelast names) [Elem (last names []) [(x, v1)] false []]) = Some (F ++ nest (removelast names) [Elem (last names []) [(x, v2)] false []]).
Proof.
  intros x v1 v2. induction s as [|[n [ds|]] rest IH]; intros names F H N C; [easy|discriminate|]. cbn [names_only] in H. destruct (names_only rest) as [names'|] eqn:Q; [|discriminate].
  injection H as <-. cbn [hd fst] in C.
  destruct rest as [|s rest].
  - injection Q as <-. cbn [removelast last nest change index_of]. pose proof (nth_at (selects n) (Elem n [(x, v1)] false []) [] F (select_self n)) as X. rewrite C in X. cbn [List.length] in X. rewrite X.
    pose proof (fun g => edit_nth_at (selects n) g (Elem n [(x, v1)] false []) [] F (select_self n)) as Y. rewrite C in Y. cbn [List.length] in Y. rewrite Y. cbn [attr_of put_attr]. rewrite bytes_eqb_refl. reflexivity.
  - destruct names' as [|n' names']; [destruct s as [? [?|]]; cbn [names_only] in Q; [|destruct (names_only rest)]; discriminate|].
    change (removelast (n :: n' :: names')) with (n :: removelast (n' :: names')). change (last (n :: n' :: names') []) with (last (n' :: names') []). cbn [nest].
    set (K1 := nest (removelast (n' :: names')) [Elem (last (n' :: names') []) [(x, v1)] false []]) in *.
    cbn [change index_of]. pose proof (nth_at (selects n) (Elem n [] false K1) [] F (select_self n)) as X. rewrite C in X. cbn [List.length] in X. rewrite X.
    pose proof (fun g => edit_nth_at (selects n) g (Elem n [] false K1) [] F (select_self n)) as Y. rewrite C in Y. cbn [List.length] in Y. rewrite Y.
    pose proof (IH (n' :: names') [] eq_refl ltac:(discriminate) eq_refl) as Z. cbn [app] in Z. fold K1 in Z. cbn [option_map]. unfold tstep in *. exact (f_equal (fun w => option_map (fun l => F ++ l ++ []) (option_map (fun kids' => [Elem n [] false kids']) w)) Z).
Qed.
Lemma put_twice : forall x v1 v2 a, put_attr x v2 (put_attr x v1 a) = put_attr x v2 a.
Proof.
  intros x v1 v2. induction a as [|[n w] a IH]; cbn [put_attr]; [now rewrite bytes_eqb_refl|]. destruct (bytes_eqb x n) eqn:Q; cbn [put_attr]; rewrite Q; [reflexivity|now rewrite IH].
Qed.
Lemma bytes_eqb_comm : forall a b, bytes_eqb a b = bytes_eqb b a.
Proof.
  intros a b. destruct (bytes_eqb a b) eqn:Q; symmetry.
  - apply bytes_eqb_eq in Q. subst. apply bytes_eqb_refl.
  - destruct (bytes_eqb b a) eqn:R; auto. apply bytes_eqb_eq in R. subst. now rewrite bytes_eqb_refl in Q.
Qed.
Lemma drop_put : forall x v a, drop_attr x (put_attr x v a) = drop_attr x a.
Proof.
  intros x v. unfold drop_attr. induction a as [|[n w] a IH]; cbn [put_attr].
  - cbn [filter fst]. now rewrite bytes_eqb_refl.
  - destruct (bytes_eqb x n) eqn:Q; cbn [filter fst]; rewrite (bytes_eqb_comm n x), Q; cbn [negb]; [reflexivity|]. now rewrite IH.
Qed.
(** ** Inside an element *)
Lemma change_inside : forall s F A nd B, located s F A nd B -> forall g1 miss1 t F1, keeping g1 \/ t <> [] -> change g1 miss1 (s ++ t) F = Some F1 ->
  exists nd', change g1 miss1 (s ++ t) F = Some F1 /\ namesake nd nd' /\
    match t with [] => g1 nd = Some [nd'] | _ => match nd with Elem n a _ kids => exists kids', nd' = Elem n a false kids' /\ change g1 miss1 t kids = Some kids' | _ => False end end /\
    exists A' B', located s F1 A' nd' B' /\ forall g miss, change g miss s F1 = match g nd' with Some l => change (fun _ => Some l) miss s F | None => None end.
Proof.
  induction 1 as [n idx F1 nd F2 H1 H2|n idx rest F1 m a kids F2 A nd B H1 H2 L IH]; intros g1 miss1 t F' KT H.
  - pose proof H as H0. cbn [app change] in H. rewrite <- H2, nth_at, edit_nth_at in H by auto. 
    assert (W : forall nd' : node, namesake nd nd' -> forall g miss, change g miss [(n, idx)] (F1 ++ [nd'] ++ F2) = match g nd' with Some l => change (fun _ => Some l) miss [(n, idx)] (F1 ++ nd :: F2) | None => None end).
    { intros nd' NS g miss. cbn [app change]. assert (N' : named (selects n) nd' = true) by (rewrite (namesake_named _ _ _ NS); auto). rewrite <- H2, !nth_at, !edit_nth_at by auto.
      destruct (g nd') as [l|]; [|reflexivity]. now rewrite edit_nth_at. }
    destruct t as [|s t].
    + destruct KT as [KT|KT]; [|easy]. destruct (g1 nd) as [l|] eqn:G; [|discriminate]. destruct (KT _ _ G) as (nd' & -> & NS). injection H as <-. exists nd'. split; [exact H0|]. split; [exact NS|]. split; [reflexivity|].
      eexists. eexists. split; [apply loc_here; [now rewrite (namesake_named _ _ _ NS)|exact H2]|]. now apply W.
    + destruct nd as [m a sf kids| |]; try discriminate. destruct (change g1 miss1 (s :: t) kids) as [K|] eqn:C; [|discriminate]. injection H as <-. exists (Elem m a false K). split; [exact H0|]. split; [reflexivity|]. split; [eauto|].
      eexists. eexists. split; [apply loc_here; [exact H1|exact H2]|]. apply (W (Elem m a false K)). reflexivity.
  - destruct rest as [|s rest]; [inversion L|]. pose proof H as H0. change ((((n, idx) :: s :: rest) ++ t)) with ((n, idx) :: s :: (rest ++ t)) in H. rewrite change_step in H. rewrite <- H2, nth_at, edit_nth_at in H by auto. cbn [down] in H.
    match type of H with option_map _ (option_map _ ?z) = _ => destruct z as [K|] eqn:C end; [|discriminate]. injection H as <-. destruct (IH g1 miss1 t K KT C) as (nd' & _ & NS & X & A' & B' & LL & W).
    exists nd'. split; [exact H0|]. split; [exact NS|]. split; [exact X|]. eexists. eexists. split; [apply loc_down; eauto|].
    intros g miss. rewrite !change_step. cbn [app]. rewrite <- H2, !nth_at, !edit_nth_at by auto. cbn [down].
    rewrite W. destruct (g nd') as [l|]; [|reflexivity]. rewrite change_step. rewrite <- H2, nth_at, edit_nth_at by auto. reflexivity.
Qed.

(** ** The edits *)
Lemma change_some_located : forall s F A nd B, located s F A nd B -> forall g miss, change g miss s F = None -> g nd = None.
Proof.
  induction 1 as [n idx F1 nd F2 H1 H2|n idx rest F1 m a kids F2 A nd B H1 H2 L IH]; intros g miss H.
  - cbn [change] in H. rewrite <- H2, nth_at, edit_nth_at in H by auto. now destruct (g nd).
  - destruct rest as [|s rest]; [inversion L|]. rewrite change_step, <- H2, nth_at, edit_nth_at in H by auto. cbn [down] in H. apply (IH g miss). match type of H with option_map _ (option_map _ ?z) = _ => destruct z eqn:C end; [discriminate|exact C].
Qed.
Lemma change_const : forall s F A nd B, located s F A nd B -> forall g miss l, g nd = Some l -> change g miss s F = change (fun _ => Some l) miss s F.
Proof.
  induction 1 as [n idx F1 nd F2 H1 H2|n idx rest F1 m a kids F2 A nd B H1 H2 L IH]; intros g miss l H.
  - cbn [change]. rewrite <- H2, nth_at, !edit_nth_at by auto. now rewrite H.
  - destruct rest as [|s rest]; [inversion L|]. rewrite !change_step, <- H2, nth_at, !edit_nth_at by auto. cbn [down].
    exact (f_equal (fun w => option_map (fun l => F1 ++ l ++ F2) (option_map (fun kids' => [Elem m a false kids']) w)) (IH g miss l H)).
Qed.
Lemma change_same : forall s F A nd B, located s F A nd B -> forall g miss, g nd = Some [nd] -> change g miss s F = Some F.
Proof.
  induction 1 as [n idx F1 nd F2 H1 H2|n idx rest F1 m a kids F2 A nd B H1 H2 L IH]; intros g miss H.
  - cbn [change]. rewrite <- H2, nth_at, !edit_nth_at by auto. now rewrite H.
  - destruct rest as [|s rest]; [inversion L|]. rewrite !change_step, <- H2, nth_at, !edit_nth_at by auto. cbn [down].
    exact (f_equal (fun w => option_map (fun l => F1 ++ l ++ F2) (option_map (fun kids' => [Elem m a false kids']) w)) (IH g miss H)).
Qed.
Lemma put_already : forall x v a1 a2, ~ In x (map fst a1) -> put_attr x v (a1 ++ (x, v) :: a2) = a1 ++ (x, v) :: a2.
Proof.
  intros x v a1 a2. induction a1 as [|[n w] a1 IH]; intros H; cbn [app put_attr]; [now rewrite bytes_eqb_refl|]. destruct (bytes_eqb x n) eqn:Q.
  - apply bytes_eqb_eq in Q. subst. elim H. now left.
  - rewrite IH; auto. intros I. apply H. now right.
Qed.
Lemma drop_already : forall x a, ~ In x (map fst a) -> drop_attr x a = a.
Proof.
  intros x. unfold drop_attr. induction a as [|[n w] a IH]; intros H; [reflexivity|]. cbn [filter fst]. destruct (bytes_eqb n x) eqn:Q.
  - apply bytes_eqb_eq in Q. subst. elim H. now left.
  - cbn [negb]. rewrite IH; auto. intros I. apply H. now right.
Qed.
Theorem apply_already : forall o F, already o F -> apply_edit o F = Some F.
Proof.
  intros o F H. destruct H as [s F A n a B c L|s F A n a1 x v a2 self kids B L N Z|s F A n a x self kids B L N]; cbn [apply_edit].
  - now apply (change_same _ _ _ _ _ L).
  - apply (change_same _ _ _ _ _ L). cbn [attr_of]. rewrite put_already by auto. now rewrite (proj2 (Nat.leb_le _ _) Z).
  - rewrite (change_same _ _ _ _ _ L); auto. cbn [without_attr]. now rewrite drop_already.
Qed.
(** The first edit happens at [s ++ t]. *)
Lemma apply_at : forall o F F1 s t, apply_edit o F = Some F1 -> spot o = s ++ t -> s <> [] ->
  F1 = F \/ exists miss, change (turn o) miss (s ++ t) F = Some F1.
Proof.
  intros [s0 c|s0 x v|s0|s0 x|[|st s0] m c] F F1 s t H S N; cbn [apply_edit spot turn] in *.
  - right. rewrite <- S. eauto.
  - right. rewrite <- S. eauto.
  - rewrite <- S. destruct (change (fun _ => Some []) nothing s0 F) eqn:C; injection H as <-; [right; eauto|now left].
  - rewrite <- S. destruct (change (without_attr x) nothing s0 F) eqn:C; injection H as <-; [right; eauto|now left].
  - destruct s; [easy|discriminate].
  - right. rewrite <- S. eauto.
Qed.
Theorem apply_override : forall o1 o2 F F1, overrides o1 o2 F -> apply_edit o1 F = Some F1 -> apply_edit o2 F1 = apply_edit o2 F.
Proof.
  intros o1 o2 F F1 O H. destruct O as [s c1 c2 F|s x v1 v2 F|s x v F A nd B L|o s t F A nd B L S K|o s F A n a kids B c L [t [S K]]].
  - cbn [apply_edit] in *. eapply change_again; [| | | |exact H].
    + exact (turn_keeping (SetContent s c1) eq_refl).
    + intros nd nd' G. destruct nd as [n a [|] k| |]; try discriminate. injection G as <-. reflexivity.
    + intros s' F' l NE M. unfold new_kids in M. destruct (names_only s') as [names|] eqn:Q; [|discriminate]. injection M as <-.
      destruct (called (selects (fst (hd ([], None) s'))) F') as [|y l] eqn:C; [left|right; discriminate]. unfold new_kids at 2. rewrite Q. cbn [option_map]. now apply nest_again.
    + intros s' l M. unfold new_kids in M. destruct (names_only s') as [names|]; [eauto|discriminate].
  - cbn [apply_edit] in *. eapply change_again; [| | | |exact H].
    + exact (turn_keeping (SetAttr s x v1) eq_refl).
    + intros nd nd' G. destruct nd as [n a sf k| |]; try discriminate. cbn [attr_of] in G. destruct (_ <=? _); [|discriminate]. injection G as <-. cbn [attr_of]. now rewrite put_twice.
    + intros s' F' l NE M. unfold new_attr in M. destruct (names_only s') as [names|] eqn:Q; [|discriminate]. injection M as <-.
      destruct (called (selects (fst (hd ([], None) s'))) F') as [|y l] eqn:C; [left|right; discriminate]. unfold new_attr at 2. rewrite Q. cbn [option_map]. now apply nest_attr_again.
    + intros s' l M. unfold new_attr in M. destruct (names_only s') as [names|]; [eauto|discriminate].
  - cbn [apply_edit] in *. assert (SN : s ++ [] = s) by apply app_nil_r. rewrite <- SN in H.
    destruct (change_inside _ _ _ _ _ L _ _ [] F1 (or_introl (turn_keeping (SetAttr s x v) eq_refl)) H) as (nd' & _ & NS & G & A' & B' & L' & W). cbn [turn] in G.
    destruct nd as [n a sf k| |]; try discriminate. cbn [attr_of] in G. destruct (_ <=? _); [|discriminate]. injection G as <-.
    rewrite W. cbn [without_attr]. rewrite drop_put. rewrite (change_const _ _ _ _ _ L (without_attr x) nothing [Elem n (drop_attr x a) sf k] eq_refl).
    destruct (change (fun _ => Some [Elem n (drop_attr x a) sf k]) nothing s F) eqn:C; auto. apply (change_some_located _ _ _ _ _ L) in C. discriminate.
  - destruct (apply_at _ _ _ s t H S) as [->|[miss C]]; [intros ->; inversion L|reflexivity|].
    assert (KK : keeping (turn o) \/ t <> []) by (destruct K as [K|K]; auto; left; now apply turn_keeping).
    destruct (change_inside _ _ _ _ _ L _ _ t F1 KK C) as (nd' & _ & NS & G & A' & B' & L' & W). cbn [apply_edit]. rewrite W.
    destruct (change (fun _ => Some []) nothing s F) eqn:C2; auto. apply (change_some_located _ _ _ _ _ L) in C2. discriminate.
  - destruct (apply_at _ _ _ s t H S) as [->|[miss C]]; [intros ->; inversion L|reflexivity|].
    assert (KK : keeping (turn o) \/ t <> []) by (destruct K as [K|(m & c0 & ->)]; auto; left; now apply turn_keeping).
    destruct (change_inside _ _ _ _ _ L _ _ t F1 KK C) as (nd' & _ & NS & G & A' & B' & L' & W). cbn [apply_edit]. rewrite W.
    assert (X : exists kids', nd' = Elem n a false kids').
    { destruct t as [|st t]; [|destruct G as (kids' & -> & _); eauto]. destruct K as [K|(m & c0 & ->)]; [easy|]. cbn [turn more_kids] in G. injection G as <-. eauto. }
    destruct X as [kids' ->]. cbn [with_kids]. symmetry. apply (change_const _ _ _ _ _ L). reflexivity.
Qed.
