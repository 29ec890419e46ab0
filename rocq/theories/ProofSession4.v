(** Sequences of edits under options: white space between tags; default options. *)
From Coq Require Import List Ascii String NArith ZArith Bool Lia Permutation.
From Verif Require Import GoStr ModelParser ModelResult ModelQuery ModelBuilder SpecText SpecPath SpecTree SpecQuery SpecEdit SpecContent SpecValid SpecHistory SpecFilter SpecLang SpecCase SpecOptions SpecSession
  ProofBase ProofScan ProofTree ProofTree4 ProofEdit ProofEdit2 ProofEdit8 ProofEdit11 ProofEdit12 ProofOpt2 ProofOpt3 ProofOpt4 ProofSession ProofSession2.
Import ListNotations.
Notation called_cons := ProofEdit2.called_cons.

Lemma tidy_app : forall F G, tidy (F ++ G) = tidy F ++ tidy G.
Proof. intros. apply flat_map_app. Qed.
Lemma tidy_cons : forall nd F, tidy (nd :: F) = tidy_node nd ++ tidy F.
Proof. reflexivity. Qed.
Lemma blanks_tidy : forall t, blanks t -> tidy [Text t] = [].
Proof.
  intros t H. unfold tidy. cbn [flat_map tidy_node].
  assert (Q : forallb (fun c => existsb (Ascii.eqb c) [" "%char; tab; lf; cr]) t = true).
  { apply forallb_forall. intros c I. unfold blanks in H. rewrite Forall_forall in H. apply H in I. apply existsb_exists. exists c. split; [exact I|apply Ascii.eqb_refl]. }
  now rewrite Q.
Qed.
Lemma line_tidy : forall ind i, blanks ind -> tidy (new_line ind i) = [].
Proof.
  intros [|c ind] i H; [reflexivity|]. cbn [new_line]. apply blanks_tidy. constructor; [right; right; now left|]. now apply times_blank.
Qed.
Lemma lines_tidy : forall ind names i j a K, blanks ind -> tidy (nest_lines ind i names a K) = tidy (nest_lines [] j names a K).
Proof.
  intros ind. induction names as [|n names IH]; intros i j a K H; [reflexivity|]. cbn [nest_lines new_line app]. rewrite tidy_app, (line_tidy ind i H). cbn [app].
  unfold tidy at 1 2. cbn [flat_map tidy_node app]. fold (tidy (nest_lines ind (S i) names a K)). fold (tidy (nest_lines [] (S j) names a K)). now rewrite (IH (S i) (S j) a K H).
Qed.
(** One step of [tidy]. *)
Lemma tidy_case : forall nd, (tidy_node nd = [] /\ forall f, named f nd = false) \/ (exists nd', tidy_node nd = [nd'] /\ forall f, named f nd' = named f nd).
Proof.
  intros [n a s k|t|b]; cbn [tidy_node].
  - right. eexists. split; reflexivity.
  - destruct (forallb _ t); [left; auto|right; eexists; split; reflexivity].
  - right. eexists. split; reflexivity.
Qed.
Lemma called_tidy : forall f F, called f (tidy F) = tidy (called f F).
Proof.
  intros f. induction F as [|nd F IH]; [reflexivity|]. rewrite tidy_cons, called_cons. destruct (tidy_case nd) as [[Q N]|[nd' [Q N]]]; rewrite Q.
  - rewrite (N f). cbn [app]. exact IH.
  - cbn [app]. rewrite called_cons, (N f), IH. destruct (named f nd); [|reflexivity]. now rewrite tidy_cons, Q.
Qed.
Lemma tidy_elems : forall f F, len (tidy (called f F)) = len (called f F).
Proof.
  intros f. induction F as [|nd F IH]; [reflexivity|]. rewrite called_cons. destruct (named f nd) eqn:N; [|exact IH]. rewrite tidy_cons, app_length, IH.
  destruct nd as [n a s k| |]; try discriminate. reflexivity.
Qed.
Lemma called_tidy_len : forall f F, len (called f (tidy F)) = len (called f F).
Proof. intros. now rewrite called_tidy, tidy_elems. Qed.
Lemma called_tidy_nil : forall f F, called f F = [] <-> called f (tidy F) = [].
Proof. intros f F. pose proof (called_tidy_len f F) as L. split; intros H; rewrite H in L; [destruct (called f (tidy F))|destruct (called f F)]; auto; discriminate. Qed.
Lemma divide_none : forall f F, called f F = [] -> divide f F = (F, []).
Proof. intros f [|nd F] H; [reflexivity|]. rewrite called_cons in H. cbn [divide]. destruct (named f nd); [discriminate|]. now rewrite H. Qed.
Lemma divide_tidy : forall f F, fst (divide f (tidy F)) = tidy (fst (divide f F)) /\ snd (divide f (tidy F)) = tidy (snd (divide f F)).
Proof.
  intros f. induction F as [|nd F [IH1 IH2]]; [auto|]. rewrite tidy_cons. cbn [divide]. pose proof (called_tidy_nil f F) as CN.
  destruct (called f F) as [|y l] eqn:Q.
  - assert (Q2 : called f (tidy F) = []) by now apply CN. destruct (tidy_case nd) as [[T N]|[nd' [T N]]]; rewrite T.
    + rewrite (N f). cbn [app fst snd]. rewrite (divide_none f _ Q2). cbn [fst snd]. now rewrite tidy_cons, T.
    + cbn [app divide]. rewrite Q2, (N f). destruct (named f nd); cbn [fst snd]; rewrite ?tidy_cons, ?T; auto.
  - assert (Q2 : called f (tidy F) <> []) by (intros K; apply CN in K; discriminate). destruct (tidy_case nd) as [[T N]|[nd' [T N]]]; rewrite T; cbn [app fst snd]; rewrite tidy_cons, T; cbn [app].
    + auto.
    + cbn [divide]. destruct (called f (tidy F)); [contradiction|]. cbn [fst snd]. now rewrite IH1, IH2.
Qed.

Lemma tidy_node_idem : forall nd, tidy (tidy_node nd) = tidy_node nd.
Proof.
  induction nd as [n a s k IHk|t|b] using node_ind'; [|cbn [tidy_node]; destruct (forallb _ t) eqn:Q; [reflexivity|unfold tidy; cbn [flat_map tidy_node]; now rewrite Q]|reflexivity].
  cbn [tidy_node]. unfold tidy at 1. cbn [flat_map tidy_node app]. do 2 f_equal. induction IHk as [|x k H1 H2 IH2]; [reflexivity|]. cbn [flat_map]. rewrite flat_map_app, IH2. f_equal. exact H1.
Qed.
Lemma tidy_idem : forall F, tidy (tidy F) = tidy F.
Proof. induction F as [|nd F IH]; [reflexivity|]. now rewrite tidy_cons, tidy_app, IH, tidy_node_idem. Qed.

Definition onto (nd : node) : node := match nd with Elem n a s k => Elem n a s (tidy k) | _ => nd end.
Lemma tidy_kept : forall f nd, named f nd = true -> tidy_node nd = [onto nd].
Proof. intros f [n a s k| |] H; try discriminate. reflexivity. Qed.
Lemma edit_tidy : forall f g g', (forall nd, is_elem nd = true -> option_map tidy (g nd) = option_map tidy (g' (onto nd))) ->
  forall F i, option_map tidy (edit_nth f i g F) = option_map tidy (edit_nth f i g' (tidy F)).
Proof.
  intros f g g' HG. induction F as [|nd F IH]; intros i; [reflexivity|]. rewrite tidy_cons. cbn [edit_nth].
  assert (ST : forall nd', tidy_node nd = [nd'] -> option_map tidy (option_map (cons nd) (edit_nth f i g F)) = option_map tidy (option_map (cons nd') (edit_nth f i g' (tidy F)))).
  { intros nd' T. specialize (IH i). destruct (edit_nth f i g F) as [l|], (edit_nth f i g' (tidy F)) as [l'|]; cbn [option_map] in *; try discriminate; auto. injection IH as IH.
    pose proof (tidy_node_idem nd) as TI. rewrite T in TI. change (nd' :: l') with ([nd'] ++ l'). now rewrite tidy_cons, tidy_app, T, TI, IH. }
  destruct (named f nd) eqn:N.
  - rewrite (tidy_kept f nd N). cbn [app edit_nth]. assert (N2 : named f (onto nd) = true) by (destruct nd; auto). rewrite N2.
    assert (EL : is_elem nd = true) by (destruct nd; auto). destruct i.
    + specialize (HG nd EL). destruct (g nd) as [l|], (g' (onto nd)) as [l'|]; cbn [option_map] in *; try discriminate; auto. injection HG as HG.
      now rewrite !tidy_app, HG, tidy_idem.
    + specialize (IH i). pose proof (tidy_kept f nd N) as T. destruct (edit_nth f i g F) as [l|], (edit_nth f i g' (tidy F)) as [l'|]; cbn [option_map] in *; try discriminate; auto. injection IH as IH.
      pose proof (tidy_node_idem nd) as TI. rewrite T in TI. change (onto nd :: l') with ([onto nd] ++ l'). now rewrite tidy_cons, tidy_app, T, TI, IH.
  - destruct (tidy_case nd) as [[T N']|[nd' [T N']]]; rewrite T; cbn [app edit_nth].
    + rewrite <- IH. destruct (edit_nth f i g F); cbn [option_map]; auto. now rewrite tidy_cons, T.
    + rewrite (N' f), N. now apply ST.
Qed.
Lemma alter_tidy : forall e g g' miss miss', (forall nd, is_elem nd = true -> option_map tidy (g nd) = option_map tidy (g' (onto nd))) -> (forall s, option_map tidy (miss s) = option_map tidy (miss' s)) ->
  forall steps F, option_map tidy (alter e g miss steps F) = option_map tidy (alter e g' miss' steps (tidy F)).
Proof.
  intros e g g' miss miss' HG HM. induction steps as [|[n idx] rest IH]; intros F; [reflexivity|]. cbn [alter]. pose proof (called_tidy_len (finds e n) F) as L.
  destruct (nth_error (called (finds e n) F) (index_of idx)) eqn:Q1, (nth_error (called (finds e n) (tidy F)) (index_of idx)) eqn:Q2.
  - apply edit_tidy. intros nd EL. destruct rest as [|s rest]; [now apply HG|]. destruct nd as [m a self kids| |]; try discriminate. cbn [onto]. specialize (IH kids).
    destruct (alter e g miss (s :: rest) kids) as [l|], (alter e g' miss' (s :: rest) (tidy kids)) as [l'|]; cbn [option_map] in *; try discriminate; auto. injection IH as IH.
    unfold tidy in *. cbn [flat_map tidy_node app]. now rewrite IH.
  - apply nth_error_None in Q2. assert (K : nth_error (called (finds e n) F) (index_of idx) <> None) by congruence. apply nth_error_Some in K. lia.
  - apply nth_error_None in Q1. assert (K : nth_error (called (finds e n) (tidy F)) (index_of idx) <> None) by congruence. apply nth_error_Some in K. lia.
  - match goal with |- option_map _ (option_map _ ?u) = option_map _ (option_map _ ?w) => assert (HM2 : option_map tidy u = option_map tidy w) by apply HM; destruct u as [l|], w as [l'|] end; cbn [option_map] in *; try discriminate; auto.
    injection HM2 as HM2. now rewrite !tidy_app, HM2, tidy_idem.
Qed.
Lemma apply_tidy : forall e ind o F, blanks ind -> option_map tidy (apply_under e ind o F) = option_map tidy (apply_under e [] o (tidy F)).
Proof.
  intros e ind o F BI.
  assert (NW : forall a K s, option_map tidy (new_under e ind a K s) = option_map tidy (new_under e [] a K s)).
  { intros a K s. unfold new_under. destruct (names_only s); [|reflexivity]. cbn [option_map]. f_equal. unfold new_chain. now apply lines_tidy. }
  assert (EL : forall n a s k k', tidy k = tidy k' -> tidy [Elem n a s k] = tidy [Elem n a s k']) by (intros n a s k k' H; unfold tidy in *; cbn [flat_map tidy_node app]; now rewrite H).
  destruct o as [steps [v| | |]|steps x v|steps|steps x|[|s0 steps] m [v| | |]]; cbn [apply_under]; try reflexivity.
  - apply alter_tidy; auto. intros nd _. destruct nd as [n a [|] k| |]; reflexivity.
  - apply alter_tidy; auto. intros nd _. destruct nd as [n a s k| |]; try reflexivity. cbn [attr_under onto]. destruct (_ <=? _); [|reflexivity]. cbn [option_map]. f_equal. apply EL. now rewrite tidy_idem.
  - pose proof (alter_tidy e (fun _ => Some []) (fun _ => Some []) nothing nothing (fun _ _ => eq_refl) (fun _ => eq_refl) steps F) as A.
    destruct (alter _ _ _ steps F), (alter _ _ _ steps (tidy F)); cbn [option_map] in *; try discriminate; auto. now rewrite tidy_idem.
  - pose proof (alter_tidy e (without_under e x) (without_under e x) nothing nothing) as A. specialize (fun H => A H (fun _ => eq_refl) steps F).
    assert (H : forall nd, is_elem nd = true -> option_map tidy (without_under e x nd) = option_map tidy (without_under e x (onto nd))).
    { intros nd _. destruct nd as [n a s k| |]; try reflexivity. cbn [without_under onto option_map]. f_equal. apply EL. now rewrite tidy_idem. }
    specialize (A H). destruct (alter _ _ _ steps F), (alter _ _ _ steps (tidy F)); cbn [option_map] in *; try discriminate; auto. now rewrite tidy_idem.
  - cbn [option_map]. f_equal. destruct (divide_tidy (finds e m) F) as [D1 D2]. now rewrite D1, D2, !tidy_app, !tidy_idem.
  - apply alter_tidy; auto. intros nd _. destruct nd as [n a s k| |]; try reflexivity. cbn [more_under onto option_map]. f_equal. apply EL.
    destruct (divide_tidy (finds e m) k) as [D1 D2]. rewrite D1, D2, !tidy_app, !tidy_idem. f_equal.
    assert (LA : forall K j i, blanks j -> tidy (line_after K j i) = []) by (intros K j i H; unfold line_after; destruct (forest_text K); [reflexivity|now apply line_tidy]).
    now rewrite !LA by (auto; constructor).
Qed.
(** ** Default options *)
Lemma lines_nest : forall names i a K n, nest_lines [] i (names ++ [n]) a K = nest names [Elem n a false K].
Proof. induction names as [|m names IH]; intros i a K n; [reflexivity|]. cbn [app nest_lines new_line nest]. rewrite IH. destruct (names ++ [n]) eqn:Q; [destruct names; discriminate|reflexivity]. Qed.
Lemma alter_change : forall g miss miss', (forall s, s <> [] -> miss s = miss' s) -> forall g', (forall nd, good nd -> g nd = g' nd) ->
  forall steps F, Forall good F -> alter true g miss steps F = change g' miss' steps F.
Proof.
  intros g miss miss' HM g' HG. assert (EN : forall f h h', (forall nd, good nd -> h nd = h' nd) -> forall F i, Forall good F -> edit_nth f i h F = edit_nth f i h' F).
  { intros f h h' Hh. induction F as [|nd F IH]; intros i G; [reflexivity|]. inversion G; subst. cbn [edit_nth]. rewrite !IH by auto. destruct (named f nd); auto. destruct i; [now rewrite (Hh nd)|]. now rewrite IH. }
  induction steps as [|[n idx] rest IH]; intros F G; [reflexivity|]. cbn [alter change]. change (finds true n) with (selects n). destruct (nth_error _ _).
  - apply EN; auto. intros nd Gn. destruct rest as [|s rest]; [auto|]. destruct nd as [m a self kids| |]; auto. inversion Gn; subst. now rewrite IH.
  - now rewrite HM by discriminate.
Qed.
Lemma puts_put : forall x v a, NoDup (map fst a) -> put_attrs true x v a = put_attr x v a.
Proof.
  intros x v. assert (SY : forall n, bytes_eqb n x = bytes_eqb x n) by (intros n; apply bytes_eqb_sym).
  induction a as [|[n w] a IH]; intros N; [reflexivity|]. inversion N as [|? ? N1 N2]; subst. unfold put_attrs in *. cbn [existsb fst put_attr map]. unfold attr_is at 1 3. rewrite SY.
  destruct (bytes_eqb x n) eqn:Q; cbn [orb].
  - f_equal. apply bytes_eqb_eq in Q. subst n. clear IH N N2. induction a as [|[m u] a IH]; [reflexivity|]. cbn [map fst]. unfold attr_is at 1. destruct (bytes_eqb m x) eqn:Q.
    + apply bytes_eqb_eq in Q. subst m. exfalso. apply N1. now left.
    + f_equal. apply IH. intros K. apply N1. now right.
  - rewrite <- IH by auto. destruct (existsb _ a); reflexivity.
Qed.
Lemma divide_insert : forall f c F, fst (divide f F) ++ [c] ++ snd (divide f F) = insert_last f c F.
Proof.
  intros f c. induction F as [|nd F IH]; [reflexivity|]. cbn [divide insert_last]. destruct (called f F) eqn:Q; [destruct (named f nd) eqn:N|]; cbn [fst snd app] in *; [reflexivity| |now rewrite IH].
  f_equal. rewrite (divide_none f F Q) in IH. cbn [fst snd app] in IH. exact IH.
Qed.
Lemma lines_flat : forall names i a K, nest_lines [] i names a K = match names with [] => K | _ :: _ => nest (removelast names) [Elem (last names []) a false K] end.
Proof.
  intros names i a K. destruct names as [|n names]; [reflexivity|].
  replace (n :: names) with (removelast (n :: names) ++ [last (n :: names) []]) at 1 by (symmetry; now apply app_removelast_last). apply lines_nest.
Qed.
Lemma nest_app : forall l l' K, nest (l ++ l') K = nest l (nest l' K).
Proof. induction l as [|n l IH]; intros l' K; [reflexivity|]. cbn [app nest]. now rewrite IH. Qed.
Lemma apply_plain : forall e F, Forall good F -> (forall steps c, e = SetContent steps c \/ (exists m, e = Append steps m c) -> exists v, c = AsText v) ->
  apply_under true [] e F = apply_edit e F.
Proof.
  intros e F G TX. 
  assert (NM : forall s names, s <> [] -> names_only s = Some names -> names <> []).
  { intros s names NE Q. destruct s as [|[n idx] s]; [now destruct NE|]. destruct idx; cbn [names_only] in Q; [discriminate Q|]. destruct (names_only s); [|discriminate Q]. cbn [option_map] in Q. intros ->. discriminate Q. }
  assert (SP : forall l : list bytes, map (spelled true) l = l) by (intros l; apply map_id).
  destruct e as [steps c|steps x v|steps|steps x|steps m c].
  - destruct (TX steps c (or_introl eq_refl)) as [v ->]. cbn [apply_under apply_edit content_nodes]. apply alter_change; auto.
    intros s NE. unfold new_under, new_kids. destruct (names_only s) as [names|] eqn:Q; [|reflexivity]. cbn [option_map]. f_equal. unfold new_chain. rewrite SP, lines_flat.
    pose proof (NM s names NE Q) as NN. destruct names as [|n names]; [congruence|].
    replace (nest (n :: names) [Text (esc v)]) with (nest (removelast (n :: names) ++ [last (n :: names) []]) [Text (esc v)]) by (f_equal; symmetry; now apply app_removelast_last).
    now rewrite nest_app.
  - cbn [apply_under apply_edit]. apply alter_change; auto.
    + intros s NE. unfold new_under, new_attr. destruct (names_only s) as [names|] eqn:Q; [|reflexivity]. cbn [option_map]. f_equal. unfold new_chain. rewrite SP, lines_flat.
      pose proof (NM s names NE Q) as NN. destruct names as [|n names]; [congruence|]. reflexivity.
    + intros nd Gn. destruct nd as [n a s k| |]; auto. inversion Gn as [? ? ? ? _ GA _ _| |]; subst. cbn [attr_under attr_of]. now rewrite puts_put by apply GA.
  - cbn [apply_under apply_edit]. now rewrite (alter_change (fun _ => Some []) nothing nothing (fun _ _ => eq_refl) (fun _ => Some []) (fun _ _ => eq_refl)).
  - cbn [apply_under apply_edit]. now rewrite (alter_change (without_under true x) nothing nothing (fun _ _ => eq_refl) (without_attr x) (fun _ _ => eq_refl)).
  - destruct (TX steps c (or_intror (ex_intro _ m eq_refl))) as [v ->]. destruct steps as [|s steps]; cbn [apply_under apply_edit content_nodes].
    + f_equal. apply (divide_insert (selects m)).
    + apply alter_change; auto. intros nd _. destruct nd as [n a self kids| |]; auto. cbn [more_under more_kids]. do 3 f_equal. rewrite <- (divide_insert (selects m)). f_equal.
      unfold line_after. destruct (forest_text _); reflexivity.
Qed.
(** ** Answers that do not depend on white space *)
Definition structural (fin : final) : Prop := match fin with TheAttribute _ | TheCount => True | _ => False end.
Lemma called_onto : forall f F, called f (tidy F) = map onto (called f F).
Proof.
  intros f F. rewrite called_tidy. induction F as [|nd F IH]; [reflexivity|]. rewrite called_cons. destruct (named f nd) eqn:N; [|exact IH].
  rewrite tidy_cons, (tidy_kept f nd N), IH. reflexivity.
Qed.
Lemma called_elem : forall f F nd, In nd (called f F) -> is_elem nd = true.
Proof. intros f F nd H. apply filter_In in H. destruct nd; [reflexivity|destruct H; discriminate..]. Qed.
Lemma firstn_in : forall (A : Type) n (l : list A) x, In x (firstn n l) -> In x l.
Proof. induction n as [|n IH]; intros [|y l] x H; try destruct H; [now left|right; auto]. Qed.
Lemma query_tidy : forall fin, structural fin -> forall steps top F, query top steps fin (tidy F) = query top steps fin F.
Proof.
  intros fin HF. induction steps as [|[n idx] rest IH]; intros top F; [destruct fin; try destruct HF; reflexivity|]. rewrite !query_cons. cbv zeta.
  assert (AE : forall nd, is_elem nd = true -> (if is_last rest fin then final_answer fin (onto nd) else query false rest fin (kids_of (onto nd))) =
    (if is_last rest fin then final_answer fin nd else query false rest fin (kids_of nd))).
  { intros [m a s k| |] EL; try discriminate. cbn [onto kids_of]. rewrite IH. destruct fin; try destruct HF; reflexivity. }
  destruct idx as [ds|].
  - rewrite called_onto, firstn_map, nth_error_map. destruct (nth_error _ _) as [nd|] eqn:Q; [|reflexivity]. cbn [option_map]. apply AE.
    apply nth_error_In, firstn_in in Q. eapply called_elem; eauto.
  - destruct fin; try destruct HF.
    + destruct rest as [|st rest]; cbn [is_last] in *.
      * rewrite called_onto. destruct (called (selects n) F) as [|nd l] eqn:Q; [reflexivity|]. cbn [map]. destruct nd; reflexivity.
      * rewrite called_onto. assert (AL : forall nd, In nd (called (selects n) F) -> is_elem nd = true) by (intros; eapply called_elem; eauto).
        induction (called (selects n) F) as [|nd l IHl]; [reflexivity|]. cbn [map first_answer]. rewrite (AE nd) by (apply AL; now left). now rewrite IHl by (intros; apply AL; now right).
    + destruct rest as [|st rest]; cbn [is_last] in *.
      * now rewrite called_onto, firstn_map, map_length.
      * rewrite called_onto. assert (AL : forall nd, In nd (called (selects n) F) -> is_elem nd = true) by (intros; eapply called_elem; eauto).
        induction (called (selects n) F) as [|nd l IHl]; [reflexivity|]. cbn [map first_answer]. rewrite (AE nd) by (apply AL; now left). now rewrite IHl by (intros; apply AL; now right).
Qed.
Lemma session_tidy : forall p p' ops ops' F1 F1', session p ops F1 F1' -> Forall2 (fun x y => o_case (fst x) = o_case (fst y) /\ snd x = snd y) ops ops' ->
  forall F2 F2', session p' ops' F2 F2' -> tidy F1 = tidy F2 -> tidy F1' = tidy F2'.
Proof.
  intros p p' ops ops' F1 F1' H. revert ops'. induction H as [F|o e rest F F1 F2 BI LG AP RM H IH]; intros ops' FA G G' H2 T.
  - inversion FA; subst. inversion H2; subst. exact T.
  - inversion FA as [|? [o' e'] ? rest' [C1 C2] FA2]; subst. cbn [fst snd] in *. subst e'. inversion H2 as [|? ? ? ? G1 ? BI' LG' AP' RM' H3]; subst.
    eapply IH; [exact FA2|exact H3|]. pose proof (apply_tidy (o_case o) (o_indent o) e F BI) as A1. pose proof (apply_tidy (o_case o') (o_indent o') e G BI') as A2.
    rewrite AP in A1. rewrite AP' in A2. rewrite <- T, <- C1, <- A1 in A2. cbn [option_map] in A2. now injection A2 as A2.
Qed.
