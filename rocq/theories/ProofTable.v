(** Tables kept in a document. *)
From Coq Require Import List Ascii String NArith ZArith Bool Lia Permutation.
From Verif Require Import GoStr ModelParser ModelPath ModelResult ModelQuery ModelValidate ModelBuilder SpecText SpecPath SpecTree SpecQuery SpecEdit SpecContent SpecValid SpecFilter SpecLang SpecHistory SpecTable
  ProofBase ProofEscape ProofScan ProofTree ProofTree2 ProofTree4 ProofTree5 ProofEdit ProofEdit2 ProofEdit4 ProofEdit5 ProofEdit6 ProofEdit7 ProofEdit8 ProofEdit9 ProofEdit11 ProofLang2 ProofLang3 ProofLang4 ProofList.
Import ListNotations.
Notation called_cons := ProofEdit2.called_cons.

(** ** One row *)
Lemma selects_plain : forall f g, split_colon f = None -> split_colon g = None -> selects f g = bytes_eqb g f.
Proof. intros f g F G. unfold selects. now rewrite F, G, orb_false_r. Qed.
Lemma eqb_sym : forall a b, bytes_eqb a b = bytes_eqb b a.
Proof. intros a b. destruct (bytes_eqb a b) eqn:Q; symmetry; [apply bytes_eqb_eq in Q; subst; apply bytes_eqb_refl|]. apply bytes_eqb_neq in Q. apply bytes_eqb_neq. congruence. Qed.
Lemma cells_called : forall f r, split_colon f = None -> Forall (fun f => split_colon f = None) (map fst r) ->
  called (selects f) (map cell_node r) = map cell_node (filter (fun c => bytes_eqb f (fst c)) r).
Proof.
  intros f. induction r as [|[g v] r IH]; intros F G; [reflexivity|]. cbn [map fst] in G. inversion G as [|? ? G1 G2]; subst. cbn [map filter fst]. rewrite called_cons. cbn [cell_node fst named].
  rewrite (selects_plain f g F G1), eqb_sym, IH by auto. now destruct (bytes_eqb f g).
Qed.
Lemma first_cell : forall f r, split_colon f = None -> good_row r ->
  nth_error (called (selects f) (map cell_node r)) 0 = option_map (fun v => cell_node (f, v)) (attr_value f r).
Proof.
  intros f r F [_ G]. rewrite cells_called by auto. clear G. induction r as [|[g v] r IH]; [reflexivity|]. cbn [filter fst attr_value]. destruct (bytes_eqb f g) eqn:Q; auto.
  apply bytes_eqb_eq in Q. now subst g.
Qed.
Lemma put_same : forall f v r, split_colon f = None -> Forall (fun f => split_colon f = None) (map fst r) -> attr_value f r <> None ->
  edit_nth (selects f) 0 (with_kids [Text (esc v)]) (map cell_node r) = Some (map cell_node (put_attr f v r)).
Proof.
  intros f v. induction r as [|[g w] r IH]; intros F G N; [now elim N|]. cbn [map fst] in G. inversion G as [|? ? G1 G2]; subst. cbn [attr_value] in N. cbn [map put_attr edit_nth]. cbn [cell_node fst snd named].
  rewrite (selects_plain f g F G1), eqb_sym. destruct (bytes_eqb f g) eqn:Q.
  - reflexivity.
  - now rewrite IH.
Qed.
Lemma put_new : forall f v r, attr_value f r = None -> put_attr f v r = r ++ [(f, v)].
Proof. intros f v. induction r as [|[g w] r IH]; intros N; [reflexivity|]. cbn [attr_value put_attr] in *. destruct (bytes_eqb f g); [discriminate|]. cbn [app]. now rewrite IH. Qed.
Lemma row_put : forall f v r, split_colon f = None -> good_row r ->
  change (with_kids [Text (esc v)]) (new_kids [Text (esc v)]) ([(f, None)] : list tstep) (map cell_node r) = Some (map cell_node (put_attr f v r)).
Proof.
  intros f v r F G. cbn [change index_of]. rewrite first_cell by auto. destruct (attr_value f r) as [w|] eqn:Q; cbn [option_map].
  - rewrite <- (put_same f v r); [reflexivity|auto|apply G|congruence].
  - unfold new_kids. cbn [names_only option_map nest]. rewrite (put_new f v r Q), map_app. reflexivity.
Qed.
Lemma drop_absent : forall f r, ~ In f (map fst r) -> drop_attr f r = r.
Proof.
  intros f. induction r as [|[g w] r IH]; intros N; [reflexivity|]. cbn [map fst In] in N. unfold drop_attr in *. cbn [filter fst]. destruct (bytes_eqb g f) eqn:Q.
  - apply bytes_eqb_eq in Q. subst. elim N. now left.
  - cbn [negb]. rewrite IH; auto.
Qed.
Lemma attr_none : forall f r, attr_value f r = None <-> ~ In f (map fst r).
Proof.
  intros f. induction r as [|[g w] r IH]; cbn [attr_value map fst In]; [tauto|]. destruct (bytes_eqb f g) eqn:Q.
  - apply bytes_eqb_eq in Q. subst. split; [discriminate|]. intros N. elim N. now left.
  - apply bytes_eqb_neq in Q. rewrite IH. split; [intros N [X|X]; [congruence|auto]|tauto].
Qed.
Lemma drop_same : forall f r, split_colon f = None -> good_row r -> attr_value f r <> None ->
  edit_nth (selects f) 0 (fun _ => Some []) (map cell_node r) = Some (map cell_node (drop_attr f r)).
Proof.
  intros f. induction r as [|[g w] r IH]; intros F [ND G] N; [now elim N|]. cbn [map fst] in G, ND. inversion G as [|? ? G1 G2]; subst. inversion ND as [|? ? N1 N2]; subst.
  cbn [attr_value] in N. cbn [map edit_nth]. cbn [cell_node fst snd named]. rewrite (selects_plain f g F G1). unfold drop_attr. cbn [filter fst]. rewrite eqb_sym in N. destruct (bytes_eqb g f) eqn:Q.
  - apply bytes_eqb_eq in Q. subst g. cbn [negb option_map app]. change (filter _ r) with (drop_attr f r). now rewrite drop_absent.
  - cbn [negb map]. change (filter _ r) with (drop_attr f r). rewrite IH; auto. split; auto.
Qed.
Lemma row_drop : forall f r, split_colon f = None -> good_row r ->
  (attr_value f r <> None -> change (fun _ => Some []) nothing ([(f, None)] : list tstep) (map cell_node r) = Some (map cell_node (drop_attr f r))) /\
  (attr_value f r = None -> change (fun _ => Some []) nothing ([(f, None)] : list tstep) (map cell_node r) = None /\ drop_attr f r = r).
Proof.
  intros f r F G. cbn [change index_of]. rewrite first_cell by auto. split; intros Q.
  - destruct (attr_value f r) eqn:Q'; [|easy]. cbn [option_map]. rewrite <- drop_same; auto; [congruence].
  - rewrite Q. cbn [option_map]. split; [reflexivity|]. apply drop_absent. now apply attr_none.
Qed.
Lemma put_names : forall f v r, map fst (put_attr f v r) = if existsb (bytes_eqb f) (map fst r) then map fst r else map fst r ++ [f].
Proof.
  intros f v. induction r as [|[g w] r IH]; [reflexivity|]. cbn [put_attr map fst existsb]. destruct (bytes_eqb f g); [reflexivity|]. cbn [map fst orb]. rewrite IH. now destruct (existsb (bytes_eqb f) (map fst r)).
Qed.
Lemma put_row : forall f v r, split_colon f = None -> good_row r -> good_row (put_attr f v r).
Proof.
  intros f v r F [ND G]. unfold good_row. rewrite put_names. destruct (existsb (bytes_eqb f) (map fst r)) eqn:Q; [split; auto|]. split.
  - apply NoDup_rev in ND. rewrite <- (rev_involutive (map fst r ++ [f])). apply NoDup_rev. rewrite rev_app_distr. cbn [rev app]. constructor; auto. rewrite <- in_rev. intros I.
    assert (K : existsb (bytes_eqb f) (map fst r) = true) by (apply existsb_exists; exists f; split; auto; apply bytes_eqb_refl). congruence.
  - apply Forall_app. auto.
Qed.
Lemma drop_row : forall f r, good_row r -> good_row (drop_attr f r).
Proof.
  intros f r. unfold good_row, drop_attr. induction r as [|[g w] r IH]; intros [ND G]; [split; constructor|]. cbn [map fst] in *. inversion ND; subst. inversion G; subst.
  destruct IH as [I1 I2]; [auto|]. cbn [filter fst]. destruct (negb (bytes_eqb g f)); [|auto]. cbn [map fst]. split; constructor; auto.
  intros I. match goal with H : ~ In g _ |- _ => apply H end. apply in_map_iff in I. destruct I as (c & Q & I). apply filter_In in I. apply in_map_iff. exists c. tauto.
Qed.

(** ** The rows *)
Lemma row_named : forall m r, named (selects m) (row_node m r) = true.
Proof. intros. cbn [row_node named]. apply selects_self. Qed.
Lemma rows_split : forall m T K1 x K2 L1 L2, called (selects m) (K1 ++ x :: K2) = map (row_node m) T -> named (selects m) x = true ->
  called (selects m) K1 = L1 -> called (selects m) K2 = L2 ->
  exists T1 r T2, T = T1 ++ r :: T2 /\ L1 = map (row_node m) T1 /\ x = row_node m r /\ L2 = map (row_node m) T2.
Proof.
  intros m T K1 x K2 L1 L2 H N <- <-. rewrite called_app, called_cons, N in H. symmetry in H. apply map_eq_app in H. destruct H as (T1 & T0 & -> & <- & H).
  apply map_eq_cons in H. destruct H as (r & T2 & -> & H1 & H2). exists T1, r, T2. auto.
Qed.
Lemma upd_split : forall g T1 r T2, upd (len T1) g (T1 ++ r :: T2) = Some (T1 ++ g r :: T2).
Proof. intros g. induction T1 as [|x T1 IH]; intros r T2; [reflexivity|]. cbn [List.length app upd]. now rewrite IH. Qed.
Lemma upd_none : forall g T i, len T <= i -> upd i g T = None.
Proof. intros g. induction T as [|r T IH]; intros [|i] H; cbn [List.length upd] in *; try lia; auto. rewrite IH; [reflexivity|lia]. Qed.
Lemma split_drop : forall (T1 : table) r T2, firstn (len T1) (T1 ++ r :: T2) ++ skipn (S (len T1)) (T1 ++ r :: T2) = T1 ++ T2.
Proof.
  intros. rewrite firstn_app, Nat.sub_diag, firstn_all. cbn [firstn]. rewrite app_nil_r. f_equal.
  rewrite skipn_app. replace (S (len T1) - len T1) with 1 by lia. rewrite skipn_all2 by lia. reflexivity.
Qed.
Lemma drop_far : forall (T : table) i, len T <= i -> firstn i T ++ skipn (S i) T = T.
Proof. intros. rewrite firstn_all2, skipn_all2 by lia. apply app_nil_r. Qed.
Lemma change_row : forall m i g h kids kids' T, called (selects m) kids = map (row_node m) T ->
  edit_nth (selects m) i g kids = Some kids' -> (forall r l, In r T -> g (row_node m r) = Some l -> l = [row_node m (h r)]) ->
  exists T', upd i h T = Some T' /\ called (selects m) kids' = map (row_node m) T'.
Proof.
  intros m i g h kids kids' T H ED GH. apply edit_nth_split in ED. destruct ED as (K1 & x & K2 & l & -> & N & L & GX & ->).
  destruct (rows_split m T K1 x K2 _ _ H N eq_refl eq_refl) as (T1 & r & T2 & -> & E1 & -> & E2).
  rewrite (GH r l) by (auto; apply in_or_app; right; now left). assert (LT : i = len T1) by (rewrite <- L, E1, map_length; reflexivity). subst i. rewrite E1, map_length.
  exists (T1 ++ h r :: T2). split; [apply upd_split|]. cbn [app]. rewrite called_app, called_cons, row_named, E1, E2, map_app. reflexivity.
Qed.

(** ** Reaching the table *)
Lemma change_more : forall g miss n idx (s : tstep) (t : list tstep) F, change g miss (@cons tstep (n, idx) (@cons tstep s t)) F =
  match nth_error (called (selects n) F) (index_of idx) with
  | None => option_map (fun l => F ++ l) (miss ((n, idx) :: s :: t))
  | Some _ => edit_nth (selects n) (index_of idx) (fun nd => match nd with Elem m a _ kids => option_map (fun kids' => [Elem m a false kids']) (change g miss (@cons tstep s t) kids) | _ => None end) F
  end.
Proof. reflexivity. Qed.
Lemma sole_edit : forall n F x g F', called (selects n) F = [x] -> edit_nth (selects n) 0 g F = Some F' ->
  exists l, g x = Some l /\ (forall y, l = [y] -> named (selects n) y = true -> called (selects n) F' = [y]).
Proof.
  intros n F x g F' C ED. apply edit_nth_split in ED. destruct ED as (F1 & y & F2 & l & -> & N & L & GY & ->). rewrite called_app, called_cons, N in C.
  destruct (called (selects n) F1) as [|z Z] eqn:Q1; [|discriminate]. cbn [app] in C. injection C as -> Q2. exists l. split; auto. intros z -> NZ. cbn [app]. now rewrite called_app, Q1, called_cons, NZ, Q2.
Qed.
Lemma called_named : forall f F x l, called f F = x :: l -> named f x = true.
Proof. intros f F x l H. assert (I : In x (called f F)) by (rewrite H; now left). unfold called in I. apply filter_In in I. destruct I as [_ I]. exact I. Qed.
Lemma sole_change : forall names F nd, sole names F nd -> forall n a kids, nd = Elem n a false kids -> forall g miss t F', t <> [] -> change g miss (by_name names ++ t) F = Some F' ->
  exists kids', change g miss t kids = Some kids' /\ sole names F' (Elem n a false kids').
Proof.
  induction 1 as [n0 F nd C|n0 rest F m0 a0 kids0 nd C SO IH]; intros n a kids -> g miss t F' NT CH; cbn [by_name map app] in CH.
  - destruct t as [|s t]; [easy|]. cbn [app] in CH. rewrite change_more in CH. cbn [index_of] in CH. rewrite C in CH. cbn [nth_error] in CH. apply (sole_edit _ _ _ _ _ C) in CH. destruct CH as (l & GX & K). cbv beta iota in GX.
    destruct (change g miss (s :: t) kids) as [kids'|] eqn:Q; cbn [option_map] in GX; [|discriminate GX]. injection GX as <-. exists kids'. split; auto. constructor. apply K; auto. apply called_named in C. exact C.
  - assert (NR : by_name rest ++ t <> []) by (intros X; apply app_eq_nil in X; tauto). change ((n0, None) :: map (fun n => (n, None)) rest ++ t) with ((n0, None) :: (by_name rest ++ t)) in CH.
    destruct (by_name rest ++ t) as [|s0 t0] eqn:QR; [easy|].
    rewrite change_more in CH. cbn [index_of] in CH. rewrite C in CH. cbn [nth_error] in CH. apply (sole_edit _ _ _ _ _ C) in CH. destruct CH as (l & GX & K). cbv beta iota in GX.
    destruct (change g miss (s0 :: t0) kids0) as [k1|] eqn:Q; cbn [option_map] in GX; [|discriminate GX]. injection GX as <-.
    rewrite <- QR in Q. destruct (IH n a kids eq_refl g miss t k1 NT Q) as (kids' & C' & SO'). exists kids'. split; auto. econstructor; [|exact SO']. apply K; auto. apply called_named in C. exact C.
Qed.
Lemma sole_at : forall names F nd, sole names F nd -> forall g miss F', change g miss (by_name names) F = Some F' ->
  exists l, g nd = Some l /\ (forall y, l = [y] -> name_of y = name_of nd -> is_elem y = true -> sole names F' y).
Proof.
  induction 1 as [n0 F nd C|n0 rest F m0 a0 kids0 nd C SO IH]; intros g miss F' CH; cbn [by_name map] in CH.
  - cbn [change index_of] in CH. rewrite C in CH. cbn [nth_error] in CH. apply (sole_edit _ _ _ _ _ C) in CH. destruct CH as (l & GX & K). cbv beta iota in GX. exists l. split; auto. intros y -> NM EL. constructor. apply K; auto.
    apply called_named in C. destruct nd as [? ? ? ?| |]; try discriminate. destruct y as [? ? ? ?| |]; try discriminate. cbn in *. now subst.
  - change ((n0, None) :: map (fun n => (n, None)) rest) with ((n0, None) :: by_name rest) in CH. assert (NR : by_name rest <> []) by (destruct rest; [inversion SO|discriminate]).
    destruct (by_name rest) as [|s0 t0] eqn:QR; [easy|].
    rewrite change_more in CH. cbn [index_of] in CH. rewrite C in CH. cbn [nth_error] in CH. apply (sole_edit _ _ _ _ _ C) in CH. destruct CH as (l & GX & K). cbv beta iota in GX.
    destruct (change g miss (s0 :: t0) kids0) as [k1|] eqn:Q; cbn [option_map] in GX; [|discriminate GX]. injection GX as <-.
    destruct (IH g miss k1 Q) as (l' & GN & K'). exists l'. split; auto. intros y EY NM EL. econstructor; [|eapply K'; eauto]. apply K; auto. apply called_named in C. exact C.
Qed.

(** ** One operation *)
Lemma upd_good : forall g T, (forall r, good_row r -> good_row (g r)) -> Forall good_row T -> forall i T', upd i g T = Some T' -> Forall good_row T'.
Proof.
  intros g T GG. induction T as [|r T IH]; intros GT [|i] T' H; cbn [upd] in H; try discriminate; inversion GT; subst.
  - injection H as <-. constructor; auto.
  - destruct (upd i g T) as [T1|] eqn:Q; [|discriminate]. injection H as <-. constructor; eauto.
Qed.
Lemma rows_length : forall m kids T, called (selects m) kids = map (row_node m) T -> len (called (selects m) kids) = len T.
Proof. intros. now rewrite H, map_length. Qed.
Lemma nth_row : forall m kids T i, called (selects m) kids = map (row_node m) T -> nth_error (called (selects m) kids) i = option_map (row_node m) (nth_error T i).
Proof. intros m kids T i ->. apply nth_error_map. Qed.
Lemma step_put : forall m ds f v kids kids' T, split_colon f = None -> Forall good_row T -> called (selects m) kids = map (row_node m) T ->
  change (with_kids [Text (esc v)]) (new_kids [Text (esc v)]) [(m, Some ds); (f, None)] kids = Some kids' ->
  exists T', upd (index_of (Some ds)) (put_attr f v) T = Some T' /\ called (selects m) kids' = map (row_node m) T'.
Proof.
  intros m ds f v kids kids' T F GT H CH. rewrite change_more in CH. destruct (nth_error (called (selects m) kids) (index_of (Some ds))); [|discriminate].
  eapply change_row; eauto. intros r l I Q. cbn [row_node] in Q. rewrite row_put in Q; auto; [cbn [option_map] in Q; injection Q as <-; reflexivity|]. rewrite Forall_forall in GT. auto.
Qed.
Lemma step_drop_row : forall m ds kids T, called (selects m) kids = map (row_node m) T -> let i := index_of (Some ds) in
  match change (fun _ => Some []) nothing [(m, Some ds)] kids with
  | Some kids' => called (selects m) kids' = map (row_node m) (firstn i T ++ skipn (S i) T)
  | None => firstn i T ++ skipn (S i) T = T
  end.
Proof.
  intros m ds kids T H i. cbn [change]. fold i. rewrite (nth_row m kids T i H). destruct (nth_error T i) as [r|] eqn:NE; cbn [option_map].
  - destruct (edit_nth (selects m) i (fun _ => Some []) kids) as [kids'|] eqn:ED.
    + apply edit_nth_split in ED. destruct ED as (K1 & x & K2 & l & -> & N & L & GX & ->). injection GX as <-.
      destruct (rows_split m T K1 x K2 _ _ H N eq_refl eq_refl) as (T1 & r0 & T2 & -> & E1 & -> & E2). assert (LT : i = len T1) by (rewrite <- L, E1, map_length; reflexivity). rewrite LT, split_drop.
      cbn [app]. now rewrite called_app, E1, E2, map_app.
    + exfalso. apply nth_error_split in NE. destruct NE as (T1 & T2 & -> & LT). rewrite map_app in H. cbn [map] in H.
      assert (SP : exists K1 K2, kids = K1 ++ row_node m r :: K2 /\ called (selects m) K1 = map (row_node m) T1).
      { clear ED. revert T1 LT H. generalize i. clear i. induction kids as [|x kids IH]; intros i T1 LT H; [destruct T1; discriminate|]. rewrite called_cons in H. destruct (named (selects m) x) eqn:N.
        - destruct T1 as [|t T1]; cbn [map app] in H.
          + injection H as -> H. exists [], kids. auto.
          + injection H as -> H. destruct (IH (len T1) T1 eq_refl H) as (K1 & K2 & -> & E1). exists (row_node m t :: K1), K2. split; auto. rewrite called_cons, N, E1. reflexivity.
        - destruct (IH i T1 LT H) as (K1 & K2 & -> & E1). exists (x :: K1), K2. split; auto. rewrite called_cons, N. exact E1. }
      destruct SP as (K1 & K2 & -> & E1). assert (X : edit_nth (selects m) i (fun _ => Some []) (K1 ++ row_node m r :: K2) = Some (K1 ++ [] ++ K2)).
      { apply edit_nth_split. exists K1, (row_node m r), K2, []. repeat split; auto; [apply row_named|]. now rewrite E1, map_length. }
      congruence.
  - unfold nothing. cbn [option_map]. apply drop_far. now apply nth_error_None.
Qed.
Lemma step_drop_field : forall m ds f kids T, split_colon f = None -> Forall good_row T -> called (selects m) kids = map (row_node m) T -> let i := index_of (Some ds) in
  match change (fun _ => Some []) nothing [(m, Some ds); (f, None)] kids with
  | Some kids' => exists T', upd i (drop_attr f) T = Some T' /\ called (selects m) kids' = map (row_node m) T'
  | None => upd i (drop_attr f) T = None \/ upd i (drop_attr f) T = Some T
  end.
Proof.
  intros m ds f kids T F GT H i. rewrite change_more. fold i. rewrite (nth_row m kids T i H). destruct (nth_error T i) as [r|] eqn:NE; cbn [option_map].
  - match goal with |- match edit_nth ?a ?b ?c ?d with _ => _ end => destruct (edit_nth a b c d) as [kids'|] eqn:ED end.
    + eapply change_row; eauto. intros r0 l I Q. cbn [row_node] in Q. unfold tstep in Q. rewrite Forall_forall in GT. destruct (row_drop f r0 F (GT r0 I)) as [R1 R2].
      destruct (attr_value f r0) eqn:A; [|destruct (R2 eq_refl) as [R3 _]; rewrite R3 in Q; discriminate]. rewrite R1 in Q by discriminate. cbn [option_map] in Q. injection Q as <-. reflexivity.
    + right. apply nth_error_split in NE. destruct NE as (T1 & T2 & -> & LT). rewrite <- LT in *. rewrite upd_split. rewrite Forall_forall in GT. assert (GR : good_row r) by (apply GT, in_or_app; right; now left).
      destruct (row_drop f r F GR) as [R1 R2]. destruct (attr_value f r) as [w|] eqn:A; [|destruct (R2 eq_refl) as [_ ->]; reflexivity]. exfalso.
      rewrite map_app in H. cbn [map] in H. specialize (R1 ltac:(discriminate)).
      assert (SP : exists K1 K2, kids = K1 ++ row_node m r :: K2 /\ called (selects m) K1 = map (row_node m) T1).
      { clear - H. revert T1 H. induction kids as [|x kids IH]; intros T1 H; [destruct T1; discriminate|]. rewrite called_cons in H. destruct (named (selects m) x) eqn:N.
        - destruct T1 as [|t T1]; cbn [map app] in H.
          + injection H as -> H. exists [], kids. auto.
          + injection H as -> H. destruct (IH T1 H) as (K1 & K2 & -> & E1). exists (row_node m t :: K1), K2. split; auto. rewrite called_cons, N, E1. reflexivity.
        - destruct (IH T1 H) as (K1 & K2 & -> & E1). exists (x :: K1), K2. split; auto. rewrite called_cons, N. exact E1. }
      destruct SP as (K1 & K2 & -> & E1). match type of ED with edit_nth ?q1 ?q2 ?q3 ?q4 = _ => assert (X : edit_nth q1 q2 q3 q4 = Some (K1 ++ [Elem m [] false (map cell_node (drop_attr f r))] ++ K2)) end.
      { apply edit_nth_split. exists K1, (row_node m r), K2, [Elem m [] false (map cell_node (drop_attr f r))]. repeat split; auto; [apply row_named|now rewrite E1, map_length|].
        cbn [row_node]. unfold tstep. rewrite R1. reflexivity. }
      congruence.
  - unfold nothing. cbn [option_map]. left. apply upd_none. now apply nth_error_None.
Qed.
Lemma sole_change_none : forall names F n a kids g t, sole names F (Elem n a false kids) -> t <> [] -> change g nothing (by_name names ++ t) F = None -> change g nothing t kids = None.
Proof.
  intros names F n a kids g t SO. remember (Elem n a false kids) as nd eqn:ND. revert n a kids ND. induction SO as [n0 F nd C|n0 rest F m0 a0 kids0 nd C SO IH]; intros n a kids -> NT CH; cbn [by_name map app] in CH.
  - destruct t as [|s t]; [easy|]. cbn [app] in CH. rewrite change_more in CH. cbn [index_of] in CH. rewrite C in CH. cbn [nth_error] in CH.
    destruct (change g nothing (s :: t) kids) as [kids'|] eqn:Q; [|reflexivity]. exfalso.
    destruct (first_split n0 F) as (K1 & x & K2 & -> & E1 & N); [congruence|]. rewrite called_app, E1, called_cons, N in C. cbn [app] in C. injection C as -> C.
    match type of CH with edit_nth ?q1 ?q2 ?q3 ?q4 = _ => assert (X : edit_nth q1 q2 q3 q4 = Some (K1 ++ [Elem n a false kids'] ++ K2)) end; [|congruence].
    apply ProofEdit.edit_nth_split. exists K1, (Elem n a false kids), K2, [Elem n a false kids']. repeat split; auto; [now rewrite E1|]. rewrite Q. reflexivity.
  - assert (NR : by_name rest ++ t <> []) by (intros X; apply app_eq_nil in X; tauto). change ((n0, None) :: map (fun n => (n, None)) rest ++ t) with ((n0, None) :: (by_name rest ++ t)) in CH.
    apply (IH n a kids eq_refl NT). destruct (by_name rest ++ t) as [|s0 t0] eqn:QR; [easy|].
    rewrite change_more in CH. cbn [index_of] in CH. rewrite C in CH. cbn [nth_error] in CH.
    destruct (change g nothing (s0 :: t0) kids0) as [kids'|] eqn:Q; [|reflexivity]. exfalso.
    destruct (first_split n0 F) as (K1 & x & K2 & -> & E1 & N); [congruence|]. rewrite called_app, E1, called_cons, N in C. cbn [app] in C. injection C as -> C.
    match type of CH with edit_nth ?q1 ?q2 ?q3 ?q4 = _ => assert (X : edit_nth q1 q2 q3 q4 = Some (K1 ++ [Elem m0 a0 false kids'] ++ K2)) end; [|congruence].
    apply ProofEdit.edit_nth_split. exists K1, (Elem m0 a0 false kids0), K2, [Elem m0 a0 false kids']. repeat split; auto; [now rewrite E1|]. rewrite Q. reflexivity.
Qed.
Lemma table_step : forall names m o F F' T, good_op o -> keeps names m F T -> apply_edit (op_edit names m o) F = Some F' ->
  exists T', do_op o T = Some T' /\ keeps names m F' T'.
Proof.
  intros names m o F F' T GO [GT (n & a & kids & SO & CA)] AP. destruct o as [r|ds f v|ds|ds f]; cbn [op_edit] in AP.
  - cbn [do_op]. exists (T ++ [r]). split; auto. assert (NN : by_name names <> []) by (destruct names; [inversion SO|discriminate]).
    assert (CH : change (more_kids m (map cell_node r)) nothing (by_name names) F = Some F') by (destruct (by_name names); [easy|exact AP]). destruct (sole_at _ _ _ SO _ _ _ CH) as (l & GX & K). cbn [more_kids] in GX. injection GX as <-.
    split; [apply Forall_app; auto|]. exists n, a, (insert_last (selects m) (Elem m [] false (map cell_node r)) kids). split; [apply K; reflexivity|].
    destruct (up_exists m kids) as (K1 & K2 & U). rewrite (insert_up m kids K1 K2 _ U), called_app, (up_called m kids K1 K2 U), called_cons. cbn [named]. rewrite selects_self. destruct U as (_ & -> & _). rewrite CA, map_app. reflexivity.
  - cbn [good_op do_op] in *. cbn [apply_edit content_nodes] in AP. destruct (sole_change _ _ _ SO n a kids eq_refl _ _ [(m, Some ds); (f, None)] F' ltac:(discriminate) AP) as (kids' & CH & SO').
    destruct (step_put m ds f v kids kids' T GO GT CA CH) as (T' & U & CA'). exists T'. split; auto. split; [|exists n, a, kids'; auto]. eapply upd_good; [|exact GT|exact U]. intros. now apply put_row.
  - cbn [do_op] in *. cbn [apply_edit] in AP. pose proof (step_drop_row m ds kids T CA) as SD. cbv zeta in SD. exists (firstn (index_of (Some ds)) T ++ skipn (S (index_of (Some ds))) T). split; auto.
    assert (GT' : Forall good_row (firstn (index_of (Some ds)) T ++ skipn (S (index_of (Some ds))) T)).
    { rewrite Forall_forall in *. intros r I. apply GT. apply in_app_or in I. destruct I as [I|I]; [rewrite <- (firstn_skipn (index_of (Some ds)) T)|rewrite <- (firstn_skipn (S (index_of (Some ds))) T)]; apply in_or_app; auto. }
    split; auto. destruct (change (fun _ => Some []) nothing (by_name names ++ [(m, Some ds)]) F) as [F1|] eqn:CH.
    + injection AP as <-. destruct (sole_change _ _ _ SO n a kids eq_refl _ _ [(m, Some ds)] F1 ltac:(discriminate) CH) as (kids' & CK & SO'). rewrite CK in SD. exists n, a, kids'. auto.
    + injection AP as <-. rewrite (sole_change_none _ _ _ _ _ _ [(m, Some ds)] SO ltac:(discriminate) CH) in SD. rewrite SD. exists n, a, kids. auto.
  - cbn [good_op do_op] in *. cbn [apply_edit] in AP. pose proof (step_drop_field m ds f kids T GO GT CA) as SD. cbv zeta in SD.
    destruct (change (fun _ => Some []) nothing (by_name names ++ [(m, Some ds); (f, None)]) F) as [F1|] eqn:CH.
    + injection AP as <-. destruct (sole_change _ _ _ SO n a kids eq_refl _ _ [(m, Some ds); (f, None)] F1 ltac:(discriminate) CH) as (kids' & CK & SO'). rewrite CK in SD. destruct SD as (T' & U & CA').
      rewrite U. exists T'. split; auto. split; [|exists n, a, kids'; auto]. eapply upd_good; [|exact GT|exact U]. intros. now apply drop_row.
    + injection AP as <-. rewrite (sole_change_none _ _ _ _ _ _ [(m, Some ds); (f, None)] SO ltac:(discriminate) CH) in SD.
      exists T. split; [|split; auto; exists n, a, kids; auto]. destruct SD as [-> | ->]; reflexivity.
Qed.
Lemma table_history : forall p names m ops F F' T, Forall good_op ops -> keeps names m F T -> history p (map (op_edit names m) ops) F F' ->
  exists T', do_ops ops T = Some T' /\ keeps names m F' T'.
Proof.
  intros p names m. induction ops as [|o ops IH]; intros F F' T GO KP H; inversion H; subst.
  - exists T. auto.
  - inversion GO; subst. match goal with A : apply_edit _ _ = Some _ |- _ => destruct (table_step names m o F _ T ltac:(assumption) KP A) as (T1 & D & KP1) end.
    cbn [do_ops]. rewrite D. eauto.
Qed.

(** ** Questions *)
Lemma ask_sole : forall sat e names F nd, sole names F nd -> forall tail top, tail <> [] ->
  ask sat e top (chain names ++ tail) F = ask sat e false tail (kids_of nd).
Proof.
  intros sat e names F nd SO. induction SO as [n0 F nd C|n0 rest F m0 a0 kids0 nd C SO IH]; intros tail top NT.
  - destruct tail as [|s tail]; [easy|]. change (chain [n0] ++ s :: tail) with (Child n0 Leading :: s :: tail).
    change (ask sat e top (Child n0 Leading :: s :: tail) F) with (first_reply (fun nd => ask sat e false (s :: tail) (kids_of nd)) (called (selects n0) F)).
    rewrite C. cbn [first_reply]. now destruct (ask sat e false (s :: tail) (kids_of nd)).
  - change (chain (n0 :: rest) ++ tail) with (Child n0 Leading :: (chain rest ++ tail)). rewrite <- (IH tail false NT). cbn [kids_of] in *.
    assert (NR : chain rest ++ tail <> []) by (intros X; apply app_eq_nil in X; tauto). destruct (chain rest ++ tail) as [|s t]; [easy|].
    change (ask sat e top (Child n0 Leading :: s :: t) F) with (first_reply (fun nd => ask sat e false (s :: t) (kids_of nd)) (called (selects n0) F)).
    rewrite C. cbn [first_reply kids_of]. now destruct (ask sat e false (s :: t) kids0).
Qed.
Lemma cell_told : forall f r, split_colon f = None -> good_row r -> told (query true [(f, None)] TheElement (map cell_node r)) (cell f r).
Proof.
  intros f r F G. assert (Q : query true [(f, None)] TheElement (map cell_node r) = match attr_value f r with Some v => Element [Text (esc v)] | None => Nothing end).
  { pose proof (first_cell f r F G) as FC. rewrite query_cons. cbv zeta. cbn [nth_error] in FC. destruct (called (selects f) (map cell_node r)) as [|x l]; destruct (attr_value f r) as [v|]; cbn [option_map] in FC; try discriminate; [reflexivity|].
    injection FC as ->. reflexivity. }
  rewrite Q. unfold cell. destruct (attr_value f r) as [v|]; cbn [option_map]; [|constructor]. constructor. unfold all_text. cbn [flat_map node_chars]. rewrite app_nil_r, trim_esc. apply esc_decodes.
Qed.
Lemma sat_matching : forall E m k v r, split_colon k = None -> good_row r -> decide_sat E (where_is k v) (row_node m r) = matching k v r.
Proof.
  intros E m k v r F G. pose proof (decide_sat_ok E (where_is k v) (row_node m r)) as D. pose proof (cell_told k r F G) as CT. unfold matching.
  assert (Q : true_of (e_parse_float E) (where_is k v) (row_node m r) <-> cell k r = Some v).
  { unfold true_of, about, where_is. cbn [c_about c_op c_lit row_node kids_of]. split.
    - intros (o & A & H). rewrite (told_fun _ _ _ CT A). inversion H; subst. reflexivity.
    - intros H. rewrite H in CT. exists (Some v). split; [exact CT|constructor]. }
  rewrite Q in D. destruct (cell k r) as [w|].
  - destruct (bytes_eqb w v) eqn:B.
    + apply D. apply bytes_eqb_eq in B. now subst.
    + destruct (decide_sat E (where_is k v) (row_node m r)); auto. apply bytes_eqb_neq in B. destruct D as [D _]. specialize (D eq_refl). congruence.
  - destruct (decide_sat E (where_is k v) (row_node m r)); auto. destruct D as [D _]. discriminate (D eq_refl).
Qed.
Lemma filter_rows : forall E m k v T, split_colon k = None -> Forall good_row T -> filter (decide_sat E (where_is k v)) (map (row_node m) T) = map (row_node m) (filter (matching k v) T).
Proof.
  intros E m k v T F. induction 1 as [|r T G GT IH]; [reflexivity|]. cbn [map filter]. rewrite sat_matching by auto. destruct (matching k v r); cbn [map]; now rewrite IH.
Qed.
Definition cell_item (f : bytes) (r : row) : list item := match attr_value f r with Some v => [AnElement [Text (esc v)]] | None => [] end.
Lemma ask_cell : forall sat top f r, split_colon f = None -> good_row r ->
  ask sat EElement top [Child f Leading] (map cell_node r) = match attr_value f r with Some v => One (AnElement [Text (esc v)]) | None => NoReply end.
Proof.
  intros sat top f r F G. pose proof (first_cell f r F G) as FC. cbn [nth_error] in FC. cbn [ask]. destruct (called (selects f) (map cell_node r)) as [|x l]; destruct (attr_value f r) as [v|]; cbn [option_map] in FC; try discriminate; [reflexivity|].
  injection FC as ->. reflexivity.
Qed.
Lemma fields_cell : forall f m r, split_colon f = None -> good_row r -> fields_of (FieldName f) (row_node m r) = cell_item f r.
Proof.
  intros f m r F [ND G]. unfold cell_item. cbn [fields_of row_node kids_of]. clear G. induction r as [|[g v] r IH]; [reflexivity|]. cbn [map fst] in ND. inversion ND; subst. cbn [map attr_value]. rewrite called_cons. cbn [cell_node fst snd named].
  destruct (bytes_eqb f g) eqn:Q; [|now apply IH]. apply bytes_eqb_eq in Q. subst g. cbn [map].
  assert (NO : called (bytes_eqb f) (map cell_node r) = []).
  { clear - H1. induction r as [|[g w] r IH]; [reflexivity|]. cbn [map fst] in *. rewrite called_cons. cbn [cell_node fst named]. destruct (bytes_eqb f g) eqn:Q; [apply bytes_eqb_eq in Q; subst; elim H1; now left|]. apply IH. intros I. apply H1. now right. }
  rewrite NO. reflexivity.
Qed.
Lemma item_cell : forall v x, item_is (AnElement [Text (esc v)]) x -> r_type x = RElement /\ r_string x = trim_space v.
Proof. intros v x H. now apply element_string. Qed.
Lemma cells_read : forall f T rs, Forall2 item_is (flat_map (cell_item f) T) rs -> Forall2 (fun x v => r_type x = RElement /\ r_string x = v) rs (column f T).
Proof.
  intros f. unfold column. induction T as [|r T IH]; intros rs H; cbn [flat_map] in *; [inversion H; constructor|]. unfold cell_item at 1 in H. unfold cell at 1. destruct (attr_value f r) as [v|]; cbn [option_map app] in *; [|auto].
  inversion H; subst. constructor; [now apply item_cell|auto].
Qed.
Lemma firstn_cells : forall f T k rs, Forall2 item_is (firstn k (flat_map (cell_item f) T)) rs -> Forall2 (fun x v => r_type x = RElement /\ r_string x = v) rs (firstn k (column f T)).
Proof.
  intros f T. assert (FF : Forall2 (fun i v => forall x, item_is i x -> r_type x = RElement /\ r_string x = v) (flat_map (cell_item f) T) (column f T)).
  { induction T as [|r T IH]; [constructor|]. unfold column in *. cbn [flat_map]. unfold cell_item at 1. unfold cell at 1. destruct (attr_value f r) as [v|]; cbn [option_map app]; [|auto]. constructor; [intros; now apply item_cell|auto]. }
  revert FF. generalize (flat_map (cell_item f) T), (column f T). induction 1 as [|i v l l' H FF IH]; intros [|k] rs H2; cbn [firstn] in *; inversion H2; subst; constructor; auto.
Qed.

Section Ask.
  Variable E : env.
  Hypothesis Hord : forall k l, Permutation l (e_ord E k l).
  Variable p : bytes.
  Hypothesis Hp : prolog p.
  Variables F G : list node.
  Hypothesis HG : Forall good F.
  Hypothesis HS : shallow F.
  Hypothesis HE : (elements F < 9999)%N.
  Hypothesis SM : Forall2 same F G.
  Hypothesis SZ : (blen (p ++ forest_text G) <= 10485760)%N.
  Variables (names : list bytes) (m : bytes) (T : table).
  Hypothesis KP : keeps names m F T.

  Lemma get_kept : forall tail e, tail <> [] -> good_query (chain names ++ tail) e ->
    exists n a kids r, sole names F (Elem n a false kids) /\ called (selects m) kids = map (row_node m) T /\
      get E (p ++ forest_text G) (query_text (chain names ++ tail) e) = Ok r /\ says r (ask (decide_sat E) e false tail kids).
  Proof.
    intros tail e NT GQ. destruct KP as [_ (n & a & kids & SO & CA)].
    destruct (get_ask E Hord (decide_sat E)) with (q := e) (s := p ++ forest_text G) (F := F) (steps := chain names ++ tail) as [r [A1 A2]]; auto.
    { intros c nd _. apply decide_sat_ok. } { intros f ->. apply (gq_end _ _ GQ). } { split; [|split; auto]. apply reads_text; auto using skippable_prolog. }
    exists n, a, kids, r. split; auto. split; auto. split; auto. now rewrite (ask_sole _ _ _ _ _ SO tail true NT) in A2.
  Qed.
  Lemma kept_count : T <> [] -> good_query (chain names ++ [Child m Leading]) ECount ->
    exists r, get E (p ++ forest_text G) (query_text (chain names ++ [Child m Leading]) ECount) = Ok r /\ describes r (Count (Nat.min 1000 (len T))).
  Proof.
    intros NT GQ. destruct (get_kept [Child m Leading] ECount ltac:(discriminate) GQ) as (n & a & kids & r & SO & CA & G1 & S1). exists r. split; auto.
    cbn [ask] in S1. rewrite CA, firstn_map in S1. destruct (firstn 1000 T) as [|t l] eqn:Q; [destruct T; [easy|discriminate Q]|]. cbn [map] in S1. cbn [says item_is] in S1. destruct S1 as [S1 _].
    change (row_node m t :: map (row_node m) l) with (map (row_node m) (t :: l)) in S1. rewrite map_length, <- Q, firstn_length in S1. exact S1.
  Qed.
  Lemma kept_cell : forall ds f, split_colon f = None -> (decimal_value ds < 1000)%N -> good_query (chain names ++ [Child m (Number ds); Child f Leading]) EElement ->
    exists r, get E (p ++ forest_text G) (query_text (chain names ++ [Child m (Number ds); Child f Leading]) EElement) = Ok r /\
      tells r (match nth_error T (index_of (Some ds)) with Some row => cell f row | None => None end).
  Proof.
    intros ds f FN LT GQ. destruct (get_kept [Child m (Number ds); Child f Leading] EElement ltac:(discriminate) GQ) as (n & a & kids & r & SO & CA & G1 & S1). exists r. split; auto.
    assert (Q : ask (decide_sat E) EElement false [Child m (Number ds); Child f Leading] kids =
      match nth_error (firstn 1000 (called (selects m) kids)) (N.to_nat (decimal_value ds)) with Some nd => ask (decide_sat E) EElement false [Child f Leading] (kids_of nd) | None => NoReply end) by reflexivity.
    rewrite Q in S1. clear Q. rewrite CA, firstn_map, nth_error_map, nth_firstn in S1 by lia. cbn [index_of]. destruct (nth_error T (N.to_nat (decimal_value ds))) as [row|] eqn:NE; cbn [option_map] in S1; [|exact S1].
    assert (GR : good_row row) by (destruct KP as [GT _]; rewrite Forall_forall in GT; apply GT; eapply nth_error_In; eauto).
    cbn [row_node kids_of] in S1. rewrite ask_cell in S1 by auto. unfold cell. destruct (attr_value f row) as [v|]; cbn [option_map]; [|exact S1]. now apply item_cell.
  Qed.
  Lemma kept_column : forall f, split_colon f = None -> good_query (chain names ++ [Child m Leading]) (EField (FieldName f)) ->
    exists r, get E (p ++ forest_text G) (query_text (chain names ++ [Child m Leading]) (EField (FieldName f))) = Ok r /\ lists r (firstn 1000 (column f (firstn 1000 T))).
  Proof.
    intros f FN GQ. destruct (get_kept [Child m Leading] (EField (FieldName f)) ltac:(discriminate) GQ) as (n & a & kids & r & SO & CA & G1 & S1). exists r. split; auto.
    assert (Q : ask (decide_sat E) (EField (FieldName f)) false [Child m Leading] kids = fields (FieldName f) (firstn 1000 (called (selects m) kids))).
    { cbn [ask]. destruct (firstn 1000 (called (selects m) kids)); reflexivity. }
    rewrite Q in S1. clear Q. rewrite CA, firstn_map in S1. unfold fields in S1. cbn [says] in S1. destruct S1 as [S1 S2]. split; auto. apply firstn_cells.
    replace (flat_map (cell_item f) (firstn 1000 T)) with (flat_map (fields_of (FieldName f)) (map (row_node m) (firstn 1000 T))); auto.
    assert (GT : Forall good_row (firstn 1000 T)) by (destruct KP as [GT _]; rewrite Forall_forall in *; intros x I; apply GT; rewrite <- (firstn_skipn 1000 T); apply in_or_app; auto).
    clear - GT FN. induction GT as [|x l G GT IH]; [reflexivity|]. cbn [map flat_map]. now rewrite IH, fields_cell.
  Qed.
  Let T1 : table := firstn 1000 T.
  Lemma first_good : Forall good_row T1.
  Proof. destruct KP as [GT _]; rewrite Forall_forall in *; intros x I; apply GT; rewrite <- (firstn_skipn 1000 T); apply in_or_app; auto. Qed.
  Lemma kept_lookup : forall k v f, split_colon k = None -> split_colon f = None -> good_query (chain names ++ [Child m (Where (where_is k v) false); Child f Leading]) EElement ->
    exists r, get E (p ++ forest_text G) (query_text (chain names ++ [Child m (Where (where_is k v) false); Child f Leading]) EElement) = Ok r /\
      tells r (match find (matching k v) (firstn 1000 T) with Some row => cell f row | None => None end).
  Proof.
    intros k v f KN FN GQ. destruct (get_kept [Child m (Where (where_is k v) false); Child f Leading] EElement ltac:(discriminate) GQ) as (n & a & kids & r & SO & CA & G1 & S1). exists r. split; auto.
    assert (Q : ask (decide_sat E) EElement false [Child m (Where (where_is k v) false); Child f Leading] kids =
      match filter (decide_sat E (where_is k v)) (firstn 1000 (called (selects m) kids)) with nd :: _ => ask (decide_sat E) EElement false [Child f Leading] (kids_of nd) | [] => NoReply end) by reflexivity.
    rewrite Q in S1. clear Q. rewrite CA, firstn_map, filter_rows in S1; auto using first_good.
    assert (FD : find (matching k v) (firstn 1000 T) = match filter (matching k v) (firstn 1000 T) with x :: _ => Some x | [] => None end).
    { clear. induction (firstn 1000 T) as [|x l IH]; [reflexivity|]. cbn [find filter]. destruct (matching k v x); auto. }
    rewrite FD. destruct (filter (matching k v) (firstn 1000 T)) as [|row l] eqn:QF; cbn [map] in S1; [exact S1|].
    assert (GR : good_row row). { pose proof first_good as GT. rewrite Forall_forall in GT. apply GT. assert (I : In row (row :: l)) by now left. rewrite <- QF in I. apply filter_In in I. apply I. }
    cbn [row_node kids_of] in S1. rewrite ask_cell in S1 by auto. unfold cell. destruct (attr_value f row) as [w|]; cbn [option_map]; [|exact S1]. now apply item_cell.
  Qed.
  Lemma kept_select : forall k v f, split_colon k = None -> split_colon f = None -> good_query (chain names ++ [Child m (Where (where_is k v) true); Child f Leading]) EElement ->
    exists r, get E (p ++ forest_text G) (query_text (chain names ++ [Child m (Where (where_is k v) true); Child f Leading]) EElement) = Ok r /\
      tells_all r (column f (filter (matching k v) (firstn 1000 T))).
  Proof.
    intros k v f KN FN GQ. destruct (get_kept [Child m (Where (where_is k v) true); Child f Leading] EElement ltac:(discriminate) GQ) as (n & a & kids & r & SO & CA & G1 & S1). exists r. split; auto.
    assert (Q : ask (decide_sat E) EElement false [Child m (Where (where_is k v) true); Child f Leading] kids =
      match filter (decide_sat E (where_is k v)) (firstn 1000 (called (selects m) kids)) with nd :: l => pack (flat_map (fun nd => items (ask (decide_sat E) EElement false [Child f Leading] (kids_of nd))) (nd :: l)) | [] => NoReply end) by (change (ask (decide_sat E) EElement false [Child m (Where (where_is k v) true); Child f Leading] kids) with (match filter (decide_sat E (where_is k v)) (firstn 1000 (called (selects m) kids)) with nd :: l => pack (flat_map (fun nd => items (ask (decide_sat E) EElement false [Child f Leading] (kids_of nd))) (filter (decide_sat E (where_is k v)) (firstn 1000 (called (selects m) kids)))) | [] => NoReply end); destruct (filter (decide_sat E (where_is k v)) (firstn 1000 (called (selects m) kids))); reflexivity).
    rewrite Q in S1. clear Q. rewrite CA, firstn_map, filter_rows in S1; auto using first_good.
    assert (GR : Forall good_row (filter (matching k v) (firstn 1000 T))).
    { pose proof first_good as GT. rewrite Forall_forall in *. intros x I. apply filter_In in I. apply GT, I. }
    set (L := filter (matching k v) (firstn 1000 T)) in *. assert (S2 : says r (pack (flat_map (cell_item f) L))).
    { replace (flat_map (cell_item f) L) with (flat_map (fun nd => items (ask (decide_sat E) EElement false [Child f Leading] (kids_of nd))) (map (row_node m) L)).
      - destruct L; exact S1.
      - clear S1. induction GR as [|x l G0 GR IH]; [reflexivity|]. cbn [map flat_map]. rewrite IH. cbn [row_node kids_of]. rewrite ask_cell by auto. unfold cell_item. now destruct (attr_value f x). }
    clear S1. assert (CR := cells_read f L). assert (LN : len (flat_map (cell_item f) L) = len (column f L)).
    { clear. unfold column. induction L as [|x l IH]; [reflexivity|]. cbn [flat_map]. rewrite !app_length, IH. unfold cell_item, cell. now destruct (attr_value f x). }
    destruct (flat_map (cell_item f) L) as [|i [|j l]]; destruct (column f L) as [|u [|w l']]; try discriminate LN; cbn [pack says tells_all] in *; auto.
    - specialize (CR [r] ltac:(repeat constructor; exact S2)). inversion CR; subst. auto.
    - destruct S2 as [S2 S3]. split; auto.
  Qed.
End Ask.
