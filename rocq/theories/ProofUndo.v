(** Edits taken back: proofs. *)
From Coq Require Import List Ascii String NArith ZArith Bool Lia Permutation.
From Verif Require Import GoStr ModelParser ModelPath ModelResult ModelQuery ModelValidate ModelBuilder SpecText SpecPath SpecTree SpecQuery SpecEdit SpecContent SpecValid SpecHistory SpecOptions SpecList SpecLoop SpecLaid SpecUndo
  ProofBase ProofScan ProofTree ProofTree2 ProofTree4 ProofEdit ProofEdit2 ProofEdit3 ProofEdit4 ProofEdit5 ProofEdit6 ProofEdit7 ProofEdit8 ProofEdit9 ProofEdit11 ProofFrame ProofFrame3 ProofFrame4 ProofScript ProofLaid ProofLaid6 ProofTable ProofList ProofLoop ProofOrder.
Import ListNotations.
Open Scope nat_scope.

Lemma swapped_twice : forall s F nd nd' F1, swapped s F nd [nd'] F1 -> name_of nd' = name_of nd -> is_elem nd' = true -> is_elem nd = true ->
  forall l, exists F2, swapped s F nd l F2 /\ swapped s F1 nd' l F2.
Proof.
  intros s F nd nd' F1 H. remember [nd'] as l0 eqn:Q. induction H as [n idx G1 nd l0 G2 N C|n idx rest G1 m a kids kids' G2 nd l0 N C H IH]; intros NM E1 E2 l; subst l0.
  - exists (G1 ++ l ++ G2). split; [now apply sw_here|]. cbn [app]. apply sw_here; auto. destruct nd, nd'; try discriminate. cbn in *. now subst.
  - destruct (IH eq_refl NM E1 E2 l) as (K2 & S1 & S2). exists (G1 ++ Elem m a false K2 :: G2). split; now apply sw_down.
Qed.
Lemma located_elem : forall s F A nd B, located s F A nd B -> is_elem nd = true.
Proof. induction 1; auto. destruct nd; [reflexivity|discriminate|discriminate]. Qed.
(** One place changed twice. *)
Lemma twice_at : forall s F A nd B g miss nd' F1 g' miss' nd2, located s F A nd B -> g nd = Some [nd'] -> change g miss s F = Some F1 -> name_of nd' = name_of nd -> is_elem nd' = true ->
  g' nd' = Some [nd2] -> exists F2, change g' miss' s F1 = Some F2 /\ swapped s F nd [nd2] F2.
Proof.
  intros s F A nd B g miss nd' F1 g' miss' nd2 L G C NM EL G'. destruct (located_swapped _ _ _ _ _ [nd'] L) as (F1' & SW & _).
  pose proof (swapped_change _ _ _ _ _ g miss SW G) as C'. rewrite C in C'. injection C' as <-.
  destruct (swapped_twice _ _ _ _ _ SW NM EL (located_elem _ _ _ _ _ L) [nd2]) as (F2 & S1 & S2). exists F2. split; [|exact S1]. eapply swapped_change; eauto.
Qed.
Lemma back_at : forall s F A nd B g miss nd' F1 g' miss' nd2, Forall good F -> located s F A nd B -> g nd = Some [nd'] -> change g miss s F = Some F1 -> name_of nd' = name_of nd -> is_elem nd' = true ->
  g' nd' = Some [nd2] -> same nd nd2 -> exists F2, change g' miss' s F1 = Some F2 /\ Forall2 same F F2.
Proof.
  intros s F A nd B g miss nd' F1 g' miss' nd2 GD L G C NM EL G' S. destruct (twice_at _ _ _ _ _ _ _ _ _ _ miss' _ L G C NM EL G') as (F2 & C2 & S2). exists F2. split; [exact C2|].
  eapply swapped_same; [exact GD|eapply located_same; eauto|exact S2|]. constructor; auto.
Qed.
(** A change below a place, and one that takes it back. *)
Lemma below_swapped : forall s F A n a kids B, located s F A (Elem n a false kids) B -> forall g miss t kids', t <> [] -> change g miss t kids = Some kids' ->
  exists F', change g miss (s ++ t) F = Some F' /\ swapped s F (Elem n a false kids) [Elem n a false kids'] F'.
Proof.
  intros s F A n a kids B L. remember (Elem n a false kids) as nd eqn:Q. revert n a kids Q.
  induction L as [m idx F1 nd F2 H1 H2|m idx rest F1 m' a' kids0 F2 A nd B H1 H2 L IH]; intros n a kids Q g miss t kids' NT C.
  - subst nd. destruct t as [|s t]; [easy|]. exists (F1 ++ [Elem n a false kids'] ++ F2). change ([(m, idx)] ++ s :: t) with ((m, idx) :: s :: t). split; [|now apply sw_here].
    rewrite change_step, <- H2, nth_at, ProofFrame.edit_nth_at by auto. cbn [down]. exact (f_equal (fun w => option_map (fun l => F1 ++ l ++ F2) (option_map (fun k => [Elem n a false k]) w)) C).
  - destruct (IH _ _ _ Q g miss t kids' NT C) as (K & C' & S'). destruct rest as [|s rest]; [inversion L|]. exists (F1 ++ Elem m' a' false K :: F2).
    change (((m, idx) :: s :: rest) ++ t) with ((m, idx) :: s :: (rest ++ t)). split; [|now apply sw_down].
    rewrite change_step, <- H2, nth_at, ProofFrame.edit_nth_at by auto. cbn [down]. exact (f_equal (fun w => option_map (fun l => F1 ++ l ++ F2) (option_map (fun k => [Elem m' a' false k]) w)) C').
Qed.
Lemma back_below : forall s F A n a K B g miss t K1 F1 g' miss' t', located s F A (Elem n a false K) B -> t <> [] -> change g miss t K = Some K1 -> change g miss (s ++ t) F = Some F1 ->
  t' <> [] -> change g' miss' t' K1 = Some K -> change g' miss' (s ++ t') F1 = Some F.
Proof.
  intros s F A n a K B g miss t K1 F1 g' miss' t' L N C CF N' C'. destruct (below_swapped _ _ _ _ _ _ _ L g miss t K1 N C) as (F1' & CF' & SW). rewrite CF in CF'. injection CF' as <-.
  pose proof (swapped_located _ _ _ _ _ SW _ eq_refl eq_refl eq_refl) as L1.
  destruct (swapped_twice _ _ _ _ _ SW eq_refl eq_refl eq_refl [Elem n a false K]) as (F2 & S1 & S2). pose proof (swapped_id _ _ _ _ S1) as ->.
  destruct (below_swapped _ _ _ _ _ _ _ (L1 _ _ L) g' miss' t' K N' C') as (F2 & C2 & S3). rewrite C2. f_equal. eapply swapped_fun; eauto.
Qed.
(** ** Attributes *)
Lemma put_back : forall x w a, attr_value x a = Some w -> put_attr x w a = a.
Proof.
  intros x w. induction a as [|[n u] a IH]; intros H; [discriminate|]. cbn [attr_value put_attr] in *. destruct (bytes_eqb x n); [now injection H as ->|now rewrite IH].
Qed.
Lemma drop_back : forall x w a, NoDup (map fst a) -> attr_value x a = Some w -> Permutation a (put_attr x w (drop_attr x a)).
Proof.
  intros x w a ND H. rewrite (put_new x w (drop_attr x a) (ProofEdit3.drop_same x a)). induction a as [|[n u] a IH]; [discriminate|]. cbn [map fst] in ND. inversion ND as [|? ? NI ND']; subst.
  cbn [attr_value] in H. unfold drop_attr. cbn [filter fst]. rewrite (bytes_eqb_sym n x). destruct (bytes_eqb x n) eqn:Q.
  - injection H as ->. apply bytes_eqb_eq in Q. subst n. cbn [negb]. change (filter _ a) with (drop_attr x a). rewrite (drop_already x a NI). apply Permutation_cons_append.
  - cbn [negb app]. constructor. now apply IH.
Qed.
Lemma change_none : forall s F A nd B, located s F A nd B -> forall g miss, g nd = None -> change g miss s F = None.
Proof.
  induction 1 as [m idx F1 nd F2 H1 H2|m idx rest F1 m' a' kids0 F2 A nd B H1 H2 L IH]; intros g miss G.
  - cbn [change]. rewrite <- H2, nth_at, ProofFrame.edit_nth_at by auto. now rewrite G.
  - specialize (IH g miss G). destruct rest as [|s rest]; [inversion L|].
    rewrite change_step, <- H2, nth_at, ProofFrame.edit_nth_at by auto. cbn [down]. exact (f_equal (fun w => option_map (fun l => F1 ++ l ++ F2) (option_map (fun k => [Elem m' a' false k]) w)) IH).
Qed.
Lemma attr_room : forall x v s F F1 A n a self K B miss, located s F A (Elem n a self K) B -> change (attr_of x v) miss s F = Some F1 ->
  len (put_attr x v a) <= 100 /\ attr_of x v (Elem n a self K) = Some [Elem n (put_attr x v a) self K].
Proof.
  intros x v s F F1 A n a self K B miss L AP. destruct (len (put_attr x v a) <=? 100) eqn:Q.
  - split; [now apply Nat.leb_le|]. cbn [attr_of]. now rewrite Q.
  - assert (X : attr_of x v (Elem n a self K) = None) by (cbn [attr_of]; now rewrite Q). rewrite (change_none _ _ _ _ _ L _ _ X) in AP. discriminate.
Qed.
(** ** Every edit is taken back *)
Lemma names_by_name : forall l, names_only (by_name l) = Some l.
Proof. induction l as [|n l IH]; [reflexivity|]. cbn. change (map _ l) with (by_name l). now rewrite IH. Qed.
Lemma removed_last : forall m K K1 x K2, K = K1 ++ K2 -> named (selects m) x = true -> called (selects m) K1 = [] ->
  change (fun _ => Some []) nothing [(m, None)] (K1 ++ x :: K2) = Some K.
Proof. intros m K K1 x K2 -> N C. eapply swapped_change; [|reflexivity]. apply (sw_here m None K1 x [] K2); auto. now rewrite C. Qed.
Lemma undo_one : forall o o' F F1, Forall good F -> undone_by F o o' -> legal o -> apply_edit o F = Some F1 -> exists F2, apply_edit o' F1 = Some F2 /\ Forall2 same F F2.
Proof.
  intros o o' F F1 GD U LG AP. assert (NB : forall (a : tstep) l, a :: l <> []) by discriminate. destruct U as [s c A n a K B K' L S|s c m ms A n a K B L C|c m ms C|s x v m ms A n a K B L C|s x v A nd B L V|s x v w A nd B L V|s x w A nd B L V|s m c A n a K B L|s N|s x A nd B L V];
    cbn [apply_edit content_nodes] in *.
  - apply (back_at _ _ _ _ _ (with_kids (content_nodes c)) _ (Elem n a false (content_nodes c)) _ (with_kids K') (new_kids K') (Elem n a false K') GD L eq_refl AP eq_refl eq_refl eq_refl). constructor; auto.
  - exists F. split; [|apply same_all_refl]. set (T := (m, None) :: by_name ms). change (by_name (m :: ms)) with T in *.
    assert (CK : change (with_kids (content_nodes c)) (new_kids (content_nodes c)) T K = Some (K ++ nest (m :: ms) (content_nodes c))).
    { unfold T. cbn [change index_of]. rewrite C. cbn [nth_error]. unfold new_kids. change ((m, None) :: by_name ms) with (by_name (m :: ms)). now rewrite names_by_name. }
    rewrite (back_below _ _ _ _ _ _ _ _ _ _ _ _ (fun _ => Some []) nothing [(m, None)] L (NB _ _) CK AP (NB _ _)); [reflexivity|].
    cbn [nest]. apply removed_last; [now rewrite app_nil_r|apply select_self|exact C].
  - exists F. split; [|apply same_all_refl]. unfold by_name in AP. cbn [map change index_of] in AP. rewrite C in AP. cbn [nth_error] in AP. unfold new_kids in AP. change ((m, None) :: map _ ms) with (by_name (m :: ms)) in AP.
    rewrite names_by_name in AP. cbn [option_map nest] in AP. injection AP as <-. rewrite (removed_last m F F (Elem m [] false (nest ms (content_nodes c))) [] (eq_sym (app_nil_r F)) (select_self m) C). reflexivity.
  - exists F. split; [|apply same_all_refl]. set (T := (m, None) :: by_name ms). change (by_name (m :: ms)) with T in *.
    assert (CK : exists y, change (attr_of x v) (new_attr x v) T K = Some (K ++ [y]) /\ named (selects m) y = true).
    { unfold T. cbn [change index_of]. rewrite C. cbn [nth_error]. unfold new_attr. change ((m, None) :: by_name ms) with (by_name (m :: ms)). rewrite names_by_name. cbn [option_map].
      destruct ms as [|m2 ms]; [eexists; split; [reflexivity|apply select_self]|]. change (removelast (m :: m2 :: ms)) with (m :: removelast (m2 :: ms)). cbn [nest]. eexists. split; [reflexivity|]. apply select_self. }
    destruct CK as (y & CK & NY).
    rewrite (back_below _ _ _ _ _ _ _ _ _ _ _ _ (fun _ => Some []) nothing [(m, None)] L (NB _ _) CK AP (NB _ _)); [reflexivity|].
    apply removed_last; [now rewrite app_nil_r|exact NY|exact C].
  - pose proof (located_elem _ _ _ _ _ L) as EL. destruct nd as [n a self K| |]; [clear EL|discriminate EL|discriminate EL]. cbn [attrs_of] in V.
    destruct (attr_room _ _ _ _ _ _ _ _ _ _ _ _ L AP) as [LE AA].
    destruct (back_at _ _ _ _ _ _ _ _ _ (without_attr x) nothing (Elem n a self K) GD L AA AP eq_refl eq_refl) as (F2 & C2 & S2).
    + cbn [without_attr]. now rewrite drop_put, ProofEdit8.drop_absent.
    + apply same_refl.
    + rewrite C2. eauto.
  - pose proof (located_elem _ _ _ _ _ L) as EL. destruct nd as [n a self K| |]; [clear EL|discriminate EL|discriminate EL]. cbn [attrs_of] in V. destruct (attr_room _ _ _ _ _ _ _ _ _ _ _ _ L AP) as [LE AA].
    destruct (ProofEdit.located_good _ _ _ _ _ L GD) as [GN _]. inversion GN as [? ? ? ? N0 GA0 S0 K0| |]; subst.
    apply (back_at _ _ _ _ _ _ _ _ _ (attr_of x w) (new_attr x w) (Elem n a self K) GD L AA AP eq_refl eq_refl); [|apply same_refl].
    cbn [attr_of]. rewrite put_twice, (put_back x w a V), (proj2 (Nat.leb_le _ _) (ga_count _ GA0)). reflexivity.
  - pose proof (located_elem _ _ _ _ _ L) as EL. destruct nd as [n a self K| |]; [clear EL|discriminate EL|discriminate EL]. cbn [attrs_of] in V.
    destruct (ProofEdit.located_good _ _ _ _ _ L GD) as [GN _]. inversion GN as [? ? ? ? N0 GA0 S0 K0| |]; subst.
    pose proof (drop_back x w a (ga_distinct _ GA0) V) as P.
    destruct (change (without_attr x) nothing s F) as [F1'|] eqn:CH.
    + injection AP as <-. apply (back_at _ _ _ _ _ (without_attr x) nothing (Elem n (drop_attr x a) self K) F1' (attr_of x w) (new_attr x w) (Elem n (put_attr x w (drop_attr x a)) self K) GD L eq_refl CH eq_refl eq_refl).
      * cbn [attr_of]. rewrite <- (Permutation_length P), (proj2 (Nat.leb_le _ _) (ga_count _ GA0)). reflexivity.
      * constructor; [exact P|apply same_all_refl].
    + pose proof (change_some_located _ _ _ _ _ L _ _ CH) as X. discriminate X.
  - exists F. split; [|apply same_all_refl]. destruct (up_exists m K) as (K1 & K2 & U). pose proof (up_called _ _ _ _ U) as UC. pose proof (insert_up m K K1 K2 (Elem m [] false (content_nodes c)) U) as I.
    assert (CH : change (more_kids m (content_nodes c)) nothing s F = Some F1) by (destruct s; [inversion L|exact AP]). clear AP.
    destruct (located_swapped _ _ _ _ _ [Elem n a false (K1 ++ Elem m [] false (content_nodes c) :: K2)] L) as (F1' & SW & _).
    assert (F1' = F1).
    { assert (X : change (more_kids m (content_nodes c)) nothing s F = Some F1') by (eapply swapped_change; [exact SW|]; cbn [more_kids]; now rewrite I). congruence. } subst F1'.
    pose proof (swapped_located _ _ _ _ _ SW _ eq_refl eq_refl eq_refl _ _ L) as L1.
    pose proof (item_change m (len (called (selects m) K)) K1 (Elem m [] false (content_nodes c)) K2 (fun _ => Some []) nothing [] (f_equal (@List.length node) UC) (select_self m) eq_refl) as IC. cbn [app] in IC.
    assert (QK : K = K1 ++ K2) by apply U.
    destruct (below_swapped _ _ _ _ _ _ _ L1 _ _ [(m, Some (number (len (called (selects m) K))))] _ (NB _ _) IC) as (F2 & C2 & S2). unfold item. rewrite C2. f_equal. rewrite <- QK in S2.
    destruct (swapped_twice _ _ _ _ _ SW eq_refl eq_refl eq_refl [Elem n a false K]) as (F3 & S3 & S4). rewrite (swapped_fun _ _ _ _ _ _ S2 S4). eapply swapped_id; eauto.
  - exists F. split; [|apply same_all_refl].
    assert (X : change (fun _ => Some []) nothing s F = None).
    { destruct (change (fun _ => Some []) nothing s F) as [G|] eqn:CH; [|reflexivity]. destruct (change_inv _ _ _ _ _ GD CH) as [(A & nd & B & l & L & _)|[(pre & post & n & a & self & kids & A & B & l & _ & _ & _ & _ & X)|(l & _ & _ & X)]]; try discriminate X. elim (N _ _ _ L). }
    rewrite X in AP. injection AP as <-. now rewrite X.
  - pose proof (located_elem _ _ _ _ _ L) as EL. destruct nd as [n a self K| |]; [clear EL|discriminate EL|discriminate EL]. cbn [attrs_of] in V. exists F. split; [|apply same_all_refl].
    assert (X : change (without_attr x) nothing s F = Some F).
    { eapply change_same; [exact L|]. cbn [without_attr]. now rewrite ProofEdit8.drop_absent. }
    rewrite X in AP. injection AP as <-. now rewrite X.
Qed.
(** ** With at most one attribute there is only one order *)
Lemma same_few : forall a b, same a b -> few_attrs a -> a = b.
Proof.
  induction a as [n at0 self kids IH|t|bb] using node_ind'; intros b H Q; inversion H as [? ? a1 ? ? k1 P1 K1| |]; subst; try reflexivity. cbn [few_attrs] in Q. destruct Q as [QA QK]. f_equal.
  - destruct at0 as [|x [|y at0]]; [now apply Permutation_nil in P1|apply Permutation_length_1_inv in P1; congruence|cbn [List.length] in QA; lia].
  - clear -IH K1 QK. induction K1 as [|x y K K' S1 S2 IH1]; [reflexivity|]. cbn [fold_right] in QK. destruct QK. inversion IH; subst. f_equal; auto.
Qed.
Lemma same_few_all : forall F G, Forall2 same F G -> Forall few_attrs F -> F = G.
Proof. induction 1; intros Q; [reflexivity|]. inversion Q; subst. f_equal; auto. now apply same_few. Qed.

Section Calls.
  Variable E : env.
  Variable fmt_g : f64 -> bytes.
  Hypothesis Hord : forall k l, Permutation l (e_ord E k l).
  Variable p : bytes.
  Hypothesis Hp : prolog p.
  Hypothesis SP : strict_prolog p.
  Notation state := (ProofList.state p).
  Lemma calls_then : forall ops1 ops2 d d', calls E fmt_g ops1 d = Ok (d', None) -> calls E fmt_g (ops1 ++ ops2) d = calls E fmt_g ops2 d'.
  Proof.
    induction ops1 as [|o ops1 IH]; intros ops2 d d' H; cbn [calls app] in *; [now injection H as ->|]. destruct (call E fmt_g o d) as [[d1 [e|]]| |]; try discriminate. now apply IH.
  Qed.
  Lemma journal_history : forall F ops undos F2, journal p F ops undos F2 -> history p ops F F2.
  Proof. induction 1 as [F|F o o' F1 ops undos F2 L1 L2 U AP RM J IH]; [apply his_nil|]. exact (his_cons p o ops F F1 F2 L1 AP RM IH). Qed.
  Lemma rollback_ok : forall F ops undos F2, journal p F ops undos F2 -> state F -> forall G2, Forall2 same F2 G2 ->
    exists G, calls E fmt_g undos (p ++ forest_text G2) = Ok (p ++ forest_text G, None) /\ Forall2 same F G.
  Proof.
    induction 1 as [F|F o o' F1 ops undos F2 L1 L2 U AP RM J IH]; intros (GD & T & FT) G2 S; [exists G2; auto|].
    destruct (apply_good o F F1 L1 GD T AP) as [GD1 T1].
    assert (FT1 : fits p F1) by (destruct FT as [_ [FS _]]; destruct RM as [R1 R2]; split; [exact R1|]; split; [exact (apply_shallow o F F1 L1 AP FS)|exact R2]).
    destruct (IH (conj GD1 (conj T1 FT1)) G2 S) as (G1 & C1 & S1). rewrite (calls_then _ [o'] _ _ C1).
    destruct (undo_one o o' F F1 GD U L1 AP) as (F' & AP' & SF). pose proof (same_fits p F F' SF FT) as FT'.
    assert (H' : history p [o'] F1 F') by (apply (his_cons p o' [] F1 F' F' L2 AP'); [destruct FT' as [X1 [_ X2]]; split; assumption|apply his_nil]).
    destruct (history_ok E fmt_g Hord p [o'] F1 F' Hp SP H' G1 GD1 T1 FT1 S1) as (G & C & SG & _). exists G. split; [exact C|]. eapply same_all_trans; eauto.
  Qed.
  Lemma laid_rollback : forall F ops undos F2, journal p F ops undos F2 -> forall s, laid_history p s ops F F2 -> Forall good F -> Forall top_node F -> shallow F -> spacious p s F ->
    forall G2 y2, Forall2 same F2 G2 -> laid_all true s G2 y2 ->
    exists G y, calls E fmt_g undos (p ++ y2) = Ok (p ++ y, None) /\ Forall2 same F G /\ laid_all true s G y.
  Proof.
    induction 1 as [F|F o o' F1 ops undos F2 L1 L2 U AP RM J IH]; intros s LH GD T FS SPC G2 y2 S LD; [exists G2, y2; auto|].
    assert (X : spacious p s F1 /\ laid_history p s ops F1 F2) by (inversion LH as [|? ? ? F1' ? ? AP1 SP1 LH1]; subst; rewrite AP in AP1; injection AP1 as <-; auto). destruct X as [SP1 LH1].
    destruct (apply_good o F F1 L1 GD T AP) as [GD1 T1]. pose proof (apply_shallow o F F1 L1 AP FS) as FS1.
    destruct (IH s LH1 GD1 T1 FS1 SP1 G2 y2 S LD) as (G1 & y1 & C1 & S1 & LD1). rewrite (calls_then _ [o'] _ _ C1).
    destruct (undo_one o o' F F1 GD U L1 AP) as (F' & AP' & SF).
    assert (H' : laid_history p s [o'] F1 F') by (apply (lh_cons p s o' [] F1 F' F' L2 AP'); [exact (same_spacious p s F F' SF SPC)|apply lh_nil]).
    destruct (laid_history_ok E fmt_g Hord p s [o'] F1 F' Hp SP H' G1 y1 GD1 T1 FS1 SP1 S1 LD1) as (G & y & C & SG & LG & _). exists G, y. split; [exact C|]. split; [eapply same_all_trans; eauto|exact LG].
  Qed.
End Calls.
