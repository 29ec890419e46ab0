(** Replacement of the text of an element. *)
From Coq Require Import List Ascii String NArith ZArith Bool Lia Permutation.
From Verif Require Import GoStr ModelParser ModelPath ModelResult ModelQuery ModelValidate ModelBuilder SpecText SpecPath SpecTree SpecQuery SpecEdit
  ProofBase ProofEscape ProofPath ProofScan ProofSyntax ProofTree ProofTree2 ProofTree3 ProofTree4 ProofTree5 ProofEdit.
Import ListNotations.

(** ** Trimming and escaping *)
Lemma visible_low : forall c, visible c -> ascii_space c = false /\ (33 <= code c <= 126)%N.
Proof.
  intros c [H1 H2]. unfold code. split; [|lia]. unfold ascii_space, GoStr.in_range, code.
  destruct (N.leb_spec 9 (N_of_ascii c)); destruct (N.leb_spec (N_of_ascii c) 13); cbn [andb orb]; try lia; apply N.eqb_neq; lia.
Qed.
Lemma uni2_low1 : forall a b, (code a <= 126)%N -> uni_space2 a b = false.
Proof. intros a b H. unfold uni_space2. rewrite (proj2 (N.eqb_neq (code a) 194)) by lia. reflexivity. Qed.
Lemma uni2_low2 : forall a b, (code b <= 126)%N -> uni_space2 a b = false.
Proof. intros a b H. unfold uni_space2. rewrite (proj2 (N.eqb_neq (code b) 133)), (proj2 (N.eqb_neq (code b) 160)) by lia. now rewrite andb_false_r. Qed.
Lemma uni3_low : forall a b c, (code a <= 126)%N \/ (code b <= 126)%N \/ (code c <= 126)%N -> uni_space3 a b c = false.
Proof.
  intros a b c H. unfold uni_space3. destruct H as [H|[H|H]].
  - rewrite (proj2 (N.eqb_neq (code a) 225)), (proj2 (N.eqb_neq (code a) 226)), (proj2 (N.eqb_neq (code a) 227)) by lia. reflexivity.
  - rewrite (proj2 (N.eqb_neq (code b) 154)), (proj2 (N.eqb_neq (code b) 128)), (proj2 (N.eqb_neq (code b) 129)) by lia. now rewrite !andb_false_r.
  - rewrite (proj2 (N.eqb_neq (code c) 128)), (proj2 (N.leb_gt 128 (code c))), (proj2 (N.eqb_neq (code c) 168)),
      (proj2 (N.eqb_neq (code c) 169)), (proj2 (N.eqb_neq (code c) 175)), (proj2 (N.eqb_neq (code c) 159)) by lia. now rewrite !andb_false_r.
Qed.
Section Trim.
  Variable f : ascii -> bytes.
  Variable x : ascii.
  Hypothesis Hx : visible x.
  Hypothesis Hf : forall c, f c = [c] \/ (visible c /\ exists r, f c = x :: r).
  (** The second and third byte of the image decide like those of the argument. *)
  Lemma trim_left_map : forall n s, len s <= n -> trim_left (flat_map f s) = flat_map f (trim_left s).
  Proof.
    induction n as [|n IH]; intros s L; [destruct s; [reflexivity|cbn in L; lia]|]. destruct s as [|a s]; [reflexivity|]. cbn [List.length] in L.
    destruct (visible_low x Hx) as [X1 X2]. destruct (Hf a) as [Ea|[Va [r Ea]]].
    2:{ rewrite (trim_left_visible a s Va). cbn [flat_map]. rewrite Ea. cbn [app]. now apply trim_left_visible. }
    cbn [flat_map]. rewrite Ea. cbn [app]. cbn [trim_left]. destruct (ascii_space a); [apply IH; lia|].
    assert (KEEP : a :: flat_map f s = flat_map f (a :: s)) by (cbn [flat_map]; now rewrite Ea).
    destruct s as [|b s]; [exact KEEP|]. cbn [flat_map]. cbn [List.length] in L. destruct (Hf b) as [Eb|[Vb [r Eb]]].
    2:{ destruct (visible_low b Vb) as [_ B]. rewrite Eb. cbn [app]. rewrite (uni2_low2 a x), (uni2_low2 a b) by lia.
        assert (T : forall t : bytes, match t with [] => a :: x :: t | c :: s3 => if uni_space3 a x c then trim_left s3 else a :: x :: t end = a :: x :: t)
          by (intros [|c t]; auto; rewrite uni3_low by lia; reflexivity).
        rewrite T. cbn [flat_map] in KEEP. rewrite Eb in KEEP. cbn [app] in KEEP. rewrite KEEP. destruct s as [|c s]; [cbn [flat_map]; now rewrite Ea, Eb|].
        rewrite uni3_low by lia. cbn [flat_map]. now rewrite Ea, Eb. }
    cbn [flat_map] in KEEP. rewrite Eb in *. cbn [app] in *. destruct (uni_space2 a b); [apply IH; lia|].
    destruct s as [|c s]; [cbn [flat_map]; now rewrite Ea, Eb|]. cbn [flat_map] in *. cbn [List.length] in L. destruct (Hf c) as [Ec|[Vc [r Ec]]].
    - rewrite Ec in *. cbn [app] in *. destruct (uni_space3 a b c); [apply IH; lia|]. cbn [flat_map]. now rewrite Ea, Eb, Ec.
    - destruct (visible_low c Vc) as [_ C]. rewrite Ec in *. cbn [app] in *. rewrite !uni3_low by lia. cbn [flat_map]. now rewrite Ea, Eb, Ec.
  Qed.
  Lemma trim_left_rev_map : forall n s, len s <= n -> trim_left_rev (flat_map f s) = flat_map f (trim_left_rev s).
  Proof.
    induction n as [|n IH]; intros s L; [destruct s; [reflexivity|cbn in L; lia]|]. destruct s as [|a s]; [reflexivity|]. cbn [List.length] in L.
    destruct (visible_low x Hx) as [X1 X2]. destruct (Hf a) as [Ea|[Va [r Ea]]].
    2:{ rewrite (trim_left_rev_visible a s Va). cbn [flat_map]. rewrite Ea. cbn [app]. now apply trim_left_rev_visible. }
    cbn [flat_map]. rewrite Ea. cbn [app]. cbn [trim_left_rev]. destruct (ascii_space a); [apply IH; lia|].
    assert (KEEP : a :: flat_map f s = flat_map f (a :: s)) by (cbn [flat_map]; now rewrite Ea).
    destruct s as [|b s]; [exact KEEP|]. cbn [flat_map]. cbn [List.length] in L. destruct (Hf b) as [Eb|[Vb [r Eb]]].
    2:{ destruct (visible_low b Vb) as [_ B]. rewrite Eb. cbn [app]. rewrite (uni2_low1 x a), (uni2_low1 b a) by lia.
        assert (T : forall t : bytes, match t with [] => a :: x :: t | c :: s3 => if uni_space3 c x a then trim_left_rev s3 else a :: x :: t end = a :: x :: t)
          by (intros [|c t]; auto; rewrite uni3_low by lia; reflexivity).
        rewrite T. cbn [flat_map] in KEEP. rewrite Eb in KEEP. cbn [app] in KEEP. rewrite KEEP. destruct s as [|c s]; [cbn [flat_map]; now rewrite Ea, Eb|].
        rewrite uni3_low by lia. cbn [flat_map]. now rewrite Ea, Eb. }
    cbn [flat_map] in KEEP. rewrite Eb in *. cbn [app] in *. destruct (uni_space2 b a); [apply IH; lia|].
    destruct s as [|c s]; [cbn [flat_map]; now rewrite Ea, Eb|]. cbn [flat_map] in *. cbn [List.length] in L. destruct (Hf c) as [Ec|[Vc [r Ec]]].
    - rewrite Ec in *. cbn [app] in *. destruct (uni_space3 c b a); [apply IH; lia|]. cbn [flat_map]. now rewrite Ea, Eb, Ec.
    - destruct (visible_low c Vc) as [_ C]. rewrite Ec in *. cbn [app] in *. rewrite !uni3_low by lia. cbn [flat_map]. now rewrite Ea, Eb, Ec.
  Qed.
End Trim.
Lemma rev_flat_map : forall (f : ascii -> bytes) s, rev (flat_map f s) = flat_map (fun c => rev (f c)) (rev s).
Proof.
  intros f. induction s as [|c s IH]; [reflexivity|]. cbn [flat_map rev]. rewrite rev_app_distr, IH, flat_map_app. cbn [flat_map]. now rewrite app_nil_r.
Qed.
Lemma esc_byte_cases : forall c, esc_byte c = [c] \/
  (visible c /\ (exists r, esc_byte c = "&"%char :: r) /\ exists r, rev (esc_byte c) = ";"%char :: r).
Proof.
  intros c. unfold esc_byte. destruct (find _ predefined) as [[n y]|] eqn:F; [|now left]. right. apply find_some in F. destruct F as [I E]. cbn [snd] in E.
  apply Ascii.eqb_eq in E. subst y. unfold predefined in I. cbn [In] in I.
  repeat (destruct I as [I|I]; [injection I as <- <-; split; [split; vm_compute; discriminate|]; split; eexists; reflexivity|]). contradiction.
Qed.
Lemma trim_esc : forall s, trim_space (esc s) = esc (trim_space s).
Proof.
  intros s. unfold trim_space, trim_right, esc.
  rewrite (trim_left_map esc_byte "&") with (n := len s); auto.
  - rewrite rev_flat_map. rewrite (trim_left_rev_map (fun c => rev (esc_byte c)) ";") with (n := len (rev (trim_left s))); auto.
    + rewrite rev_flat_map. apply flat_map_ext. intros c. apply rev_involutive.
    + split; vm_compute; discriminate.
    + intros c. destruct (esc_byte_cases c) as [E|[V [_ R]]]; [left; now rewrite E|right; auto].
  - split; vm_compute; discriminate.
  - intros c. destruct (esc_byte_cases c) as [E|[V [R _]]]; [now left|right; auto].
Qed.
Lemma esc_decodes : forall s, Decodes (esc s) s.
Proof. intros s. rewrite esc_escape. apply escape_decodes. Qed.

(** ** Edits as a relation *)
Lemma located_unique : forall steps F A nd B, located steps F A nd B -> forall A' nd' B', located steps F A' nd' B' ->
  A' = A /\ nd' = nd /\ B' = B.
Proof.
  induction 1 as [n idx F1 nd F2 H1 H2|n idx rest F1 m a kids F2 A nd B H1 H2 H3 IH]; intros A' nd' B' L.
  - inversion L as [n0 idx0 G1 nd0 G2 K1 K2 Q1 Q2|n0 idx0 r0 G1 m0 a0 k0 G2 A0 nd0 B0 K1 K2 K3 Q1 Q2]; subst; [|inversion K3].
    match goal with Q : _ ++ _ = _ ++ _ |- _ => destruct (split_unique (selects n) _ _ _ _ _ _ Q K1 H1) as [-> [-> ->]]; [congruence|auto] end.
  - inversion L as [n0 idx0 G1 nd0 G2 K1 K2 Q1 Q2|n0 idx0 r0 G1 m0 a0 k0 G2 A0 nd0 B0 K1 K2 K3 Q1 Q2]; subst; [inversion H3|].
    match goal with Q : _ ++ _ = _ ++ _ |- _ => destruct (split_unique (selects n) _ _ _ _ _ _ Q K1 H1) as [-> [E ->]]; [congruence|] end.
    injection E as -> -> ->. destruct (IH _ _ _ K3) as [-> [-> ->]]. auto.
Qed.
Inductive swapped : list tstep -> list node -> node -> list node -> list node -> Prop :=
| sw_here : forall n idx F1 nd l F2, named (selects n) nd = true -> len (called (selects n) F1) = index_of idx ->
    swapped [(n, idx)] (F1 ++ nd :: F2) nd l (F1 ++ l ++ F2)
| sw_down : forall n idx rest F1 m a kids kids' F2 nd l, selects n m = true -> len (called (selects n) F1) = index_of idx ->
    swapped rest kids nd l kids' ->
    swapped ((n, idx) :: rest) (F1 ++ Elem m a false kids :: F2) nd l (F1 ++ Elem m a false kids' :: F2).
Lemma located_swapped : forall steps F A nd B l, located steps F A nd B -> exists F', swapped steps F nd l F' /\ forest_text F' = A ++ forest_text l ++ B.
Proof.
  induction 1 as [n idx F1 nd F2 H1 H2|n idx rest F1 m a kids F2 A nd B H1 H2 H3 [F' [I1 I2]]].
  - eexists. split; [now constructor|]. now rewrite !forest_app.
  - eexists. split; [constructor; eauto|]. rewrite forest_app, forest_cons, node_elem, I2, <- !app_assoc. reflexivity.
Qed.
Lemma swapped_edit : forall steps F nd l F' g, swapped steps F nd l F' -> g nd = l -> edit_at steps g F = Some F'.
Proof.
  induction 1 as [n idx F1 nd l F2 H1 H2|n idx rest F1 m a kids kids' F2 nd l H1 H2 H3 IH]; intros Hg; cbn [edit_at]; apply edit_nth_split.
  - exists F1, nd, F2, l. rewrite <- Hg. auto.
  - exists F1, (Elem m a false kids), F2, [Elem m a false kids']. repeat split; auto. destruct rest; [inversion H3|]. now rewrite IH.
Qed.
Lemma edit_swapped : forall steps g F F', Forall good F -> edit_at steps g F = Some F' -> exists A nd B, located steps F A nd B /\ swapped steps F nd (g nd) F'.
Proof.
  intros steps g F F' G H. destruct (edit_located steps g F F' G H) as [A [nd [B [L _]]]]. exists A, nd, B. split; auto.
  destruct (located_swapped _ _ _ _ _ (g nd) L) as [F2 [S _]]. pose proof (swapped_edit _ _ _ _ _ g S eq_refl) as Q. congruence.
Qed.
Lemma swapped_text : forall steps F nd l F', swapped steps F nd l F' -> forall A B, located steps F A nd B -> forest_text F' = A ++ forest_text l ++ B.
Proof.
  intros steps F nd l F' S A B L. destruct (located_swapped _ _ _ _ _ l L) as [F2 [S2 T]].
  pose proof (swapped_edit _ _ _ _ _ (fun _ => l) S eq_refl) as Q1. pose proof (swapped_edit _ _ _ _ _ (fun _ => l) S2 eq_refl) as Q2. congruence.
Qed.
Lemma swapped_good : forall steps F nd l F', swapped steps F nd l F' -> Forall good F -> Forall good l -> Forall good F'.
Proof.
  induction 1 as [n idx F1 nd l F2 H1 H2|n idx rest F1 m a kids kids' F2 nd l H1 H2 H3 IH]; intros G Gl; apply Forall_app in G; destruct G as [G1 G2];
    inversion G2 as [|? ? G3 G4]; subst; apply Forall_app; split; auto.
  - apply Forall_app. auto.
  - constructor; auto. inversion G3; subst. constructor; auto; discriminate.
Qed.
(** Replacing an element by one of the same name. *)
Lemma swapped_located : forall steps F nd l F', swapped steps F nd l F' -> forall nd', l = [nd'] -> is_elem nd' = true -> name_of nd' = name_of nd ->
  forall A B, located steps F A nd B -> located steps F' A nd' B.
Proof.
  induction 1 as [n idx F1 nd l F2 H1 H2|n idx rest F1 m a kids kids' F2 nd l H1 H2 H3 IH]; intros nd' -> E N A B L.
  - pose proof (loc_here n idx F1 nd F2 H1 H2) as L0. destruct (located_unique _ _ _ _ _ L0 _ _ _ L) as [-> [_ ->]].
    cbn [app]. constructor; auto. destruct nd; [|discriminate|discriminate]. rewrite named_called in * by auto. now rewrite N.
  - inversion L as [n0 idx0 G1 nd0 G2 K1 K2 Q1 Q2|n0 idx0 r0 G1 m0 a0 k0 G2 A0 nd0 B0 K1 K2 K3 Q1 Q2]; subst; [inversion H3|].
    match goal with Q : _ ++ _ = _ ++ _ |- _ => destruct (split_unique (selects n) _ _ _ _ _ _ Q K1 H1) as [-> [Q0 ->]]; [congruence|] end.
    injection Q0 as -> -> ->. constructor; auto.
Qed.
Definition top_names (F : list node) : list bytes := map name_of (elems F).
Lemma top_names_app : forall F G, top_names (F ++ G) = top_names F ++ top_names G.
Proof. intros. unfold top_names, elems. now rewrite filter_app, map_app. Qed.
Lemma swapped_names : forall steps F nd l F', swapped steps F nd l F' -> (is_elem nd = true /\ top_names l = [name_of nd]) \/ len steps <> 1 -> top_names F' = top_names F.
Proof.
  intros steps F nd l F' H K. inversion H as [n idx F1 x k F2 H1 H2|n idx rest F1 m a kids kids' F2 x k H1 H2 H3]; subst.
  - destruct K as [[K1 K2]|K]; [|cbn in K; lia]. rewrite !top_names_app. change (nd :: F2) with ([nd] ++ F2). rewrite top_names_app, K2.
    unfold top_names, elems. cbn [filter]. now rewrite K1.
  - rewrite !top_names_app. reflexivity.
Qed.

(** ** Queries at located elements *)
Lemma called_cons : forall f nd F, called f (nd :: F) = if named f nd then nd :: called f F else called f F.
Proof. reflexivity. Qed.
Lemma called_nth : forall f F1 nd F2, named f nd = true -> nth_error (called f (F1 ++ nd :: F2)) (len (called f F1)) = Some nd.
Proof.
  intros f F1 nd F2 H. unfold called. rewrite filter_app, nth_error_app2, Nat.sub_diag by auto. fold (called f (nd :: F2)). now rewrite called_cons, H.
Qed.
Lemma called_ext : forall f g F, (forall m, In m (top_names F) -> f m = g m) -> called f F = called g F.
Proof.
  intros f g F H. unfold called. apply filter_ext_in. intros nd I. destruct nd as [n a s k| |]; auto. apply H.
  unfold top_names. change n with (name_of (Elem n a s k)). apply in_map. unfold elems. apply filter_In. auto.
Qed.
Lemma nth_firstn : forall A (l : list A) k i, i < k -> nth_error (firstn k l) i = nth_error l i.
Proof. intros A l. induction l as [|x l IH]; intros [|k] [|i] H; auto; try lia. cbn [firstn nth_error]. apply IH. lia. Qed.
Lemma first_hit : forall f l nd, nth_error l 0 = Some nd -> f nd <> Nothing -> first_answer f l = f nd.
Proof. intros f [|x l] nd H N; [discriminate|]. injection H as ->. cbn [first_answer]. destruct (f nd); auto. contradiction. Qed.
(** The indexes below 1000, and a leading indexed name whose matches carry exactly that name. *)
Definition index_small (s : tstep) : Prop := match snd s with Some ds => (decimal_value ds < 1000)%N | None => True end.
Definition clear_start (steps : list tstep) (F : list node) : Prop :=
  match steps with
  | (n, Some _) :: _ => forall m, In m (top_names F) -> selects n m = bytes_eqb n m
  | _ => True
  end.
Lemma query_located : forall steps F A nd B, located steps F A nd B -> forall top fin, final_answer fin nd <> Nothing -> Forall index_small steps ->
  (top = true -> clear_start steps F) -> query top steps fin F = final_answer fin nd.
Proof.
  induction 1 as [n idx F1 nd F2 H1 H2|n idx rest F1 m a kids F2 A nd B H1 H2 H3 IH]; intros top fin NN SM CS.
  - assert (NC : fin <> TheChildren /\ fin <> TheCount) by (split; intros ->; now apply NN).
    inversion SM as [|? ? SM1 _]; subst. unfold index_small in SM1. cbn [snd] in SM1. cbn [query]. pose proof (called_nth (selects n) F1 nd F2 H1) as CN. rewrite H2 in CN. destruct idx as [ds|].
    + assert (EX : called (if top then bytes_eqb n else selects n) (F1 ++ nd :: F2) = called (selects n) (F1 ++ nd :: F2)).
      { destruct top; auto. symmetry. apply called_ext. exact (CS eq_refl). }
      cbn [index_of] in CN. rewrite EX, nth_firstn, CN; [|lia]. destruct fin; try reflexivity. destruct NC; contradiction.
    + destruct (called (selects n) (F1 ++ nd :: F2)) as [|x l]; [discriminate|]. injection CN as ->. destruct fin; try reflexivity; destruct NC; contradiction.
  - inversion SM as [|? ? SM1 SM2]; subst. unfold index_small in SM1. cbn [snd] in SM1. pose proof (called_nth (selects n) F1 (Elem m a false kids) F2 H1) as CN. rewrite H2 in CN.
    specialize (IH false fin NN SM2 ltac:(discriminate)). rewrite query_cons.
    assert (LA : is_last rest fin = false) by (destruct rest; [inversion H3|reflexivity]). cbv zeta. rewrite LA.
    destruct idx as [ds|]; cbn [index_of] in CN.
    + assert (EX : called (if top then bytes_eqb n else selects n) (F1 ++ Elem m a false kids :: F2) = called (selects n) (F1 ++ Elem m a false kids :: F2)).
      { destruct top; auto. symmetry. apply called_ext. exact (CS eq_refl). }
      rewrite EX, nth_firstn, CN; [|lia]. exact IH.
    + erewrite (first_hit _ _ (Elem m a false kids)); [exact IH|exact CN|]. cbn [kids_of]. rewrite IH. exact NN.
Qed.

(** ** Slices *)
Lemma slice_to_app : forall A B n, n = Z.of_nat (len A) -> slice_to (A ++ B) n = Ok A.
Proof.
  intros A B n ->. unfold slice_to. rewrite app_length, (proj2 (Z.leb_le _ _)), (proj2 (Z.leb_le _ _)) by lia. cbn [andb].
  rewrite Nat2Z.id, firstn_app, Nat.sub_diag, firstn_all, app_nil_r. reflexivity.
Qed.
Lemma slice_from_app : forall A B n, n = Z.of_nat (len A) -> slice_from (A ++ B) n = Ok B.
Proof.
  intros A B n ->. unfold slice_from. rewrite app_length, (proj2 (Z.leb_le _ _)), (proj2 (Z.leb_le _ _)) by lia. cbn [andb].
  rewrite Nat2Z.id, skipn_app, Nat.sub_diag, skipn_all. reflexivity.
Qed.
Lemma get_result_some : forall d r, r <> [] -> get_result d r = r.
Proof. intros d [|c r] H; [contradiction|reflexivity]. Qed.

(** ** Paths of elements *)
Definition step_idx (s : tstep) : list seg := match snd s with Some ds => [step_seg (Nth ds, [])] | None => [] end.
Lemma intents_steps : forall steps tail, (forall sg, In sg tail -> s_type sg <> SIndex) -> check_intents (segs_of steps TheElement ++ tail) = IntentsOk.
Proof.
  induction steps as [|[n idx] rest IH]; intros tail H.
  - cbn [segs_of tpath_steps flat_map app final_steps map]. induction tail as [|sg tail IHt]; [reflexivity|]. cbn [check_intents].
    pose proof (H sg (or_introl eq_refl)) as N. rewrite IHt by (intros; apply H; now right). destruct (s_type sg); auto. contradiction.
  - rewrite segs_cons. cbn [app check_intents elem_seg s_type]. destruct idx as [ds|]; cbn [app]; [|now apply IH].
    cbn [check_intents]. change (s_type (step_seg (Nth ds, []))) with SIndex. cbn iota. unfold resolve_index_intent.
    rewrite (proj2 (Z.leb_le _ _)); [now apply IH|]. cbn [step_seg s_index]. unfold int64_max. lia.
Qed.
Lemma last_steps : forall steps d, steps <> [] -> s_type (last (segs_of steps TheElement) d) <> SAttr.
Proof.
  intros steps d H. destruct (exists_last H) as [l [[n idx] ->]]. unfold segs_of, tpath_steps. cbn [final_steps]. rewrite app_nil_r, flat_map_app, map_app.
  cbn [flat_map tstep_steps]. destruct idx as [ds|]; cbn [map app].
  - change ([step_seg (Name n, []); step_seg (Nth ds, [])]) with ([step_seg (Name n, [])] ++ [step_seg (Nth ds, [])]). rewrite app_assoc, last_last. discriminate.
  - rewrite last_last. discriminate.
Qed.
Lemma type_attr_false : forall t, t <> SAttr -> segtype_eqb t SAttr = false.
Proof. intros [] H; try reflexivity. contradiction. Qed.
Lemma segs_nonempty : forall steps, steps <> [] -> exists sg r, segs_of steps TheElement = sg :: r.
Proof. intros [|[n idx] r] H; [contradiction|]. rewrite segs_cons. eauto. Qed.
Lemma parse_default : forall path segs, parse_path path = Ok segs -> parse_path_opts default_options path = Ok segs.
Proof. intros path segs H. unfold parse_path_opts. rewrite H. reflexivity. Qed.
Lemma size_pos : forall s : bytes, (blen s <= 10485760)%N -> (Z.of_nat (len s) <= MaxPositionOffset)%Z.
Proof. intros s H. unfold blen in H. unfold MaxPositionOffset. lia. Qed.
Lemma size_ok : forall s : bytes, (blen s <= 10485760)%N -> (MaxDocumentSize <? blen s)%N = false.
Proof. intros s H. apply N.ltb_ge. exact H. Qed.
Lemma located_nonempty : forall steps F A nd B, located steps F A nd B -> steps <> [].
Proof. intros steps F A nd B H. inversion H; discriminate. Qed.

Section Set_.
  Variable E : env.
  Variable fmt_g : f64 -> bytes.
  Hypothesis Hord : forall k l, Permutation l (e_ord E k l).
  Section Doc.
  Variable p : bytes.
  Variable F : list node.
  Hypothesis Hp : prolog p.
  Hypothesis Hg : Forall good F.
  Let d := p ++ forest_text F.
  Hypothesis Hd : (blen d <= 10485760)%N.

  (** What the search for an element finds. *)
  Lemma find_doc : forall steps key, steps <> [] -> Forall good_tstep steps ->
    exists r, find_loc E default_options key d (segs_of steps TheElement) 0 = Ok r /\
      match r with
      | Some l => exists A nd B, located steps F A nd B /\ at_loc (Z.of_nat (len p)) A nd l
      | None => forall A nd B, ~ located steps F A nd B
      end.
  Proof.
    intros steps key NE GS. destruct (find_loc_tree E Hord steps NE GS F F p 0 key) as [r [R1 R2]]; auto using same_all_refl, skippable_prolog; [lia| |].
    - pose proof (size_pos _ Hd). unfold d in *. lia.
    - exists r. split; auto.
  Qed.
  Lemma find_some : forall steps key A nd B, Forall good_tstep steps -> located steps F A nd B ->
    exists l, find_loc E default_options key d (segs_of steps TheElement) 0 = Ok (Some l) /\ at_loc (Z.of_nat (len p)) A nd l.
  Proof.
    intros steps key A nd B GS L. destruct (find_doc steps key (located_nonempty _ _ _ _ _ L) GS) as [[l|] [R1 R2]].
    - destruct R2 as [A' [nd' [B' [L' AT]]]]. destruct (located_unique _ _ _ _ _ L _ _ _ L') as [-> [-> ->]]. eauto.
    - destruct (R2 _ _ _ L).
  Qed.
  Lemma find_none : forall steps key, Forall good_tstep steps -> steps <> [] -> (forall A nd B, ~ located steps F A nd B) ->
    find_loc E default_options key d (segs_of steps TheElement) 0 = Ok None.
  Proof.
    intros steps key GS NE H. destruct (find_doc steps key NE GS) as [[l|] [R1 R2]]; auto. destruct R2 as [A' [nd' [B' [L' AT]]]]. destruct (H _ _ _ L').
  Qed.

  Hypothesis Hv : valid d = true.
  Lemma set_start : forall path v segs, v <> VNil -> parse_path path = Ok segs -> segs <> [] ->
    set E fmt_g d path v = edit_of d (set_element E fmt_g default_options d segs v).
  Proof.
    intros path v segs NV P NE. unfold set, set_opts. rewrite (size_ok _ Hd), Hv. cbn [negb].
    replace (match d with [] => false | _ :: _ => false end) with false by (destruct d; reflexivity). rewrite (parse_default _ _ P).
    destruct segs; [contradiction|]. destruct v; try reflexivity. contradiction.
  Qed.
  (** Replacing the content of an element. *)
  Lemma set_found : forall steps A n a self kids B v xv, good_tpath steps TheElement -> located steps F A (Elem n a self kids) B ->
    v <> VNil -> value_to_xml fmt_g v = inr xv -> (blen xv <= 5242880)%N ->
    set E fmt_g d (tpath steps TheElement) v =
      Ok (p ++ A ++ start_tag n a self ++ xv ++ (if self then [] else end_tag n) ++ B, None).
  Proof.
    intros steps A n a self kids B v xv GT L NV XV SZ. pose proof (located_nonempty _ _ _ _ _ L) as NE.
    destruct (segs_nonempty steps NE) as [sg [r Q]]. pose proof (segs_parse _ _ GT) as P. rewrite (set_start _ v _ NV P) by (rewrite Q; discriminate).
    unfold set_element. rewrite Q. cbn iota. rewrite XV. rewrite (proj2 (N.ltb_ge MaxValueSize (blen xv)) SZ), (size_ok _ Hd).
    rewrite <- Q. rewrite <- (app_nil_r (segs_of steps TheElement)), intents_steps, app_nil_r by (intros ? []).
    rewrite (type_attr_false _ (last_steps steps _ NE)). destruct GT as [GS _ _].
    destruct (find_some steps [3] A _ B GS L) as [l [R AT]]. rewrite R. cbn [bind]. inversion AT as [n1 a1 self1 kids1 l1 B1 B2 B3 B4 B5 B6 B7]; subst n1 a1 self1 kids1 l1.
    pose proof (located_text _ _ _ _ _ L) as T. destruct (located_good _ _ _ _ _ L Hg) as [GE _]. inversion GE as [? ? ? ? GN GA GSf GK| |]; subst n0 a0 self0 kids0.
    unfold lift, replace_element.
    assert (D1 : d = (p ++ A ++ start_tag n a self) ++ (if self then [] else forest_text kids ++ end_tag n) ++ B).
    { unfold d. rewrite T. cbn [node_text]. unfold forest_text. now rewrite <- !app_assoc. }
    assert (D2 : d = (p ++ A ++ start_tag n a self ++ (if self then [] else forest_text kids)) ++ (if self then [] else end_tag n) ++ B).
    { rewrite D1, <- !app_assoc. destruct self; [reflexivity|]. now rewrite <- !app_assoc. }
    assert (S1 : slice_to d (l_content_start l) = Ok (p ++ A ++ start_tag n a self)).
    { rewrite D1. apply slice_to_app. rewrite B2, !app_length. lia. }
    assert (S2 : slice_from d (l_content_end l) = Ok ((if self then [] else end_tag n) ++ B)).
    { rewrite D2. apply slice_from_app. rewrite B3, B2, !app_length. destruct self; cbn [List.length]; lia. }
    rewrite S1. cbn [bind]. rewrite S2. cbn [bind edit_of].
    rewrite get_result_some; [now rewrite <- !app_assoc|]. unfold start_tag. intros K. apply (f_equal (@List.length ascii)) in K.
    rewrite !app_length in K. change (len (bs "<")) with 1 in K. cbn [List.length] in K. lia.
  Qed.
  End Doc.
End Set_.
