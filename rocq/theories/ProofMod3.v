(** Proofs about modifiers in queries, sorting and accessors. *)
From Coq Require Import List Ascii String NArith ZArith Bool Lia SpecFloat Permutation.
From Verif Require Import GoStr ModelPretty ModelParser ModelPattern ModelPath ModelResult ModelQuery SpecPath SpecMod
  ProofBase ProofPath ProofFuel ProofMono ProofSyntax ProofMod.
Import ListNotations.
Local Notation len := List.length.

Lemma no_field_names : forall names x, no_field (map (fun n => (Name n, [])) names ++ [x]).
Proof. induction names as [|n names IH]; intros [st ms]; cbn [map app no_field]; [destruct st; exact I|auto]. Qed.
Lemma get_mods : forall E xml names st ms,
  (blen xml <= 10485760)%N -> Forall plain_name names -> good_step st -> Forall good_mod ms ->
  last_step_ok (len names) st -> len names < 100 ->
  (forall r, r_exists r = true -> r_is_array r = false -> r_exists (apply_modifiers E r ms) = true) ->
  get E xml (steps_text (map (fun n => (Name n, [])) names ++ [(st, ms)])) =
  let* r := get E xml (steps_text (map (fun n => (Name n, [])) names ++ [(st, [])])) in
  Ok (if r_exists r then apply_modifiers E r ms else r).
Proof.
  intros E xml names st ms Hx Hn Hst Hms Hl Hlen Hkeep.
  assert (P : forall ms, Forall good_mod ms ->
    parse_path (steps_text (map (fun n => (Name n, [])) names ++ [(st, ms)])) =
    Ok (map step_seg (map (fun n => (Name n, [])) names) ++ [step_seg (st, ms)])).
  { intros ms0 H0. rewrite parse_steps.
    - rewrite map_app. reflexivity.
    - destruct names; discriminate.
    - apply Forall_app. split.
      + apply Forall_map. eapply Forall_impl; [|exact Hn]. intros a Ha. split; [exact Ha|constructor].
      + constructor; [split; auto|constructor].
    - apply no_field_names.
    - rewrite app_length, map_length. cbn. lia. }
  set (ns := map step_seg (map (fun n => (Name n, [])) names)) in *.
  assert (Hns : Forall (fun x => s_type x = SElem /\ s_mods x = []) ns).
  { unfold ns. rewrite map_map. apply Forall_map. apply Forall_forall. intros; split; reflexivity. }
  assert (Hlns : len ns = len names) by (unfold ns; rewrite !map_length; reflexivity).
  set (f := S (cost (ns ++ [step_seg (st, ms)]) + cost (ns ++ [step_seg (st, [])]))).
  rewrite (get_exec E xml _ _ f Hx (P ms Hms)); [|destruct ns; discriminate|unfold f; lia].
  rewrite (get_exec E xml _ _ f Hx (P [] (Forall_nil _))); [|destruct ns; discriminate|unfold f; lia].
  assert (W : step_seg (st, ms) = with_mods (step_seg (st, [])) ms) by (destruct st; reflexivity).
  rewrite W. rewrite exec_mods.
  - destruct (exec E f [] true xml (ns ++ [step_seg (st, [])])) as [r| |]; [|reflexivity|reflexivity].
    cbn [bind]. unfold then_mods, r_exists, is_null. destruct (rtype_eqb (r_type r) RNull); reflexivity.
  - intros r H1 H2. unfold is_null, r_exists in *. apply negb_true_iff. apply Hkeep; auto.
    rewrite H1. reflexivity.
  - destruct st; reflexivity.
  - exact Hns.
  - rewrite Hlns. unfold simple_end. destruct st; cbn [step_seg s_type last_step_ok] in *; auto.
Qed.

(** ** Order of strings *)
Lemma bytes_ltb_irrefl : forall a, bytes_ltb a a = false.
Proof. induction a as [|x a IH]; [reflexivity|]. cbn [bytes_ltb]. rewrite N.ltb_irrefl. rewrite (proj2 (ascii_eqb_true x x) eq_refl). exact IH. Qed.
Lemma bytes_ltb_trans : forall a b c, bytes_ltb a b = true -> bytes_ltb b c = true -> bytes_ltb a c = true.
Proof.
  induction a as [|x a IH]; intros [|y b] [|z c] H1 H2; cbn [bytes_ltb] in *; try discriminate; auto.
  destruct (code x <? code y)%N eqn:A.
  - apply N.ltb_lt in A. destruct (code y <? code z)%N eqn:B.
    + apply N.ltb_lt in B. rewrite (proj2 (N.ltb_lt (code x) (code z))) by lia. reflexivity.
    + destruct (Ascii.eqb y z) eqn:C; [|discriminate]. apply ascii_eqb_true in C. subst. rewrite (proj2 (N.ltb_lt _ _) A). reflexivity.
  - destruct (Ascii.eqb x y) eqn:C; [|discriminate]. apply ascii_eqb_true in C. subst y.
    destruct (code x <? code z)%N; auto. destruct (Ascii.eqb x z); [|discriminate]. now apply (IH b c).
Qed.
Lemma bytes_ltb_total : forall a b, bytes_ltb a b = false -> bytes_ltb b a = false -> a = b.
Proof.
  induction a as [|x a IH]; intros [|y b] H1 H2; cbn [bytes_ltb] in *; try discriminate; auto.
  destruct (code x <? code y)%N eqn:A; [discriminate|]. destruct (code y <? code x)%N eqn:B; [discriminate|].
  apply N.ltb_ge in A. apply N.ltb_ge in B. assert (x = y) by (apply code_inj; lia). subst y.
  rewrite (proj2 (ascii_eqb_true x x) eq_refl) in *. f_equal. auto.
Qed.
Lemma weak_total : forall (A K : Type) (lt : K -> K -> bool) (key : A -> K) (P : A -> Prop) l,
  (forall x, In x l -> P x) ->
  (forall a, P a -> lt (key a) (key a) = false) ->
  (forall a b c, P a -> P b -> P c -> lt (key a) (key b) = true -> lt (key b) (key c) = true -> lt (key a) (key c) = true) ->
  (forall a b c, P a -> P b -> P c -> lt (key a) (key b) = false -> lt (key b) (key a) = false -> lt (key a) (key c) = lt (key b) (key c) /\ lt (key c) (key a) = lt (key c) (key b)) ->
  weak_order (fun a b => lt (key a) (key b)) l.
Proof.
  intros A K lt key P l HP I T Q. split; [intros x Hx; apply I; auto|]. split.
  - intros x y z Hx Hy Hz H1 H2. eapply T; [| | |exact H1|exact H2]; auto.
  - intros x y z Hx Hy Hz H1 H2.
    destruct (lt (key x) (key z)) eqn:E; [|reflexivity]. exfalso.
    destruct (lt (key y) (key x)) eqn:F.
    + assert (lt (key y) (key z) = true) by (eapply (T y x z); auto). congruence.
    + destruct (Q x y z) as [Q1 Q2]; auto. congruence.
Qed.
Lemma less_str_weak : forall l, weak_order less_str l.
Proof.
  intros l. apply (weak_total result bytes bytes_ltb r_string (fun _ => True)); auto.
  - intros; apply bytes_ltb_irrefl.
  - intros a b c _ _ _. apply bytes_ltb_trans.
  - intros a b c _ _ _ H1 H2. rewrite (bytes_ltb_total _ _ H1 H2). auto.
Qed.

(** ** Order of numbers *)
Lemma SFltb_irrefl : forall f, SFltb f f = false.
Proof.
  intros [[]|[]| |[] m e]; try reflexivity; unfold SFltb, SFcompare; rewrite Z.compare_refl, Pos.compare_refl; reflexivity.
Qed.
Lemma SFltb_total : forall a b, no_nan a -> no_nan b -> SFltb a b = false -> SFltb b a = false -> norm0 a = norm0 b.
Proof.
  intros [sa|sa| |sa ma ea] [sb|sb| |sb mb eb] Ha Hb; try contradiction; unfold SFltb, SFcompare; repeat match goal with |- context [Pos.compare_cont Eq ?a ?b] => change (Pos.compare_cont Eq a b) with (Pos.compare a b) end;
    repeat match goal with |- context [if ?s then _ else _] => destruct s end; try discriminate; try reflexivity;
    destruct (Z.compare_spec ea eb) as [E|E|E]; destruct (Z.compare_spec eb ea) as [E'|E'|E']; try lia; try discriminate;
    destruct (Pos.compare_spec ma mb) as [M|M|M]; destruct (Pos.compare_spec mb ma) as [M'|M'|M']; try lia; try discriminate; cbn;
    intros; subst; reflexivity.
Qed.
Lemma SFltb_trans : forall a b c, no_nan a -> no_nan b -> no_nan c -> SFltb a b = true -> SFltb b c = true -> SFltb a c = true.
Proof.
  intros [sa|sa| |sa ma ea] [sb|sb| |sb mb eb] [sc|sc| |sc mc ec] Ha Hb Hc; try contradiction; unfold SFltb, SFcompare; repeat match goal with |- context [Pos.compare_cont Eq ?a ?b] => change (Pos.compare_cont Eq a b) with (Pos.compare a b) end;
    try destruct sa; try destruct sb; try destruct sc; try discriminate; auto;
    intros H1 H2;
    destruct (Z.compare_spec ea eb) as [E|E|E]; try discriminate H1;
    destruct (Z.compare_spec eb ec) as [F|F|F]; try discriminate H2;
    destruct (Z.compare_spec ea ec) as [G|G|G]; try lia; try reflexivity;
    destruct (Pos.compare_spec ma mb) as [M|M|M]; try discriminate H1;
    destruct (Pos.compare_spec mb mc) as [M2|M2|M2]; try discriminate H2;
    destruct (Pos.compare_spec ma mc) as [M3|M3|M3]; try lia; reflexivity.
Qed.
Lemma SFltb_norm : forall a b, SFltb (norm0 a) (norm0 b) = SFltb a b.
Proof. intros [[]|[]| |[] ma ea] [[]|[]| |[] mb eb]; reflexivity. Qed.
Lemma less_num_weak : forall E l, Forall (fun x => no_nan (sort_num E x)) l -> weak_order (less_num E) l.
Proof.
  intros E l H. rewrite Forall_forall in H. apply (weak_total result f64 SFltb (sort_num E) (fun x => no_nan (sort_num E x))); auto.
  - intros; apply SFltb_irrefl.
  - intros a b c H1 H2 H3. now apply SFltb_trans.
  - intros a b c Ha Hb Hc H1 H2. rewrite <- (SFltb_norm (sort_num E a)), <- (SFltb_norm (sort_num E b)).
    rewrite (SFltb_total _ _ Ha Hb H1 H2). rewrite <- (SFltb_norm (sort_num E c) (sort_num E a)), <- (SFltb_norm (sort_num E c) (sort_num E b)).
    rewrite (SFltb_total _ _ Ha Hb H1 H2). auto.
Qed.
(** Two ascending arrangements of the same entries agree on the keys. *)
Lemma ascending_unique : forall (A K : Type) (lt : A -> A -> bool) (key : A -> K) l l',
  (forall x y, In x l -> In y l -> lt x y = false -> lt y x = false -> key x = key y) ->
  (forall x y x' y', In x l -> In y l -> In x' l -> In y' l -> key x = key x' -> key y = key y' -> lt x y = lt x' y') ->
  ascending lt l -> ascending lt l' -> Permutation (map key l) (map key l') ->
  (forall y, In y l' -> In y l) -> (forall x, In x l -> lt x x = false) ->
  map key l = map key l'.
Proof.
  intros A K lt key l. 
  enough (G : forall U l l', (forall x y, In x U -> In y U -> lt x y = false -> lt y x = false -> key x = key y) ->
    (forall x y x' y', In x U -> In y U -> In x' U -> In y' U -> key x = key x' -> key y = key y' -> lt x y = lt x' y') ->
    (forall x, In x U -> lt x x = false) ->
    ascending lt l -> ascending lt l' -> Permutation (map key l) (map key l') ->
    (forall y, In y l -> In y U) -> (forall y, In y l' -> In y U) -> map key l = map key l').
  { intros l' H1 H2 H3 H4 H5 H6 H7. eapply (G l); eauto. }
  clear l. intros U l. induction l as [|x l IH]; intros l' Ht Hc Hi HA HA' HP HU HU'.
  - apply Permutation_nil in HP. symmetry. exact HP.
  - destruct l' as [|y l']; [apply Permutation_sym, Permutation_nil in HP; discriminate|].
    cbn [map] in *. destruct HA as [HA1 HA2]. destruct HA' as [HB1 HB2].
    rewrite Forall_forall in HA1, HB1.
    assert (K1 : lt y x = false).
    { assert (In (key y) (key x :: map key l)) by (eapply Permutation_in; [symmetry; exact HP|now left]).
      destruct H as [H|H].
      - rewrite (Hc y x x x); auto; [apply Hi; apply HU; now left|apply HU'; now left|apply HU; now left|apply HU; now left|apply HU; now left].
      - apply in_map_iff in H. destruct H as [z [Hz Hin]].
        rewrite (Hc y x z x); auto; [apply HU'; now left|apply HU; now left|apply HU; now right|apply HU; now left]. }
    assert (K2 : lt x y = false).
    { assert (In (key x) (key y :: map key l')) by (eapply Permutation_in; [exact HP|now left]).
      destruct H as [H|H].
      - rewrite (Hc x y y y); auto; [apply Hi; apply HU'; now left|apply HU; now left|apply HU'; now left|apply HU'; now left|apply HU'; now left].
      - apply in_map_iff in H. destruct H as [z [Hz Hin]].
        rewrite (Hc x y z y); auto; [apply HU; now left|apply HU'; now left|apply HU'; now right|apply HU'; now left]. }
    assert (E : key x = key y) by (apply Ht; auto; [apply HU; now left|apply HU'; now left]).
    f_equal; [exact E|]. rewrite E in HP. apply Permutation_cons_inv in HP. apply IH; auto.
    + intros z Hz. apply HU. now right.
    + intros z Hz. apply HU'. now right.
Qed.

(** ** @sort *)
Lemma ascending_ext : forall A (lt lt' : A -> A -> bool) l, (forall x y, In x l -> In y l -> lt x y = lt' x y) -> ascending lt l -> ascending lt' l.
Proof.
  induction l as [|x l IH]; intros H HA; [exact I|]. destruct HA as [H1 H2]. split.
  - rewrite Forall_forall in *. intros y Hy. rewrite <- H; [now apply H1|now right|now left].
  - apply IH; auto. intros; apply H; now right.
Qed.
Lemma numeric_spec : forall E x, sort_numeric E x = true <-> numeric E x.
Proof.
  intros E x. unfold sort_numeric, numeric.
  destruct (r_type x); destruct (e_parse_float E (r_str x)); split; intros H; auto; try discriminate;
    try (right; split; [auto|discriminate]); intuition (try discriminate; try congruence).
Qed.
Lemma numeric_float : forall E x, numeric E x -> sort_num E x = r_float E x.
Proof.
  intros E x H. unfold sort_num, r_float. destruct H as [->|[[->|[->| ->]] _]]; reflexivity.
Qed.
Lemma sort_spec : forall E r, sorts (e_sort E) -> r_type r = RArray ->
  exists l, r_type (mod_sort E r) = RArray /\ r_results (mod_sort E r) = l /\ Permutation (r_results r) l /\
    (Forall (numeric E) (r_results r) -> Forall (fun x => no_nan (r_float E x)) (r_results r) ->
       ascending (fun a b => SFltb (r_float E a) (r_float E b)) l) /\
    (~ Forall (numeric E) (r_results r) -> ascending (fun a b => bytes_ltb (r_string a) (r_string b)) l).
Proof.
  intros E r Hs Hr. unfold mod_sort, r_is_array. rewrite Hr. cbn [rtype_eqb].
  destruct (r_results r) as [|x [|y l]] eqn:L.
  - exists []. rewrite Hr, L. repeat split; auto.
  - exists [x]. rewrite Hr, L. repeat split; auto.
  - set (all := x :: y :: l).
    destruct (forallb (sort_numeric E) all) eqn:F.
    + rewrite forallb_forall in F.
      assert (N : Forall (numeric E) all) by (apply Forall_forall; intros z Hz; apply numeric_spec; auto).
      destruct (Hs (less_num E) all) as [HP HA].
      exists (e_sort E (less_num E) all). repeat split; auto.
      * intros _ NN. apply (ascending_ext _ (less_num E)).
        -- intros a b Ha Hb. unfold less_num. rewrite Forall_forall in N.
           rewrite !numeric_float; auto; apply N; (eapply Permutation_in; [symmetry; exact HP|auto]).
        -- apply HA. apply less_num_weak. rewrite Forall_forall in *. intros z Hz. rewrite numeric_float; auto.
      * intros K. contradiction.
    + destruct (Hs less_str all) as [HP HA].
      exists (e_sort E less_str all). repeat split; auto.
      * intros N _. exfalso. apply not_true_iff_false in F. apply F. apply forallb_forall. rewrite Forall_forall in N.
        intros z Hz. apply numeric_spec. auto.
      * intros _. apply HA. apply less_str_weak.
Qed.
Lemma Forall_perm : forall (A : Type) (P : A -> Prop) l l', Permutation l l' -> Forall P l -> Forall P l'.
Proof. intros A P l l' H F. rewrite Forall_forall in *. intros x Hx. apply F. eapply Permutation_in; [symmetry; exact H|auto]. Qed.
(** Sorting again changes nothing but the order of ties. *)
Lemma sort_again : forall E r, sorts (e_sort E) -> r_type r = RArray ->
  (Forall (numeric E) (r_results r) -> Forall (fun x => no_nan (r_float E x)) (r_results r) ->
     map (fun x => norm0 (r_float E x)) (r_results (mod_sort E (mod_sort E r))) =
     map (fun x => norm0 (r_float E x)) (r_results (mod_sort E r))) /\
  (~ Forall (numeric E) (r_results r) ->
     map r_string (r_results (mod_sort E (mod_sort E r))) = map r_string (r_results (mod_sort E r))).
Proof.
  intros E r Hs Hr. destruct (sort_spec E r Hs Hr) as (l & T1 & L1 & P1 & N1 & S1).
  destruct (sort_spec E _ Hs T1) as (l2 & T2 & L2 & P2 & N2 & S2). rewrite L1 in *. rewrite L2 in *.
  split.
  - intros HN HX. pose proof (Forall_perm _ _ _ _ P1 HN) as HN1. pose proof (Forall_perm _ _ _ _ P1 HX) as HX1.
    specialize (N1 HN HX). specialize (N2 HN1 HX1). symmetry.
    apply (ascending_unique _ _ (fun a b => SFltb (r_float E a) (r_float E b))); auto.
    + rewrite Forall_forall in HX1. intros x y Hx Hy A B. apply SFltb_total; auto.
    + intros x y x' y' _ _ _ _ A B. rewrite <- SFltb_norm, A, B, SFltb_norm. reflexivity.
    + now apply Permutation_map.
    + intros y Hy. eapply Permutation_in; [symmetry; exact P2|auto].
    + intros; apply SFltb_irrefl.
  - intros HN. assert (HN1 : ~ Forall (numeric E) l).
    { intros K. apply HN. eapply Forall_perm; [symmetry; exact P1|exact K]. }
    specialize (S1 HN). specialize (S2 HN1). symmetry.
    apply (ascending_unique _ _ (fun a b => bytes_ltb (r_string a) (r_string b))); auto.
    + intros x y _ _ A B. now apply bytes_ltb_total.
    + intros x y x' y' _ _ _ _ -> ->. reflexivity.
    + now apply Permutation_map.
    + intros y Hy. eapply Permutation_in; [symmetry; exact P2|auto].
    + intros; apply bytes_ltb_irrefl.
Qed.

(** ** Accessors *)
Lemma foreach_loop_spec : forall S (f : S -> nat -> result -> S * bool) l i st,
  exists vis rest, combine (seq i (len l)) l = vis ++ rest /\ foreach_loop f st i l = run f st vis /\
    (forall a x b, vis = a ++ x :: b -> b <> [] -> snd (f (run f st a) (fst x) (snd x)) = true) /\
    (rest <> [] -> exists a x, vis = a ++ [x] /\ snd (f (run f st a) (fst x) (snd x)) = false).
Proof.
  intros S f. induction l as [|x l IH]; intros i st.
  - exists [], []. repeat split; auto; [intros [|] ? ? H; discriminate|easy].
  - cbn [len seq combine foreach_loop]. destruct (f st i x) as [st' go] eqn:F. destruct go.
    + destruct (IH (Datatypes.S i) st') as (vis & rest & E1 & E2 & E3 & E4).
      assert (R : forall k, run f st ((i, x) :: k) = run f st' k) by (intros k; unfold run; cbn [fold_left fst snd]; rewrite F; reflexivity).
      exists ((i, x) :: vis), rest. split; [cbn [app]; rewrite E1; reflexivity|]. split; [rewrite R; exact E2|]. split.
      * intros [|y a] z b E Hb; cbn [app] in E; injection E as E0 E.
        -- subst z. cbn [run fold_left fst snd]. unfold run. cbn. rewrite F. reflexivity.
        -- subst y. rewrite R. now apply (E3 a z b).
      * intros Hr. destruct (E4 Hr) as (a & y & -> & H). exists ((i, x) :: a), y. split; auto. rewrite R. exact H.
    + exists [(i, x)], (combine (seq (Datatypes.S i) (len l)) l). split; [reflexivity|]. split; [unfold run; cbn; rewrite F; reflexivity|]. split.
      * intros [|y a] z b E Hb; cbn [app] in E; injection E as E0 E; [now subst b|destruct a; discriminate].
      * intros _. exists [], (i, x). split; auto. unfold run. cbn. rewrite F. reflexivity.
Qed.
Lemma foreach_spec : forall S (f : S -> nat -> result -> S * bool) r st,
  exists vis rest, combine (seq 0 (len (r_list r))) (r_list r) = vis ++ rest /\ r_foreach f st r = run f st vis /\
    (forall a x b, vis = a ++ x :: b -> b <> [] -> snd (f (run f st a) (fst x) (snd x)) = true) /\
    (rest <> [] -> exists a x, vis = a ++ [x] /\ snd (f (run f st a) (fst x) (snd x)) = false).
Proof.
  intros S f r st.
  assert (One : r_list r = [r] -> r_foreach f st r = fst (f st 0 r) ->
    exists vis rest, combine (seq 0 (len (r_list r))) (r_list r) = vis ++ rest /\ r_foreach f st r = run f st vis /\
    (forall a x b, vis = a ++ x :: b -> b <> [] -> snd (f (run f st a) (fst x) (snd x)) = true) /\
    (rest <> [] -> exists a x, vis = a ++ [x] /\ snd (f (run f st a) (fst x) (snd x)) = false)).
  { intros L F. rewrite L, F. exists [(0, r)], []. repeat split; auto; [|easy].
    intros [|y a] z b E Hb; cbn [app] in E; injection E as E0 E; [now subst b|destruct a; discriminate]. }
  destruct (r_type r) eqn:T; try (apply One; unfold r_list, r_foreach; rewrite T; reflexivity).
  - unfold r_list, r_foreach. rewrite T. exists [], []. repeat split; auto; [intros [|] ? ? H; discriminate|easy].
  - unfold r_list, r_foreach. rewrite T. apply foreach_loop_spec.
Qed.

(** Int of text. *)
Lemma digits_val_some : forall ds acc v, digits_val acc ds = Some v -> Forall digit ds.
Proof.
  induction ds as [|c ds IH]; intros acc v H; [constructor|]. cbn [digits_val] in H. destruct (is_digit c) eqn:D; [|discriminate].
  constructor; [|eapply IH; exact H]. unfold is_digit, in_range in D. rewrite andb_true_iff, !N.leb_le in D. exact D.
Qed.

Lemma parse_int64_numeral : forall s z, parse_int64 s = inl z <-> numeral s z /\ (int64_min <= z <= int64_max)%Z.
Proof.
  assert (D : forall ds, ds <> [] -> Forall digit ds ->
    digits_val 0 ds = Some (Z.of_N (decimal_value ds))).
  { intros ds _ H. exact (digits_val_spec ds 0%N H). }
  assert (Sg : forall c, digit c -> c <> "-"%char /\ c <> "+"%char).
  { intros c H. split; intros ->; unfold digit in H; vm_compute in H; destruct H as [H _]; now apply H. }
  intros s z. split.
  - intros H. unfold parse_int64 in H.
    set (p := match s with
      | [] => (false, s)
      | c :: s' => if Ascii.eqb c "-" then (true, s') else if Ascii.eqb c "+" then (false, s') else (false, s) end) in H.
    assert (Hp : (p = (false, s) \/ (exists s', s = "+"%char :: s' /\ p = (false, s')) \/ (exists s', s = "-"%char :: s' /\ p = (true, s')))).
    { unfold p. destruct s as [|c s']; [now left|]. destruct (Ascii.eqb c "-") eqn:A; [apply ascii_eqb_true in A; subst; right; right; eauto|].
      destruct (Ascii.eqb c "+") eqn:B; [apply ascii_eqb_true in B; subst; right; left; eauto|now left]. }
    destruct p as [neg ds]. destruct ds as [|d0 ds0] eqn:DS; [discriminate|]. rewrite <- DS in *.
    assert (Hne : ds <> []) by (rewrite DS; discriminate).
    destruct (digits_val 0 ds) as [v|] eqn:V; [|discriminate].
    pose proof (digits_val_some _ _ _ V) as FD. pose proof (D ds Hne FD) as V2. rewrite V in V2. injection V2 as ->.
    set (v := Z.of_N (decimal_value ds)) in *. assert (0 <= v)%Z by (unfold v; lia).
    destruct neg.
    + destruct (Z.ltb_spec (- v) int64_min); [discriminate|]. injection H as <-.
      split; [|unfold int64_min, int64_max in *; lia]. exists ds. split; [auto|]. split; [exact FD|]. right.
      destruct Hp as [Hp|[[s' [_ Hp]]|[s' [-> Hp]]]]; try discriminate. injection Hp as ->. split; reflexivity.
    + destruct (Z.ltb_spec int64_max v); [discriminate|]. injection H as <-.
      split; [|unfold int64_min, int64_max in *; lia]. exists ds. split; [auto|]. split; [exact FD|]. left. split; [|reflexivity].
      destruct Hp as [Hp|[[s' [-> Hp]]|[s' [-> Hp]]]]; try discriminate; injection Hp as ->; auto.
  - intros [[ds [Hne [FD H]]] R]. cbv zeta in H. fold (decimal_value ds) in H.
    pose proof (D ds Hne FD) as V. destruct ds as [|c ds]; [easy|].
    assert (Hc : digit c) by (inversion FD; auto). destruct (Sg c Hc) as [N1 N2].
    apply ascii_eqb_false in N1. apply ascii_eqb_false in N2. unfold parse_int64.
    destruct H as [[[->| ->] ->]|[-> ->]].
    + rewrite N1, N2, V. destruct (Z.ltb_spec int64_max (Z.of_N (decimal_value (c :: ds)))); [lia|reflexivity].
    + change (Ascii.eqb "+" "-") with false. change (Ascii.eqb "+" "+") with true. cbn iota. rewrite V.
      destruct (Z.ltb_spec int64_max (Z.of_N (decimal_value (c :: ds)))); [lia|reflexivity].
    + change (Ascii.eqb "-" "-") with true. cbn iota. rewrite V.
      destruct (Z.ltb_spec (- Z.of_N (decimal_value (c :: ds))) int64_min); [lia|reflexivity].
Qed.
(** Counts are at most 1000, so all of them can be checked. *)
Lemma count_int : forall n, n <= 1000 -> r_int (r_count n) = Z.of_nat n /\ r_float env0 (r_count n) = f64_of_Z (Z.of_nat n).
Proof.
  intros n H. split; [|reflexivity].
  assert (G : forallb (fun k => Z.eqb (r_int (r_count k)) (Z.of_nat k)) (seq 0 1001) = true) by (vm_compute; reflexivity).
  rewrite forallb_forall in G. apply Z.eqb_eq, G, in_seq. lia.
Qed.
Lemma builtin_keep : forall E ms r, Forall (fun m => In m [bs "reverse"; bs "sort"; bs "first"; bs "last"; bs "flatten"; bs "ugly"; bs "pretty"]) ms ->
  len ms <= 20 -> r_exists r = true -> r_is_array r = false ->
  r_exists (apply_modifiers E r ms) = true.
Proof.
  intros E ms r H L. unfold apply_modifiers, MaxModifierChainDepth. rewrite (proj2 (Nat.ltb_ge _ _)) by lia. clear L.
  revert r. induction H as [|m ms Hm H IH]; intros r Hr Ha; [exact Hr|]. cbn [apply_loop].
  assert (G : exists f, get_modifier E m = Some f /\ r_type (f r) = r_type r).
  { cbn [In] in Hm. unfold r_is_array in Ha.
    repeat (destruct Hm as [<-|Hm]; [eexists; split; [reflexivity|]|]); try contradiction;
      unfold mod_reverse, mod_sort, mod_first, mod_last, mod_flatten, mod_ugly, r_is_array; rewrite ?Ha; try reflexivity.
    - destruct (r_raw r); reflexivity.
    - unfold mod_pretty. destruct (r_raw r); auto. destruct (pretty_text _ _); reflexivity. }
  destruct G as [f [-> T]]. cbv zeta. unfold is_null. unfold r_exists in Hr. apply negb_true_iff in Hr.
  rewrite T, Hr. apply IH.
  - unfold r_exists. rewrite T, Hr. reflexivity.
  - unfold r_is_array in *. rewrite T. exact Ha.
Qed.
