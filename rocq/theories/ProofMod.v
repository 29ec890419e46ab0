(** Proofs about modifiers, result accessors and the text of arrays. *)
From Coq Require Import List Ascii String NArith ZArith Bool Lia SpecFloat Permutation.
From Verif Require Import GoStr ModelParser ModelPattern ModelPath ModelResult ModelQuery SpecPath SpecMod
  ProofBase ProofPath ProofFuel ProofMono ProofSyntax.
Import ListNotations.
Local Notation len := List.length.

(** Chains. *)
Lemma apply_loop_app : forall E a b r, apply_loop E r (a ++ b) =
  match a with
  | [] => apply_loop E r b
  | _ :: _ => let r' := apply_loop E r a in if is_null r' then r' else apply_loop E r' b
  end.
Proof.
  induction a as [|n a IH]; intros b r; [reflexivity|]. cbn [app apply_loop].
  destruct (get_modifier E n) as [m|]; [|reflexivity]. cbv zeta.
  destruct (is_null (m r)) eqn:Q; [rewrite Q; reflexivity|].
  rewrite IH. destruct a as [|n2 a]; [|reflexivity].
  cbn [apply_loop]. rewrite Q. reflexivity.
Qed.
Lemma apply_unknown : forall E names r n, In n names -> get_modifier E n = None ->
  is_null (apply_modifiers E r names) = true.
Proof.
  intros E names r n Hin Hn. unfold apply_modifiers.
  destruct (Nat.ltb MaxModifierChainDepth (len names)); [reflexivity|].
  revert r Hin. induction names as [|x names IH]; intros r Hin; [easy|]. cbn [apply_loop].
  destruct Hin as [->|Hin]; [rewrite Hn; reflexivity|].
  destruct (get_modifier E x) as [m|]; [|reflexivity]. cbv zeta.
  destruct (is_null (m r)) eqn:Q; auto.
Qed.
Lemma apply_split : forall E r a b, len a + len b <= 20 -> a <> [] ->
  apply_modifiers E r (a ++ b) =
  let r' := apply_modifiers E r a in if is_null r' then r' else apply_modifiers E r' b.
Proof.
  intros E r a b H Ha. unfold apply_modifiers, MaxModifierChainDepth.
  rewrite (proj2 (Nat.ltb_ge _ _)) by (rewrite app_length; lia).
  rewrite (proj2 (Nat.ltb_ge 20 (len a))) by lia. rewrite (proj2 (Nat.ltb_ge 20 (len b))) by lia.
  rewrite apply_loop_app. destruct a; [easy|reflexivity].
Qed.

(** Modifiers at the end of a path. *)
Definition with_mods (sg : seg) (ms : list bytes) : seg :=
  mkSeg (s_type sg) (s_value sg) (s_index sg) (s_wild sg) (s_filter sg) (s_all sg) (s_field sg) ms.
Definition then_mods (E : env) (ms : list bytes) (r : result) : result :=
  if is_null r then r else apply_modifiers E r ms.
(** Element segments followed by one last segment. *)
Definition simple_end (names : nat) (sg : seg) : Prop :=
  match s_type sg with
  | SElem => True
  | SAttr | SText => 1 <= names
  | SIndex | SCount => 2 <= names
  | _ => False
  end.
Lemma apply_nil : forall E r, apply_modifiers E r [] = r.
Proof. reflexivity. Qed.
Lemma elem_not_null : forall c, is_null (r_element c) = false. Proof. reflexivity. Qed.

Lemma matches_mods : forall sg ms n, seg_matches (with_mods sg ms) n = seg_matches sg n.
Proof. reflexivity. Qed.
Lemma matching_mods : forall sg ms es, matching (with_mods sg ms) es = matching sg es.
Proof. reflexivity. Qed.

Section Mods.
  Variable E : env.
  Variable ms : list bytes.
  Hypothesis Hms : forall r, is_null r = false -> r_is_array r = false ->
    is_null (apply_modifiers E r ms) = false.

  (** One level: [rest] is the remaining path with or without the modifiers. *)
  Lemma first_loop_mods : forall (rec : qrec) key sg rest rest' l,
    (forall k d r, rec k false d rest = Ok r -> r_is_array r = false) ->
    (forall k d, rec k false d rest' = bind (rec k false d rest) (fun r => Ok (then_mods E ms r))) ->
    match rest, rest' with
    | [], _ => False
    | nx :: more, nx' :: more' =>
        s_type nx' = s_type nx /\ s_value nx' = s_value nx /\
        (s_type nx = SAttr \/ s_type nx = SText -> more = [] /\ more' = [] /\ s_mods nx = [] /\ s_mods nx' = ms)
    | _, _ => False
    end ->
    first_loop E rec key l sg rest' = bind (first_loop E rec key l sg rest) (fun r => Ok (then_mods E ms r)).
  Proof.
    intros rec key sg rest rest' l Harr Hrec HH. destruct rest as [|nx more]; [easy|]. destruct rest' as [|nx' more']; [easy|].
    destruct HH as [T [V A]].
    induction l as [|e l IH]; [reflexivity|]. cbn [first_loop]. rewrite T, V.
    destruct (s_type nx) eqn:Q;
      try (rewrite Hrec; destruct (rec (child_key site_query e key) false (e_content e) (nx :: more)) as [r| |] eqn:RR;
           [|reflexivity|reflexivity]; cbn [bind]; unfold then_mods;
           destruct (is_null r) eqn:N; [rewrite N; apply IH|rewrite (Hms _ N (Harr _ _ _ RR)); cbn [bind]; rewrite N; reflexivity]).
    - destruct (A (or_introl eq_refl)) as (-> & -> & -> & ->).
      destruct (map_get (s_value nx) (e_attrs e)); reflexivity.
    - destruct (A (or_intror eq_refl)) as (-> & -> & -> & ->). reflexivity.
  Qed.

  Lemma exec_no_array : forall sg, s_mods sg = [] ->
    forall segs f key root s r, Forall (fun x => s_type x = SElem /\ s_mods x = []) segs ->
    simple_end 2 sg -> exec E f key root s (segs ++ [sg]) = Ok r -> r_is_array r = false.
  Proof.
    intros sg Hsg segs f key root s r Hel He.
    assert (Hall : Forall (fun x => (s_type x = SElem \/ s_type x = SAttr \/ s_type x = SText \/ s_type x = SIndex \/ s_type x = SCount)
                                    /\ s_mods x = []) (segs ++ [sg])).
    { apply Forall_app. split; [eapply Forall_impl; [|exact Hel]; intros a [? ?]; auto|].
      apply Forall_cons; [|apply Forall_nil]. split; [|auto]. unfold simple_end in He. destruct (s_type sg); auto 6; contradiction. }
    clear Hel He Hsg. revert key root s r. generalize dependent (segs ++ [sg]). clear segs sg. intros segs Hall.
    revert segs Hall. induction f as [|f IH]; intros segs Hall key root s r H; [discriminate|].
    cbn [exec] in H. unfold exec_body in H. destruct segs as [|x segs]; [injection H as <-; reflexivity|].
    inversion Hall as [|? ? [Tx Mx] Hall']; subst.
    apply bind_ok in H. destruct H as [es [_ H]].
    assert (FL : forall l r, first_loop E (exec E f) key l x segs = Ok r -> r_is_array r = false).
    { induction l as [|e l IHl]; intros r0 K; cbn [first_loop] in K; [injection K as <-; reflexivity|].
      destruct segs as [|y segs]; [rewrite Mx in K; injection K as <-; reflexivity|].
      inversion Hall' as [|? ? [Ty My] _]; subst. rewrite My in K.
      assert (G : bind (exec E f (child_key site_query e key) false (e_content e) (y :: segs))
                   (fun r => if is_null r then first_loop E (exec E f) key l x (y :: segs) else Ok r) = Ok r0 -> r_is_array r0 = false).
      { intros K2. apply bind_ok in K2. destruct K2 as [r1 [K1 K2]]. destruct (is_null r1); [now apply IHl|].
        injection K2 as <-. eapply IH; [|exact K1]. exact Hall'. }
      destruct Ty as [Ty|[Ty|[Ty|[Ty|Ty]]]]; rewrite Ty in K; try (exact (G K)).
      - destruct (map_get (s_value y) (e_attrs e)), segs; injection K as <-; reflexivity.
      - injection K as <-; reflexivity. }
    assert (EE : exec_element E (exec E f) key es x segs = Ok r -> r_is_array r = false).
    { unfold exec_element. destruct segs as [|y segs]; [apply FL|].
      inversion Hall' as [|? ? [Ty My] Hall'']; subst.
      assert (AO : forall l r, array_op E (exec E f) key l y segs = Ok r -> r_is_array r = false).
      { intros l r0 K. unfold array_op in K. destruct l as [|e0 l0]; [injection K as <-; reflexivity|].
        rewrite My in K. destruct Ty as [Ty|[Ty|[Ty|[Ty|Ty]]]]; rewrite Ty in K; try (injection K as <-; reflexivity).
        destruct (nth_elem (e0 :: l0) (s_index y)) as [e|]; [|injection K as <-; reflexivity].
        destruct segs as [|z segs]; [injection K as <-; reflexivity|].
        inversion Hall'' as [|? ? [Tz Mz] _]; subst. rewrite Mz in K.
        destruct Tz as [Tz|[Tz|[Tz|[Tz|Tz]]]]; rewrite Tz in K; try (eapply IH; [|exact K]; exact Hall'').
        destruct (map_get (s_value z) (e_attrs e)), segs; injection K as <-; reflexivity. }
      destruct Ty as [Ty|[Ty|[Ty|[Ty|Ty]]]]; rewrite Ty; [apply FL|apply FL|apply FL|apply AO|apply AO]. }
    assert (RA : forall l y more r, segs = y :: more -> (s_type y = SIndex \/ s_type y = SCount) ->
                 root_array E (exec E f) key l y more = Ok r -> r_is_array r = false).
    { intros l y more r0 -> Ty K. unfold root_array in K. destruct l as [|e0 l0]; [injection K as <-; reflexivity|].
      destruct Ty as [Ty|Ty]; rewrite Ty in K; [|injection K as <-; reflexivity].
      destruct (nth_elem (e0 :: l0) (s_index y)) as [e|]; [|injection K as <-; reflexivity].
      inversion Hall' as [|? ? _ Hall'']; subst.
      destruct more as [|z more]; [injection K as <-; reflexivity|].
      inversion Hall'' as [|? ? [Tz Mz] _]; subst.
      destruct Tz as [Tz|[Tz|[Tz|[Tz|Tz]]]]; rewrite Tz in K; try (eapply IH; [|exact K]; exact Hall'').
      - destruct (map_get (s_value z) (e_attrs e)); injection K as <-; reflexivity.
      - injection K as <-; reflexivity. }
    destruct Tx as [Tx|[Tx|[Tx|[Tx|Tx]]]]; rewrite Tx in H; try (injection H as <-; reflexivity).
    destruct root; [|exact (EE H)]. destruct segs as [|y segs]; [exact (EE H)|].
    inversion Hall' as [|? ? [Ty My] Hall'']; subst.
    destruct Ty as [Ty|[Ty|[Ty|[Ty|Ty]]]]; rewrite Ty in H; try exact (EE H); (eapply RA; [reflexivity| |exact H]; auto).
  Qed.
  Lemma exec_mods : forall sg, s_mods sg = [] ->
    forall segs f key (root : bool) s, Forall (fun x => s_type x = SElem /\ s_mods x = []) segs ->
    simple_end (if root then len segs else 2) sg ->
    exec E f key root s (segs ++ [with_mods sg ms]) =
    bind (exec E f key root s (segs ++ [sg])) (fun r => Ok (then_mods E ms r)).
  Proof.
    intros sg Hsg. induction segs as [|x segs IH]; intros f key root s Hel He.
    - destruct f as [|f]; [reflexivity|]. cbn [exec app]. unfold exec_body.
      destruct (scan_res E key s) as [es| |]; [|reflexivity|reflexivity]. cbn [bind].
      change (s_type (with_mods sg ms)) with (s_type sg). unfold simple_end in He.
      destruct (s_type sg) eqn:Q; try contradiction; try reflexivity.
      assert (K : exec_element E (exec E f) key es (with_mods sg ms) [] =
                  bind (exec_element E (exec E f) key es sg []) (fun r => Ok (then_mods E ms r))).
      { unfold exec_element. rewrite matching_mods. generalize (matching sg es). intros l.
        destruct l as [|e l]; [reflexivity|]. cbn [first_loop]. rewrite Hsg. reflexivity. }
      destruct root; exact K.
    - inversion Hel as [|? ? [Hx Hx2] Hel']; subst. destruct f as [|f]; [reflexivity|]. cbn [exec app]. unfold exec_body.
      destruct (scan_res E key s) as [es| |]; [|reflexivity|reflexivity]. cbn [bind]. rewrite Hx.
      set (R' := segs ++ [with_mods sg ms]). set (R := segs ++ [sg]).
      assert (Hrec : forall k d, exec E f k false d R' = bind (exec E f k false d R) (fun r => Ok (then_mods E ms r))).
      { intros k d. apply IH; auto. unfold simple_end in *. destruct (s_type sg); auto; destruct root; lia. }
      assert (Hshape : exists nx more nx' more', R = nx :: more /\ R' = nx' :: more' /\
        s_type nx' = s_type nx /\ s_value nx' = s_value nx /\
        ((segs = [] /\ nx = sg /\ nx' = with_mods sg ms /\ more = [] /\ more' = []) \/
         (s_type nx = SElem /\ nx' = nx))).
      { unfold R, R'. destruct segs as [|y segs].
        - exists sg, [], (with_mods sg ms), []. do 4 (split; [reflexivity|]). left. repeat split.
        - inversion Hel' as [|? ? [? ?] ?]; subst. exists y, (segs ++ [sg]), y, (segs ++ [with_mods sg ms]). do 4 (split; [reflexivity|]). right. split; auto. }
      destruct Hshape as (nx & more & nx' & more' & E1 & E2 & T & V & Hcase).
      assert (Hfl : forall l, first_loop E (exec E f) key l x R' =
                              bind (first_loop E (exec E f) key l x R) (fun r => Ok (then_mods E ms r))).
      { intros l. apply first_loop_mods; auto.
        - intros k d0 r K. eapply exec_no_array; [exact Hsg|exact Hel'| |exact K].
          unfold simple_end in *. destruct (s_type sg); auto; lia.
        - rewrite E1, E2. split; [auto|]. split; [auto|].
        intros K. destruct Hcase as [(_ & -> & -> & -> & ->)|[Q _]]; [repeat split; auto|].
        rewrite Q in K. destruct K; discriminate. }
      assert (Hroot : root = true -> s_type nx = SIndex \/ s_type nx = SCount \/ s_type nx = SField -> False).
      { intros -> K. destruct Hcase as [(-> & -> & _)|[Q _]].
        - unfold simple_end in He. cbn in He. destruct K as [K|[K|K]]; rewrite K in He; auto; lia.
        - rewrite Q in K. intuition discriminate. }
      assert (K : exec_element E (exec E f) key es x R' =
                  bind (exec_element E (exec E f) key es x R) (fun r => Ok (then_mods E ms r))).
      { unfold exec_element. rewrite E1, E2, T. specialize (Hfl (matching x es)). rewrite E1, E2 in Hfl.
        destruct (s_type nx) eqn:Q; try exact Hfl;
          (destruct Hcase as [(-> & -> & -> & -> & ->)|[Q2 _]]; [|congruence]);
          unfold simple_end in He; rewrite Q in He; try contradiction.
        - (* index *)
          unfold array_op. destruct (firstn MaxWildcardResults (matching x es)) as [|e0 l0] eqn:EE; [reflexivity|].
          change (s_type (with_mods sg ms)) with (s_type sg). rewrite Q. change (s_index (with_mods sg ms)) with (s_index sg).
          destruct (nth_elem (e0 :: l0) (s_index sg)); [|reflexivity]. rewrite Hsg. reflexivity.
        - unfold array_op. destruct (firstn MaxWildcardResults (matching x es)) as [|e0 l0] eqn:EE; [reflexivity|].
          change (s_type (with_mods sg ms)) with (s_type sg). rewrite Q. rewrite Hsg. reflexivity. }
      fold R'. fold R.
      destruct root; [|rewrite E1, E2 in *; exact K].
      rewrite E1, E2 in *. rewrite T. destruct (s_type nx) eqn:Q; try exact K; exfalso; apply Hroot; auto.
  Qed.
End Mods.
