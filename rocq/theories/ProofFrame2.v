(** Edits at different places commute. *)
From Coq Require Import List Ascii String NArith ZArith Bool Lia Permutation.
From Verif Require Import GoStr SpecText SpecPath SpecTree SpecQuery SpecEdit SpecContent SpecFilter SpecLang SpecHistory SpecFrame ProofBase ProofScan ProofEdit5 ProofFrame.
Import ListNotations.

Lemma edit_none : forall f g F i, nth_error (called f F) i = None -> edit_nth f i g F = None.
Proof.
  intros f g. induction F as [|x F IH]; intros i H; [reflexivity|]. cbn [edit_nth]. unfold called in *. cbn [filter] in H. unfold named.
  destruct x as [n a s k| |]; try now rewrite IH. destruct (f n); [|now rewrite IH]. destruct i; [discriminate|]. now rewrite IH.
Qed.
Definition inner (g : node -> option (list node)) (rest : list tstep) (nd : node) : option (list node) :=
  match rest with
  | [] => g nd
  | _ :: _ => match nd with Elem m a _ kids => option_map (fun kids' => [Elem m a false kids']) (change g nothing rest kids) | _ => None end
  end.
Lemma change_nth : forall g n i rest F, change g nothing ((n, i) :: rest) F = edit_nth (selects n) (index_of i) (inner g rest) F.
Proof.
  intros g n i rest F. cbn [change]. destruct (nth_error (called (selects n) F) (index_of i)) eqn:Q; [|now rewrite edit_none].
  apply edit_nth_ext. reflexivity.
Qed.
(** Results are nothing or one element with the same name. *)
Definition modest_edit (g : node -> option (list node)) : Prop := forall nd l, g nd = Some l -> l = [] \/ exists nd', l = [nd'] /\ namesake nd nd'.
Definition keeping (g : node -> option (list node)) : Prop := forall nd l, g nd = Some l -> exists nd', l = [nd'] /\ namesake nd nd'.
Lemma keeping_modest : forall g, keeping g -> modest_edit g.
Proof. intros g H nd l Q. right. eauto. Qed.
Lemma inner_keeping : forall g rest, keeping g \/ rest <> [] -> keeping (inner g rest).
Proof.
  intros g [|s rest] [H|H]; try (exact H); try easy.
  - intros nd l Q. cbn [inner] in Q. destruct nd as [m a sf kids| |]; try discriminate. destruct (change g nothing (s :: rest) kids); [|discriminate]. injection Q as <-. eexists. split; reflexivity.
  - intros nd l Q. cbn [inner] in Q. destruct nd as [m a sf kids| |]; try discriminate. destruct (change g nothing (s :: rest) kids); [|discriminate]. injection Q as <-. eexists. split; reflexivity.
Qed.
Lemma inner_modest : forall g rest, modest_edit g -> modest_edit (inner g rest).
Proof. intros g [|s rest] H; [exact H|]. apply keeping_modest. apply inner_keeping. right. discriminate. Qed.
Lemma namesake_named : forall f x y, namesake x y -> named f y = named f x.
Proof. intros f [n a s k| |] [m b s' j| |] H; try contradiction. cbn in *. now subst. Qed.
Lemma edit_skip : forall f g nd F i, named f nd = false -> edit_nth f i g (nd :: F) = option_map (cons nd) (edit_nth f i g F).
Proof. intros f g nd F i H. cbn [edit_nth]. now rewrite H. Qed.

Section Names.
  Variables f h : bytes -> bool.
  Hypothesis FH : forall x, f x = true -> h x = true -> False.
  Variables g k : node -> option (list node).
  Hypothesis Mg : modest_edit g.
  Hypothesis Mk : modest_edit k.
  Lemma edit_past : forall nd l, named f nd = true -> g nd = Some l -> forall F j, edit_nth h j k (l ++ F) = option_map (fun G => l ++ G) (edit_nth h j k F).
  Proof.
    intros nd l N G F j. destruct (Mg _ _ G) as [->|(nd' & -> & NS)]; cbn [app]; [now destruct (edit_nth h j k F)|]. rewrite edit_skip; [reflexivity|].
    rewrite (namesake_named h _ _ NS). destruct (named h nd) eqn:Q; auto. destruct nd as [n a s c| |]; try discriminate. elim (FH n N Q).
  Qed.
  Lemma not_both : forall x, named f x = true -> named h x = false.
  Proof. intros [n a s c| |] N; auto. cbn in *. destruct (h n) eqn:Q; auto. elim (FH n N Q). Qed.
  Lemma edit_none_after : forall F i j F1, edit_nth f i g F = Some F1 -> edit_nth h j k F = None -> edit_nth h j k F1 = None.
  Proof.
    induction F as [|x F IH]; intros i j F1 A B; [discriminate|]. cbn [edit_nth] in A. destruct (named f x) eqn:N.
    - rewrite edit_skip in B by (now apply not_both). destruct (edit_nth h j k F) as [F2|] eqn:Q; [discriminate|]. destruct i as [|i].
      + destruct (g x) as [l|] eqn:G; [|discriminate]. injection A as <-. now rewrite (edit_past x l N G), Q.
      + destruct (edit_nth f i g F) as [F0|] eqn:R; [|discriminate]. injection A as <-. rewrite edit_skip by (now apply not_both). now rewrite (IH _ _ _ R Q).
    - destruct (edit_nth f i g F) as [F0|] eqn:R; [|discriminate]. injection A as <-. cbn [edit_nth] in B |- *. destruct (named h x).
      + destruct j; [destruct (k x); [discriminate|reflexivity]|].
        destruct (edit_nth h j k F) eqn:Q; [discriminate|]. now rewrite (IH _ _ _ R Q).
      + destruct (edit_nth h j k F) eqn:Q; [discriminate|]. now rewrite (IH _ _ _ R Q).
  Qed.
End Names.
Lemma edit_two_names : forall f h, (forall x, f x = true -> h x = true -> False) -> forall g k, modest_edit g -> modest_edit k ->
  forall F i j F1 F2, edit_nth f i g F = Some F1 -> edit_nth h j k F = Some F2 -> exists F12, edit_nth h j k F1 = Some F12 /\ edit_nth f i g F2 = Some F12.
Proof.
  intros f h FH g k Mg Mk. assert (HF : forall x, h x = true -> f x = true -> False) by (intros; eapply FH; eauto).
  induction F as [|x F IH]; intros i j F1 F2 A B; [discriminate|]. cbn [edit_nth] in A, B. destruct (named f x) eqn:N.
  - rewrite (not_both f h FH x N) in B. destruct (edit_nth h j k F) as [B0|] eqn:Q; [|discriminate]. injection B as <-. destruct i as [|i].
    + destruct (g x) as [l|] eqn:G; [|discriminate]. injection A as <-. exists (l ++ B0). rewrite (edit_past f h FH g k Mg x l N G), Q. split; [reflexivity|]. cbn [edit_nth]. now rewrite N, G.
    + destruct (edit_nth f i g F) as [A0|] eqn:R; [|discriminate]. injection A as <-. destruct (IH _ _ _ _ R Q) as (C & C1 & C2). exists (x :: C).
      rewrite edit_skip by (now apply (not_both f h FH)). rewrite C1. split; [reflexivity|]. cbn [edit_nth]. now rewrite N, C2.
  - destruct (edit_nth f i g F) as [A0|] eqn:R; [|discriminate]. injection A as <-. destruct (named h x) eqn:M.
    + destruct j as [|j].
      * destruct (k x) as [l|] eqn:G; [|discriminate]. injection B as <-. exists (l ++ A0). rewrite (edit_past h f HF k g Mk x l M G), R. split; [|reflexivity]. cbn [edit_nth]. now rewrite M, G.
      * destruct (edit_nth h j k F) as [B0|] eqn:Q; [|discriminate]. injection B as <-. destruct (IH _ _ _ _ R Q) as (C & C1 & C2). exists (x :: C). cbn [edit_nth]. now rewrite M, N, C1, C2.
    + destruct (edit_nth h j k F) as [B0|] eqn:Q; [|discriminate]. injection B as <-. destruct (IH _ _ _ _ R Q) as (C & C1 & C2). exists (x :: C). cbn [edit_nth]. now rewrite M, N, C1, C2.
Qed.
(** Different numbers of one name. *)
Lemma edit_none_number : forall f g k, keeping g -> forall F i j F1, i <> j -> edit_nth f i g F = Some F1 -> edit_nth f j k F = None -> edit_nth f j k F1 = None.
Proof.
  intros f g k Kg. induction F as [|x F IH]; intros i j F1 D A B; [discriminate|]. cbn [edit_nth] in A, B. destruct (named f x) eqn:N.
  - destruct i as [|i].
    + destruct (g x) as [l|] eqn:G; [|discriminate]. injection A as <-. destruct (Kg _ _ G) as (y & -> & NS). cbn [app edit_nth]. rewrite (namesake_named f _ _ NS), N. destruct j; [lia|].
      destruct (edit_nth f j k F); [discriminate|reflexivity].
    + destruct (edit_nth f i g F) as [A0|] eqn:R; [|discriminate]. injection A as <-. cbn [edit_nth]. rewrite N. destruct j; [destruct (k x); [discriminate|reflexivity]|].
      destruct (edit_nth f j k F) eqn:Q; [discriminate|]. now rewrite (IH i j A0 ltac:(lia) R Q).
  - destruct (edit_nth f i g F) as [A0|] eqn:R; [|discriminate]. injection A as <-. cbn [edit_nth]. rewrite N. destruct (edit_nth f j k F) eqn:Q; [discriminate|]. now rewrite (IH i j A0 D R Q).
Qed.
Lemma edit_two_numbers : forall f g k, keeping g -> keeping k -> forall F i j F1 F2, i <> j -> edit_nth f i g F = Some F1 -> edit_nth f j k F = Some F2 ->
  exists F12, edit_nth f j k F1 = Some F12 /\ edit_nth f i g F2 = Some F12.
Proof.
  intros f g k Kg Kk. induction F as [|x F IH]; intros i j F1 F2 D A B; [discriminate|]. cbn [edit_nth] in A, B. destruct (named f x) eqn:N.
  - destruct i as [|i].
    + destruct (g x) as [l|] eqn:G; [|discriminate]. injection A as <-. destruct (Kg _ _ G) as (y & -> & NS). destruct j; [lia|]. destruct (edit_nth f j k F) as [B0|] eqn:Q; [|discriminate]. injection B as <-.
      exists (y :: B0). cbn [app edit_nth]. rewrite (namesake_named f _ _ NS), N, Q, G. auto.
    + destruct (edit_nth f i g F) as [A0|] eqn:R; [|discriminate]. injection A as <-. destruct j.
      * destruct (k x) as [l|] eqn:G; [|discriminate]. injection B as <-. destruct (Kk _ _ G) as (y & -> & NS). exists (y :: A0). cbn [app edit_nth]. rewrite (namesake_named f _ _ NS), N, R, G. auto.
      * destruct (edit_nth f j k F) as [B0|] eqn:Q; [|discriminate]. injection B as <-. destruct (IH i j _ _ ltac:(lia) R Q) as (C & C1 & C2). exists (x :: C). cbn [edit_nth]. now rewrite N, C1, C2.
  - destruct (edit_nth f i g F) as [A0|] eqn:R; [|discriminate]. injection A as <-. destruct (edit_nth f j k F) as [B0|] eqn:Q; [|discriminate]. injection B as <-.
    destruct (IH i j _ _ D R Q) as (C & C1 & C2). exists (x :: C). cbn [edit_nth]. now rewrite N, C1, C2.
Qed.
(** One element, changed twice. *)
Lemma edit_same_spot : forall f g k F i F1, keeping g -> edit_nth f i g F = Some F1 -> exists nd nd', g nd = Some [nd'] /\ edit_nth f i k F1 = edit_nth f i (fun x => k nd') F /\ In nd F.
Proof.
  intros f g k F i F1 Kg A. destruct (edit_nth_split _ _ _ _ _ A) as (G1 & nd & G2 & l & -> & -> & Nm & <- & G). destruct (Kg _ _ G) as (y & -> & NS). exists nd, y. split; auto. split; [|apply in_or_app; right; now left].
  cbn [app]. rewrite !edit_nth_at; auto. now rewrite (namesake_named f _ _ NS).
Qed.

Section Apart.
  Variables k1 k2 : bool.
  Variables g h : node -> option (list node).
  Hypothesis Mg : modest_edit g.
  Hypothesis Mh : modest_edit h.
  Hypothesis Kg : k1 = true -> keeping g.
  Hypothesis Kh : k2 = true -> keeping h.
  Lemma inner_kept : forall k (g0 : node -> option (list node)) (s : list tstep), (k = true -> keeping g0) -> s <> [] \/ k = true -> keeping (inner g0 s).
  Proof. intros k g0 s H [N|N]; apply inner_keeping; auto. Qed.
  Lemma apart_none : forall s t, apart k1 k2 s t -> forall F F1, change g nothing s F = Some F1 -> change h nothing t F = None -> change h nothing t F1 = None.
  Proof.
    induction 1 as [n i s m j t S|n i s j t D H1 H2|[n i] s t A IH]; intros F F1 C1 C2; rewrite !change_nth in *.
    - exact (edit_none_after (selects n) (selects m) S _ _ (inner_modest g s Mg) F _ _ F1 C1 C2).
    - eapply edit_none_number; eauto. eapply inner_kept; eauto.
    - destruct (edit_nth_split _ _ _ _ _ C1) as (G1 & nd & G2 & l & -> & -> & Nm & Ln & G). rewrite <- Ln in C2 |- *. rewrite edit_nth_at in C2 by auto. assert (NE : s <> [] /\ t <> []) by (inversion A; split; discriminate).
      destruct NE as [N1 N2]. destruct s as [|s0 s]; [easy|]. destruct t as [|t0 t]; [easy|]. cbn [inner] in G, C2. destruct nd as [x a sf kids| |]; try discriminate.
      destruct (change g nothing (s0 :: s) kids) as [K1|] eqn:Q1; [|discriminate]. injection G as <-. destruct (change h nothing (t0 :: t) kids) as [K2|] eqn:Q2; [discriminate|].
      cbn [app]. rewrite edit_nth_at by exact Nm. cbn [inner]. now rewrite (IH _ _ Q1 Q2).
  Qed.
  Lemma apart_both : forall s t, apart k1 k2 s t -> forall F F1 F2, change g nothing s F = Some F1 -> change h nothing t F = Some F2 ->
    exists F12, change h nothing t F1 = Some F12 /\ change g nothing s F2 = Some F12.
  Proof.
    induction 1 as [n i s m j t S|n i s j t D H1 H2|[n i] s t A IH]; intros F F1 F2 C1 C2; rewrite !change_nth in *.
    - eapply edit_two_names; eauto using inner_modest.
    - eapply edit_two_numbers; eauto; eapply inner_kept; eauto.
    - destruct (edit_nth_split _ _ _ _ _ C1) as (G1 & nd & G2 & l & -> & -> & Nm & Ln & G). rewrite <- Ln in C2 |- *. rewrite edit_nth_at in C2 by auto. assert (NE : s <> [] /\ t <> []) by (inversion A; split; discriminate).
      destruct NE as [N1 N2]. destruct s as [|s0 s]; [easy|]. destruct t as [|t0 t]; [easy|]. cbn [inner] in G, C2. destruct nd as [x a sf kids| |]; try discriminate.
      destruct (change g nothing (s0 :: s) kids) as [K1|] eqn:Q1; [|discriminate]. injection G as <-. destruct (change h nothing (t0 :: t) kids) as [K2|] eqn:Q2; [|discriminate].
      cbn [option_map] in C2. injection C2 as <-. destruct (IH _ _ _ Q1 Q2) as (K12 & E1 & E2). exists (G1 ++ [Elem x a false K12] ++ G2). cbn [app]. rewrite !edit_nth_at by exact Nm. cbn [inner]. now rewrite E1, E2.
  Qed.
End Apart.
Lemma apart_sym : forall k1 k2 s t, apart k1 k2 s t -> apart k2 k1 t s.
Proof.
  intros k1 k2 s t H. induction H as [n i s m j t S|n i s j t D H1 H2|st s t A IH].
  - apply apart_name. intros x A B. exact (S x B A).
  - apply apart_number; auto.
  - now apply apart_later.
Qed.

(** ** The edits *)
Definition turn (o : edit) : node -> option (list node) :=
  match o with
  | SetContent _ c => with_kids (content_nodes c)
  | SetAttr _ x v => attr_of x v
  | Remove _ => fun _ => Some []
  | RemoveAttr _ x => without_attr x
  | Append _ m c => more_kids m (content_nodes c)
  end.
Lemma turn_keeping : forall o, stays o = true -> keeping (turn o).
Proof.
  intros [steps c|steps x v|steps|steps x|steps m c] S nd l H; try discriminate; cbn [turn] in H.
  - destruct nd as [n a [|] k| |]; try discriminate. injection H as <-. eexists. split; reflexivity.
  - destruct nd as [n a sf k| |]; try discriminate. cbn [attr_of] in H. destruct (_ <=? _); [|discriminate]. injection H as <-. eexists. split; reflexivity.
  - destruct nd as [n a sf k| |]; try discriminate. injection H as <-. eexists. split; reflexivity.
  - destruct nd as [n a sf k| |]; try discriminate. injection H as <-. eexists. split; reflexivity.
Qed.
Lemma turn_modest : forall o, modest_edit (turn o).
Proof.
  intros o. destruct (stays o) eqn:S; [apply keeping_modest; now apply turn_keeping|]. destruct o; try discriminate. intros nd l H. injection H as <-. now left.
Qed.
Lemma apply_turn : forall o F, spot o <> [] -> finds o F -> apply_edit o F =
  match change (turn o) nothing (spot o) F with
  | Some F' => Some F'
  | None => match o with Remove _ | RemoveAttr _ _ => Some F | _ => None end
  end.
Proof.
  intros [steps c|steps x v|steps|steps x|[|s steps] m c] F N H; cbn [apply_edit spot turn finds] in *; auto.
  - destruct H as (A & nd & B & L). rewrite (located_change _ _ _ _ _ L (with_kids (content_nodes c)) (new_kids (content_nodes c))). now destruct (change _ nothing steps F).
  - destruct H as (A & nd & B & L). rewrite (located_change _ _ _ _ _ L (attr_of x v) (new_attr x v)). now destruct (change _ nothing steps F).
  - easy.
  - now destruct (change _ nothing (s :: steps) F).
Qed.
Lemma change_some : forall g miss steps F F', change g nothing steps F = Some F' -> change g miss steps F = Some F'.
Proof.
  intros g miss. induction steps as [|[n i] rest IH]; intros F F' H; [discriminate|]. cbn [change] in *. destruct (nth_error (called (selects n) F) (index_of i)); [|discriminate].
  destruct (edit_nth_split _ _ _ _ _ H) as (G1 & nd & G2 & l & -> & -> & Nm & <- & G). rewrite edit_nth_at by auto. destruct rest as [|s rest]; [now rewrite G|]. destruct nd as [m a sf kids| |]; try discriminate.
  destruct (change g nothing (s :: rest) kids) as [K|] eqn:Q; [|discriminate]. rewrite (IH _ _ Q). injection G as <-. reflexivity.
Qed.
Lemma apply_some : forall o F F', change (turn o) nothing (spot o) F = Some F' -> apply_edit o F = Some F'.
Proof.
  intros [steps c|steps x v|steps|steps x|[|s steps] m c] F F' H; cbn [apply_edit spot turn] in *; try (now apply change_some); try (now rewrite H). discriminate.
Qed.
Lemma exclusive_spots : forall o1 o2, exclusive o1 o2 -> spot o1 <> [] /\ spot o2 <> [].
Proof. intros o1 o2 H. inversion H; split; congruence. Qed.
Theorem apply_commute : forall o1 o2 F F1 F2, exclusive o1 o2 -> finds o1 F -> finds o2 F -> apply_edit o1 F = Some F1 -> apply_edit o2 F = Some F2 ->
  exists F12, apply_edit o2 F1 = Some F12 /\ apply_edit o1 F2 = Some F12.
Proof.
  intros o1 o2 F F1 F2 X D1 D2 A1 A2. destruct (exclusive_spots _ _ X) as [N1 N2]. rewrite apply_turn in A1, A2 by auto.
  pose proof (apart_sym _ _ _ _ X) as Y.
  pose proof (turn_modest o1) as M1. pose proof (turn_modest o2) as M2. pose proof (turn_keeping o1) as K1. pose proof (turn_keeping o2) as K2.
  destruct (change (turn o1) nothing (spot o1) F) as [G1|] eqn:C1; destruct (change (turn o2) nothing (spot o2) F) as [G2|] eqn:C2.
  - injection A1 as <-. injection A2 as <-. destruct (apart_both _ _ _ _ M1 M2 K1 K2 _ _ X _ _ _ C1 C2) as (F12 & E1 & E2). exists F12. split; now apply apply_some.
  - injection A1 as <-. pose proof (apart_none _ _ _ _ M1 K1 _ _ X _ _ C1 C2) as E. exists G1. destruct o2; try discriminate; injection A2 as <-; cbn [apply_edit turn spot] in *; rewrite E; split; auto; now apply apply_some.
  - injection A2 as <-. pose proof (apart_none _ _ _ _ M2 K2 _ _ Y _ _ C2 C1) as E. exists G2. destruct o1; try discriminate; injection A1 as <-; cbn [apply_edit turn spot] in *; rewrite E; split; auto; now apply apply_some.
  - exists F. destruct o1; try discriminate; injection A1 as <-; destruct o2; try discriminate; injection A2 as <-; cbn [apply_edit turn spot] in *; now rewrite C1, C2.
Qed.

(** ** The last of two edits of one place counts *)
