(** Edits and queries below an element. *)
From Coq Require Import List Ascii String NArith ZArith Bool Lia Permutation.
From Verif Require Import GoStr ModelParser ModelPath ModelResult ModelQuery ModelValidate ModelBuilder SpecText SpecPath SpecTree SpecQuery SpecEdit SpecContent SpecValid SpecHistory SpecPart
  ProofBase ProofScan ProofSyntax ProofTree ProofTree2 ProofTree4 ProofTree5 ProofEdit ProofEdit2 ProofEdit4 ProofEdit6 ProofEdit7 ProofEdit8 ProofEdit9 ProofTable ProofValid ProofValid2 ProofValid3 ProofCut.
Import ListNotations.
Notation called_cons := ProofEdit2.called_cons.

(** ** Below a pinned element *)
Lemma picks_index : forall top n idx F nd, picks top n idx F nd -> nth_error (called (selects n) F) (index_of idx) = Some nd.
Proof. intros top n [ds|] F nd H; cbn [picks index_of] in *; [apply H|now rewrite H]. Qed.
Lemma same_split : forall (A : Type) (a b c d : list A), List.length a = List.length c -> a ++ b = c ++ d -> a = c /\ b = d.
Proof. intros A. induction a as [|x a IH]; intros b [|y c] d L E; cbn in *; try discriminate; auto. injection L as L. injection E as -> E. destruct (IH b c d L E) as [-> ->]. auto. Qed.
(** Replacing the chosen element by one of the same name. *)
Lemma picks_edit : forall top n idx F m a kids g kids', picks top n idx F (Elem m a false kids) -> g (Elem m a false kids) = Some [Elem m a false kids'] ->
  exists F', edit_nth (selects n) (index_of idx) g F = Some F' /\ picks top n idx F' (Elem m a false kids').
Proof.
  intros top n idx F m a kids g kids' P G. pose proof (picks_index _ _ _ _ _ P) as NE.
  assert (X : exists F1 F2, F = F1 ++ Elem m a false kids :: F2 /\ List.length (called (selects n) F1) = index_of idx /\ named (selects n) (Elem m a false kids) = true).
  { clear P G. revert NE. generalize (index_of idx) as i. induction F as [|y F IH]; intros i NE; [destruct i; discriminate|]. rewrite called_cons in NE. destruct (named (selects n) y) eqn:N.
    - destruct i as [|i]; [injection NE as ->; now exists [], F|]. destruct (IH i NE) as (F1 & F2 & -> & L & Q). exists (y :: F1), F2. split; auto. rewrite called_cons, N. cbn [List.length]. auto.
    - destruct (IH i NE) as (F1 & F2 & -> & L & Q). exists (y :: F1), F2. split; auto. rewrite called_cons, N. auto. }
  destruct X as (F1 & F2 & -> & L & N). exists (F1 ++ [Elem m a false kids'] ++ F2). split.
  - apply edit_nth_split. exists F1, (Elem m a false kids), F2, [Elem m a false kids']. repeat split; auto.
  - assert (CA : called (selects n) (F1 ++ [Elem m a false kids'] ++ F2) = called (selects n) F1 ++ Elem m a false kids' :: called (selects n) F2).
    { rewrite called_app. f_equal. cbn [app]. rewrite called_cons. cbn [named] in N |- *. now rewrite N. }
    assert (CB : called (selects n) (F1 ++ Elem m a false kids :: F2) = called (selects n) F1 ++ Elem m a false kids :: called (selects n) F2) by (rewrite called_app, called_cons, N; reflexivity).
    destruct idx as [ds|]; cbn [picks index_of] in *.
    + destruct P as (P1 & P2 & P3). split; auto. split; [rewrite CA, nth_error_app2 by lia; rewrite L, Nat.sub_diag; reflexivity|]. intros T. specialize (P3 T). rewrite CA. rewrite CB in P3. rewrite called_app, called_cons in P3. rewrite called_app. cbn [app]. rewrite called_cons. cbn [named] in P3 |- *.
      destruct (bytes_eqb n m) eqn:Q.
      * assert (LL : List.length (called (bytes_eqb n) F1) <= List.length (called (selects n) F1) /\ List.length (called (bytes_eqb n) F2) <= List.length (called (selects n) F2)).
        { assert (Y : forall H, List.length (called (bytes_eqb n) H) <= List.length (called (selects n) H)); [|split; apply Y]. intros H. induction H as [|z H IH]; [auto|]. rewrite !called_cons. destruct z as [zn za zs zk| |]; cbn [named]; auto.
          destruct (bytes_eqb n zn) eqn:Z; [apply bytes_eqb_eq in Z; subst zn; rewrite selects_self; cbn [List.length]; lia|]. destruct (selects n zn); cbn [List.length]; lia. }
        assert (LE : List.length (called (bytes_eqb n) F1) = List.length (called (selects n) F1)) by (apply (f_equal (@List.length node)) in P3; rewrite !app_length in P3; cbn [List.length] in P3; lia).
        assert (E1 : called (bytes_eqb n) F1 = called (selects n) F1 /\ Elem m a false kids :: called (bytes_eqb n) F2 = Elem m a false kids :: called (selects n) F2) by (apply same_split; auto).
        destruct E1 as [-> E2]. injection E2 as ->. reflexivity.
      * exfalso. assert (I : In (Elem m a false kids) (called (bytes_eqb n) F1 ++ called (bytes_eqb n) F2)) by (rewrite P3; apply in_or_app; right; now left).
        apply in_app_or in I. assert (Y : forall H, In (Elem m a false kids) (called (bytes_eqb n) H) -> False); [|destruct I; eauto]. intros H I'. unfold called in I'. apply filter_In in I'. destruct I' as [_ I']. cbn [named] in I'. congruence.
    + rewrite CB in P. rewrite CA. destruct (called (selects n) F1) as [|z Z]; [|discriminate]. cbn [app] in *. now injection P as ->.
Qed.
Lemma pinned_change : forall top pre F nd, pinned top pre F nd -> forall m a kids, nd = Elem m a false kids -> forall g miss steps, steps <> [] ->
  match change g miss steps kids with
  | Some kids' => exists F', change g miss (pre ++ steps) F = Some F' /\ pinned top pre F' (Elem m a false kids')
  | None => change g miss (pre ++ steps) F = None
  end.
Proof.
  induction 1 as [top n idx F m0 a0 kids0 P|top n idx s rest F m0 a0 kids0 nd P PN IH]; intros m a kids E g miss steps NS.
  - injection E as -> -> ->. destruct steps as [|s steps]; [easy|]. cbn [app]. rewrite change_more, (picks_index _ _ _ _ _ P). destruct (change g miss (s :: steps) kids) as [kids'|] eqn:CK.
    + match goal with |- exists F', edit_nth _ _ ?h _ = _ /\ _ => destruct (picks_edit top n idx F m a kids h kids' P) as (F' & ED & P') end; [now rewrite CK|]. exists F'. split; [exact ED|]. now constructor.
    + match goal with |- ?x = None => destruct x as [F'|] eqn:ED; auto end. apply edit_nth_split in ED. destruct ED as (F1 & y & F2 & l & -> & N & L & GY & _). exfalso.
      pose proof (picks_index _ _ _ _ _ P) as NE. rewrite called_app, called_cons, N, nth_error_app2, L, Nat.sub_diag in NE by lia. injection NE as ->. rewrite CK in GY. discriminate.
  - subst nd. cbn [app]. rewrite change_more, (picks_index _ _ _ _ _ P). specialize (IH m a kids eq_refl g miss steps NS). destruct (change g miss steps kids) as [kids'|] eqn:CK.
    + destruct IH as (K' & CH & PN'). match goal with |- exists F', edit_nth _ _ ?h _ = _ /\ _ => destruct (picks_edit top n idx F m0 a0 kids0 h K' P) as (F' & ED & P') end; [cbn [app] in CH; now rewrite CH|]. exists F'. split; [exact ED|]. now apply pin_down with (m := m0) (a := a0) (kids := K').
    + match goal with |- ?x = None => destruct x as [F'|] eqn:ED; auto end. apply edit_nth_split in ED. destruct ED as (F1 & y & F2 & l & -> & N & L & GY & _). exfalso.
      pose proof (picks_index _ _ _ _ _ P) as NE. rewrite called_app, called_cons, N, nth_error_app2, L, Nat.sub_diag in NE by lia. injection NE as ->. cbn [app] in IH. rewrite IH in GY. discriminate.
Qed.
(** The element itself. *)
Lemma pinned_at : forall top pre F nd, pinned top pre F nd -> forall m a kids, nd = Elem m a false kids -> forall g miss kids', g nd = Some [Elem m a false kids'] ->
  exists F', change g miss pre F = Some F' /\ pinned top pre F' (Elem m a false kids').
Proof.
  induction 1 as [top n idx F m0 a0 kids0 P|top n idx s rest F m0 a0 kids0 nd P PN IH]; intros m a kids E g miss kids' G.
  - injection E as -> -> ->. cbn [change]. rewrite (picks_index _ _ _ _ _ P). destruct (picks_edit top n idx F m a kids g kids' P G) as (F' & ED & P'). exists F'. split; [exact ED|]. now constructor.
  - destruct (IH m a kids E g miss kids' G) as (K' & CH & PN'). rewrite change_more, (picks_index _ _ _ _ _ P).
    match goal with |- exists F', edit_nth _ _ ?h _ = _ /\ _ => destruct (picks_edit top n idx F m0 a0 kids0 h K' P) as (F' & ED & P') end; [now rewrite CH|]. exists F'. split; [exact ED|]. now apply pin_down with (m := m0) (a := a0) (kids := K').
Qed.
(** The steps of an edit other than an appended one are not empty. *)
Definition steps_of (o : edit) : list tstep :=
  match o with SetContent s _ | SetAttr s _ _ | Remove s | RemoveAttr s _ => s | Append s m _ => s ++ [(m, None)] end.
Lemma pinned_apply : forall top pre F m a kids o kids', pinned top pre F (Elem m a false kids) -> steps_of o <> [] -> apply_edit o kids = Some kids' ->
  exists F', apply_edit (under pre o) F = Some F' /\ pinned top pre F' (Elem m a false kids').
Proof.
  intros top pre F m a kids o kids' P NS AP. assert (NP : pre <> []) by (inversion P; discriminate).
  assert (CH : forall g miss steps, steps <> [] -> match change g miss steps kids with
    | Some kids' => exists F', change g miss (pre ++ steps) F = Some F' /\ pinned top pre F' (Elem m a false kids')
    | None => change g miss (pre ++ steps) F = None end) by (intros; eapply pinned_change; eauto).
  destruct o as [steps c|steps x v|steps|steps x|steps n c]; cbn [under apply_edit steps_of] in *.
  - specialize (CH (with_kids (content_nodes c)) (new_kids (content_nodes c)) steps NS). now rewrite AP in CH.
  - specialize (CH (attr_of x v) (new_attr x v) steps NS). now rewrite AP in CH.
  - specialize (CH (fun _ => Some []) nothing steps NS). destruct (change _ _ steps kids) as [K'|].
    + injection AP as <-. destruct CH as (F' & -> & P'). now exists F'.
    + injection AP as <-. rewrite CH. now exists F.
  - specialize (CH (without_attr x) nothing steps NS). destruct (change _ _ steps kids) as [K'|].
    + injection AP as <-. destruct CH as (F' & -> & P'). now exists F'.
    + injection AP as <-. rewrite CH. now exists F.
  - assert (EQ : apply_edit (Append (pre ++ steps) n c) F = change (more_kids n (content_nodes c)) nothing (pre ++ steps) F) by (destruct pre; [easy|reflexivity]). cbn [apply_edit] in EQ. rewrite EQ. clear EQ. destruct steps as [|s steps].
    + injection AP as <-. rewrite app_nil_r. eapply pinned_at; eauto.
    + specialize (CH (more_kids n (content_nodes c)) nothing (s :: steps) ltac:(discriminate)). now rewrite AP in CH.
Qed.
Lemma pinned_history : forall top pre p q ops kids kids', history q ops kids kids' -> forall F F' m a, pinned top pre F (Elem m a false kids) -> Forall (fun o => steps_of o <> []) ops ->
  history p (map (under pre) ops) F F' -> pinned top pre F' (Elem m a false kids').
Proof.
  intros top pre p q ops kids kids' H. induction H as [K|o ops K K1 K2 L AP R H IH]; intros F F' m a P NS HH; inversion HH; subst; [exact P|]. inversion NS; subst.
  destruct (pinned_apply top pre F m a K o K1 P) as (F1' & A1 & P1); auto. match goal with A : apply_edit (under pre o) F = Some ?G |- _ => rewrite A1 in A; injection A as -> end. eauto.
Qed.

(** ** Queries *)
Lemma pinned_query : forall top pre F nd, pinned top pre F nd -> forall m a kids, nd = Elem m a false kids -> forall steps fin, (steps <> [] \/ fin = TheChildren) -> query top (pre ++ steps) fin F = query false steps fin kids.
Proof.
  assert (ST : forall top n idx rest fin F m a kids, picks top n idx F (Elem m a false kids) -> (rest <> [] \/ fin = TheChildren) -> query top ((n, idx) :: rest) fin F = query false rest fin kids).
  { intros top n idx rest fin F m a kids P NE. rewrite query_cons. cbv zeta. assert (IL : is_last rest fin = false) by (destruct NE as [NE| ->]; [destruct rest; [easy|destruct fin; reflexivity]|destruct rest; reflexivity]). rewrite IL. destruct idx as [ds|]; cbn [picks] in P.
    - destruct P as (P1 & P2 & P3). assert (Q : called (if top then bytes_eqb n else selects n) F = called (selects n) F) by (destruct top; auto). rewrite Q, nth_error_firstn, P2. replace (N.to_nat (decimal_value ds) <? 1000) with true by (symmetry; apply Nat.ltb_lt; lia). reflexivity.
    - rewrite P. cbn [first_answer kids_of]. now destruct (query false rest fin kids). }
  induction 1 as [top n idx F m0 a0 kids0 P|top n idx s rest F m0 a0 kids0 nd P PN IH]; intros m a kids E steps fin NS.
  - injection E as -> -> ->. cbn [app]. eapply ST; eauto.
  - cbn [app]. rewrite (ST _ _ _ _ _ _ _ _ _ P) by (left; discriminate). apply (IH m a kids E). exact NS.
Qed.
Lemma query_top : forall steps fin F, no_array_start steps fin -> query true steps fin F = query false steps fin F.
Proof.
  intros [|[n [ds|]] rest] fin F H; [reflexivity|destruct H|]. rewrite !query_cons. cbv zeta. destruct (is_last rest fin) eqn:IL; [|reflexivity]. destruct fin; try reflexivity. cbn [no_array_start] in H. destruct rest as [|s rest]; [destruct H; congruence|discriminate].
Qed.

(** ** A valid text inside an element *)
Lemma inside_passes : forall found open s, accepted found open s -> forall t stack base, map fst stack = open -> base <> [] -> Forall xml_name (map fst (stack ++ base)) ->
  passes (mkV (s ++ t) (stack ++ base) true false) (mkV t base true false) \/ exists e, yields (mkV (s ++ t) (stack ++ base) true false) (inl e) /\ ve_msg e = VDepth.
Proof.
  induction 1 as [|found open c s B A IH|found open c s NE NA A IH|found open m s M A IH|found open n k a s N K L T A IH|found open n k a s N K L T A IH|found open n w s W A IH];
    intros t stack base ST NB XN.
  - destruct stack; [|discriminate]. left. intros x X. exact X.
  - cbn [app]. destruct (IH t stack base ST NB XN) as [P|(e & Y & V)]; [left; intros x X; apply yields_blank; auto|right; exists e; split; auto; now apply yields_blank].
  - cbn [app]. destruct (IH t stack base ST NB XN) as [P|(e & Y & V)]; [left; intros x X; apply yields_char; auto|right; exists e; split; auto; now apply yields_char].
  - rewrite <- app_assoc. destruct (IH t stack base ST NB XN) as [P|(e & Y & V)]; [left; intros x X; apply yields_aside; auto|right; exists e; split; auto; now apply yields_aside].
  - cbn [app]. rewrite <- !app_assoc. cbn [app]. set (s' := s ++ t). set (u := "<"%char :: n ++ a ++ ">"%char :: s').
    assert (TG : v_tag (mkV u (stack ++ base) true false) u (n ++ a ++ ">"%char :: s') =
      if Nat.leb 100 (len (stack ++ base)) then inl (mkVerr VDepth u) else inr (mkV s' ((n, u) :: stack ++ base) true false)).
    { rewrite tag_char by auto. change (">"%char :: s') with (bs ">" ++ s') at 1. pose proof (v_open_complete (mkV u (stack ++ base) true false) u n k a false s' N K T) as V. cbn iota in V. rewrite V. cbn [v_stack v_root_found v_root_closed].
      destruct (Nat.leb 100 _); [reflexivity|]. now rewrite andb_false_r. }
    destruct (Nat.leb 100 (len (stack ++ base))) eqn:LB.
    + right. exists (mkVerr VDepth u). split; [|reflexivity]. exists 1. cbn [v_loop v_rest]. unfold u. rewrite skip_ws_none by (intros BL; apply (blank_eq _ "<" BL); cbn; auto). change (Ascii.eqb "<" "<") with true. cbn iota. fold u. now rewrite TG.
    + destruct (IH t ((n, u) :: stack) base) as [P|(e & Y & V)]; [cbn [map fst]; now rewrite ST|exact NB|cbn [app map fst]; now constructor| |].
      * left. intros x X. eapply yields_tag; [exact TG|]. now apply P.
      * right. exists e. split; auto. eapply yields_tag; [exact TG|exact Y].
  - cbn [app]. rewrite <- !app_assoc. cbn [app]. set (s' := s ++ t). set (u := "<"%char :: n ++ a ++ "/"%char :: ">"%char :: s').
    assert (TG : v_tag (mkV u (stack ++ base) true false) u (n ++ a ++ "/"%char :: ">"%char :: s') =
      if Nat.leb 100 (len (stack ++ base)) then inl (mkVerr VDepth u) else inr (mkV s' (stack ++ base) true false)).
    { rewrite tag_char by auto. change ("/"%char :: ">"%char :: s') with (bs "/>" ++ s') at 1. pose proof (v_open_complete (mkV u (stack ++ base) true false) u n k a true s' N K T) as V. cbn iota in V. rewrite V. cbn [v_stack v_root_found v_root_closed].
      destruct (Nat.leb 100 _); [reflexivity|]. destruct stack as [|? ?]; [|reflexivity]. destruct base; [easy|reflexivity]. }
    destruct (Nat.leb 100 (len (stack ++ base))) eqn:LB.
    + right. exists (mkVerr VDepth u). split; [|reflexivity]. exists 1. cbn [v_loop v_rest]. unfold u. rewrite skip_ws_none by (intros BL; apply (blank_eq _ "<" BL); cbn; auto). change (Ascii.eqb "<" "<") with true. cbn iota. fold u. now rewrite TG.
    + destruct (IH t stack base ST NB XN) as [P|(e & Y & V)].
      * left. intros x X. eapply yields_tag; [exact TG|]. now apply P.
      * right. exists e. split; auto. eapply yields_tag; [exact TG|exact Y].
  - cbn [app]. rewrite <- !app_assoc. cbn [app]. set (s' := s ++ t). destruct stack as [|[o t0] stack]; [discriminate|]. cbn [app map fst] in ST, XN |- *. injection ST as -> ST. inversion XN as [|? ? N N3]; subst. set (u := "<"%char :: "/"%char :: n ++ w ++ ">"%char :: s').
    assert (TG : v_tag (mkV u ((n, t0) :: stack ++ base) true false) u ("/"%char :: n ++ w ++ ">"%char :: s') = inr (mkV s' (stack ++ base) true false)).
    { cbn [v_tag]. change (Ascii.eqb "/" "?") with false. change (Ascii.eqb "/" "!") with false. change (Ascii.eqb "/" "/") with true. cbn iota.
      rewrite (v_close_complete _ _ n t0 (stack ++ base) w s') by auto. cbn [v_root_found v_root_closed]. destruct stack as [|? ?]; [|reflexivity]. destruct base; [easy|reflexivity]. }
    destruct (IH t stack base eq_refl NB N3) as [P|(e & Y & V)].
    + left. intros x X. eapply yields_tag; [exact TG|]. now apply P.
    + right. exists e. split; auto. eapply yields_tag; [exact TG|exact Y].
Qed.
Lemma wrap_report : forall x n a, valid x = true -> xml_name n -> good_attrs a ->
  let w := start_tag n a false ++ x ++ end_tag n in (N.of_nat (len w) <= 10485760)%N ->
  valid w = true \/ exists l c, validate_with_error w = Some (l, c, VDepth).
Proof.
  intros x n a V N A w L. apply valid_accepted in V. destruct V as [V _].
  destruct (tag_yields n a false (x ++ end_tag n) [] false N A) as [[K _]|[_ (t & P1)]]; [intros []; reflexivity|cbn in K; lia|]. fold w in P1.
  assert (P3 : passes (mkV (end_tag n ++ []) [(n, t)] true false) (mkV [] [] true true)) by exact (close_yields n t [] [] N). rewrite app_nil_r in P3.
  assert (FIN : yields (mkV [] [] true true) (inr (mkV [] [] true true))) by (exists 1; reflexivity).
  assert (VW : forall y, yields (mkV w [] false false) y -> validate w = Some (match y with inl e => Some e | inr st => v_finish w st end)).
  { intros y Y. unfold validate. change MaxDocumentSize with 10485760%N. rewrite (proj2 (N.ltb_ge 10485760 (blen w)) L). destruct w as [|c d0] eqn:E; [unfold w in E; discriminate|]. rewrite <- E in *.
    destruct (v_loop_total (S (len w)) (mkV w [] false false)) as [z VL]; [cbn [v_rest]; lia|]. rewrite VL. rewrite (yields_eq _ _ _ _ Y VL). now destruct y. }
  destruct (inside_passes false [] x V (end_tag n) [] [(n, t)] eq_refl ltac:(discriminate)) as [P2|(e & Y & VD)]; [cbn; auto| |].
  - left. unfold valid. rewrite (VW _ (P1 _ (P2 _ (P3 _ FIN)))). reflexivity.
  - right. unfold validate_with_error. rewrite (VW _ (P1 _ Y)). rewrite VD. now destruct (line_col w (ve_at e)) as [l c]; exists l, c.
Qed.
Lemma pinned_inner : forall top pre F nd, pinned top pre F nd -> forall m a kids, nd = Elem m a false kids -> Forall good F -> shallow F -> Forall good kids /\ shallow kids.
Proof.
  assert (ST : forall top n idx F m a kids, picks top n idx F (Elem m a false kids) -> Forall good F -> shallow F -> Forall good kids /\ shallow kids).
  { intros top n idx F m a kids P G S. pose proof (picks_index _ _ _ _ _ P) as NE. apply nth_error_In in NE. unfold called in NE. apply filter_In in NE. destruct NE as [I _]. rewrite Forall_forall in G. specialize (G _ I). unfold shallow in S. rewrite Forall_forall in S. specialize (S _ I).
    split; [inversion G; subst; assumption|]. cbn [levels] in S. clear - S. unfold shallow. induction kids as [|k kids IH]; [constructor|]. cbn [fold_right map] in S. constructor; [lia|]. apply IH. lia. }
  induction 1 as [top n idx F m0 a0 kids0 P|top n idx s rest F m0 a0 kids0 nd P PN IH]; intros m a kids E G S.
  - injection E as -> -> ->. eapply ST; eauto.
  - destruct (ST _ _ _ _ _ _ _ P G S). eauto.
Qed.
Lemma legal_steps : forall o, legal o -> steps_of o <> [].
Proof.
  intros [steps c|steps x v|steps|steps x|steps n c] L; cbn [legal steps_of] in *; try (destruct L as [[_ GF _] _]) ; try (destruct L as [_ GF _]).
  all: try (intros ->; now apply GF). 
  destruct steps; discriminate.
Qed.
