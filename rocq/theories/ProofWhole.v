(** Modifiers at the end of a query. *)
From Coq Require Import List Ascii String NArith ZArith Bool Lia.
From Verif Require Import GoStr ModelParser ModelPath ModelResult ModelQuery SpecText SpecPath SpecTree SpecQuery SpecEdit SpecContent SpecFilter SpecLang SpecWhole
  ProofBase ProofPath ProofScan ProofSyntax ProofFuel ProofMono ProofMod ProofTree4 ProofLang.
Import ListNotations.

Definition narrow_seg (sg : seg) : Prop :=
  s_type sg = SElem \/ s_type sg = SIndex \/ (s_type sg = SFilter /\ s_all sg = false).
Definition wide_seg (sg : seg) : Prop :=
  (s_type sg = SFilter /\ s_all sg = true) \/ (s_type sg = SWild /\ s_wild sg = false).
Inductive shape : list seg -> Prop :=
| sh_last : forall sg, s_mods sg = [] -> s_wild sg = false -> shape [sg]
| sh_pair : forall w l, wide_seg w -> s_mods w = [] -> s_mods l = [] ->
    (s_type l = SAttr \/ s_type l = SText \/ (s_type l = SField /\ s_type w = SFilter)) -> shape [w; l]
| sh_step : forall sg rest, narrow_seg sg -> s_mods sg = [] -> shape rest -> shape (sg :: rest).
Fixpoint addm (ms : list bytes) (segs : list seg) : list seg :=
  match segs with
  | [] => []
  | [sg] => [with_mods sg ms]
  | sg :: rest => sg :: addm ms rest
  end.
(** The roots of a fragment. *)
Definition root_ok (segs : list seg) : Prop :=
  match segs with
  | [a; x] => s_type a = SElem -> s_type x <> SIndex /\ s_type x <> SCount
  | [a; x; y] => s_type a = SElem -> s_type x = SIndex -> s_type y <> SAttr /\ s_type y <> SText
  | _ => True
  end.
Lemma shape_cons : forall segs, shape segs -> exists sg rest, segs = sg :: rest.
Proof. intros segs [sg|w l|sg rest]; eauto. Qed.
Lemma addm_cons : forall ms sg rest, rest <> [] -> addm ms (sg :: rest) = sg :: addm ms rest.
Proof. intros ms sg [|a rest] H; [easy|reflexivity]. Qed.
Lemma addm_hd : forall ms sg rest, exists sg' rest', addm ms (sg :: rest) = sg' :: rest' /\
  s_type sg' = s_type sg /\ s_value sg' = s_value sg /\ s_index sg' = s_index sg /\ s_wild sg' = s_wild sg /\ s_filter sg' = s_filter sg /\
  s_all sg' = s_all sg /\ s_field sg' = s_field sg /\ (rest = [] -> sg' = with_mods sg ms /\ rest' = []) /\ (rest <> [] -> sg' = sg /\ rest' = addm ms rest).
Proof.
  intros ms sg [|a rest].
  - exists (with_mods sg ms), []. repeat split; auto; contradiction.
  - exists sg, (addm ms (a :: rest)). repeat split; auto; discriminate.
Qed.
Lemma shape_end : forall sg rest, shape (sg :: rest) -> s_type sg = SAttr \/ s_type sg = SText \/ s_type sg = SField \/ s_type sg = SCount -> rest = [].
Proof.
  intros sg rest H T. inversion H as [| w l [[W _]|[W _]]|x r [N|[N|[N _]]]]; subst; auto; intuition congruence.
Qed.
Lemma shape_tl : forall sg rest, shape (sg :: rest) -> narrow_seg sg -> rest <> [] -> s_mods sg = [] /\ shape rest.
Proof.
  intros sg rest H N R. inversion H as [|w l W M1 M2 D|x r N' M S]; subst; [easy| |auto].
  exfalso. destruct N as [N|[N|[N N']]], W as [[W W']|[W W']]; congruence.
Qed.
Lemma shape_mods : forall sg rest, shape (sg :: rest) -> s_mods sg = [].
Proof. intros sg rest H. inversion H; auto. Qed.
Lemma shape_wild : forall sg rest, shape (sg :: rest) -> s_type sg = SWild -> s_wild sg = false.
Proof. intros sg rest H T. inversion H as [|w l W|x r N]; subst; auto. - destruct W as [[W _]|[_ W]]; [congruence|auto]. - destruct N as [N|[N|[N _]]]; congruence. Qed.

Section Whole.
  Variable E : env.
  Variable ms : list bytes.
  Hypothesis Hms : forall r, workable r -> r_exists (apply_modifiers E r ms) = true.
  Definition modr (r : result) : result := if nothing r then r else apply_modifiers E r ms.
  Definition solid (r : result) : Prop := r_type r = RNull \/ (r_type r = RArray /\ r_results r = []) \/ workable r.

  Lemma value_modr : forall r, value r -> modr r = apply_modifiers E r ms.
  Proof. intros r [H1 H2]. unfold modr, nothing. destruct (r_type r); congruence. Qed.
  Lemma list_modr : forall x l, modr (r_array (x :: l)) = apply_modifiers E (r_array (x :: l)) ms. Proof. reflexivity. Qed.
  Lemma solid_value : forall r, value r -> solid r. Proof. intros r H. right. right. now left. Qed.
  Lemma solid_list : forall l, Forall value l -> solid (r_array l).
  Proof. intros [|x l] H; [right; left; auto|]. right. right. right. cbn. repeat split; auto; discriminate. Qed.
  Lemma solid_package : forall l, Forall value l -> solid (package l).
  Proof. intros l H. unfold package. destruct l as [|x [|y l]]; try (now apply solid_list). apply solid_value. now inversion H. Qed.
  Lemma package_modr : forall x l, Forall value (x :: l) -> modr (package (x :: l)) = apply_modifiers E (package (x :: l)) ms.
  Proof. intros x [|y l] H; [apply value_modr; now inversion H|reflexivity]. Qed.
  Lemma null_modr : forall r, solid r -> is_null (modr r) = is_null r.
  Proof.
    intros r H. unfold modr. destruct (nothing r) eqn:N; auto.
    assert (W : workable r). { destruct H as [H|[[H1 H2]|H]]; auto; unfold nothing in N; [rewrite H in N|rewrite H1, H2 in N]; discriminate. }
    pose proof (Hms _ W) as K. unfold r_exists in K. unfold is_null. apply negb_true_iff in K. rewrite K.
    destruct W as [[W _]|[W _]]; [destruct (r_type r); try reflexivity; congruence|rewrite W; reflexivity].
  Qed.
  Lemma value_elem : forall c, value (r_element c). Proof. intros; split; discriminate. Qed.
  Lemma value_attr : forall c, value (r_attribute c). Proof. intros; split; discriminate. Qed.
  Lemma value_text : forall c, value (r_text c). Proof. intros; split; discriminate. Qed.
  Lemma value_attrs : forall name (l : list elem), Forall value (flat_map (fun e => match map_get name (e_attrs e) with Some v => [r_attribute v] | None => [] end) l).
  Proof. intros name l. apply Forall_forall. intros x Hx. apply in_flat_map in Hx. destruct Hx as [e [_ K]]. destruct (map_get name (e_attrs e)); [|destruct K]. destruct K as [<-|[]]. apply value_attr. Qed.
  Lemma value_elems : forall (l : list elem), Forall value (map (fun e => r_element (e_content e)) l).
  Proof. intros l. apply Forall_map, Forall_forall. intros; apply value_elem. Qed.
  Lemma value_texts : forall (l : list elem), Forall value (map (fun e => r_text (e_content e)) l).
  Proof. intros l. apply Forall_map, Forall_forall. intros; apply value_text. Qed.
  Lemma value_children : forall key f l rs, field_children E key f l = Ok rs -> Forall value rs.
  Proof.
    intros key f l. induction l as [|e l IH]; intros rs H; cbn [field_children] in H; [injection H as <-; constructor|].
    apply bind_ok in H. destruct H as [cs [_ H]]. apply bind_ok in H. destruct H as [r [H1 H]]. injection H as <-.
    apply Forall_app. split; [apply value_elems|eauto].
  Qed.
  Lemma Forall_firstn : forall A (P : A -> Prop) n l, Forall P l -> Forall P (firstn n l).
  Proof. intros A P n l H. rewrite <- (firstn_skipn n l) in H. apply Forall_app in H. apply H. Qed.
  Ltac done := try (split; [reflexivity|intros r' K'; injection K' as <-; try (now left)]).
  Definition both (a b : Res result) : Prop := a = (let* r := b in Ok (modr r)) /\ forall r, b = Ok r -> solid r.

  Lemma both_null : both (Ok r_null) (Ok r_null).
  Proof. split; [reflexivity|]. intros r H. injection H as <-. now left. Qed.
  Lemma both_value : forall r, value r -> both (Ok (apply_modifiers E r ms)) (Ok r).
  Proof. intros r H. split; [cbn [bind]; now rewrite value_modr|]. intros r' K. injection K as <-. now apply solid_value. Qed.
  Lemma both_package : forall l, Forall value l ->
    both (match l with [] => Ok r_null | _ :: _ => Ok (apply_modifiers E (package l) ms) end) (match l with [] => Ok r_null | _ :: _ => Ok (package l) end).
  Proof.
    intros [|x l] H; [apply both_null|]. split; [cbn [bind]; now rewrite package_modr|]. intros r K. injection K as <-. exact (solid_package (x :: l) H).
  Qed.
  Lemma both_field : forall key l nx, s_mods nx = [] -> both (field_extract E key l (with_mods nx ms)) (field_extract E key l nx).
  Proof.
    intros key l nx M. unfold field_extract. cbn [with_mods s_field s_mods]. destruct (s_field nx) as [|c name] eqn:F; [apply both_null|].
    set (src := if Ascii.eqb c "@" then _ else _).
    assert (V : forall rs, src = Ok rs -> Forall value rs).
    { intros rs H. unfold src in H. destruct (Ascii.eqb c "@"); [injection H as <-; apply value_attrs|].
      destruct (bytes_eqb (c :: name) (bs "%")); [|eapply value_children; exact H]. injection H as <-.
      apply Forall_forall. intros x Hx. apply in_flat_map in Hx. destruct Hx as [e [_ K]]. destruct (extract_direct (e_content e)); [destruct K|].
      destruct K as [<-|[]]. split; discriminate. }
    destruct src as [rs| |]; [|split; [reflexivity|discriminate]|split; [reflexivity|discriminate]]. cbn [bind].
    specialize (V rs eq_refl). apply (Forall_firstn _ _ MaxWildcardResults) in V. destruct (firstn MaxWildcardResults rs) as [|x k].
    - split; [reflexivity|]. intros r H. injection H as <-. right; left; auto.
    - rewrite M. split; [reflexivity|]. intros r H. injection H as <-. now apply solid_list.
  Qed.

  Variable rec : qrec.
  Definition good_rec (segs : list seg) : Prop := forall k s, both (rec k false s (addm ms segs)) (rec k false s segs).

  Lemma both_all : forall key l w rest, l <> [] -> shape (w :: rest) -> s_type w = SFilter -> s_all w = true ->
    both (match addm ms (w :: rest) with w' :: rest' => process_all E rec key l w' rest' | [] => Ok r_null end) (process_all E rec key l w rest).
  Proof.
    intros key l w rest Hl S Tw Aw. inversion S as [sg M W|w' x W M1 M2 D|sg r N]; subst.
    - cbn [addm process_all with_mods s_mods]. rewrite M. destruct l as [|e l]; [easy|]. cbn [map].
      split; [reflexivity|]. intros r K. injection K as <-. apply (solid_list (map (fun e => r_element (e_content e)) (e :: l))). apply value_elems.
    - cbn [addm process_all with_mods s_mods s_type s_value]. rewrite M2. destruct D as [D|[D|[D _]]]; rewrite D.
      + apply both_package, value_attrs.
      + apply both_package, value_texts.
      + now apply both_field.
    - destruct N as [N|[N|[N N']]]; congruence.
  Qed.
  Lemma both_first : forall key e sg rest, shape (sg :: rest) -> s_type sg = SFilter -> s_all sg = false -> (rest <> [] -> good_rec rest) ->
    both (match addm ms (sg :: rest) with w' :: rest' => process_first E rec key e w' rest' | [] => Ok r_null end) (process_first E rec key e sg rest).
  Proof.
    intros key e sg rest S T A R. destruct rest as [|nx more].
    - cbn [addm process_first with_mods s_mods]. rewrite (shape_mods _ _ S). apply both_value, value_elem.
    - rewrite addm_cons by discriminate. destruct (shape_tl _ _ S) as [M S2]; [right; right; auto|discriminate|]. specialize (R ltac:(discriminate)).
      destruct (addm_hd ms nx more) as (nx' & more' & EQ & T1 & T2 & T3 & T4 & T5 & T6 & T7 & Z1 & Z2).
      rewrite EQ. cbn [process_first]. rewrite T1. pose proof (shape_mods _ _ S2) as M2.
      assert (L : s_type nx = SAttr \/ s_type nx = SText \/ s_type nx = SField \/ s_type nx = SCount -> nx' = with_mods nx ms).
      { intros K. apply Z1. eapply shape_end; eauto. }
      assert (R' : both (rec (child_key site_query e key) false (e_content e) (nx' :: more')) (rec (child_key site_query e key) false (e_content e) (nx :: more))).
      { rewrite <- EQ. apply R. }
      destruct (s_type nx) eqn:TY; auto.
      + rewrite L by auto. cbn [with_mods s_value s_mods]. rewrite M2. destruct (map_get (s_value nx) (e_attrs e)); [apply both_value, value_attr|apply both_null].
      + rewrite L by auto. cbn [with_mods s_mods]. rewrite M2. apply both_value, value_text.
      + rewrite L by auto. now apply both_field.
  Qed.
  Lemma both_route : forall key l sg rest, shape (sg :: rest) -> s_type sg = SFilter -> (s_all sg = false -> rest <> [] -> good_rec rest) ->
    both (match addm ms (sg :: rest) with w' :: rest' => route_matches E rec key l w' rest' | [] => Ok r_null end) (route_matches E rec key l sg rest).
  Proof.
    intros key l sg rest S T R. destruct (addm_hd ms sg rest) as (sg' & rest' & EQ & T1 & T2 & T3 & T4 & T5 & T6 & T7 & Z1 & Z2).
    rewrite EQ. unfold route_matches. destruct l as [|e l]; [apply both_null|]. rewrite T6. destruct (s_all sg) eqn:A.
    - pose proof (both_all key (e :: l) sg rest ltac:(discriminate) S T A) as B. rewrite EQ in B. exact B.
    - pose proof (both_first key e sg rest S T A (R eq_refl)) as B. rewrite EQ in B. exact B.
  Qed.
  Lemma both_loop : forall key sg rest l, shape (sg :: rest) -> narrow_seg sg -> (rest <> [] -> good_rec rest) ->
    (forall nx more, rest = nx :: more -> s_type nx <> SField) ->
    both (match addm ms (sg :: rest) with w' :: rest' => first_loop E rec key l w' rest' | [] => Ok r_null end) (first_loop E rec key l sg rest).
  Proof.
    intros key sg rest l S N R NF. destruct rest as [|nx more].
    - cbn [addm]. destruct l as [|e l]; cbn [first_loop]; [apply both_null|]. cbn [with_mods s_mods]. rewrite (shape_mods _ _ S). apply both_value, value_elem.
    - rewrite addm_cons by discriminate. destruct (shape_tl _ _ S N) as [M S2]; [discriminate|]. specialize (R ltac:(discriminate)).
      destruct (addm_hd ms nx more) as (nx' & more' & EQ & T1 & T2 & T3 & T4 & T5 & T6 & T7 & Z1 & Z2). rewrite EQ. pose proof (shape_mods _ _ S2) as M2.
      assert (L : s_type nx = SAttr \/ s_type nx = SText \/ s_type nx = SField \/ s_type nx = SCount -> nx' = with_mods nx ms /\ more = [] /\ more' = []).
      { intros K. assert (Q : more = []) by (eapply shape_end; eauto). destruct (Z1 Q). auto. }
      induction l as [|e l IH]; cbn [first_loop]; [apply both_null|]. rewrite T1.
      assert (R' : both (let* r := rec (child_key site_query e key) false (e_content e) (nx' :: more') in if is_null r then first_loop E rec key l sg (nx' :: more') else Ok r)
                        (let* r := rec (child_key site_query e key) false (e_content e) (nx :: more) in if is_null r then first_loop E rec key l sg (nx :: more) else Ok r)).
      { destruct (R (child_key site_query e key) (e_content e)) as [B1 B2]. rewrite EQ in B1. rewrite B1.
        destruct (rec (child_key site_query e key) false (e_content e) (nx :: more)) as [r| |]; [|split; [reflexivity|discriminate]|split; [reflexivity|discriminate]].
        specialize (B2 r eq_refl). cbn [bind]. rewrite (null_modr _ B2). destruct (is_null r) eqn:NU; [exact IH|].
        split; [reflexivity|]. intros r' K. injection K as <-. exact B2. }
      destruct (s_type nx) eqn:TY; auto.
      + destruct L as (-> & -> & ->); auto. cbn [with_mods s_value s_mods]. rewrite M2. destruct (map_get (s_value nx) (e_attrs e)); [apply both_value, value_attr|apply both_null].
      + destruct L as (-> & -> & ->); auto. cbn [with_mods s_mods]. rewrite M2. apply both_value, value_text.
  Qed.
  Lemma both_array : forall key l nx more, shape (nx :: more) -> (s_type nx = SIndex \/ s_type nx = SCount) -> (more <> [] -> good_rec more) ->
    both (match addm ms (nx :: more) with w' :: rest' => array_op E rec key l w' rest' | [] => Ok r_null end) (array_op E rec key l nx more).
  Proof.
    intros key l nx more S T R. destruct (addm_hd ms nx more) as (nx' & more' & EQ & T1 & T2 & T3 & T4 & T5 & T6 & T7 & Z1 & Z2).
    rewrite EQ. unfold array_op. destruct l as [|e0 l]; [apply both_null|]. rewrite T1, T3. pose proof (shape_mods _ _ S) as M. destruct T as [T|T]; rewrite T.
    - destruct (nth_elem (e0 :: l) (s_index nx)) as [e|]; [|apply both_null]. destruct more as [|n2 m2].
      + destruct Z1 as [-> ->]; auto. cbn [with_mods s_mods]. rewrite M. apply both_value, value_elem.
      + destruct Z2 as [-> ->]; [discriminate|]. destruct (shape_tl _ _ S) as [_ S2]; [right; left; auto|discriminate|]. specialize (R ltac:(discriminate)).
        destruct (addm_hd ms n2 m2) as (n2' & m2' & EQ2 & U1 & U2 & U3 & U4 & U5 & U6 & U7 & Y1 & Y2). rewrite EQ2, U1.
        assert (R' : both (rec (child_key site_query e key) false (e_content e) (n2' :: m2')) (rec (child_key site_query e key) false (e_content e) (n2 :: m2))).
        { rewrite <- EQ2. apply R. }
        destruct (s_type n2) eqn:TY; auto. assert (Q : m2 = []) by (eapply shape_end; eauto). destruct (Y1 Q) as [-> ->]. subst m2.
        cbn [with_mods s_value s_mods]. rewrite (shape_mods _ _ S2). destruct (map_get (s_value n2) (e_attrs e)); [apply both_value, value_attr|apply both_null].
    - assert (Q : more = []) by (eapply shape_end; eauto). destruct (Z1 Q) as [-> _]. cbn [with_mods s_mods]. rewrite M. apply both_value. split; discriminate.
  Qed.
  Lemma both_root : forall key l nx more, shape (nx :: more) -> (s_type nx = SIndex \/ s_type nx = SCount \/ s_type nx = SField) -> (more <> [] -> good_rec more) ->
    s_type nx <> SCount -> (s_type nx = SIndex -> more <> [] /\ forall y, more = [y] -> s_type y <> SAttr /\ s_type y <> SText) ->
    both (match addm ms (nx :: more) with w' :: rest' => root_array E rec key l w' rest' | [] => Ok r_null end) (root_array E rec key l nx more).
  Proof.
    intros key l nx more S T R NC NI. destruct (addm_hd ms nx more) as (nx' & more' & EQ & T1 & T2 & T3 & T4 & T5 & T6 & T7 & Z1 & Z2).
    rewrite EQ. unfold root_array. destruct l as [|e0 l]; [apply both_null|]. rewrite T1, T3. destruct T as [T|[T|T]]; [|congruence|].
    - rewrite T. destruct (NI T) as [NE NA]. destruct (Z2 NE) as [-> ->]. destruct (nth_elem (e0 :: l) (s_index nx)) as [e|]; [|apply both_null].
      destruct more as [|n2 m2]; [easy|]. destruct (shape_tl _ _ S) as [_ S2]; [right; left; auto|discriminate|]. specialize (R ltac:(discriminate)).
      destruct (addm_hd ms n2 m2) as (n2' & m2' & EQ2 & U1 & U2 & U3 & U4 & U5 & U6 & U7 & Y1 & Y2). rewrite EQ2, U1.
      assert (R' : both (rec (child_key site_query e key) false (e_content e) (n2' :: m2')) (rec (child_key site_query e key) false (e_content e) (n2 :: m2))).
      { rewrite <- EQ2. apply R. }
      destruct (s_type n2) eqn:TY; auto; assert (Q : m2 = []) by (eapply shape_end; eauto); subst m2; destruct (NA n2 eq_refl); congruence.
    - rewrite T. assert (Q : more = []) by (eapply shape_end; eauto). destruct (Z1 Q) as [-> _]. apply both_field. eapply shape_mods; eauto.
  Qed.
  Lemma both_element : forall key es sg rest, shape (sg :: rest) -> s_type sg = SElem -> (forall b, shape b -> good_rec b) ->
    both (match addm ms (sg :: rest) with w' :: rest' => exec_element E rec key es w' rest' | [] => Ok r_null end) (exec_element E rec key es sg rest).
  Proof.
    intros key es sg rest S T R.
    assert (N : narrow_seg sg) by (left; auto).
    assert (R0 : rest <> [] -> good_rec rest) by (intros; apply R; now apply (shape_tl sg)).
    destruct rest as [|nx more].
    - exact (both_loop key sg [] (matching sg es) S N R0 ltac:(discriminate)).
    - destruct (shape_tl _ _ S N) as [M S2]; [discriminate|].
      assert (R1 : narrow_seg nx -> more <> [] -> good_rec more) by (intros; apply R; now apply (shape_tl nx)).
      pose proof (both_loop key sg (nx :: more) (matching sg es) S N R0) as BL.
      rewrite addm_cons in BL |- * by discriminate. unfold exec_element.
      destruct (addm_hd ms nx more) as (nx' & more' & EQ & T1 & T2 & T3 & T4 & T5 & T6 & T7 & Z1 & Z2). rewrite EQ in *. rewrite T1.
      assert (BL' : s_type nx <> SField -> both (first_loop E rec key (matching sg es) sg (nx' :: more')) (first_loop E rec key (matching sg es) sg (nx :: more))).
      { intros K. apply BL. intros nx0 more0 Q. injection Q as <- <-. exact K. }
      set (cap := firstn MaxWildcardResults (matching sg es)) in *.
      destruct (s_type nx) eqn:TY; try (apply BL'; discriminate).
      + pose proof (both_array key cap nx more S2 (or_introl TY) (R1 (or_intror (or_introl TY)))) as B. rewrite EQ in B. exact B.
      + rewrite T5. destruct (filter_elems E rec key (s_filter nx) cap) as [l| |]; [|split; [reflexivity|discriminate]|split; [reflexivity|discriminate]]. cbn [bind].
        pose proof (both_route key l nx more S2 TY (fun A => R1 (or_intror (or_intror (conj TY A))))) as B. rewrite EQ in B. exact B.
      + assert (Q : more = []) by (eapply shape_end; eauto).
        pose proof (both_array key cap nx more S2 (or_intror TY) (fun K => False_ind _ (K Q))) as B. rewrite EQ in B. exact B.
      + assert (Q : more = []) by (eapply shape_end; eauto). destruct (Z1 Q) as [-> _]. apply both_field. eapply shape_mods; eauto.
  Qed.
  Lemma both_body : forall key root s segs, shape segs -> (root = true -> root_ok segs) -> (forall b, shape b -> good_rec b) ->
    both (exec_body E rec key root s (addm ms segs)) (exec_body E rec key root s segs).
  Proof.
    intros key root s segs S RO R. destruct segs as [|sg rest]; [inversion S|].
    pose proof (fun es T => both_element key es sg rest S T R) as BE. pose proof (fun l T G => both_route key l sg rest S T G) as BR.
    destruct (addm_hd ms sg rest) as (sg' & rest' & EQ & T1 & T2 & T3 & T4 & T5 & T6 & T7 & Z1 & Z2). rewrite EQ in *. unfold exec_body.
    destruct (scan_res E key s) as [es| |]; [|split; [reflexivity|discriminate]|split; [reflexivity|discriminate]]. cbn [bind]. rewrite T1.
    destruct (s_type sg) eqn:TY; try apply both_null.
    - specialize (BE es eq_refl). destruct root; [|exact BE]. specialize (RO eq_refl).
      destruct rest as [|nx more]; [destruct (Z1 eq_refl) as [-> ->]; exact BE|]. destruct Z2 as [-> ->]; [discriminate|].
      destruct (shape_tl _ _ S) as [M S2]; [left; auto|discriminate|].
      assert (R1 : s_type nx = SIndex -> more <> [] -> good_rec more) by (intros; apply R; apply (shape_tl nx); auto; right; left; auto).
      pose proof (fun l a b c d => both_root key l nx more S2 a b c d) as BO.
      destruct (addm_hd ms nx more) as (nx' & more' & EQ2 & U1 & U2 & U3 & U4 & U5 & U6 & U7 & Y1 & Y2). rewrite EQ2 in *. rewrite U1.
      assert (ME : s_type nx = SCount \/ s_type nx = SField -> more = []) by (intros K; eapply shape_end; eauto; intuition congruence).
      destruct (s_type nx) eqn:TN; try exact BE.
      + apply BO; auto; try discriminate. intros _. cbn [root_ok] in RO. destruct more as [|y more]; [destruct (RO TY); congruence|]. split; [discriminate|].
        intros y0 Q. injection Q as -> ->. apply RO; auto.
      + exfalso. rewrite (ME (or_introl eq_refl)) in RO. destruct (RO TY); congruence.
      + apply BO; auto; try discriminate. intros K. now rewrite (ME (or_intror eq_refl)) in K.
    - rewrite T4. rewrite (shape_wild _ _ S TY). destruct (firstn MaxWildcardResults es) as [|e l]; [apply both_null|].
      inversion S as [x M W|w' x W M1 M2 D|x r N]; subst.
      + destruct (Z1 eq_refl) as [-> ->]. cbn [handle_wildcard bind with_mods s_mods]. rewrite M. rewrite apply_nil.
        apply (both_package (map (fun e => r_element (e_content e)) (e :: l))). apply value_elems.
      + destruct Z2 as [-> ->]; [discriminate|]. cbn [addm handle_wildcard with_mods s_mods s_type s_value]. rewrite M2. destruct D as [D|[D|[_ D]]]; [| |congruence]; rewrite D.
        * pose proof (both_package _ (value_attrs (s_value x) (e :: l))) as B.
          destruct (flat_map (fun e => match map_get (s_value x) (e_attrs e) with Some v => [r_attribute v] | None => [] end) (e :: l)); exact B.
        * apply (both_package _ (value_texts (e :: l))).
      + destruct N as [N|[N|[N _]]]; congruence.
    - rewrite T5. destruct (filter_elems_upto MaxWildcardResults E rec key (s_filter sg) es) as [l| |]; [|split; [reflexivity|discriminate]|split; [reflexivity|discriminate]]. cbn [bind].
      apply (BR l eq_refl). intros A NE. apply R. apply (shape_tl sg); auto. right; right; auto.
    - split; [reflexivity|]. intros r K. injection K as <-. right; left; auto.
  Qed.
End Whole.

Lemma exec_whole : forall E ms, (forall r, workable r -> r_exists (apply_modifiers E r ms) = true) ->
  forall f key root s segs, shape segs -> (root = true -> root_ok segs) ->
  both E ms (exec E f key root s (addm ms segs)) (exec E f key root s segs).
Proof.
  intros E ms H. induction f as [|f IH]; intros key root s segs S RO; [split; [reflexivity|discriminate]|].
  cbn [exec]. apply both_body; auto. intros b Sb k t. apply IH; auto. discriminate.
Qed.
