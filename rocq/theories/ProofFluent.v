(** Queries on results. *)
From Coq Require Import List Ascii String NArith ZArith Bool Lia Permutation.
From Verif Require Import GoStr ModelParser ModelPath ModelResult ModelQuery ModelBuilder ModelQueryOpts ModelApi SpecText SpecPath SpecTree SpecQuery SpecValid SpecEdit SpecContent SpecFilter SpecLang SpecCase SpecFluent
  ProofBase ProofPath ProofTree ProofTree2 ProofTree3 ProofTree4 ProofTree5 ProofTree6 ProofTree7 ProofTree8 ProofMono ProofScan ProofLang ProofLang2 ProofLang3 ProofLang4 ProofLang5 ProofCase ProofCase2 ProofCase3 ProofCase4 ProofEdit ProofEdit2 ProofOpts.
Import ListNotations.

(** ** What a query finds lies in the tree *)
Lemma inside_trans : forall F k nd, inside k F -> inside nd (kids_of k) -> inside nd F.
Proof.
  intros F k nd H. revert nd. induction H as [F H1 H2|F k' H1 H2 IH]; intros nd K; [eapply inside_below; eauto|].
  eapply inside_below; eauto.
Qed.
Definition from (F : list node) (i : item) : Prop :=
  forall kids, i = AnElement kids -> exists nd, inside nd F /\ kids = kids_of nd.
Lemma from_deeper : forall F nd i, inside nd F -> from (kids_of nd) i -> from F i.
Proof. intros F nd i H K kids Q. destruct (K kids Q) as [m [M1 M2]]. exists m. split; auto. eapply inside_trans; eauto. Qed.
Lemma called_inside : forall f F nd, In nd (called f F) -> inside nd F.
Proof.
  intros f F nd H. apply filter_In in H. destruct H as [H1 H2]. apply inside_here; auto. destruct nd; try discriminate. reflexivity.
Qed.
Lemma elems_inside : forall F nd, In nd (elems F) -> inside nd F.
Proof. intros F nd H. apply filter_In in H. now apply inside_here. Qed.
Lemma firstn_in : forall {A} n (l : list A) x, In x (firstn n l) -> In x l.
Proof. intros A n l x H. rewrite <- (firstn_skipn n l). apply in_or_app. now left. Qed.
Lemma from_attribute : forall F x nd, Forall (from F) (attribute x nd).
Proof. intros F x nd. unfold attribute. destruct (attr_value x (attrs_of nd)); constructor; auto. discriminate. Qed.
Lemma from_fields_of : forall F f nd, inside nd F -> Forall (from F) (fields_of f nd).
Proof.
  intros F [n|x|] nd H; cbn [fields_of].
  - apply Forall_forall. intros i K. apply in_map_iff in K. destruct K as [m [<- K]]. intros kids Q. injection Q as <-. exists m. split; auto.
    eapply inside_trans; eauto. eapply called_inside; eauto.
  - apply from_attribute.
  - destruct (trim_space _); constructor; auto. discriminate.
Qed.
Lemma from_fields : forall F f l, (forall nd, In nd l -> inside nd F) -> Forall (from F) (items (fields f l)).
Proof.
  intros F f l H. unfold fields. cbn [items]. apply Forall_forall. intros i K. apply firstn_in in K. apply in_flat_map in K.
  destruct K as [nd [K1 K2]]. pose proof (from_fields_of F f nd (H nd K1)) as Q. rewrite Forall_forall in Q. auto.
Qed.
Lemma items_pack : forall l, items (pack l) = l.
Proof. intros [|i [|j l]]; reflexivity. Qed.
Lemma from_leaf : forall F e nd, inside nd F -> Forall (from F) (items (leaf e nd)).
Proof.
  intros F [|x| | |f] nd H; cbn [leaf].
  - constructor; auto. intros kids Q. injection Q as <-. eauto.
  - rewrite items_pack. apply from_attribute.
  - constructor; auto. discriminate.
  - constructor.
  - apply from_fields. intros m [<-|[]]; auto.
Qed.
Lemma from_flat : forall {A} F (g : A -> list item) l, (forall x, In x l -> Forall (from F) (g x)) -> Forall (from F) (flat_map g l).
Proof.
  intros A F g l H. apply Forall_forall. intros i K. apply in_flat_map in K. destruct K as [x [K1 K2]]. specialize (H x K1).
  rewrite Forall_forall in H. auto.
Qed.
Lemma gather_incl : forall (l : list (list item)) acc, Forall (fun i : item => In i acc \/ exists c, In c l /\ In i c)
  (fold_left (fun acc c => if Nat.leb 1000 (len acc) then acc else acc ++ c) l acc).
Proof.
  induction l as [|c l IH]; intros acc; cbn [fold_left]; [apply Forall_forall; auto|]. eapply Forall_impl; [|apply IH]. cbn beta.
  intros i [H|[c' [H1 H2]]]; [|right; exists c'; split; [now right|auto]]. destruct (Nat.leb 1000 (len acc)); [auto|].
  apply in_app_or in H. destruct H; [auto|right; exists c; split; [now left|auto]].
Qed.
Lemma from_gather : forall F l, Forall (Forall (from F)) l -> Forall (from F) (gather l).
Proof.
  intros F l H. unfold gather. eapply Forall_impl; [|apply gather_incl]. cbn beta. intros i [[]|[c [H1 H2]]].
  rewrite Forall_forall in H. specialize (H c H1). rewrite Forall_forall in H. auto.
Qed.
Lemma first_from : forall F g l, (forall nd, In nd l -> Forall (from F) (items (g nd))) -> Forall (from F) (items (first_reply g l)).
Proof.
  intros F g l. induction l as [|nd l IH]; intros H; cbn [first_reply]; [constructor|]. pose proof (H nd (or_introl eq_refl)) as K.
  destruct (g nd); [apply IH; intros; apply H; now right|exact K..].
Qed.

Section Found.
  Variable sat : condition -> node -> bool.
  Variable e : qend.
  Lemma ask_from : forall steps top F, Forall (from F) (items (ask sat e top steps F)).
  Proof.
    induction steps as [|s rest IH]; intros top F; [constructor|]. cbn [ask]. cbv zeta.
    set (go_on := fun nd => match rest with [] => leaf e nd | _ => ask sat e false rest (kids_of nd) end).
    assert (GO : forall nd, inside nd F -> Forall (from F) (items (go_on nd))).
    { intros nd H. subst go_on. cbn beta. destruct rest; [now apply from_leaf|]. eapply Forall_impl; [|apply IH]. intros i. now apply from_deeper. }
    set (chosen := fun (all : bool) (l : list node) => match l with [] => NoReply | nd :: _ => if all then match rest, e with
        | [], EElement => Many (map element l) | [], EField f => fields f l | _, _ => pack (flat_map (fun nd => items (go_on nd)) l) end else go_on nd end).
    assert (CH : forall all l, (forall nd, In nd l -> inside nd F) -> Forall (from F) (items (chosen all l))).
    { intros all l H. subst chosen. cbn beta. destruct l as [|nd l]; [constructor|]. destruct all; [|apply GO, H; now left].
      assert (K : Forall (from F) (items (pack (flat_map (fun nd => items (go_on nd)) (nd :: l))))) by (rewrite items_pack; apply from_flat; auto).
      destruct rest; auto. destruct e as [|x| | |f]; auto.
      - cbn [items]. apply Forall_forall. intros i Q. apply in_map_iff in Q. destruct Q as [m [<- Q]]. intros kids R. injection R as <-. eauto.
      - now apply from_fields. }
    assert (LS : forall nd, In nd (firstn 1000 (called (if top then bytes_eqb (match s with Child n _ => n | _ => [] end) else selects (match s with Child n _ => n | _ => [] end)) F)) -> inside nd F).
    { intros nd H. apply firstn_in in H. eapply called_inside; eauto. }
    destruct s as [n w| |c all|n].
    - destruct w as [|ds|c all].
      + assert (K1 : Forall (from F) (items (match called (selects n) F with nd :: _ => go_on nd | [] => NoReply end))).
        { destruct (called (selects n) F) as [|nd l] eqn:Q; [constructor|]. apply GO. eapply called_inside. rewrite Q. now left. }
        assert (K2 : Forall (from F) (items (first_reply go_on (called (selects n) F)))).
        { apply first_from. intros nd H. apply GO. eapply called_inside; eauto. }
        destruct rest; auto. destruct e as [|x| | |f]; auto.
        * destruct (firstn _ _); constructor; auto. discriminate.
        * destruct (firstn _ _) eqn:Q; [destruct top; constructor|]. now apply from_fields.
      + destruct (nth_error _ _) as [nd|] eqn:Q; [|constructor]. apply nth_error_In in Q. apply GO, LS. exact Q.
      + apply CH. intros nd H. apply filter_In in H. destruct H as [H _]. apply firstn_in in H. eapply called_inside; eauto.
    - assert (K : Forall (from F) (flat_map items (map go_on (firstn 1000 (elems F))))).
      { apply from_flat. intros r H. apply in_map_iff in H. destruct H as [nd [<- H]]. apply GO, elems_inside. eapply firstn_in; eauto. }
      destruct (flat_map items (map go_on (firstn 1000 (elems F)))) as [|i l]; [destruct (existsb _ _); constructor|]. now rewrite items_pack.
    - apply CH. intros nd H. apply firstn_in in H. apply filter_In in H. now apply elems_inside.
    - rewrite items_pack. apply from_gather. apply Forall_forall. intros c H. apply in_map_iff in H. destruct H as [nd [<- H]].
      apply GO. apply filter_In in H. now apply post_inside.
  Qed.
  Lemma from_attribute_ci : forall F x nd, Forall (from F) (attribute_ci x nd).
  Proof. intros F x nd. unfold attribute_ci. destruct (filter _ (attrs_of nd)); constructor; auto. discriminate. Qed.
  Lemma from_fields_ci : forall F f l, (forall nd, In nd l -> inside nd F) -> Forall (from F) (items (fields_ci f l)).
  Proof.
    intros F f l H. unfold fields_ci. cbn [items]. apply Forall_forall. intros i K. apply firstn_in in K. apply in_flat_map in K.
    destruct K as [nd [K1 K2]]. assert (Q : Forall (from F) (fields_of_ci f nd)); [|rewrite Forall_forall in Q; auto].
    specialize (H nd K1). destruct f as [n|x|]; cbn [fields_of_ci].
    - apply Forall_forall. intros j K. apply in_map_iff in K. destruct K as [m [<- K]]. intros kids Q. injection Q as <-. exists m. split; auto.
      eapply inside_trans; eauto. eapply called_inside; eauto.
    - apply from_attribute_ci.
    - now apply (from_fields_of F FieldText).
  Qed.
  Lemma from_leaf_ci : forall F nd, inside nd F -> Forall (from F) (items (leaf_ci e nd)).
  Proof.
    intros F nd H. destruct e as [|x| | |f]; cbn [leaf_ci].
    - constructor; auto. intros kids Q. injection Q as <-. eauto.
    - rewrite items_pack. apply from_attribute_ci.
    - constructor; auto. discriminate.
    - constructor.
    - apply from_fields_ci. intros m [<-|[]]; auto.
  Qed.
  Lemma ask_ci_from : forall steps F, Forall (from F) (items (ask_ci sat e steps F)).
  Proof.
    induction steps as [|s rest IH]; intros F; [constructor|]. cbn [ask_ci]. cbv zeta.
    set (go_on := fun nd => match rest with [] => leaf_ci e nd | _ => ask_ci sat e rest (kids_of nd) end).
    assert (GO : forall nd, inside nd F -> Forall (from F) (items (go_on nd))).
    { intros nd H. subst go_on. cbn beta. destruct rest; [now apply from_leaf_ci|]. eapply Forall_impl; [|apply IH]. intros i. now apply from_deeper. }
    set (chosen := fun (all : bool) (l : list node) => match l with [] => NoReply | nd :: _ => if all then match rest, e with
        | [], EElement => Many (map element l) | [], EField f => fields_ci f l | _, _ => pack (flat_map (fun nd => items (go_on nd)) l) end else go_on nd end).
    assert (CH : forall all l, (forall nd, In nd l -> inside nd F) -> Forall (from F) (items (chosen all l))).
    { intros all l H. subst chosen. cbn beta. destruct l as [|nd l]; [constructor|]. destruct all; [|apply GO, H; now left].
      assert (K : Forall (from F) (items (pack (flat_map (fun nd => items (go_on nd)) (nd :: l))))) by (rewrite items_pack; apply from_flat; auto).
      destruct rest; auto. destruct e as [|x| | |f]; auto.
      - cbn [items]. apply Forall_forall. intros i Q. apply in_map_iff in Q. destruct Q as [m [<- Q]]. intros kids R. injection R as <-. eauto.
      - now apply from_fields_ci. }
    assert (LS : forall n nd, In nd (firstn 1000 (called (alike n) F)) -> inside nd F).
    { intros n nd H. apply firstn_in in H. eapply called_inside; eauto. }
    destruct s as [n w| |c all|n].
    - destruct w as [|ds|c all].
      + assert (K1 : Forall (from F) (items (match called (alike n) F with nd :: _ => go_on nd | [] => NoReply end))).
        { destruct (called (alike n) F) as [|nd l] eqn:Q; [constructor|]. apply GO. eapply called_inside. rewrite Q. now left. }
        assert (K2 : Forall (from F) (items (first_reply go_on (called (alike n) F)))).
        { apply first_from. intros nd H. apply GO. eapply called_inside; eauto. }
        destruct rest; auto. destruct e as [|x| | |f]; auto.
        * destruct (firstn _ _); constructor; auto. discriminate.
        * apply from_fields_ci. apply LS.
      + destruct (nth_error _ _) as [nd|] eqn:Q; [|constructor]. apply nth_error_In in Q. eapply GO, LS. exact Q.
      + apply CH. intros nd H. apply filter_In in H. destruct H as [H _]. eauto.
    - rewrite items_pack. apply from_flat. intros nd H. apply GO, elems_inside. eapply firstn_in; eauto.
    - apply CH. intros nd H. apply firstn_in in H. apply filter_In in H. now apply elems_inside.
    - rewrite items_pack. apply from_gather. apply Forall_forall. intros c H. apply in_map_iff in H. destruct H as [nd [<- H]].
      assert (K : Forall (from F) (items (go_on nd))) by (apply GO; apply filter_In in H; now apply post_inside).
      destruct rest; auto. destruct e; auto.
  Qed.
End Found.

(** ** Bounds for elements of a tree *)
Lemma inside_facts : forall F nd, inside nd F -> Forall good F -> within F ->
  Forall good (kids_of nd) /\ Forall (fun k => levels k <= 99) (kids_of nd) /\ (elements (kids_of nd) < 9998)%N /\
  len (forest_text (kids_of nd)) <= len (forest_text F).
Proof.
  intros F nd H. induction H as [F H1 H2|F k H1 H2 IH]; intros G W.
  - assert (GN : good nd) by (rewrite Forall_forall in G; auto). split; [now apply good_kids|].
    assert (EL : (elements [nd] <= elements F)%N).
    { clear - H1. induction F as [|x F IH]; [easy|]. destruct H1 as [->|H]; rewrite (elements_cons _ F); [lia|]. specialize (IH H). lia. }
    rewrite elements_kids in EL by auto. destruct W as [W1 W2]. split; [|split; [lia|]].
    + unfold shallow in W1. rewrite Forall_forall in W1. specialize (W1 nd H1). destruct nd as [n a self kids| |]; try discriminate. cbn [kids_of].
      apply Forall_forall. intros k K. cbn [levels] in W1. pose proof (height_in k kids K). lia.
    + destruct (in_split _ _ H1) as [F1 [F2 ->]]. rewrite forest_app, forest_cons, !app_length. destruct nd as [n a self kids| |]; try discriminate.
      cbn [kids_of]. destruct self.
      * inversion GN; subst. match goal with K : true = true -> kids = [] |- _ => rewrite (K eq_refl) end. cbn. lia.
      * rewrite node_elem, !app_length. lia.
  - assert (EK : is_elem k = true) by (destruct k; auto; cbn [kids_of] in H2; inversion H2; easy).
    assert (GK : good k) by (rewrite Forall_forall in G; auto).
    destruct IH as [I1 [I2 [I3 I4]]]; [now apply good_kids|eapply within_kids; eauto|]. split; auto. split; auto. split; auto.
    etransitivity; [exact I4|]. destruct (in_split _ _ H1) as [F1 [F2 ->]]. rewrite forest_app, forest_cons, !app_length. destruct k as [n a self kids| |]; try discriminate.
    cbn [kids_of]. destruct self.
    * inversion GK; subst. match goal with K : true = true -> kids = [] |- _ => rewrite (K eq_refl) end. cbn. lia.
    * rewrite node_elem, !app_length. lia.
Qed.
Definition root_tag : bytes := bs "_xmldot_root".
Lemma parts_some : forall q e, q <> [] -> query_parts q e <> [].
Proof. intros [|[n [| |]| | |[|]] q] e H; try easy; unfold query_parts; cbn [flat_map qstep_parts app]; discriminate. Qed.
Lemma wrap_query : forall q e, q <> [] -> wrap_path (query_text q e) = query_text (Child root_tag Leading :: q) e.
Proof.
  intros q e H. unfold wrap_path, query_text. unfold query_parts at 2. cbn [flat_map qstep_parts app]. fold (query_parts q e).
  rewrite path_text_cons by now apply parts_some. rewrite quote_plain.
  - unfold root_tag. change (bs "_xmldot_root.") with (bs "_xmldot_root" ++ ["."%char]). rewrite <- app_assoc. reflexivity.
  - intros c Hc. cbn in Hc. repeat (destruct Hc as [<-|Hc]; [split; discriminate|]). easy.
Qed.
Lemma cons_last : forall (q : list qstep) s a x, q <> [] -> s :: q = a ++ [x] -> exists a', q = a' ++ [x].
Proof. intros q s [|y a] x H K; cbn [app] in K; injection K as -> K; [easy|eauto]. Qed.
Lemma wrap_good : forall q e, good_query q e -> begins_with_step q -> len (query_parts q e) < 100 -> good_query (Child root_tag Leading :: q) e.
Proof.
  intros q e [H1 H2 H3 H4 H5] B L. constructor.
  - discriminate.
  - constructor; auto. split; [apply root_step|exact I].
  - cbn [well_split]. destruct q as [|[| | |] q]; auto.
  - destruct e as [|x| | |f]; cbn [good_qend] in *; auto.
    + intros a n ds K. destruct (cons_last _ _ _ _ H1 K) as [a' K']. eapply H4; eauto.
    + destruct H4 as [a [n ->]]. exists (Child root_tag Leading :: a), n. reflexivity.
    + destruct H4 as [H4 H6]. split; auto. intros a. split.
      * intros K. destruct (cons_last _ _ _ _ H1 K) as [a' K']. now apply (H6 a').
      * intros n ds K. destruct (cons_last _ _ _ _ H1 K) as [a' K']. now apply (proj2 (H6 a') n ds).
  - unfold query_parts in *. cbn [flat_map qstep_parts app List.length]. lia.
Qed.
Definition wrapped (kids : list node) : list node := [Elem root_tag [] false kids].
Lemma wrapped_good : forall kids, Forall good kids -> Forall good (wrapped kids).
Proof.
  intros kids G. constructor; [|constructor]. constructor; auto using root_name; [|discriminate]. constructor; try constructor. cbn. lia.
Qed.
Lemma wrapped_within : forall kids, Forall (fun k => levels k <= 99) kids -> (elements kids < 9998)%N -> within (wrapped kids).
Proof.
  intros kids H1 H2. split.
  - constructor; [|constructor]. cbn [levels]. assert (fold_right (fun k m => Nat.max (levels k) m) 0 kids <= 99); [|lia].
    induction H1; cbn [fold_right]; [lia|]. rewrite elements_cons in H2. specialize (IHForall ltac:(lia)). lia.
  - unfold wrapped. rewrite elements_kids by reflexivity. cbn [kids_of]. lia.
Qed.
Lemma ask_wrapped : forall sat e q kids, q <> [] -> ask sat e true (Child root_tag Leading :: q) (wrapped kids) = ask sat e false q kids.
Proof.
  intros sat e q kids H. cbn [ask]. destruct q as [|s q]; [easy|].
  assert (CA : called (selects root_tag) (wrapped kids) = wrapped kids) by reflexivity. rewrite CA. cbn [first_reply wrapped kids_of].
  destruct (ask sat e false (s :: q) kids); reflexivity.
Qed.
Lemma ask_ci_wrapped : forall sat e q kids, q <> [] -> ask_ci sat e (Child root_tag Leading :: q) (wrapped kids) = ask_ci sat e q kids.
Proof.
  intros sat e q kids H. cbn [ask_ci]. destruct q as [|s q]; [easy|].
  assert (CA : called (alike root_tag) (wrapped kids) = wrapped kids) by reflexivity. rewrite CA. cbn [first_reply wrapped kids_of].
  destruct (ask_ci sat e (s :: q) kids); reflexivity.
Qed.
(** Elements that a query may be asked about. *)
Definition askable (kids : list node) : Prop :=
  Forall good kids /\ Forall (fun k => levels k <= 99) kids /\ (elements kids < 9998)%N /\ (blen (forest_text kids) + 29 <= 10485760)%N.

Section Fluent.
  Variable E : env.
  Hypothesis Hord : forall k l, Permutation l (e_ord E k l).
  Variable sat : condition -> node -> bool.
  Hypothesis Hs : forall c nd, good nd -> (sat c nd = true <-> true_of (e_parse_float E) c nd).

  Lemma r_get_ask : forall kids r q e, is_element kids r -> askable kids -> good_query q e -> begins_with_step q -> len (query_parts q e) < 100 ->
    exists r2, r_get E r (query_text q e) = Ok r2 /\ says r2 (ask sat e (alone kids) q kids).
  Proof.
    intros kids r q e [T [_ [kids' [S R]]]] [G [L [N SZ]]] HQ HB HL. destruct r as [t raw st nu l]. cbn [r_type r_raw] in T, R. subst t raw.
    cbn [r_get]. unfold get_raw.
    assert (G' : Forall good kids') by (eapply same_good_all; eauto).
    assert (LN : len (forest_text kids') = len (forest_text kids)) by (symmetry; now apply same_length_all).
    rewrite is_multi_root_forest by auto. rewrite <- (f2_length _ _ _ _ _ (same_elems _ _ S)). unfold alone.
    assert (NE : q <> []) by apply (gq_some _ _ HQ).
    assert (HF : forall f, e = EField f -> good_field f) by (intros f ->; apply (gq_end _ _ HQ)).
    destruct (Nat.ltb_spec (len (elems kids)) 2) as [K|K].
    - rewrite (proj2 (Nat.leb_gt _ _)) by lia. eapply get_ask; eauto.
      + split; [apply (reads_text E Hord [] kids kids'); auto using skippable_nil|]. split; [|lia]. unfold shallow. eapply Forall_impl; [|exact L]. cbn beta. intros. lia.
      + unfold blen in *. rewrite LN. lia.
    - rewrite (proj2 (Nat.leb_le _ _)) by lia. rewrite wrap_node, wrap_query by auto. rewrite <- ask_wrapped by auto.
      apply (get_ask E Hord sat Hs e HF (forest_text (wrapped kids')) (wrapped kids)); auto using wrap_good.
      + split; [|now apply wrapped_within]. apply (reads_text E Hord [] (wrapped kids) (wrapped kids')); auto using skippable_nil, wrapped_good.
        constructor; [|constructor]. constructor; auto.
      + unfold wrapped, root_tag. rewrite <- wrap_node. unfold wrap, blen in *. rewrite !app_length, LN.
        change (List.length wrap_open) with 14. change (List.length wrap_close) with 15. lia.
  Qed.
  Lemma r_get_ask_ci : forall o kids r q e, o_case o = false -> is_element kids r -> askable kids -> apart kids -> good_query q e -> begins_with_step q -> len (query_parts q e) < 100 ->
    exists r2, r_get_opts E o r (query_text q e) = Ok r2 /\ says r2 (ask_ci sat e q kids).
  Proof.
    intros o kids r q e Ho [T [_ [kids' [S R]]]] [G [L [N SZ]]] AP HQ HB HL. destruct r as [t raw st nu l]. cbn [r_type r_raw] in T, R. subst t raw.
    unfold r_get_opts, is_default_options. rewrite Ho. cbn [andb r_get_custom]. unfold get_raw_opts.
    assert (G' : Forall good kids') by (eapply same_good_all; eauto).
    assert (LN : len (forest_text kids') = len (forest_text kids)) by (symmetry; now apply same_length_all).
    rewrite is_multi_root_forest by auto. rewrite <- (f2_length _ _ _ _ _ (same_elems _ _ S)).
    assert (NE : q <> []) by apply (gq_some _ _ HQ).
    assert (HF : forall f, e = EField f -> good_field f) by (intros f ->; apply (gq_end _ _ HQ)).
    destruct (Nat.leb_spec 2 (len (elems kids))) as [K|K].
    - rewrite wrap_node, wrap_query by auto. rewrite <- ask_ci_wrapped by auto.
      apply (get_ask_ci E Hord sat Hs e HF o (forest_text (wrapped kids')) (wrapped kids)); auto using wrap_good.
      + split; [split; [|now apply wrapped_within]|].
        * apply (reads_text E Hord [] (wrapped kids) (wrapped kids')); auto using skippable_nil, wrapped_good.
          constructor; [|constructor]. constructor; auto.
        * intros nd I. inversion I as [? H1 H2|? k H1 H2]; subst; destruct H1 as [<-|[]]; [constructor|]. now apply AP.
      + unfold wrapped, root_tag. rewrite <- wrap_node. unfold wrap, blen in *. rewrite !app_length, LN.
        change (List.length wrap_open) with 14. change (List.length wrap_close) with 15. lia.
    - apply (get_ask_ci E Hord sat Hs e HF o (forest_text kids') kids); auto.
      + split; auto. split; [apply (reads_text E Hord [] kids kids'); auto using skippable_nil|]. split; [|lia]. unfold shallow. eapply Forall_impl; [|exact L]. cbn beta. intros. lia.
      + unfold blen in *. rewrite LN. lia.
  Qed.
  (** Anything that is not an element has no parts. *)
  Lemma r_get_item : forall i r path, item_is i r -> (forall kids, i <> AnElement kids) -> r_get E r path = Ok r_null /\ forall o, r_get_opts E o r path = Ok r_null.
  Proof.
    intros i r path H N. destruct r as [t raw st nu l]. unfold r_get_opts.
    assert (T : t <> RElement /\ t <> RArray).
    { destruct i as [kids|v|kids|n]; [now destruct (N kids)|..]; cbn [item_is describes r_type] in H; [destruct H as [H _]..|destruct H as [[H _] _]]; rewrite H; split; discriminate. }
    destruct T. destruct t; try congruence; split; auto; intros; destruct (is_default_options o); reflexivity.
  Qed.

  (** For every kind of result. *)
  Definition all_askable (l : list item) : Prop := Forall (fun i => forall kids, i = AnElement kids -> askable kids) l.
  Lemma r_get_reply : forall a r q e, says r a -> all_askable (items a) -> good_query q e -> begins_with_step q -> len (query_parts q e) < 100 ->
    exists r2, r_get E r (query_text q e) = Ok r2 /\ says r2 (ask_within sat e q (opening a)).
  Proof.
    assert (K : forall i r q e, item_is i r -> (forall kids, i = AnElement kids -> askable kids) -> good_query q e -> begins_with_step q -> len (query_parts q e) < 100 ->
      exists r2, r_get E r (query_text q e) = Ok r2 /\ says r2 (ask_within sat e q (Some i))).
    { intros i r q e H A HQ HB HL. destruct i as [kids|v|kids|n].
      - cbn [ask_within]. apply r_get_ask; auto.
      - exists r_null. split; [|reflexivity]. eapply r_get_item; eauto. discriminate.
      - exists r_null. split; [|reflexivity]. eapply r_get_item; eauto. discriminate.
      - exists r_null. split; [|reflexivity]. eapply r_get_item; eauto. discriminate. }
    intros [|i|l] r q e H A HQ HB HL.
    - cbn [says] in H. exists r_null. split; [|reflexivity]. destruct r as [t raw st nu l]. cbn [r_type] in H. now subst t.
    - inversion A; subst. eapply K; eauto.
    - destruct H as [H1 H2]. destruct r as [t raw st nu rs]. cbn [r_type r_results] in H1, H2. subst t. cbn [r_get]. inversion H2 as [|i x l' rs' I1 I2]; subst.
      + exists r_null. split; reflexivity.
      + inversion A; subst. eapply K; eauto.
  Qed.
  Lemma r_get_reply_ci : forall o a r q e, o_case o = false -> says r a -> all_askable (items a) -> Forall (fun i => forall kids, i = AnElement kids -> apart kids) (items a) ->
    good_query q e -> begins_with_step q -> len (query_parts q e) < 100 ->
    exists r2, r_get_opts E o r (query_text q e) = Ok r2 /\ says r2 (ask_within_ci sat e q (opening a)).
  Proof.
    intros o a r q e Ho. assert (ND : is_default_options o = false) by (unfold is_default_options; now rewrite Ho).
    assert (K : forall i r q e, item_is i r -> (forall kids, i = AnElement kids -> askable kids) -> (forall kids, i = AnElement kids -> apart kids) -> good_query q e -> begins_with_step q -> len (query_parts q e) < 100 ->
      exists r2, r_get_opts E o r (query_text q e) = Ok r2 /\ says r2 (ask_within_ci sat e q (Some i))).
    { clear a r q e. intros i r q e H A A2 HQ HB HL. destruct i as [kids|v|kids|n].
      - cbn [ask_within_ci]. apply r_get_ask_ci; auto.
      - exists r_null. split; [|reflexivity]. eapply r_get_item; eauto. discriminate.
      - exists r_null. split; [|reflexivity]. eapply r_get_item; eauto. discriminate.
      - exists r_null. split; [|reflexivity]. eapply r_get_item; eauto. discriminate. }
    intros H A A2 HQ HB HL. destruct a as [|i|l].
    - cbn [says] in H. exists r_null. split; [|reflexivity]. destruct r as [t raw st nu l]. cbn [r_type] in H. subst t. unfold r_get_opts. now rewrite ND.
    - inversion A; inversion A2; subst. eapply K; eauto.
    - destruct H as [H1 H2]. destruct r as [t raw st nu rs]. cbn [r_type r_results] in H1, H2. subst t. unfold r_get_opts. rewrite ND. cbn [r_get_custom]. inversion H2 as [|i x l' rs' I1 I2]; subst.
      + exists r_null. split; reflexivity.
      + inversion A; inversion A2; subst. destruct (K i x q e) as [r2 K2]; auto. unfold r_get_opts in K2. rewrite ND in K2. exists r2. exact K2.
  Qed.
  Lemma found_askable : forall F l, Forall (from F) l -> Forall good F -> within F -> (blen (forest_text F) + 29 <= 10485760)%N -> all_askable l.
  Proof.
    intros F l H G W SZ. eapply Forall_impl; [|exact H]. intros i K kids Q. destruct (K kids Q) as [nd [N ->]].
    destruct (inside_facts F nd N G W) as [I1 [I2 [I3 I4]]]. repeat split; auto. unfold blen in *. lia.
  Qed.
  Lemma found_apart : forall F l, Forall (from F) l -> apart F -> Forall (fun i => forall kids, i = AnElement kids -> apart kids) l.
  Proof.
    intros F l H A. eapply Forall_impl; [|exact H]. intros i K kids Q. destruct (K kids Q) as [nd [N ->]]. intros x X. apply A. eapply inside_trans; eauto.
  Qed.
End Fluent.

(** Options other than the comparison of names. *)
Lemma r_get_custom_plain : forall E o r path, o_case o = true -> ~ In "|"%char path ->
  ~ In "*"%char path \/ ~ In "#"%char path -> r_get_opts E o r path = r_get E r path.
Proof.
  intros E o r path Ho H1 H2. unfold r_get_opts. destruct (is_default_options o); auto.
  assert (P1 : ~ In "|"%char (wrap_path path)).
  { unfold wrap_path. intros K. apply in_app_or in K. destruct K as [K|K]; [|auto]. cbn in K. repeat (destruct K as [K|K]; [discriminate|]). destruct K. }
  assert (P2 : ~ In "*"%char (wrap_path path) \/ ~ In "#"%char (wrap_path path)).
  { destruct H2 as [H2|H2]; [left|right]; unfold wrap_path; intros K; apply in_app_or in K; (destruct K as [K|K]; [|auto]); cbn in K;
      repeat (destruct K as [K|K]; [discriminate|]); destruct K. }
  assert (R : forall raw, get_raw_opts E o raw path = get_raw E raw path).
  { intros raw. unfold get_raw_opts, get_raw. destruct (is_multi_root raw); now apply get_opts_plain. }
  revert r. fix IH 1. intros [t raw st nu l]. cbn [r_get_custom r_get]. destruct t; auto. destruct l as [|x l]; auto.
Qed.
