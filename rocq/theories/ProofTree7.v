(** Chained queries and Map on canonical documents. *)
From Coq Require Import List Ascii String NArith ZArith Bool Lia Permutation.
From Verif Require Import GoStr ModelParser ModelPath ModelResult ModelQuery ModelApi SpecText SpecPath SpecTree SpecQuery
  ProofBase ProofEscape ProofPath ProofScan ProofSyntax ProofFuel ProofMono ProofTree ProofTree2 ProofTree3 ProofTree4 ProofTree5 ProofTree6.
Import ListNotations.

(** ** Results with the same meaning *)
Lemma decodes_eq : forall t s1 s2, Decodes t s1 -> Decodes t s2 -> s1 = s2.
Proof. intros t s1 s2 H1 H2. exact (decodes_fun t s1 H1 s2 H2). Qed.
Lemma element_alike : forall kids r1 r2, same_element kids r1 -> same_element kids r2 -> Forall good kids ->
  r_type r1 = r_type r2 /\ r_string r1 = r_string r2.
Proof.
  intros kids r1 r2 H1 H2 G. destruct (is_element_text _ _ H1 G) as [T1 [D1 _]]. destruct (is_element_text _ _ H2 G) as [T2 [D2 _]].
  split; [congruence|]. eapply decodes_eq; eauto.
Qed.
Lemma denotes_alike : forall a r1 r2, denotes a r1 -> denotes a r2 -> good_answer a -> alike r1 r2.
Proof.
  intros a r1 r2 H1 H2 G. unfold alike. destruct a as [|kids|v|kids|n|l]; cbn [denotes good_answer] in *; subst; auto.
  - repeat split; auto. constructor.
  - destruct (element_alike _ _ _ H1 H2 G). destruct H1 as [? [_ ->]]. destruct H2 as [? [_ ->]]. repeat split; auto. constructor.
  - repeat split; auto. constructor.
  - destruct H1 as [k1 [S1 ->]]. destruct H2 as [k2 [S2 ->]]. repeat split; [|constructor]. unfold r_text. cbn [r_string].
    rewrite !extract_direct_forest by (eapply same_good_all; eauto). rewrite <- (same_own_text _ _ S1), <- (same_own_text _ _ S2). reflexivity.
  - repeat split; auto. constructor.
  - destruct H1 as [rs1 [-> H1]]. destruct H2 as [rs2 [-> H2]].
    assert (L : Forall2 (fun x y => r_type x = r_type y /\ r_string x = r_string y) rs1 rs2).
    { revert rs2 H2. induction H1 as [|k x l rs1 K1 K2 IH]; intros rs2 H2; inversion H2; subst; constructor; inversion G; subst.
      - eapply element_alike; eauto.
      - apply IH; auto. }
    repeat split; auto. cbn [r_string r_array].
    assert (M : map (fun x => quote_item (r_string x)) rs1 = map (fun x => quote_item (r_string x)) rs2).
    { clear -L. induction L as [|x y l l' [_ K] L IH]; auto. cbn [map]. now rewrite K, IH. }
    rewrite M. destruct L; reflexivity.
Qed.

(** ** Concatenated paths *)
Lemma last_app : forall rest q fin, more_steps q fin -> is_last (rest ++ q) fin = false.
Proof.
  intros rest q fin H. apply is_last_more. destruct H as [H|H]; [left|now right]. destruct rest; [auto|discriminate].
Qed.
Lemma first_nothing : forall f l, first_answer f l = Nothing <-> Forall (fun nd => f nd = Nothing) l.
Proof.
  intros f l. induction l as [|nd l IH]; cbn [first_answer]; [split; auto|].
  destruct (f nd) eqn:Q; split; intros H; try discriminate.
  - constructor; auto. now apply IH.
  - inversion H; subst. now apply IH.
  - inversion H; congruence.
  - inversion H; congruence.
  - inversion H; congruence.
  - inversion H; congruence.
  - inversion H; congruence.
Qed.
Lemma query_app_none : forall ps q fin, ps <> [] -> more_steps q fin -> forall top F,
  query top ps TheElement F = Nothing -> query top (ps ++ q) fin F = Nothing.
Proof.
  induction ps as [|[n idx] rest IH]; intros q fin Hne Hq top F H; [easy|].
  rewrite query_cons in H. cbv zeta in H. change (((n, idx) :: rest) ++ q) with ((n, idx) :: (rest ++ q)).
  rewrite query_cons. cbv zeta. rewrite (last_app rest q fin Hq).
  destruct idx as [ds|].
  - destruct (nth_error _ _) as [nd|]; auto. destruct rest as [|s rest].
    + discriminate.
    + cbn [is_last] in H. apply IH; auto. discriminate.
  - destruct rest as [|s rest].
    + cbn [is_last] in H. destruct (called (selects n) F); [reflexivity|discriminate].
    + cbn [is_last] in H. apply first_nothing in H. apply first_nothing. eapply Forall_impl; [|exact H].
      cbv beta. intros nd K. apply IH; auto. discriminate.
Qed.
Lemma query_app_some : forall ps q fin, ps <> [] -> more_steps q fin -> forall top F kids,
  query top ps TheElement F = Element kids -> query false q fin kids <> Nothing ->
  query top (ps ++ q) fin F = query false q fin kids.
Proof.
  induction ps as [|[n idx] rest IH]; intros q fin Hne Hq top F kids H HN; [easy|].
  rewrite query_cons in H. cbv zeta in H. change (((n, idx) :: rest) ++ q) with ((n, idx) :: (rest ++ q)).
  rewrite query_cons. cbv zeta. rewrite (last_app rest q fin Hq).
  destruct idx as [ds|].
  - destruct (nth_error _ _) as [nd|]; [|discriminate]. destruct rest as [|s rest].
    + cbn [is_last final_answer] in H. injection H as <-. reflexivity.
    + cbn [is_last] in H. apply IH; auto. discriminate.
  - destruct rest as [|s rest].
    + cbn [is_last] in H. destruct (called (selects n) F) as [|nd l]; [discriminate|]. cbn [final_answer] in H. injection H as <-.
      cbn [first_answer app]. destruct (query false q fin (kids_of nd)); congruence.
    + cbn [is_last] in H. set (l := called (selects n) F) in *. clearbody l. induction l as [|nd l IHl]; [discriminate|].
      cbn [first_answer] in H |- *. destruct (query false (s :: rest) TheElement (kids_of nd)) eqn:Q.
      * rewrite query_app_none; auto. discriminate.
      * injection H as ->. rewrite (IH q fin ltac:(discriminate) Hq false (kids_of nd) kids Q HN).
        destruct (query false q fin kids); congruence.
      * discriminate.
      * discriminate.
      * discriminate.
      * discriminate.
Qed.
(** Queries whose first name is not followed by an index or a count treat the top level
    like any other. *)
Lemma query_top : forall q fin F, no_array_start q fin -> query true q fin F = query false q fin F.
Proof.
  intros [|[n [ds|]] rest] fin F H; cbn [no_array_start] in H; [reflexivity|contradiction|].
  rewrite !query_cons. cbv zeta. destruct (is_last rest fin) eqn:L; auto.
  destruct fin; auto. destruct rest; [|discriminate]. destruct H; congruence.
Qed.

Lemma quote_plain : forall n, (forall c, In c n -> c <> "."%char /\ c <> backslash) -> quote_name n = n.
Proof.
  induction n as [|c n IH]; intros H; auto. unfold quote_name in *. cbn [flat_map].
  unfold quote_byte. destruct (H c) as [H1 H2]; [now left|].
  rewrite (proj2 (ascii_eqb_false c ".") H1), (proj2 (ascii_eqb_false c backslash) H2). cbn [orb app].
  f_equal. apply IH. intros x Hx. apply H. now right.
Qed.
Lemma path_text_cons : forall n rest, rest <> [] -> path_text (n :: rest) = quote_name n ++ "."%char :: path_text rest.
Proof. intros n [|x rest] H; [easy|reflexivity]. Qed.
Lemma wrap_tpath : forall q fin, tpath_steps q fin <> [] -> wrap_path (tpath q fin) = tpath ((bs "_xmldot_root", None) :: q) fin.
Proof.
  intros q fin H. unfold wrap_path, tpath, steps_text. unfold tpath_steps in *. cbn [flat_map tstep_steps app map].
  rewrite path_text_cons.
  - cbn [fst snd step_text mods_text flat_map]. rewrite app_nil_r. rewrite quote_plain.
    + change (bs "_xmldot_root.") with (bs "_xmldot_root" ++ ["."%char]). rewrite <- app_assoc. reflexivity.
    + intros c Hc. cbn in Hc. repeat (destruct Hc as [<-|Hc]; [split; discriminate|]). easy.
  - intros K. apply map_eq_nil in K. apply map_eq_nil in K. contradiction.
Qed.
Lemma wrap_node : forall F, wrap (forest_text F) = forest_text [Elem (bs "_xmldot_root") [] false F].
Proof.
  intros F. unfold wrap, forest_text. cbn [flat_map node_text]. rewrite app_nil_r.
  unfold start_tag, end_tag. cbn [attrs_text flat_map]. rewrite <- !app_assoc. reflexivity.
Qed.
Lemma root_name : xml_name (bs "_xmldot_root").
Proof.
  split; [|split].
  - eexists. eexists. split; [reflexivity|]. right. now left.
  - intros c Hc. cbn in Hc. unfold letter. repeat (destruct Hc as [<-|Hc]; [cbn; intuition (try lia)|]). easy.
  - unfold small. cbn. lia.
Qed.
Lemma root_step : step_name (bs "_xmldot_root").
Proof.
  split.
  - constructor; try discriminate; try (vm_compute; intuition discriminate).
    exists "_"%char. split; [now left|]. split; [discriminate|]. cbn. lia.
  - left. vm_compute. intuition discriminate.
Qed.

Section Chain.
  Variable E : env.
  Hypothesis Hord : forall k l, Permutation l (e_ord E k l).
  Lemma r_get_query : forall kids r q fin, same_element kids r -> Forall good kids ->
    (blen (r_raw r) + 29 <= 10485760)%N -> good_tpath q fin -> len (tpath_steps q fin) < 100 ->
    exists r2, r_get E r (tpath q fin) = Ok r2 /\ denotes (query (Nat.ltb (len (elems kids)) 2) q fin kids) r2.
  Proof.
    intros kids r q fin [kids' [S ->]] G HL HP HQ. cbn [r_get r_element r_raw] in *. unfold get_raw.
    assert (G' : Forall good kids') by (eapply same_good_all; eauto).
    rewrite is_multi_root_forest by auto. rewrite <- (f2_length _ _ _ _ _ (same_elems _ _ S)).
    assert (NE : tpath_steps q fin <> []).
    { pose proof (segs_parse _ _ HP) as P. intros K. destruct HP as [_ Hf _]. unfold tpath_steps in K.
      apply app_eq_nil in K. destruct K as [K1 K2]. destruct q as [|[n [ds|]] q]; try discriminate.
      destruct fin; cbn [good_final] in Hf; try discriminate; tauto. }
    destruct (Nat.ltb_spec (len (elems kids)) 2) as [L|L].
    - rewrite (proj2 (Nat.leb_gt _ _)) by lia. 
      apply (get_query_text E Hord [] kids kids' q fin); auto; [constructor|]. cbn [app]. lia.
    - rewrite (proj2 (Nat.leb_le _ _)) by lia. rewrite wrap_node, wrap_tpath by auto.
      destruct (get_query_text E Hord [] [Elem (bs "_xmldot_root") [] false kids] [Elem (bs "_xmldot_root") [] false kids']
                  ((bs "_xmldot_root", None) :: q) fin) as [r2 [R1 R2]]; auto.
      + constructor.
      + constructor; [|constructor]. constructor; auto.
      + constructor; [|constructor]. constructor; auto using root_name.
        * constructor; try constructor. cbn. lia.
        * discriminate.
      + cbn [app]. rewrite <- wrap_node. unfold wrap, blen in *. rewrite !app_length.
        change (List.length wrap_open) with 14. change (List.length wrap_close) with 15. lia.
      + destruct HP as [P1 P2 P3]. constructor.
        * constructor; auto. split; [apply root_step|exact I].
        * destruct fin; cbn [good_final] in *; try tauto; try discriminate.
          -- split; [tauto|discriminate].
          -- split; [|discriminate]. intros [a [n0 [ds0 K]]]. apply (proj1 P2). destruct a as [|a0 a]; [discriminate|].
             injection K as _ K. exists a, n0, ds0. exact K.
          -- split; [|discriminate]. intros [a [n0 [ds0 K]]]. apply (proj1 P2). destruct a as [|a0 a]; [discriminate|].
             injection K as _ K. exists a, n0, ds0. exact K.
        * unfold tpath_steps in *. cbn [flat_map tstep_steps app List.length]. lia.
      + cbn [app] in R1. exists r2. split; auto. rewrite query_cons in R2. cbv zeta in R2.
        assert (IL : is_last q fin = false).
        { apply is_last_more. destruct q; [|left; discriminate]. destruct HP as [_ P2 _]. destruct fin; cbn [good_final] in P2; try tauto.
          now right. }
        rewrite IL in R2.
        assert (CA : called (selects (bs "_xmldot_root")) [Elem (bs "_xmldot_root") [] false kids] = [Elem (bs "_xmldot_root") [] false kids]) by reflexivity.
        rewrite CA in R2. cbn [first_answer kids_of] in R2. destruct (query false q fin kids); exact R2.
  Qed.
End Chain.

(** ** Map *)
Definition grouped (l : list result) : option result :=
  match l with [] => None | [x] => Some x | _ => Some (r_array l) end.
Lemma add_children_get : forall n es m ls, map_get n m = grouped ls -> Forall (fun x => r_type x = RElement) ls ->
  map_get n (add_children (fun x => x) m es) =
  grouped (ls ++ map (fun e => r_element (e_content e)) (filter (fun e => bytes_eqb (e_name e) n) es)).
Proof.
  intros n. induction es as [|e es IH]; intros m ls H HE; cbn [add_children filter].
  - cbn [map]. now rewrite app_nil_r.
  - destruct (bytes_eqb (e_name e) n) eqn:Q.
    + apply bytes_eqb_eq in Q. cbn [map]. rewrite (IH _ (ls ++ [r_element (e_content e)])).
      * now rewrite <- app_assoc.
      * unfold add_child. rewrite Q, H. destruct ls as [|x [|y ls]]; cbn [grouped app].
        -- apply map_get_set_same.
        -- rewrite map_get_set_same. inversion HE as [|? ? T _]; subst. unfold r_is_array. rewrite T. reflexivity.
        -- rewrite map_get_set_same. cbn [r_is_array r_array r_type rtype_eqb r_results app]. reflexivity.
      * apply Forall_app. split; auto.
    + apply IH; auto. unfold add_child. apply bytes_eqb_neq in Q.
      destruct (map_get (e_name e) m); rewrite map_get_set_other by congruence; exact H.
Qed.
Lemma map_children_eq : forall E keyf s, (blen s <= 10485760)%N -> map_children E keyf s =
  let m0 := match extract_direct s with
            | [] => []
            | t => [(bs "%", mkR RString t (unescape_xml t) f64_zero [])]
            end in
  let* es := scan_res E [] s in
  Ok (add_children keyf m0 (firstn MaxWildcardResults es)).
Proof.
  intros E keyf s H. unfold map_children. change MaxDocumentSize with 10485760%N. rewrite (proj2 (N.ltb_ge _ _) H).
  destruct s; reflexivity.
Qed.
Lemma shows_grouped : forall l es, Forall2 shows l es ->
  match grouped (map (fun e => r_element (e_content e)) es) with
  | Some x => l <> [] /\ denotes (list_answer l) x
  | None => l = []
  end.
Proof.
  intros l es H. inversion H as [|nd e l' es' H1 H2]; subst; [reflexivity|].
  inversion H2 as [|nd2 e2 l2 es2 H3 H4]; subst; cbn [list_answer map grouped denotes].
  - split; [discriminate|]. now apply shows_element.
  - split; [discriminate|]. eexists. split; [reflexivity|]. constructor; [now apply shows_element|]. constructor; [now apply shows_element|].
    clear -H4. induction H4; constructor; auto. now apply shows_element.
Qed.
Lemma map_query : forall E kids r, (forall k l, Permutation l (e_ord E k l)) -> same_element kids r -> Forall good kids ->
  (blen (r_raw r) <= 10485760)%N ->
  exists m, r_map E r = Ok m /\
    (forall n, n <> bs "%" ->
       match map_get n m with
       | Some x => called (bytes_eqb n) (firstn 1000 (elems kids)) <> [] /\
                   denotes (list_answer (called (bytes_eqb n) (firstn 1000 (elems kids)))) x
       | None => called (bytes_eqb n) (firstn 1000 (elems kids)) = []
       end) /\
    match map_get (bs "%") m with
    | Some x => trim_space (own_text kids) <> [] /\ r_type x = RString /\ Decodes (trim_space (own_text kids)) (r_string x)
    | None => trim_space (own_text kids) = []
    end.
Proof.
  intros E kids r Hord [kids' [S ->]] G HL. cbn [r_raw r_element] in HL. unfold r_map, r_map_with. cbn [r_element].
  rewrite map_children_eq by auto. cbv zeta. unfold scan_res.
  destruct (reads_text E Hord [] kids kids' skippable_nil S G []) as [es [R1 R2]]. cbn [app] in R1. rewrite R1. cbn [bind].
  eexists. split; [reflexivity|].
  assert (G' : Forall good kids') by (eapply same_good_all; eauto).
  rewrite extract_direct_forest by auto. rewrite <- (same_own_text _ _ S).
  apply (shows_firstn MaxWildcardResults) in R2. rewrite wild_max in *.
  set (t := trim_space (own_text kids)). set (m0 := match t with [] => [] | _ => _ end).
  set (es1 := firstn 1000 es) in *. set (l := firstn 1000 (elems kids)) in *.
  assert (El : elems l = l).
  { unfold l. clear. revert kids. generalize 1000. intros k kids. unfold elems.
    assert (K : Forall (fun nd => is_elem nd = true) (filter is_elem kids)).
    { apply Forall_forall. intros x Hx. apply filter_In in Hx. tauto. }
    revert K. generalize (filter is_elem kids). intros fl K. revert k. induction K; intros [|k]; cbn [firstn filter]; auto.
    rewrite H. now rewrite IHK. }
  split.
  - intros n Hn. assert (M0 : map_get n m0 = grouped []).
    { unfold m0. destruct t; [reflexivity|]. apply map_get_None. cbn. intros [K|[]]. now apply Hn. }
    rewrite (add_children_get n es1 m0 [] M0 (Forall_nil _)). cbn [app].
    pose proof (shows_grouped (filter (fun nd => bytes_eqb n (name_of nd)) l) (filter (fun e => bytes_eqb (e_name e) n) es1)) as SG.
    rewrite called_elems, El. apply SG.
    apply shows_filter with (g := fun m => bytes_eqb m n); auto. intros m _. apply bytes_eqb_sym.
  - assert (M0 : map_get (bs "%") (add_children (fun x => x) m0 es1) = map_get (bs "%") m0).
    { assert (NP : forall e, In e es1 -> e_name e <> bs "%").
      { intros e He K. clear -R2 He K. induction R2 as [|nd e' l es1 H1 H2 IH]; [easy|]. destruct He as [->|He]; auto.
        destruct H1 as [K1 K2 K3 _ _]. inversion K2 as [? ? ? ? N _ _ _| |]; subst; try discriminate. cbn [name_of] in K3.
        rewrite <- K3, K in N. destruct N as [[c [r [Q1 Q2]]] _]. injection Q1 as <- _. unfold letter in Q2. cbn in Q2.
        destruct Q2 as [[Q2|Q2]|Q2]; [lia|lia|]. intuition discriminate. }
      clear -NP. clearbody m0 es1. revert m0 NP. rename es1 into es0. induction es0 as [|e es0 IH]; intros m NP; auto. cbn [add_children].
      rewrite IH by (intros e' He'; apply NP; now right). unfold add_child.
      destruct (map_get (e_name e) m); rewrite map_get_set_other; auto; intros K; symmetry in K; revert K; apply NP; now left. }
    rewrite M0. unfold m0. clearbody t. clear. destruct t as [|c t']; [reflexivity|].
    cbn [map_get]. rewrite bytes_eqb_refl. split; [discriminate|]. split; [reflexivity|]. cbn [r_string]. apply unescape_decodes.
Qed.
