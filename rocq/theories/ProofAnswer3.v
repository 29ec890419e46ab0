(** Queries without options against [SpecAnswer]: the whole query. *)
From Coq Require Import List Ascii String NArith ZArith Bool Lia SpecFloat Permutation.
From Verif Require Import GoStr ModelParser ModelPath ModelResult ModelQuery ModelBuilder ModelQueryOpts SpecText SpecPath SpecTree SpecContent
  SpecFilter SpecGrammar SpecScan SpecAnswer ProofBase ProofScan ProofEscape ProofPath ProofFilter ProofFuel ProofGrammar2 ProofSight ProofSight2 ProofSight3 ProofAnswer ProofAnswer2.
Import ListNotations.

Section Plain.
  Variable E : env.
  Hypothesis Eperm : forall k m, Permutation m (e_ord E k m).
  Variable sight : bytes -> list elem -> Prop.
  Hypothesis Hs : forall key s l, scan_res E key s = Ok l -> sight s l.
  Let pf := e_parse_float E.
  Let mods := get_modifier E.
  Variable rec : qrec.
  Variables B T : bytes -> steps -> result -> Prop.
  Hypothesis REC : forall key s l r, fine l -> rec key false s (map seg_of l) = Ok r -> B s l r.
  Hypothesis TEST : forall key s l r, fine l -> rec key true s (map seg_of l) = Ok r -> T s l r.

  Notation fields := (fields sight mods Plain).
  Lemma fine_head : forall f ms l, fine ((GField f, ms) :: l) -> f <> [].
  Proof. intros f ms l H. inversion H as [|x y A]; subst. cbn in A. congruence. Qed.
  Lemma fine_tail : forall x l, fine (x :: l) -> fine l.
  Proof. intros x l H. now inversion H. Qed.

  Lemma attr_result : forall x e ms r,
    match map_get x (e_attrs e) with Some v => Ok (apply_modifiers E (r_attribute v) ms) | None => Ok r_null end = Ok r ->
    (map_get x (e_attrs e) = None -> r = null) /\ (map_get x (e_attrs e) <> None -> modified mods ms (entry_or_null (map_get x (e_attrs e))) r).
  Proof.
    intros x e ms r H. destruct (map_get x (e_attrs e)); injection H as <-; (split; [intros K|intros K]); try congruence; try reflexivity. apply modified_is.
  Qed.
  Lemma one_plain : forall key e st ms rest r, fine rest -> process_first E rec key e (seg_of (st, ms)) (map seg_of rest) = Ok r ->
    one sight mods Plain B ms e rest r.
  Proof.
    intros key e st ms rest r F H. unfold process_first in H. destruct rest as [|[nx ms'] more].
    - cbn [map] in H. replace (s_mods (seg_of (st, ms))) with ms in H by (destruct st; reflexivity). injection H as <-.
      eapply one_here; [apply element_is|apply modified_is].
    - pose proof (fun k => REC k (e_content e) _ r F) as R.
      destruct nx; cbn [map seg_of fst snd s_type s_value s_mods] in H, R;
        try (apply one_deeper; [exact Logic.I|apply (R _ H)]).
      + apply attr_result in H as [H1 H2]. eapply one_attr; [now apply has_attr_get|exact H1|exact H2].
      + injection H as <-. eapply one_text; [apply text_is|apply modified_is].
      + apply one_field. eapply fields_plain; eauto. exact (fine_head _ _ _ F).
  Qed.
  Lemma collected_is : forall ms all r,
    match all with [] => Ok r_null | _ :: _ => Ok (apply_modifiers E (package all) ms) end = Ok r -> collected mods ms all r.
  Proof.
    intros ms all r H. destruct all as [|x l]; injection H as <-; [left; auto|right]. split; [discriminate|]. apply modified_is.
  Qed.
  Lemma attrs_plain : forall x l, Forall keyed l -> exists vss, Forall2 (has_attrs Plain x) l vss /\
    map attribute (List.concat vss) = flat_map (fun e => match map_get x (e_attrs e) with Some v => [r_attribute v] | None => [] end) l.
  Proof.
    intros x. induction l as [|e l IH]; intros K; [exists []; split; [constructor|reflexivity]|]. inversion K as [|? ? K1 K2]; subst.
    destruct (IH K2) as (vss & A & C). exists ((match map_get x (e_attrs e) with Some v => [v] | None => [] end) :: vss).
    split; [constructor; [now apply has_attrs_get|exact A]|]. cbn [List.concat flat_map]. rewrite map_app, C.
    destruct (map_get x (e_attrs e)); reflexivity.
  Qed.
  Lemma every_plain : forall key l st ms rest r, Forall keyed l -> fine rest -> process_all E rec key l (seg_of (st, ms)) (map seg_of rest) = Ok r ->
    every sight mods Plain B ms l rest r.
  Proof.
    intros key l st ms rest r K F H. unfold process_all in H. destruct rest as [|[nx ms'] more].
    - cbn [map] in H. replace (s_mods (seg_of (st, ms))) with ms in H by (destruct st; reflexivity). injection H as <-.
      eapply every_here; [apply forall2_map; intros; apply element_is|apply modified_is].
    - assert (EA : forall all, query_each rec key l (map seg_of ((nx, ms') :: more)) = Ok all ->
        exists rs, Forall2 (fun e => B (e_content e) ((nx, ms') :: more)) l rs /\ List.concat (map values rs) = all).
      { apply each_is. intros k s q Q. eapply REC; eauto. }
      assert (Deep : deeper nx -> (let* all := query_each rec key l (map seg_of ((nx, ms') :: more)) in
          match all with [] => Ok r_null | _ :: _ => Ok (apply_modifiers E (package all) ms') end) = Ok r ->
          every sight mods Plain B ms l ((nx, ms') :: more) r).
      { intros Dp Q. destruct (query_each rec key l (map seg_of ((nx, ms') :: more))) as [all| |]; cbn [bind] in Q; try discriminate.
        destruct (EA all eq_refl) as (rs & A & C). eapply every_deeper; [exact Dp|exact A|]. rewrite C. now apply collected_is. }
      destruct nx; cbn [map seg_of fst snd s_type s_value s_mods] in H, Deep; try (apply Deep; [exact Logic.I|exact H]).
      + destruct (attrs_plain n l K) as (vss & A & C). eapply every_attr; [exact A|]. rewrite C. now apply collected_is.
      + apply collected_is in H. eapply every_text; [apply forall2_map; intros; apply text_is|exact H].
      + apply every_field. eapply fields_plain; eauto. exact (fine_head _ _ _ F).
  Qed.
  Lemma routed_plain : forall key l all p op v ms rest r, Forall keyed l -> fine rest ->
    route_matches E rec key l (seg_of (GWhere all p op v, ms)) (map seg_of rest) = Ok r -> routed sight mods Plain B all ms rest l r.
  Proof.
    intros key l all p op v ms rest r K F H. unfold route_matches in H. cbn [seg_of fst snd s_all] in H.
    destruct l as [|e l]; [injection H as <-; constructor|]. destruct all.
    - apply routed_all; [reflexivity|]. eapply (every_plain key _ (GWhere true p op v)); eauto.
    - apply routed_one; [reflexivity|]. eapply (one_plain key _ (GWhere false p op v)); eauto.
  Qed.
  Lemma spread_plain : forall key l ms rest r, l <> [] -> Forall keyed l -> fine rest ->
    (let* r := handle_wildcard E rec key l (map seg_of rest) in
     Ok (match map seg_of rest with [] => apply_modifiers E r ms | _ :: _ => r end)) = Ok r -> spread mods Plain B ms l rest r.
  Proof.
    intros key l ms rest r N K F H. unfold handle_wildcard in H. destruct rest as [|[nx ms'] more].
    - cbn [map bind] in H. injection H as <-. eapply spread_here; [apply forall2_map; intros; apply element_is|]. cbn. apply modified_is.
    - assert (FIN : forall all (b : bool) r, (let* r0 := (match all with [] => Ok (if b then r_array [] else r_null) | _ :: _ => Ok (apply_modifiers E (package all) ms') end) in Ok r0) = Ok r ->
        (all = [] /\ b = true /\ r = array []) \/ ((all <> [] \/ b = false) /\ collected mods ms' all r)).
      { intros all b r0 Q. destruct all as [|x l0]; cbn [bind] in Q; injection Q as <-.
        - destruct b; [left; auto|right]. split; auto. left; auto.
        - right. split; [left; discriminate|]. right. split; [discriminate|apply modified_is]. }
      assert (Deep : (deeper nx \/ exists f, nx = GField f) ->
          (let* r0 := (let* p := wild_each rec key l (map seg_of ((nx, ms') :: more)) in
          match fst p with [] => Ok (if snd p then r_array [] else r_null) | _ :: _ => Ok (apply_modifiers E (package (fst p)) ms') end) in Ok r0) = Ok r ->
          spread mods Plain B ms l ((nx, ms') :: more) r).
      { intros Dp Q. destruct (wild_each rec key l (map seg_of ((nx, ms') :: more))) as [p| |] eqn:W; try discriminate. cbn [bind] in Q.
        apply FIN in Q. destruct (wild_is rec B (map seg_of ((nx, ms') :: more)) ((nx, ms') :: more) (fun k s q Z => REC k s _ q F Z) _ _ _ W) as (rs & A & C & G).
        destruct Q as [(Q1 & Q2 & ->)|[Q1 Q2]].
        - rewrite Q1 in C. eapply spread_empty; eauto; [reflexivity|]. apply concat_none; auto. now apply G.
        - rewrite <- C in Q2. eapply spread_deeper; eauto. destruct Q1 as [Q1|Q1]; [left; congruence|].
          destruct (List.concat (map values rs)) eqn:X; [|left; discriminate]. right. left. rewrite (concat_none _ X), <- G. congruence. }
      destruct nx; cbn [map seg_of fst snd s_type s_value s_mods] in H, Deep; try (apply Deep; [left; exact Logic.I|exact H]).
      + destruct more as [|y more]; cbn [map] in H.
        * apply (FIN _ false) in H. destruct H as [(_ & H & _)|[_ H]]; [discriminate|]. destruct (attrs_plain n l K) as (vss & A & C).
          rewrite <- C in H. eapply spread_attr; eauto.
        * cbn [bind] in H. injection H as <-. constructor.
      + apply (FIN _ false) in H. destruct H as [(_ & H & _)|[_ H]]; [discriminate|].
        eapply spread_text; [apply forall2_map; intros; apply text_is|exact H].
      + apply Deep; [right; eauto|exact H].
  Qed.
  Lemma adds_plain : forall key e rest rs, keyed e -> fine rest -> search_add E rec key e (map seg_of rest) = Ok rs -> adds sight mods Plain B e rest rs.
  Proof.
    intros key e rest rs K F H. unfold search_add in H. destruct rest as [|[nx ms'] more].
    - cbn [map] in H. injection H as <-. apply adds_here. apply element_is.
    - assert (Deep : deeper nx -> (let* r := rec (child_key site_query e key) false (e_content e) (map seg_of ((nx, ms') :: more)) in Ok (flatten1 r)) = Ok rs ->
          adds sight mods Plain B e ((nx, ms') :: more) rs).
      { intros Dp Q. destruct (rec (child_key site_query e key) false (e_content e) (map seg_of ((nx, ms') :: more))) as [r| |] eqn:R; cbn [bind] in Q; try discriminate.
        injection Q as <-. apply adds_deeper; [left; exact Dp|]. eapply REC; eauto. }
      destruct nx; cbn [map seg_of fst snd s_type s_value s_mods] in H, Deep; try (apply Deep; [exact Logic.I|exact H]).
      + destruct more as [|y more]; cbn [map] in H.
        * destruct (attrs_plain n [e]) as (vss & A & C); [constructor; auto|].
          inversion A as [|? vs ? ? A1 A2]; subst. inversion A2; subst. cbn [List.concat flat_map] in C. rewrite !app_nil_r in C.
          destruct (map_get n (e_attrs e)); injection H as <-; rewrite <- C; now constructor.
        * destruct (map_get n (e_attrs e)); injection H as <-; constructor.
      + injection H as <-. constructor. apply text_is.
      + destruct (field_extract E key [e] (seg_of (GField f, ms'))) as [r| |] eqn:R; unfold seg_of in R; cbn [fst snd] in R; rewrite R in H; cbn [bind] in H; try discriminate.
        injection H as <-. apply adds_field; [reflexivity|]. eapply fields_plain; eauto. exact (fine_head _ _ _ F).
  Qed.
  Lemma target_is : forall st ms e, seg_matches (seg_of (st, ms)) (e_name e) = true <-> target Plain st e.
  Proof.
    intros st ms e. destruct st; try (cbn; tauto); try (cbn; split; [discriminate|tauto]).
    cbn [target]. rewrite <- (bears_is Plain n ms e). rewrite <- (match_cs (seg_of (GName n, ms))). reflexivity.
  Qed.
  Lemma search_plain : forall st ms rest, fine rest -> forall n key a s z,
    rsearch E rec n key (seg_of (st, ms)) (map seg_of rest) a s = Ok z -> search sight mods Plain B st rest n (inl s) a z.
  Proof.
    intros st ms rest F. induction n as [|n IH]; intros key [ops acc] s z H; cbn [rsearch fst snd] in H.
    - injection H as <-. constructor.
    - change MaxWildcardResults with 1000%nat in H. change MaxRecursiveOperations with 10000%N in H.
      destruct (Nat.leb_spec 1000 (List.length acc)) as [L|L]; cbn [orb] in H; [injection H as <-; constructor; auto|].
      destruct (N.leb_spec 10000 (ops + 1)) as [O|O]; [injection H as <-; constructor; auto|].
      destruct (scan_res E key s) as [es| |] eqn:S; cbn [bind] in H; try discriminate.
      eapply search_text; [exact L|exact O|eapply Hs; exact S|]. pose proof (keyed_scan E Eperm _ _ _ S) as K. clear S L O.
      revert H. generalize ((ops + 1)%N, acc). clear ops acc s.
      induction es as [|e es IHe]; intros a H; [injection H as <-; constructor|]. inversion K as [|? ? K1 K2]; subst.
      destruct (match e_content e with [] => Ok a | _ :: _ => rsearch E rec n (child_key site_search e key) (seg_of (st, ms)) (map seg_of rest) a (e_content e) end)
        as [b| |] eqn:V; cbn [bind] in H; try discriminate.
      assert (VI : visited sight mods Plain B st rest n e a b).
      { destruct (e_content e) as [|x y] eqn:C; [injection V as <-; now constructor|]. apply visited_content; rewrite C; [discriminate|]. eapply IH; exact V. }
      destruct (N.leb_spec 10000 (fst b)) as [O|O]; [injection H as <-; now apply search_stop|].
      destruct (seg_matches (seg_of (st, ms)) (e_name e)) eqn:M.
      + apply target_is in M. destruct (Nat.leb_spec 1000 (List.length (snd b))) as [L|L]; [injection H as <-; now apply search_enough|].
        destruct (search_add E rec key e (map seg_of rest)) as [rs| |] eqn:A; cbn [bind] in H; try discriminate.
        eapply search_found; eauto. eapply adds_plain; eauto.
      + eapply search_pass; eauto. rewrite <- (target_is st ms). congruence.
  Qed.
  Lemma numbered_plain : forall key i ms l more r, fine more -> l <> [] -> array_op E rec key l (seg_of (GNth i, ms)) (map seg_of more) = Ok r ->
    numbered mods Plain B i ms l more r.
  Proof.
    intros key i ms l more r F N H. unfold array_op in H. destruct l as [|e0 l0] eqn:L; [congruence|]. rewrite <- L in *. clear N.
    cbn [seg_of fst snd s_type s_index s_mods] in H. destruct (nth_elem l i) as [e|] eqn:P.
    2:{ injection H as <-. apply nth_no_place in P. now constructor. }
    apply nth_place in P. destruct more as [|[nx ms'] more]; cbn [map] in H.
    - injection H as <-. eapply numbered_here; [exact P|apply element_is|]. cbn. apply modified_is.
    - pose proof (fun k => REC k (e_content e) _ r F) as R.
      destruct nx; cbn [map seg_of fst snd s_type s_value s_mods] in H, R; try (eapply numbered_deeper; [exact P|discriminate|apply (R _ H)]).
      destruct more as [|y more]; cbn [map] in H.
      + eapply numbered_attr with (o := map_get n (e_attrs e)); [exact P|now apply has_attr_get| |];
          destruct (map_get n (e_attrs e)); injection H as <-; intros Q; try congruence; try reflexivity. cbn. apply modified_is.
      + injection H as <-. replace (match map_get n (e_attrs e) with Some v => r_attribute v | None => r_null end) with (entry_or_null (map_get n (e_attrs e)))
          by (destruct (map_get n (e_attrs e)); reflexivity). eapply numbered_attr_more; [exact P|now apply has_attr_get].
  Qed.
  Lemma root_plain : forall key i ms l more r, fine more -> l <> [] -> root_array E rec key l (seg_of (GNth i, ms)) (map seg_of more) = Ok r ->
    root_numbered B i l more r.
  Proof.
    intros key i ms l more r F N H. unfold root_array in H. destruct l as [|e0 l0] eqn:L; [congruence|]. rewrite <- L in *. clear N.
    cbn [seg_of fst snd s_type s_index s_mods] in H. destruct (nth_elem l i) as [e|] eqn:P.
    2:{ injection H as <-. apply nth_no_place in P. now constructor. }
    apply nth_place in P. destruct more as [|[nx ms'] more]; cbn [map] in H.
    - injection H as <-. eapply root_here; [exact P|apply element_is].
    - pose proof (fun k => REC k (e_content e) _ r F) as R.
      destruct nx; cbn [map seg_of fst snd s_type s_value s_mods] in H, R; try (eapply root_deeper; [exact P|left; exact Logic.I|apply (R _ H)]).
      + injection H as <-. replace (match map_get n (e_attrs e) with Some v => r_attribute v | None => r_null end) with (entry_or_null (map_get n (e_attrs e)))
          by (destruct (map_get n (e_attrs e)); reflexivity). eapply root_attr; [exact P|apply attr_exactly_get].
      + injection H as <-. eapply root_text; [exact P|apply text_is].
      + eapply root_deeper; [exact P|right; eauto|apply (R _ H)].
  Qed.
  Lemma ways_plain : forall key sg nx ms' more l r, fine ((nx, ms') :: more) -> match nx with GName _ | GAny | GDeep => True | _ => False end ->
    first_loop E rec key l sg (map seg_of ((nx, ms') :: more)) = Ok r -> first_way B ((nx, ms') :: more) l r.
  Proof.
    intros key sg nx ms' more l r F W. induction l as [|e l IH]; intros H; cbn [first_loop] in H; [injection H as <-; constructor|].
    assert (Q : (let* r := rec (child_key site_query e key) false (e_content e) (map seg_of ((nx, ms') :: more)) in
                if is_null r then first_loop E rec key l sg (map seg_of ((nx, ms') :: more)) else Ok r) = Ok r).
    { destruct nx; try contradiction; exact H. }
    clear H. destruct (rec (child_key site_query e key) false (e_content e) (map seg_of ((nx, ms') :: more))) as [r0| |] eqn:R; cbn [bind] in Q; try discriminate.
    apply REC in R; [|exact F]. destruct (is_null r0) eqn:Z.
    - apply null_type in Z. eapply way_next; eauto.
    - injection Q as <-. apply way_found; auto. intros C. apply null_type in C. congruence.
  Qed.

  Lemma bears_plain : forall n ms x, (fun e => seg_matches (seg_of (GName n, ms)) (e_name e)) x = true <-> bears Plain n x.
  Proof. intros n ms x. exact (target_is (GName n) ms x). Qed.
  Lemma keyed_filter : forall f n l, Forall keyed l -> Forall keyed (firstn n (filter f l)).
  Proof.
    intros f n l H. apply Forall_forall. intros x I.
    assert (J : In x (filter f l)) by (rewrite <- (firstn_skipn n); apply in_or_app; auto).
    apply filter_In in J as [J _]. exact (proj1 (Forall_forall _ _) H x J).
  Qed.
  Lemma keyed_sifted : forall J n l l', sifted J n l l' -> Forall keyed l -> Forall keyed l'.
  Proof. induction 1; intros K; auto; inversion K; subst; auto. Qed.

  Lemma element_plain : forall key top s es n ms rest r, sight s es -> Forall keyed es -> fine rest ->
    (top = true -> forall st ms' more, rest = (st, ms') :: more -> ~ special st) ->
    exec_element E rec key es (seg_of (GName n, ms)) (map seg_of rest) = Ok r ->
    answer sight pf mods Plain B T top s ((GName n, ms) :: rest) r.
  Proof.
    intros key top s es n ms rest r S K F TP H. unfold exec_element in H.
    pose proof (only_filter _ _ _ es (bears_plain n ms)) as O. fold (matching (seg_of (GName n, ms)) es) in O.
    pose proof (only_none _ _ _ es (bears_plain n ms)) as NO. fold (matching (seg_of (GName n, ms)) es) in NO.
    pose proof (keyed_filter (fun e => seg_matches (seg_of (GName n, ms)) (e_name e)) MaxWildcardResults es K) as KC. fold (matching (seg_of (GName n, ms)) es) in KC.
    set (m := matching (seg_of (GName n, ms)) es) in *.
    assert (L1000 : (List.length (firstn MaxWildcardResults m) <= 1000)%nat) by (apply firstn_le_length).
    assert (CE : firstn MaxWildcardResults m = [] -> m = []) by (apply firstn_nil; unfold MaxWildcardResults; lia).
    change (firstn MaxWildcardResults m) with (firstn 1000 m) in *.
    destruct rest as [|[nx ms'] more].
    - cbn [map] in H. destruct m as [|e l]; cbn [first_loop] in H; injection H as <-.
      + eapply answer_missing; [exact S|now apply NO|auto].
      + eapply answer_element; [exact S|exact O|apply element_is|]. cbn. apply modified_is.
    - assert (NT : special nx -> top && strict Plain = false).
      { intros Sp. destruct top; auto. exfalso. eapply TP; [reflexivity|reflexivity|exact Sp]. }
      assert (FE : m = [] -> forall q, first_loop E rec key m (seg_of (GName n, ms)) q = Ok r -> r = null).
      { intros M q Q. rewrite M in Q. cbn in Q. injection Q as <-. reflexivity. }
      pose proof (ways_plain key (seg_of (GName n, ms)) nx ms' more m r F) as W.
      pose proof (fun p op v => sifted_capped E rec T TEST key p op v (firstn 1000 m)) as SC.
      cbn [map] in H. 
      destruct nx; cbn [map seg_of fst snd s_type s_value s_mods s_filter] in H, W, FE; try (eapply answer_way; [exact S|exact O|exact Logic.I|]; apply W; [exact Logic.I|exact H]).
      + (* index *)
        eapply answer_nth; [now apply NT|exact S|exact O|]. apply fine_tail in F.
        destruct (firstn 1000 m) as [|e l] eqn:L.
        * cbn [array_op] in H. injection H as <-. constructor. unfold no_place. cbn [List.length]. lia.
        * eapply numbered_plain; eauto. discriminate.
      + (* attribute *)
        destruct m as [|e l].
        * rewrite (FE eq_refl _ H). eapply answer_missing; [exact S|now apply NO|]. right. eexists _, _, _. split; [reflexivity|]. split; [exact (fun x => x)|discriminate].
        * eapply answer_leaf; [exact S|exact O|]. cbn [first_loop s_type s_value s_mods] in H. destruct more as [|y more]; cbn [map] in H.
          -- eapply leaf_attr with (o := map_get n0 (e_attrs e)); [now apply has_attr_get| |]; destruct (map_get n0 (e_attrs e)); injection H as <-;
               intros Q; try congruence; try reflexivity. cbn. apply modified_is.
          -- destruct (map_get n0 (e_attrs e)); injection H as <-; constructor.
      + (* text *)
        destruct m as [|e l].
        * rewrite (FE eq_refl _ H). eapply answer_missing; [exact S|now apply NO|]. right. eexists _, _, _. split; [reflexivity|]. split; [exact (fun x => x)|discriminate].
        * eapply answer_leaf; [exact S|exact O|]. cbn [first_loop s_type s_value s_mods] in H. injection H as <-.
          eapply leaf_text; [apply text_is|]. cbn. apply modified_is.
      + (* count *)
        eapply answer_count; [now apply NT|exact S|exact O| |]; intros Q.
        * rewrite Q in H. cbn [firstn] in H. injection H as <-. reflexivity.
        * destruct (firstn 1000 m) as [|e l] eqn:L; [exfalso; auto|]. cbn [array_op s_type s_mods] in H. injection H as <-. cbn. rewrite <- count_is. apply modified_is.
      + (* condition *)
        destruct (filter_elems E rec key (Some (mkFilt path op value)) (firstn 1000 m)) as [l'| |] eqn:X; cbn [bind] in H; try discriminate.
        apply SC with (n := 1000%nat) in X; [|exact L1000]. eapply answer_where; [exact S|exact O|exact X|].
        eapply (routed_plain key l' all path op value); eauto; [eapply keyed_sifted; eauto|exact (fine_tail _ _ F)].
      + (* field *)
        eapply answer_field; [now apply NT|exact S|exact O|]. eapply fields_plain; eauto. exact (fine_head _ _ _ F).
  Qed.

  Lemma exec_plain : forall key top s l r, fine l -> exec_body E rec key top s (map seg_of l) = Ok r -> answer sight pf mods Plain B T top s l r.
  Proof.
    intros key top s l r F H. unfold exec_body in H. destruct l as [|[st ms] rest]; cbn [map] in H; [injection H as <-; constructor|].
    destruct (scan_res E key s) as [es| |] eqn:S; cbn [bind] in H; try discriminate.
    pose proof (keyed_scan E Eperm _ _ _ S) as K. apply Hs in S. pose proof (fine_tail _ _ F) as F'.
    pose proof (element_plain key top s es) as EP.
    destruct st; cbn [seg_of fst snd s_type s_value s_mods s_filter s_wild] in H; try (injection H as <-; constructor; exact Logic.I).
    - (* name *)
      assert (EX : exactly n = fun e => e_name e = n) by reflexivity.
      assert (FX : forall x, (fun e => bytes_eqb (e_name e) n) x = true <-> exactly n x) by (intros x; apply bytes_eqb_eq).
      pose proof (only_filter _ _ _ es FX) as O. pose proof (only_none _ _ _ es FX) as NO.
      specialize (EP n ms rest r S K F'). cbn [seg_of fst snd] in EP.
      destruct top; [|apply EP; [discriminate|exact H]].
      destruct rest as [|[nx ms'] more]; [apply EP; [discriminate|exact H]|].
      set (m := filter (fun e => bytes_eqb (e_name e) n) es) in *.
      assert (CE : firstn MaxWildcardResults m = [] -> m = []) by (apply firstn_nil; unfold MaxWildcardResults; lia).
      assert (CF : m = [] -> firstn MaxWildcardResults m = []) by (intros ->; apply List.firstn_nil).
      change (firstn MaxWildcardResults m) with (firstn 1000 m) in *.
      cbn [map] in H, EP. destruct nx; cbn [seg_of fst snd s_type] in H, EP;
        try (apply EP; [intros _ st0 ms0 more0 Q; injection Q as <- <- <-; exact (fun x => x)|exact H]).
      + destruct (firstn 1000 m) as [|e l] eqn:L.
        * cbn [root_array] in H. injection H as <-. eapply answer_roots_none; [reflexivity|exact Logic.I|exact S|now apply NO, CE].
        * eapply answer_roots_nth; [reflexivity|exact S|exact O|intros Q; apply CF in Q; discriminate|]. rewrite L.
          eapply (root_plain key i ms'); eauto; [exact (fine_tail _ _ F')|discriminate].
      + destruct (firstn 1000 m) as [|e l] eqn:L.
        * cbn [root_array] in H. injection H as <-. eapply answer_roots_none; [reflexivity|exact Logic.I|exact S|now apply NO, CE].
        * cbn [root_array s_type] in H. injection H as <-. rewrite count_is. change (Datatypes.S (len l)) with (len (e :: l)). rewrite <- L. eapply answer_roots_count; [reflexivity|exact S|exact O|intros Q; apply CF in Q; discriminate].
      + destruct (firstn 1000 m) as [|e l] eqn:L.
        * cbn [root_array] in H. injection H as <-. eapply answer_roots_none; [reflexivity|exact Logic.I|exact S|now apply NO, CE].
        * cbn [root_array s_type] in H. eapply answer_roots_field; [reflexivity|exact S|exact O|intros Q; apply CF in Q; discriminate|]. rewrite L.
          eapply fields_plain; eauto. exact (fine_head _ _ _ F').
    - (* any *)
      destruct es as [|e0 es0]; [cbn in H; injection H as <-; now apply answer_any_none|].
      set (es := e0 :: es0) in *. change MaxWildcardResults with 1000%nat in H.
      assert (N : firstn 1000 es <> []) by discriminate. assert (KC : Forall keyed (firstn 1000 es)).
      { apply Forall_forall. intros x I. apply (proj1 (Forall_forall _ _) K). rewrite <- (firstn_skipn 1000). apply in_or_app; auto. }
      eapply answer_any; [exact S|discriminate|]. destruct (firstn 1000 es) as [|e l]; [congruence|].
      eapply spread_plain; eauto.
    - (* deep *)
      destruct rest as [|[nx ms'] rest]; cbn [map handle_recursive] in H; [injection H as <-; apply answer_deep_end|].
      destruct (rsearch E rec (Datatypes.S MaxNestingDepth) key (seg_of (nx, ms')) (map seg_of rest) (0%N, []) s) as [z| |] eqn:R; cbn [bind] in H; try discriminate.
      apply search_plain in R; [|exact (fine_tail _ _ F')]. 
      replace r with (match snd z with [] => null | l => bundle l end); [eapply answer_deep; exact R|]. destruct (snd z); injection H as <-; reflexivity.
    - (* condition *)
      change MaxWildcardResults with 1000%nat in H.
      destruct (filter_elems_upto 1000 E rec key (Some (mkFilt path op value)) es) as [l'| |] eqn:X; cbn [bind] in H; try discriminate.
      apply (sifted_upto E rec T TEST) in X; [|lia]. eapply answer_sift; [exact S|exact X|].
      eapply (routed_plain key l' all path op value); eauto. eapply keyed_sifted; eauto.
  Qed.
End Plain.

Lemma answers_plain : forall E (sight : bytes -> list elem -> Prop), (forall k m, Permutation m (e_ord E k m)) -> (forall key s l, scan_res E key s = Ok l -> sight s l) ->
  forall f key top s l r, fine l -> exec E f key top s (map seg_of l) = Ok r ->
  answers sight (e_parse_float E) (get_modifier E) f Plain top s l r.
Proof.
  intros E sight P Hs. induction f as [|f IH]; intros key top s l r F H; [discriminate|]. cbn [exec] in H. cbn [answers].
  eapply exec_plain; eauto.
Qed.
