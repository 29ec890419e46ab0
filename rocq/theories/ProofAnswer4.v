(** Queries with options against [SpecAnswer]. *)
From Coq Require Import List Ascii String NArith ZArith Bool Lia SpecFloat Permutation.
From Verif Require Import GoStr ModelParser ModelPath ModelResult ModelQuery ModelBuilder ModelQueryOpts SpecText SpecPath SpecTree SpecContent
  SpecFilter SpecGrammar SpecScan SpecAnswer ProofBase ProofScan ProofEscape ProofPath ProofFilter ProofFuel ProofGrammar2 ProofSight ProofSight2 ProofSight3 ProofAnswer
  ProofAnswer2 ProofAnswer3.
Import ListNotations.

Definition seg_o (cs : bool) (x : gstep * list bytes) : seg :=
  let ms := snd x in
  match fst x with
  | GName n => mkSeg SElem (lower_if cs n) 0 false None false [] ms
  | GNth i => mkSeg SIndex [] i false None false [] ms
  | GAttr n => mkSeg SAttr (lower_if cs n) 0 false None false [] ms
  | GText => mkSeg SText [] 0 false None false [] ms
  | GCount => mkSeg SCount [] 0 false None false [] ms
  | GAny => mkSeg SWild [] 0 false None false [] ms
  | GDeep => mkSeg SWild [] 0 true None false [] ms
  | GWhere all p op v => mkSeg SFilter [] 0 false (Some (mkFilt p op v)) all [] ms
  | GField f => mkSeg SField [] 0 false None false f ms
  end.
Lemma seg_o_is : forall cs x, seg_in (Under cs) x = seg_o cs x.
Proof. intros cs [st ms]. unfold seg_in. destruct cs, st; reflexivity. Qed.
Lemma lower_if_idem : forall cs x, lower_if cs (lower_if cs x) = lower_if cs x.
Proof. intros [] x; cbn; auto. apply lower_idem. Qed.
Lemma has_attr_lookup : forall E cs key x e, (forall k m, Permutation m (e_ord E k m)) -> has_attr (Under cs) x e (attr_lookup E cs key (lower_if cs x) e).
Proof.
  intros E cs key x e P. destruct cs; [exact (has_attr_get (Under true) x e eq_refl)|]. unfold attr_lookup, has_attr. cbn [lower_if].
  specialize (P (child_key site_attr e key) (e_attrs e)). set (m := e_ord E (child_key site_attr e key) (e_attrs e)) in *.
  destruct (filter (fun a => bytes_eqb (to_lower_ascii (fst a)) (to_lower_ascii x)) m) as [|[y v] l] eqn:F.
  - intros y v I. rewrite !fold_is. intros Q. apply (Permutation_in _ P) in I.
    assert (J : In (y, v) []) by (rewrite <- F; apply filter_In; split; [exact I|apply bytes_eqb_eq; exact Q]). exact J.
  - assert (J : In (y, v) (filter (fun a => bytes_eqb (to_lower_ascii (fst a)) (to_lower_ascii x)) m)) by (rewrite F; left; reflexivity).
    apply filter_In in J as [J Q]. apply bytes_eqb_eq in Q. exists y. split; [|rewrite !fold_is; exact Q].
    apply (Permutation_in _ (Permutation_sym P)). exact J.
Qed.
Lemma has_attrs_lookup : forall E cs key x e, (forall k m, Permutation m (e_ord E k m)) -> keyed e ->
  has_attrs (Under cs) x e (attr_lookup_all E cs key (lower_if cs x) e).
Proof.
  intros E cs key x e P K. destruct cs; [exact (has_attrs_get (Under true) x e eq_refl K)|].
  exists (e_ord E (child_key site_attr e key) (e_attrs e)), (filter (fun a => bytes_eqb (to_lower_ascii (fst a)) (to_lower_ascii x)) (e_ord E (child_key site_attr e key) (e_attrs e))).
  split; [apply P|]. split; [|reflexivity]. apply only_filter. intros a. rewrite !fold_is. apply bytes_eqb_eq.
Qed.

Section Opts.
  Variable cs : bool.
  Variable E : env.
  Hypothesis Eperm : forall k m, Permutation m (e_ord E k m).
  Variable sight : bytes -> list elem -> Prop.
  Hypothesis Hs : forall key s l, scan_res E key s = Ok l -> sight s l.
  Let pf := e_parse_float E.
  Let mods := get_modifier E.
  Variables plain rec : qrec.
  Variables B T : bytes -> steps -> result -> Prop.
  Hypothesis REC : forall key s l r, fine l -> rec key false s (map (seg_o cs) l) = Ok r -> B s l r.
  Hypothesis TEST : forall key s l r, fine l -> plain key true s (map seg_of l) = Ok r -> T s l r.

  Notation fields := (fields sight mods (Under cs)).
  Lemma fields_opt : forall key l f ms r, f <> [] -> field_extract_opts E cs key l (seg_o cs (GField f, ms)) = Ok r -> fields f ms l r.
  Proof.
    intros key l f ms r F H. unfold field_extract_opts in H. cbn [seg_o fst snd s_field s_mods] in H. destruct f as [|c name]; [congruence|].
    assert (K : exists all rss, Forall2 (field_values sight (Under cs) (c :: name)) l rss /\ List.concat rss = all /\
      match firstn MaxWildcardResults all with [] => Ok (r_array []) | rs => Ok (apply_modifiers E (r_array rs) ms) end = Ok r).
    { destruct (Ascii.eqb_spec c "@") as [->|N1].
      - cbn [bind] in H. eexists.
        destruct (forall2_concat _ _ (field_values sight (Under cs) ("@"%char :: name)) (fun e => map r_attribute (opt_list (attr_lookup E cs key (lower_if cs name) e))) l) as (rss & A & C).
        { intros e _. replace (map r_attribute (opt_list (attr_lookup E cs key (lower_if cs name) e))) with (entry (attr_lookup E cs key (lower_if cs name) e))
            by (destruct (attr_lookup E cs key (lower_if cs name) e); reflexivity).
          constructor. now apply has_attr_lookup. }
        exists rss. split; [exact A|]. split; [exact C|exact H].
      - destruct (bytes_eqb (c :: name) (bs "%")) eqn:TT.
        + apply bytes_eqb_eq in TT. rewrite TT. cbn [bind] in H. eexists.
          destruct (forall2_concat _ _ (field_values sight (Under cs) (bs "%")) (fun e => match extract_direct (e_content e) with [] => [] | t => [mkR RString t (unescape_xml t) f64_zero []] end) l) as (rss & A & C).
          { intros e _. destruct (extract_direct (e_content e)) as [|x y] eqn:X; unfold extract_direct in X.
            - apply (values_blank sight (Under cs) e _ (own_chars_direct _) X).
            - rewrite <- X. eapply values_text; [apply own_chars_direct|rewrite X; discriminate|apply unescape_decodes]. }
          exists rss. split; [exact A|]. split; [exact C|exact H].
        + destruct (field_children_opts E cs key (c :: name) l) as [all| |] eqn:C; cbn [bind] in H; try discriminate. exists all.
          assert (X : exists rss, Forall2 (field_values sight (Under cs) (c :: name)) l rss /\ List.concat rss = all).
          { clear H. revert all C. induction l as [|e l IH]; intros all C; cbn [field_children_opts] in C.
            - injection C as <-. exists []. split; [constructor|reflexivity].
            - destruct (scan_res E (child_key site_field e key) (e_content e)) as [es| |] eqn:S; cbn [bind] in C; try discriminate.
              destruct (field_children_opts E cs key (c :: name) l) as [all'| |]; cbn [bind] in C; try discriminate. injection C as <-.
              destruct (IH all' eq_refl) as (rss & A & Bd). eexists (_ :: rss). split; [constructor; [|exact A]|cbn [List.concat]; rewrite Bd; reflexivity].
              eapply values_named with (l := filter (fun c0 => bytes_eqb (lower_if cs (e_name c0)) (lower_if cs (c :: name))) es).
              + intros x Q. injection Q as -> _. congruence.
              + intros Q. rewrite Q, bytes_eqb_refl in TT. discriminate.
              + eapply Hs. exact S.
              + apply only_filter. intros x. unfold folded. rewrite !fold_is. cbn [strict]. apply bytes_eqb_eq.
              + apply forall2_map. intros x. apply element_is. }
          destruct X as (rss & A & Bd). exists rss. auto. }
    destruct K as (all & rss & A & Bd & C). apply cap_cases in C as [[-> ->]|[N ->]].
    - eapply fields_none; [exact A|exact Bd].
    - subst all. eapply fields_some; [exact A|exact N|apply modified_is].
  Qed.
  Lemma attr_result : forall key x e ms r,
    match attr_lookup E cs key (lower_if cs x) e with Some v => Ok (apply_modifiers E (r_attribute v) ms) | None => Ok r_null end = Ok r ->
    (attr_lookup E cs key (lower_if cs x) e = None -> r = null) /\ (attr_lookup E cs key (lower_if cs x) e <> None -> modified mods ms (entry_or_null (attr_lookup E cs key (lower_if cs x) e)) r).
  Proof.
    intros key x e ms r H. destruct (attr_lookup E cs key (lower_if cs x) e); injection H as <-; (split; [intros K|intros K]); try congruence; try reflexivity. apply modified_is.
  Qed.
  Lemma one_opt : forall key e st ms rest r, fine rest -> process_first_opts E cs rec key e (seg_o cs (st, ms)) (map (seg_o cs) rest) = Ok r ->
    one sight mods (Under cs) B ms e rest r.
  Proof.
    intros key e st ms rest r F H. unfold process_first_opts in H. destruct rest as [|[nx ms'] more].
    - cbn [map] in H. replace (s_mods (seg_o cs (st, ms))) with ms in H by (destruct st; reflexivity). injection H as <-.
      eapply one_here; [apply element_is|apply modified_is].
    - pose proof (fun k => REC k (e_content e) _ r F) as R.
      destruct nx; cbn [map seg_o fst snd s_type s_value s_mods] in H, R;
        try (apply one_deeper; [exact Logic.I|apply (R _ H)]).
      + apply attr_result in H as [H1 H2]. eapply one_attr; [now apply has_attr_lookup|exact H1|exact H2].
      + injection H as <-. eapply one_text; [apply text_is|apply modified_is].
      + apply one_field. eapply fields_opt; eauto. exact (fine_head _ _ _ F).
  Qed.
  Lemma collected_is : forall ms all r,
    match all with [] => Ok r_null | _ :: _ => Ok (apply_modifiers E (package all) ms) end = Ok r -> collected mods ms all r.
  Proof.
    intros ms all r H. destruct all as [|x l]; injection H as <-; [left; auto|right]. split; [discriminate|]. apply modified_is.
  Qed.
  Lemma attrs_opt : forall key x l, Forall keyed l -> exists vss, Forall2 (has_attrs (Under cs) x) l vss /\
    map attribute (List.concat vss) = flat_map (fun e => map r_attribute (attr_lookup_all E cs key (lower_if cs x) e)) l.
  Proof.
    intros key x. induction l as [|e l IH]; intros K; [exists []; split; [constructor|reflexivity]|]. inversion K as [|? ? K1 K2]; subst.
    destruct (IH K2) as (vss & A & C). exists (attr_lookup_all E cs key (lower_if cs x) e :: vss).
    split; [constructor; [now apply has_attrs_lookup|exact A]|]. cbn [List.concat flat_map]. rewrite map_app, C. reflexivity.
  Qed.
  Lemma every_opt : forall key l st ms rest r, Forall keyed l -> fine rest -> process_all_opts E cs rec key l (seg_o cs (st, ms)) (map (seg_o cs) rest) = Ok r ->
    every sight mods (Under cs) B ms l rest r.
  Proof.
    intros key l st ms rest r K F H. unfold process_all_opts in H. destruct rest as [|[nx ms'] more].
    - cbn [map] in H. replace (s_mods (seg_o cs (st, ms))) with ms in H by (destruct st; reflexivity). injection H as <-.
      eapply every_here; [apply forall2_map; intros; apply element_is|apply modified_is].
    - assert (EA : forall all, query_each rec key l (map (seg_o cs) ((nx, ms') :: more)) = Ok all ->
        exists rs, Forall2 (fun e => B (e_content e) ((nx, ms') :: more)) l rs /\ List.concat (map values rs) = all).
      { apply each_is. intros k s q Q. eapply REC; eauto. }
      assert (Deep : deeper nx -> (let* all := query_each rec key l (map (seg_o cs) ((nx, ms') :: more)) in
          match all with [] => Ok r_null | _ :: _ => Ok (apply_modifiers E (package all) ms') end) = Ok r ->
          every sight mods (Under cs) B ms l ((nx, ms') :: more) r).
      { intros Dp Q. destruct (query_each rec key l (map (seg_o cs) ((nx, ms') :: more))) as [all| |]; cbn [bind] in Q; try discriminate.
        destruct (EA all eq_refl) as (rs & A & C). eapply every_deeper; [exact Dp|exact A|]. rewrite C. now apply collected_is. }
      destruct nx; cbn [map seg_o fst snd s_type s_value s_mods] in H, Deep; try (apply Deep; [exact Logic.I|exact H]).
      + destruct (attrs_opt key n l K) as (vss & A & C). eapply every_attr; [exact A|]. rewrite C. now apply collected_is.
      + apply collected_is in H. eapply every_text; [apply forall2_map; intros; apply text_is|exact H].
      + apply every_field. eapply fields_opt; eauto. exact (fine_head _ _ _ F).
  Qed.
  Lemma routed_opt : forall key l all p op v ms rest r, Forall keyed l -> fine rest ->
    route_matches_opts E cs rec key l (seg_o cs (GWhere all p op v, ms)) (map (seg_o cs) rest) = Ok r -> routed sight mods (Under cs) B all ms rest l r.
  Proof.
    intros key l all p op v ms rest r K F H. unfold route_matches_opts in H. cbn [seg_o fst snd s_all] in H.
    destruct l as [|e l]; [injection H as <-; constructor|]. destruct all.
    - apply routed_all; [reflexivity|]. eapply (every_opt key _ (GWhere true p op v)); eauto.
    - apply routed_one; [reflexivity|]. eapply (one_opt key _ (GWhere false p op v)); eauto.
  Qed.
  Lemma spread_opt : forall key l ms rest r, l <> [] -> Forall keyed l -> fine rest ->
    handle_wildcard_opts E cs rec key l (map (seg_o cs) rest) = Ok r -> spread mods (Under cs) B ms l rest r.
  Proof.
    intros key l ms rest r N K F H. unfold handle_wildcard_opts in H. destruct rest as [|[nx ms'] more].
    - cbn [map bind] in H. injection H as <-. eapply spread_here; [apply forall2_map; intros; apply element_is|]. reflexivity.
    - assert (Deep : (deeper nx \/ exists f, nx = GField f) ->
          (let* all := query_each rec key l (map (seg_o cs) ((nx, ms') :: more)) in
          match all with [] => Ok r_null | _ :: _ => Ok (apply_modifiers E (package all) ms') end) = Ok r ->
          spread mods (Under cs) B ms l ((nx, ms') :: more) r).
      { intros Dp Q. destruct (query_each rec key l (map (seg_o cs) ((nx, ms') :: more))) as [p| |] eqn:W; try discriminate. cbn [bind] in Q.
        apply collected_is in Q. destruct (each_is rec B (map (seg_o cs) ((nx, ms') :: more)) ((nx, ms') :: more) (fun k s q Z => REC k s _ q F Z) _ _ _ W) as (rs & A & C).
        rewrite <- C in Q. eapply spread_deeper; eauto. right. right. discriminate. }
      destruct nx; cbn [map seg_o fst snd s_type s_value s_mods] in H, Deep; try (apply Deep; [left; exact Logic.I|exact H]).
      + destruct more as [|y more]; cbn [map] in H.
        * apply collected_is in H. destruct (attrs_opt key n l K) as (vss & A & C). rewrite <- C in H. eapply spread_attr; eauto.
        * injection H as <-. constructor.
      + apply collected_is in H. eapply spread_text; [apply forall2_map; intros; apply text_is|exact H].
      + apply Deep; [right; eauto|exact H].
  Qed.
  Lemma adds_opt : forall key e rest rs, keyed e -> fine rest -> search_add_opts E cs rec key e (map (seg_o cs) rest) = Ok rs -> adds sight mods (Under cs) B e rest rs.
  Proof.
    intros key e rest rs K F H. unfold search_add_opts in H. destruct rest as [|[nx ms'] more].
    - cbn [map] in H. injection H as <-. apply adds_here. apply element_is.
    - assert (Deep : (deeper nx \/ exists f, nx = GField f) -> (let* r := rec (child_key site_query e key) false (e_content e) (map (seg_o cs) ((nx, ms') :: more)) in Ok (flatten1 r)) = Ok rs ->
          adds sight mods (Under cs) B e ((nx, ms') :: more) rs).
      { intros Dp Q. destruct (rec (child_key site_query e key) false (e_content e) (map (seg_o cs) ((nx, ms') :: more))) as [r| |] eqn:R; cbn [bind] in Q; try discriminate.
        injection Q as <-. apply adds_deeper; [|eapply REC; eauto]. destruct Dp as [Dp|[f Dp]]; [left; exact Dp|right; exists f; split; [exact Dp|discriminate]]. }
      destruct nx; cbn [map seg_o fst snd s_type s_value s_mods] in H, Deep; try (apply Deep; [left; exact Logic.I|exact H]).
      + destruct more as [|y more]; cbn [map] in H; injection H as <-; [|constructor].
        apply adds_attr. now apply has_attrs_lookup.
      + injection H as <-. constructor. apply text_is.
      + apply Deep; [right; eauto|exact H].
  Qed.
  Lemma target_is : forall st ms e, seg_matches_opts cs (seg_o cs (st, ms)) (e_name e) = true <-> target (Under cs) st e.
  Proof.
    intros st ms e. destruct st; try (cbn; tauto); try (cbn; split; [discriminate|tauto]).
    cbn [target]. rewrite <- (bears_is (Under cs) n ms e), seg_o_is. reflexivity.
  Qed.
  Lemma search_opt : forall st ms rest, fine rest -> forall n key a s z,
    rsearch_opts E cs rec n key (seg_o cs (st, ms)) (map (seg_o cs) rest) a s = Ok z -> search sight mods (Under cs) B st rest n (inl s) a z.
  Proof.
    intros st ms rest F. induction n as [|n IH]; intros key [ops acc] s z H; cbn [rsearch_opts fst snd] in H.
    - injection H as <-. constructor.
    - change MaxWildcardResults with 1000%nat in H. change MaxRecursiveOperations with 10000%N in H.
      destruct (Nat.leb_spec 1000 (List.length acc)) as [L|L]; cbn [orb] in H; [injection H as <-; constructor; auto|].
      destruct (N.leb_spec 10000 (ops + 1)) as [O|O]; [injection H as <-; constructor; auto|].
      destruct (scan_res E key s) as [es| |] eqn:S; cbn [bind] in H; try discriminate.
      eapply search_text; [exact L|exact O|eapply Hs; exact S|]. pose proof (keyed_scan E Eperm _ _ _ S) as K. clear S L O.
      revert H. generalize ((ops + 1)%N, acc). clear ops acc s.
      induction es as [|e es IHe]; intros a H; [injection H as <-; constructor|]. inversion K as [|? ? K1 K2]; subst.
      destruct (match e_content e with [] => Ok a | _ :: _ => rsearch_opts E cs rec n (child_key site_search e key) (seg_o cs (st, ms)) (map (seg_o cs) rest) a (e_content e) end)
        as [b| |] eqn:V; cbn [bind] in H; try discriminate.
      assert (VI : visited sight mods (Under cs) B st rest n e a b).
      { destruct (e_content e) as [|x y] eqn:C; [injection V as <-; now constructor|]. apply visited_content; rewrite C; [discriminate|]. eapply IH; exact V. }
      destruct (N.leb_spec 10000 (fst b)) as [O|O]; [injection H as <-; now apply search_stop|].
      destruct (seg_matches_opts cs (seg_o cs (st, ms)) (e_name e)) eqn:M.
      + apply target_is in M. destruct (Nat.leb_spec 1000 (List.length (snd b))) as [L|L]; [injection H as <-; now apply search_enough|].
        destruct (search_add_opts E cs rec key e (map (seg_o cs) rest)) as [rs| |] eqn:A; cbn [bind] in H; try discriminate.
        eapply search_found; eauto. eapply adds_opt; eauto.
      + eapply search_pass; eauto. rewrite <- (target_is st ms). congruence.
  Qed.
  Lemma numbered_opt : forall key i ms l more r, fine more -> l <> [] -> array_op_opts E cs rec key l (seg_o cs (GNth i, ms)) (map (seg_o cs) more) = Ok r ->
    numbered mods (Under cs) B i ms l more r.
  Proof.
    intros key i ms l more r F N H. unfold array_op_opts in H. destruct l as [|e0 l0] eqn:L; [congruence|]. rewrite <- L in *. clear N.
    cbn [seg_o fst snd s_type s_index s_mods] in H. destruct (nth_elem l i) as [e|] eqn:P.
    2:{ injection H as <-. apply nth_no_place in P. now constructor. }
    apply nth_place in P. destruct more as [|[nx ms'] more]; cbn [map] in H.
    - injection H as <-. eapply numbered_here; [exact P|apply element_is|]. reflexivity.
    - pose proof (fun k => REC k (e_content e) _ r F) as R.
      destruct nx; cbn [map seg_o fst snd s_type s_value s_mods] in H, R; try (eapply numbered_deeper; [exact P|discriminate|apply (R _ H)]).
      destruct more as [|y more]; cbn [map] in H.
      + eapply numbered_attr with (o := attr_lookup E cs key (lower_if cs n) e); [exact P|now apply has_attr_lookup| |];
          destruct (attr_lookup E cs key (lower_if cs n) e); injection H as <-; intros Q; try congruence; try reflexivity.
      + injection H as <-. replace (match attr_lookup E cs key (lower_if cs n) e with Some v => r_attribute v | None => r_null end) with (entry_or_null (attr_lookup E cs key (lower_if cs n) e))
          by (destruct (attr_lookup E cs key (lower_if cs n) e); reflexivity). eapply numbered_attr_more; [exact P|now apply has_attr_lookup].
  Qed.
  Lemma root_opt : forall key i ms l more r, cs = true -> fine more -> l <> [] -> root_array_opts E cs rec key l (seg_o cs (GNth i, ms)) (map (seg_o cs) more) = Ok r ->
    root_numbered B i l more r.
  Proof.
    intros key i ms l more r CS F N H. unfold root_array_opts in H. destruct l as [|e0 l0] eqn:L; [congruence|]. rewrite <- L in *. clear N.
    cbn [seg_o fst snd s_type s_index s_mods] in H. destruct (nth_elem l i) as [e|] eqn:P.
    2:{ injection H as <-. apply nth_no_place in P. now constructor. }
    apply nth_place in P. destruct more as [|[nx ms'] more]; cbn [map] in H.
    - injection H as <-. eapply root_here; [exact P|apply element_is].
    - pose proof (fun k => REC k (e_content e) _ r F) as R.
      destruct nx; cbn [map seg_o fst snd s_type s_value s_mods] in H, R; try (eapply root_deeper; [exact P|left; exact Logic.I|apply (R _ H)]).
      + rewrite CS in H. cbn [lower_if] in H. injection H as <-. replace (match map_get n (e_attrs e) with Some v => r_attribute v | None => r_null end) with (entry_or_null (map_get n (e_attrs e)))
          by (destruct (map_get n (e_attrs e)); reflexivity). eapply root_attr; [exact P|apply attr_exactly_get].
      + injection H as <-. eapply root_text; [exact P|apply text_is].
      + eapply root_deeper; [exact P|right; eauto|apply (R _ H)].
  Qed.
  Lemma ways_opt : forall key sg nx ms' more l r, fine ((nx, ms') :: more) -> match nx with GName _ | GAny | GDeep => True | _ => False end ->
    first_loop_opts E cs rec key l sg (map (seg_o cs) ((nx, ms') :: more)) = Ok r -> first_way B ((nx, ms') :: more) l r.
  Proof.
    intros key sg nx ms' more l r F W. induction l as [|e l IH]; intros H; cbn [first_loop_opts] in H; [injection H as <-; constructor|].
    assert (Q : (let* r := rec (child_key site_query e key) false (e_content e) (map (seg_o cs) ((nx, ms') :: more)) in
                if is_null r then first_loop_opts E cs rec key l sg (map (seg_o cs) ((nx, ms') :: more)) else Ok r) = Ok r).
    { destruct nx; try contradiction; exact H. }
    clear H. destruct (rec (child_key site_query e key) false (e_content e) (map (seg_o cs) ((nx, ms') :: more))) as [r0| |] eqn:R; cbn [bind] in Q; try discriminate.
    apply REC in R; [|exact F]. destruct (is_null r0) eqn:Z.
    - apply null_type in Z. eapply way_next; eauto.
    - injection Q as <-. apply way_found; auto. intros C. apply null_type in C. congruence.
  Qed.

  Lemma bears_opt : forall n ms x, (fun e => seg_matches_opts cs (seg_o cs (GName n, ms)) (e_name e)) x = true <-> bears (Under cs) n x.
  Proof. intros n ms x. exact (target_is (GName n) ms x). Qed.
  Lemma keyed_filter : forall f n l, Forall keyed l -> Forall keyed (firstn n (filter f l)).
  Proof.
    intros f n l H. apply Forall_forall. intros x I.
    assert (J : In x (filter f l)) by (rewrite <- (firstn_skipn n); apply in_or_app; auto).
    apply filter_In in J as [J _]. exact (proj1 (Forall_forall _ _) H x J).
  Qed.
  Lemma keyed_sifted : forall J n l l', sifted J n l l' -> Forall keyed l -> Forall keyed l'.
  Proof. induction 1; intros K; auto; inversion K; subst; auto. Qed.

  Lemma element_opt : forall key top s es n ms rest r, sight s es -> Forall keyed es -> fine rest ->
    (top && cs = true -> forall st ms' more, rest = (st, ms') :: more -> ~ special st) ->
    exec_element_opts E cs plain rec key es (seg_o cs (GName n, ms)) (map (seg_o cs) rest) = Ok r ->
    answer sight pf mods (Under cs) B T top s ((GName n, ms) :: rest) r.
  Proof.
    intros key top s es n ms rest r S K F TP H. unfold exec_element_opts in H.
    pose proof (only_filter _ _ _ es (bears_opt n ms)) as O.
    pose proof (only_none _ _ _ es (bears_opt n ms)) as NO.
    pose proof (keyed_filter (fun e => seg_matches_opts cs (seg_o cs (GName n, ms)) (e_name e)) MaxWildcardResults es K) as KC.
    set (m := filter (fun e => seg_matches_opts cs (seg_o cs (GName n, ms)) (e_name e)) es) in *.
    assert (L1000 : (List.length (firstn MaxWildcardResults m) <= 1000)%nat) by (apply firstn_le_length).
    assert (CE : firstn MaxWildcardResults m = [] -> m = []) by (apply firstn_nil; unfold MaxWildcardResults; lia).
    change (firstn MaxWildcardResults m) with (firstn 1000 m) in *.
    destruct rest as [|[nx ms'] more].
    - cbn [map] in H. destruct m as [|e l]; cbn [first_loop_opts] in H; injection H as <-.
      + eapply answer_missing; [exact S|now apply NO|auto].
      + eapply answer_element; [exact S|exact O|apply element_is|]. reflexivity.
    - assert (NT : special nx -> top && strict (Under cs) = false).
      { intros Sp. cbn [strict]. destruct (top && cs) eqn:TC; auto. exfalso. eapply TP; [reflexivity|reflexivity|exact Sp]. }
      assert (FE : m = [] -> forall q, first_loop_opts E cs rec key m (seg_o cs (GName n, ms)) q = Ok r -> r = null).
      { intros M q Q. rewrite M in Q. cbn in Q. injection Q as <-. reflexivity. }
      pose proof (ways_opt key (seg_o cs (GName n, ms)) nx ms' more m r F) as W.
      pose proof (fun p op v => sifted_capped E plain T TEST key p op v (firstn 1000 m)) as SC.
      cbn [map] in H. 
      destruct nx; cbn [map seg_o fst snd s_type s_value s_mods s_filter] in H, W, FE; try (eapply answer_way; [exact S|exact O|exact Logic.I|]; apply W; [exact Logic.I|exact H]).
      + (* index *)
        eapply answer_nth; [now apply NT|exact S|exact O|]. apply fine_tail in F.
        destruct (firstn 1000 m) as [|e l] eqn:L.
        * cbn [array_op_opts] in H. injection H as <-. constructor. unfold no_place. cbn [List.length]. lia.
        * eapply numbered_opt; eauto. discriminate.
      + (* attribute *)
        destruct m as [|e l].
        * rewrite (FE eq_refl _ H). eapply answer_missing; [exact S|now apply NO|]. right. eexists _, _, _. split; [reflexivity|]. split; [exact (fun x => x)|discriminate].
        * eapply answer_leaf; [exact S|exact O|]. cbn [first_loop_opts s_type s_value s_mods] in H. destruct more as [|y more]; cbn [map] in H.
          -- eapply leaf_attr with (o := attr_lookup E cs key (lower_if cs n0) e); [now apply has_attr_lookup| |]; destruct (attr_lookup E cs key (lower_if cs n0) e); injection H as <-;
               intros Q; try congruence; try reflexivity.
          -- destruct (attr_lookup E cs key (lower_if cs n0) e); injection H as <-; constructor.
      + (* text *)
        destruct m as [|e l].
        * rewrite (FE eq_refl _ H). eapply answer_missing; [exact S|now apply NO|]. right. eexists _, _, _. split; [reflexivity|]. split; [exact (fun x => x)|discriminate].
        * eapply answer_leaf; [exact S|exact O|]. cbn [first_loop_opts s_type s_value s_mods] in H. injection H as <-.
          eapply leaf_text; [apply text_is|]. reflexivity.
      + (* count *)
        eapply answer_count; [now apply NT|exact S|exact O| |]; intros Q.
        * rewrite Q in H. cbn [firstn] in H. injection H as <-. reflexivity.
        * destruct (firstn 1000 m) as [|e l] eqn:L; [exfalso; auto|]. cbn [array_op_opts s_type s_mods] in H. injection H as <-. cbn. now rewrite <- count_is.
      + (* condition *)
        destruct (filter_elems E plain key (Some (mkFilt path op value)) (firstn 1000 m)) as [l'| |] eqn:X; cbn [bind] in H; try discriminate.
        apply SC with (n := 1000%nat) in X; [|exact L1000]. eapply answer_where; [exact S|exact O|exact X|].
        eapply (routed_opt key l' all path op value); eauto; [eapply keyed_sifted; eauto|exact (fine_tail _ _ F)].
      + (* field *)
        eapply answer_field; [now apply NT|exact S|exact O|]. eapply fields_opt; eauto. exact (fine_head _ _ _ F).
  Qed.

  Lemma exec_opt : forall key top s l r, fine l -> exec_body_opts E cs plain rec key top s (map (seg_o cs) l) = Ok r -> answer sight pf mods (Under cs) B T top s l r.
  Proof.
    intros key top s l r F H. unfold exec_body_opts in H. destruct l as [|[st ms] rest]; cbn [map] in H; [injection H as <-; constructor|].
    destruct (scan_res E key s) as [es| |] eqn:S; cbn [bind] in H; try discriminate.
    pose proof (keyed_scan E Eperm _ _ _ S) as K. apply Hs in S. pose proof (fine_tail _ _ F) as F'.
    pose proof (element_opt key top s es) as EP.
    destruct st; cbn [seg_o fst snd s_type s_value s_mods s_filter s_wild] in H; try (injection H as <-; constructor; exact Logic.I).
    - (* name *)
      specialize (EP n ms rest r S K F'). cbn [seg_o fst snd] in EP.
      destruct (top && cs) eqn:TC; [|apply EP; [discriminate|exact H]]. apply andb_prop in TC as [-> CS].
      assert (FX : forall x, (fun e => bytes_eqb (e_name e) (lower_if cs n)) x = true <-> exactly n x) by (intros x; rewrite CS; apply bytes_eqb_eq).
      pose proof (only_filter _ _ _ es FX) as O. pose proof (only_none _ _ _ es FX) as NO.
      destruct rest as [|[nx ms'] more]; [apply EP; [discriminate|exact H]|].
      set (m := filter (fun e => bytes_eqb (e_name e) (lower_if cs n)) es) in *.
      assert (CE : firstn MaxWildcardResults m = [] -> m = []) by (apply firstn_nil; unfold MaxWildcardResults; lia).
      assert (CF : m = [] -> firstn MaxWildcardResults m = []) by (intros ->; apply List.firstn_nil).
      change (firstn MaxWildcardResults m) with (firstn 1000 m) in *.
      cbn [map] in H, EP. destruct nx; cbn [seg_o fst snd s_type] in H, EP;
        try (apply EP; [intros _ st0 ms0 more0 Q; injection Q as <- <- <-; exact (fun x => x)|exact H]).
      + destruct (firstn 1000 m) as [|e l] eqn:L.
        * cbn [root_array_opts] in H. injection H as <-. eapply answer_roots_none; [exact CS|exact Logic.I|exact S|now apply NO, CE].
        * eapply answer_roots_nth; [exact CS|exact S|exact O|intros Q; apply CF in Q; discriminate|]. rewrite L.
          eapply (root_opt key i ms'); eauto; [exact (fine_tail _ _ F')|discriminate].
      + destruct (firstn 1000 m) as [|e l] eqn:L.
        * cbn [root_array_opts] in H. injection H as <-. eapply answer_roots_none; [exact CS|exact Logic.I|exact S|now apply NO, CE].
        * cbn [root_array_opts s_type] in H. injection H as <-. rewrite count_is. change (Datatypes.S (len l)) with (len (e :: l)). rewrite <- L. eapply answer_roots_count; [exact CS|exact S|exact O|intros Q; apply CF in Q; discriminate].
      + destruct (firstn 1000 m) as [|e l] eqn:L.
        * cbn [root_array_opts] in H. injection H as <-. eapply answer_roots_none; [exact CS|exact Logic.I|exact S|now apply NO, CE].
        * cbn [root_array_opts s_type] in H. eapply answer_roots_field; [exact CS|exact S|exact O|intros Q; apply CF in Q; discriminate|]. rewrite L.
          eapply fields_opt; eauto. exact (fine_head _ _ _ F').
    - (* any *)
      destruct es as [|e0 es0]; [cbn in H; injection H as <-; now apply answer_any_none|].
      set (es := e0 :: es0) in *. change MaxWildcardResults with 1000%nat in H.
      assert (N : firstn 1000 es <> []) by discriminate. assert (KC : Forall keyed (firstn 1000 es)).
      { apply Forall_forall. intros x I. apply (proj1 (Forall_forall _ _) K). rewrite <- (firstn_skipn 1000). apply in_or_app; auto. }
      eapply answer_any; [exact S|discriminate|]. destruct (firstn 1000 es) as [|e l]; [congruence|].
      eapply spread_opt; eauto.
    - (* deep *)
      destruct rest as [|[nx ms'] rest]; cbn [map handle_recursive_opts] in H; [injection H as <-; apply answer_deep_end|].
      destruct (rsearch_opts E cs rec (Datatypes.S MaxNestingDepth) key (seg_o cs (nx, ms')) (map (seg_o cs) rest) (0%N, []) s) as [z| |] eqn:R; cbn [bind] in H; try discriminate.
      apply search_opt in R; [|exact (fine_tail _ _ F')]. 
      replace r with (match snd z with [] => null | l => bundle l end); [eapply answer_deep; exact R|]. destruct (snd z); injection H as <-; reflexivity.
    - (* condition *)
      change MaxWildcardResults with 1000%nat in H.
      destruct (filter_elems_upto 1000 E plain key (Some (mkFilt path op value)) es) as [l'| |] eqn:X; cbn [bind] in H; try discriminate.
      apply (sifted_upto E plain T TEST) in X; [|lia]. eapply answer_sift; [exact S|exact X|].
      eapply (routed_opt key l' all path op value); eauto. eapply keyed_sifted; eauto.
  Qed.
End Opts.

Lemma answers_opts : forall E (sight : bytes -> list elem -> Prop) cs, (forall k m, Permutation m (e_ord E k m)) -> (forall key s l, scan_res E key s = Ok l -> sight s l) ->
  forall f key top s l r, fine l -> exec_opts E cs f key top s (map (seg_o cs) l) = Ok r ->
  answers sight (e_parse_float E) (get_modifier E) f (Under cs) top s l r.
Proof.
  intros E sight cs P Hs. induction f as [|f IH]; intros key top s l r F H; [discriminate|]. cbn [exec_opts] in H. cbn [answers].
  eapply exec_opt with (plain := exec E f) (rec := exec_opts E cs f); eauto. intros k s0 l0 r0 F0 Q. eapply answers_plain; eauto.
Qed.
