(** Queries on canonical text are queries on trees: conditions and continuations. *)
From Coq Require Import List Ascii String NArith ZArith Bool Lia Permutation.
From Verif Require Import GoStr ModelParser ModelPath ModelResult ModelQuery SpecText SpecPath SpecTree SpecQuery SpecValid SpecEdit SpecContent SpecFilter SpecLang
  ProofBase ProofEscape ProofPath ProofScan ProofSyntax ProofFuel ProofFuel2 ProofMono ProofFilter ProofTree ProofTree2 ProofTree3 ProofTree4 ProofTree5 ProofRaw2 ProofLang ProofLang2.
Import ListNotations.

(** ** Conditions *)
Lemma bool_iff : forall (a b : bool), (a = true <-> b = true) -> a = b.
Proof. intros [|] [|] H; auto; destruct H as [H1 H2]; [symmetry; auto|auto]. Qed.
Lemma told_fun : forall a o o', told a o -> told a o' -> o = o'.
Proof. intros a o o' H H'. inversion H; subst; inversion H'; subst; auto; f_equal; eapply decodes_fun; eauto. Qed.
Lemma tpath_not_attr : forall steps fin r, Forall good_tstep steps -> steps <> [] -> tpath steps fin <> "@"%char :: r.
Proof.
  intros steps fin r H NE. destruct steps as [|[n idx] steps]; [easy|]. inversion H as [|? ? [Hn _] _]; subst. cbn [fst] in Hn.
  destruct Hn as [P _]. pose proof (pn_nonempty _ P) as N1. pose proof (pn_not_attr _ P) as N2.
  assert (Q : exists x t, quote_name n = x :: t /\ x <> "@"%char).
  { destruct n as [|c n]; [easy|]. unfold quote_name. cbn [flat_map]. unfold quote_byte at 1.
    destruct (Ascii.eqb c "." || Ascii.eqb c backslash) eqn:B.
    - exists backslash. eexists. split; [reflexivity|discriminate].
    - exists c. eexists. split; [reflexivity|]. intros ->. now apply (N2 n). }
  destruct Q as (x & t & Q & Hx). unfold tpath, steps_text, tpath_steps.
  match goal with |- path_text ?L <> _ => assert (K : exists l, L = n :: l) end.
  { destruct idx; cbn [flat_map tstep_steps app map fst snd step_text mods_text]; rewrite app_nil_r; eauto. }
  destruct K as [l ->]. destruct l; cbn [path_text]; rewrite Q; cbn [app]; congruence.
Qed.
Lemma len_cost : forall segs, len segs <= cost segs.
Proof. induction segs as [|sg segs IH]; cbn [List.length cost]; [lia|]. pose proof (seg_cost_pos sg). lia. Qed.
Definition hears (a : answer) (r : result) : option bytes := if r_exists r then Some (r_string r) else None.
Lemma denotes_told : forall a r, denotes a r -> good_answer a -> (forall l, a <> Elements l) ->
  told a (if r_exists r then Some (r_string r) else None).
Proof.
  intros a r H G NE. pose proof (denotes_describes _ _ H G) as D.
  destruct a as [|kids|v|kids|n|l]; cbn [denotes describes] in *.
  - subst. constructor.
  - destruct H as [kids' [H ->]]. destruct D as [_ [D _]]. cbn [r_exists is_null r_element r_type negb]. now constructor.
  - subst. cbn. constructor.
  - destruct H as [kids' [H ->]]. destruct D as [_ D]. now constructor.
  - subst. cbn [r_exists is_null r_count r_type negb r_string]. rewrite itoa_decimal. constructor.
  - destruct (NE l eq_refl).
Qed.
Lemma final_not_elements : forall fin nd l, final_answer fin nd <> Elements l.
Proof. intros fin nd l. destruct fin; cbn [final_answer]; try discriminate. now destruct (attr_value a (attrs_of nd)). Qed.
Lemma query_not_elements : forall fin steps top F l, fin <> TheChildren -> query top steps fin F <> Elements l.
Proof.
  intros fin. induction steps as [|[n idx] rest IH]; intros top F l NC.
  - destruct fin; cbn [query]; try discriminate. contradiction.
  - rewrite query_cons. cbv zeta.
    assert (AT : forall nd, (if is_last rest fin then final_answer fin nd else query false rest fin (kids_of nd)) <> Elements l).
    { intros nd. destruct (is_last rest fin); auto using final_not_elements. }
    destruct idx as [ds|].
    + destruct (nth_error _ _); auto. discriminate.
    + destruct (is_last rest fin).
      * destruct fin; try (destruct (called (selects n) F); [discriminate|apply final_not_elements]); try contradiction.
        unfold count_answer. now destruct (List.length _).
      * generalize (called (selects n) F). intros L. induction L as [|nd L IHL]; cbn [first_answer]; [discriminate|].
        pose proof (AT nd) as K. destruct (query false rest fin (kids_of nd)); auto; discriminate.
Qed.

(** One way to decide conditions. *)
Definition heard (a : answer) : option bytes :=
  match a with
  | Nothing | Elements _ => None
  | Element kids => Some (unescape_xml (trim_space (all_text kids)))
  | Attribute v => Some v
  | TextAnswer kids => Some (unescape_xml (trim_space (own_text kids)))
  | Count n => Some (decimal (Z.of_nat n))
  end.
Lemma told_heard : forall a, (forall l, a <> Elements l) -> told a (heard a).
Proof. intros [| | | | |l] H; cbn [heard]; try (now constructor; apply unescape_decodes). destruct (H l eq_refl). Qed.
Definition decide_sat (E : env) (c : condition) (nd : node) : bool :=
  let o := match c_about c with
           | OfAttr x => attr_value x (attrs_of nd)
           | OfPath steps fin => heard (query true steps fin (kids_of nd))
           end in
  match c_about c, o with
  | OfPath steps fin, None => match query true steps fin (kids_of nd) with Elements _ => false | _ => filter_decide E (c_op c) false [] (c_lit c) end
  | _, None => filter_decide E (c_op c) false [] (c_lit c)
  | _, Some v => filter_decide E (c_op c) true v (c_lit c)
  end.
Lemma decide_sat_ok : forall E c nd, decide_sat E c nd = true <-> true_of (e_parse_float E) c nd.
Proof.
  intros E c nd. unfold decide_sat, true_of, about. destruct (c_about c) as [x|steps fin].
  - destruct (attr_value x (attrs_of nd)) as [v|]; rewrite filter_decide_spec; (split; [intros H; eexists; split; [reflexivity|exact H]|intros (o & -> & H); exact H]).
  - assert (D : (exists l, query true steps fin (kids_of nd) = Elements l) \/ forall l, query true steps fin (kids_of nd) <> Elements l).
    { destruct (query true steps fin (kids_of nd)); try (right; intros; discriminate). left. eauto. }
    destruct D as [[l D]|D].
    + rewrite D. cbn [heard]. split; [discriminate|]. intros (o & T & _). inversion T.
    + pose proof (told_heard _ D) as T. destruct (heard (query true steps fin (kids_of nd))) as [v|] eqn:Q.
      * rewrite filter_decide_spec. split; [intros H; exists (Some v); auto|]. intros (o & T' & H). now rewrite (told_fun _ _ _ T T').
      * assert (K : match query true steps fin (kids_of nd) with Elements _ => false | _ => filter_decide E (c_op c) false [] (c_lit c) end = filter_decide E (c_op c) false [] (c_lit c)).
        { destruct (query true steps fin (kids_of nd)); auto. destruct (D l eq_refl). }
        rewrite K, filter_decide_spec. split; [intros H; exists None; auto|]. intros (o & T' & H). now rewrite (told_fun _ _ _ T T').
Qed.

Lemma segs_more : forall q rest, rest <> [] -> exists nx more, query_segs rest q = nx :: more /\
  (s_type nx = SElem \/ s_type nx = SWild \/ (s_type nx = SFilter /\ exists c all r, rest = Kid c all :: r)).
Proof.
  intros q rest H. unfold query_segs. destruct rest as [|[n [| |]| |c all|[n|]] r]; [easy|..]; cbn [flat_map qstep_segs app];
    eexists; eexists; (split; [reflexivity|]); cbn [s_type elem_seg any_seg deep_seg step_seg]; auto. right. right. split; auto. eauto.
Qed.
Section Lang.
  Variable E : env.
  Hypothesis Hord : forall k l, Permutation l (e_ord E k l).
  Variable sat : condition -> node -> bool.
  Hypothesis Hsat : forall c nd, good nd -> (sat c nd = true <-> true_of (e_parse_float E) c nd).
  Variable q : qend.

  Lemma eval_ok : forall c n key nd e, good_condition c -> shown nd e -> 2 * len (subject_text (c_about c)) + 2 <= n ->
    eval_filter_opt E (exec E n) key (Some (cond_filt c)) e = Ok (sat c nd).
  Proof.
    intros c n key nd e [[_ [_ HS]] _] Sh Hn. pose proof (Hsat c nd (shown_good _ _ Sh)) as S. unfold cond_filt, true_of, about in *.
    destruct (c_about c) as [x|steps fin]; cbn [subject_text] in *.
    - rewrite eval_attr. f_equal. apply bool_iff. rewrite S, filter_decide_spec. destruct Sh as [Sh _]. rewrite (shows_attr _ _ x Sh).
      split; [intros H; exists (attr_value x (attrs_of nd)); split; [reflexivity|]; now destruct (attr_value x (attrs_of nd))|].
      intros (o & -> & H). now destruct (attr_value x (attrs_of nd)).
    - destruct HS as [HP NC]. pose proof (segs_parse _ _ HP) as P. pose proof (parse_path_cost _ _ P) as [C _].
      assert (NE : steps <> []). { destruct HP as [_ HF _]. destruct fin; cbn [good_final] in HF; try tauto. }
      pose proof (tpath_not_attr steps fin) as NA.
      destruct (exec_query E Hord steps fin (gt_steps _ _ HP) (gt_final _ _ HP) n true (child_key site_filter e key) (e_content e) (kids_of nd)) as [r [R1 R2]].
      { apply shows_reads; auto. apply Sh. } { pose proof (len_cost (segs_of steps fin)). lia. }
      assert (EV : eval_filter_opt E (exec E n) key (Some (mkFilt (tpath steps fin) (c_op c) (c_lit c))) e = Ok (filter_decide E (c_op c) (r_exists r) (r_string r) (c_lit c))).
      { unfold eval_filter_opt, eval_filter. cbn [f_path f_op f_value]. destruct (tpath steps fin) as [|a t] eqn:T.
        - rewrite P. cbn [bind]. now rewrite R1.
        - destruct (Ascii.eqb_spec a "@"); [subst; destruct (NA t (gt_steps _ _ HP) NE eq_refl)|]. rewrite P. cbn [bind]. now rewrite R1. }
      rewrite EV. f_equal. apply bool_iff. rewrite S, filter_decide_spec.
      assert (T : told (query true steps fin (kids_of nd)) (if r_exists r then Some (r_string r) else None)).
      { apply denotes_told; auto. - apply query_good. apply good_kids. eapply shown_good; eauto. - intros l. now apply query_not_elements. }
      split; [eauto|]. intros (o & T' & H). now rewrite (told_fun _ _ _ T T').
  Qed.
  Lemma filter_ok : forall c n key l es, good_condition c -> 2 * len (subject_text (c_about c)) + 2 <= n -> Forall2 shown l es ->
    exists es', filter_elems E (exec E n) key (Some (cond_filt c)) es = Ok es' /\ Forall2 shown (filter (sat c) l) es'.
  Proof.
    intros c n key l es Hc Hn H. induction H as [|nd e l es H1 H2 [es' [K1 K2]]]; [exists []; split; auto; constructor|].
    cbn [filter_elems filter]. rewrite (eval_ok c n key nd e Hc H1 Hn). cbn [bind]. rewrite K1. cbn [bind].
    destruct (sat c nd); eexists; split; try reflexivity; auto.
  Qed.
  Lemma filter_upto_ok : forall c n key l es, good_condition c -> 2 * len (subject_text (c_about c)) + 2 <= n -> Forall2 shown l es ->
    forall m, exists es', filter_elems_upto (S m) E (exec E n) key (Some (cond_filt c)) es = Ok es' /\ Forall2 shown (firstn (S m) (filter (sat c) l)) es'.
  Proof.
    intros c n key l es Hc Hn H. induction H as [|nd e l es H1 H2 IH]; intros m; [exists []; split; auto; constructor|].
    cbn [filter_elems_upto filter]. rewrite (eval_ok c n key nd e Hc H1 Hn). cbn [bind]. destruct (sat c nd).
    - destruct m as [|m].
      + eexists. split; [reflexivity|]. cbn [firstn]. auto.
      + destruct (IH m) as [es' [K1 K2]]. rewrite K1. cbn [bind]. eexists. split; [reflexivity|]. cbn [firstn] in *. auto.
    - apply IH.
  Qed.

  (** ** Continuations *)
  Variable rec : qrec.
  Variable rest : list qstep.
  Hypothesis Hrec : rest <> [] -> forall nd e k, shown nd e ->
    exists r, rec k false (e_content e) (query_segs rest q) = Ok r /\ says r (ask sat q false rest (kids_of nd)).
  Hypothesis Hcount : rest = [] -> q <> ECount.
  Hypothesis Hfield : forall f, q = EField f -> good_field f.
  Definition go (nd : node) : reply := match rest with [] => leaf q nd | _ => ask sat q false rest (kids_of nd) end.
  Definition rsegs : list seg := query_segs rest q.
  Lemma go_more : forall nd, rest <> [] -> go nd = ask sat q false rest (kids_of nd).
  Proof. intros nd H. unfold go. now destruct rest. Qed.
  Lemma rsegs_more : rest <> [] -> exists nx more, rsegs = nx :: more /\
    (s_type nx = SElem \/ s_type nx = SWild \/ (s_type nx = SFilter /\ exists c all r, rest = Kid c all :: r)).
  Proof. apply segs_more. Qed.
  Lemma process_first_ok : forall key sg nd e, s_mods sg = [] -> shown nd e ->
    exists r, process_first E rec key e sg rsegs = Ok r /\ says r (go nd).
  Proof.
    intros key sg nd e Hm Sh. destruct rest as [|s0 r0] eqn:ER; [|rewrite <- ER in *].
    - unfold rsegs, go, query_segs. rewrite ER in *. cbn [flat_map app].
      destruct q as [|x| | |f] eqn:EQ; cbn [qend_segs process_first step_seg s_type s_value s_mods leaf field_seg].
      + rewrite Hm. eexists. split; [reflexivity|]. rewrite no_mods. now apply element_is.
      + pose proof (attribute_is x nd e Sh) as A. unfold attribute in *. destruct (map_get x (e_attrs e)), (attr_value x (attrs_of nd)); inversion A; subst; eexists; (split; [reflexivity|]); auto.
        reflexivity.
      + eexists. split; [reflexivity|]. now apply text_is.
      + now destruct Hcount.
      + apply fields_ok; auto.
    - assert (NE : rest <> []) by (rewrite ER; discriminate). rewrite go_more by auto. destruct (rsegs_more NE) as (nx & more & E1 & K).
      destruct (Hrec NE nd e (child_key site_query e key) Sh) as [r [R1 R2]]. exists r. split; auto. fold rsegs in R1.
      rewrite E1 in *. cbn [process_first]. destruct K as [->|[->|[-> _]]]; auto.
  Qed.
  Lemma query_each_ok : forall key l es, rest <> [] -> Forall2 shown l es ->
    exists rs, query_each rec key es rsegs = Ok rs /\ Forall2 item_is (flat_map (fun nd => items (go nd)) l) rs.
  Proof.
    intros key l es NE H. induction H as [|nd e l es H1 H2 [rs [R1 R2]]]; [exists []; split; auto; constructor|].
    cbn [query_each flat_map]. destruct (Hrec NE nd e (child_key site_query e key) H1) as [r [K1 K2]]. fold rsegs in K1. rewrite K1. cbn [bind].
    rewrite R1. cbn [bind]. eexists. split; [reflexivity|]. apply Forall2_app; auto. rewrite go_more by auto. now apply says_flat.
  Qed.
  Definition chosen (all : bool) (l : list node) : reply :=
    match l with
    | [] => NoReply
    | nd :: _ =>
        if all then
          match rest, q with
          | [], EElement => Many (map element l)
          | [], EField f => fields f l
          | _, _ => pack (flat_map (fun nd => items (go nd)) l)
          end
        else go nd
    end.
  Lemma finish_ok : forall (mods : list bytes) l rs, mods = [] -> Forall2 item_is l rs ->
    exists r, match rs with [] => Ok r_null | _ :: _ => Ok (apply_modifiers E (package rs) mods) end = Ok r /\ says r (pack l).
  Proof. intros mods l rs -> H. apply says_pack in H. destruct rs; eexists; (split; [reflexivity|]); auto. Qed.
  Lemma process_all_ok : forall key sg l es, s_mods sg = [] -> Forall2 shown l es -> l <> [] ->
    exists r, process_all E rec key es sg rsegs = Ok r /\ says r (chosen true l).
  Proof.
    intros key sg l es Hm H NL. unfold chosen. destruct l as [|nd0 l0] eqn:EL; [easy|]. rewrite <- EL in *. clear EL NL.
    destruct rest as [|s0 r0] eqn:ER; [|rewrite <- ER in *].
    - unfold rsegs, go, query_segs. rewrite ER in *. cbn [flat_map app].
      destruct q as [|x| | |f] eqn:EQ; cbn [qend_segs process_all step_seg s_type s_value s_mods leaf field_seg].
      + rewrite Hm. eexists. split; [reflexivity|]. rewrite no_mods. cbn [says r_array r_type r_results]. split; auto.
        eapply f2_map; [exact H|]. intros; now apply element_is.
      + apply finish_ok; auto. rewrite (flat_map_ext2 _ _ _ (attribute x)) by (intros y; unfold attribute; now destruct (attr_value x (attrs_of y))).
        eapply f2_flat_map; [exact H|]. intros; now apply attribute_is.
      + apply finish_ok; auto. cbn [items]. rewrite flat_map_one. eapply f2_map; [exact H|]. intros; now apply text_is.
      + now destruct Hcount.
      + apply fields_ok; auto.
    - assert (NE : rest <> []) by (rewrite ER; discriminate). destruct (rsegs_more NE) as (nx & more & E1 & K).
      destruct (query_each_ok key l es NE H) as [rs [R1 R2]].
      assert (MO : s_mods nx = []). { unfold rsegs, query_segs in E1. rewrite ER in E1. clear - E1. destruct s0 as [n [| |]| |c all|[n|]]; cbn [flat_map qstep_segs app] in E1; injection E1; intros; subst; reflexivity. }
      assert (EX : process_all E rec key es sg rsegs = match rs with [] => Ok r_null | _ :: _ => Ok (apply_modifiers E (package rs) (s_mods nx)) end).
      { rewrite E1 in *. cbn [process_all]. rewrite R1. destruct K as [->|[->|[-> _]]]; reflexivity. }
      rewrite EX. replace (match rest with [] => match q with EElement => Many (map element l) | EField f => fields f l | _ => pack (flat_map (fun nd : node => items (go nd)) l) end | _ :: _ => pack (flat_map (fun nd : node => items (go nd)) l) end)
        with (pack (flat_map (fun nd : node => items (go nd)) l)) by (rewrite ER; reflexivity).
      now apply finish_ok.
  Qed.
  Lemma route_ok : forall key sg l es, s_mods sg = [] -> Forall2 shown l es ->
    exists r, route_matches E rec key es sg rsegs = Ok r /\ says r (chosen (s_all sg) l).
  Proof.
    intros key sg l es Hm H. unfold route_matches. inversion H as [|nd e l' es' H1 H2]; subst.
    - exists r_null. split; reflexivity.
    - destruct (s_all sg).
      + apply process_all_ok; auto. discriminate.
      + cbn [chosen]. now apply process_first_ok.
  Qed.
  Lemma first_loop_ok : forall key sg l es, rest <> [] -> (forall c all r, rest <> Kid c all :: r) -> Forall2 shown l es ->
    exists r, first_loop E rec key es sg rsegs = Ok r /\ says r (first_reply go l).
  Proof.
    intros key sg l es NE NK H. destruct (rsegs_more NE) as (nx & more & E1 & K).
    induction H as [|nd e l es H1 H2 IH]; [exists r_null; split; reflexivity|].
    destruct (Hrec NE nd e (child_key site_query e key) H1) as [r [R1 R2]]. fold rsegs in R1.
    assert (X : first_loop E rec key (e :: es) sg rsegs = (if is_null r then first_loop E rec key es sg rsegs else Ok r)).
    { rewrite E1 in *. cbn [first_loop]. rewrite R1. cbn [bind]. destruct K as [->|[->|[_ (c & a & t & Q)]]]; auto. now destruct (NK c a t). }
    rewrite X, (says_null _ _ R2). cbn [first_reply]. rewrite <- go_more in * by auto. destruct (go nd); eauto.
  Qed.
  Lemma wild_each_ok : forall key l es, rest <> [] -> Forall2 shown l es ->
    exists rs, wild_each rec key es rsegs = Ok (rs, existsb is_empty_list (map go l)) /\ Forall2 item_is (flat_map items (map go l)) rs.
  Proof.
    intros key l es NE H. induction H as [|nd e l es H1 H2 [rs [R1 R2]]]; [exists []; split; auto; constructor|].
    cbn [wild_each flat_map map existsb]. destruct (Hrec NE nd e (child_key site_query e key) H1) as [r [K1 K2]]. fold rsegs in K1. rewrite K1. cbn [bind].
    rewrite R1. cbn [bind fst snd]. rewrite go_more by auto. rewrite (says_empty _ _ K2). eexists. split; [reflexivity|]. apply Forall2_app; auto. now apply says_flat.
  Qed.
  Definition wild_reply (l : list node) : reply :=
    match flat_map items (map go l) with
    | [] => if existsb is_empty_list (map go l) then Many [] else NoReply
    | l => pack l
    end.
  Lemma wild_reply_no : forall l, existsb is_empty_list (map go l) = false -> wild_reply l = pack (flat_map items (map go l)).
  Proof. intros l H. unfold wild_reply. rewrite H. now destruct (flat_map items (map go l)). Qed.
  Lemma wildcard_ok : forall key l es, Forall2 shown l es -> (rest = [] -> forall f, q <> EField f) -> l <> [] ->
    exists r, handle_wildcard E rec key es rsegs = Ok r /\ says r (wild_reply l).
  Proof.
    intros key l es H NF NL. destruct rest as [|s0 r0] eqn:ER; [|rewrite <- ER in *].
    - assert (EM : existsb is_empty_list (map go l) = false).
      { clear - ER Hcount NF. unfold go. rewrite ER in *. induction l as [|nd l IH]; auto. cbn [map existsb]. rewrite IH.
        destruct q; cbn [leaf is_empty_list]; auto. - unfold attribute. now destruct (attr_value x (attrs_of nd)). - now destruct (NF eq_refl f). }
      rewrite wild_reply_no by auto. unfold rsegs, query_segs. rewrite ER in *. cbn [flat_map app].
      destruct q as [|x| | |f] eqn:EQ; cbn [qend_segs handle_wildcard step_seg s_type s_value s_mods leaf field_seg].
      + exists (package (map (fun e => r_element (e_content e)) es)). split; auto.
        assert (K : Forall2 item_is (flat_map items (map go l)) (map (fun e => r_element (e_content e)) es)).
        { rewrite flat_map_concat_map, map_map, <- flat_map_concat_map. unfold go. rewrite ER, EQ. cbn [leaf items]. rewrite flat_map_one.
          eapply f2_map; [exact H|]. intros; now apply element_is. }
        apply says_pack in K. destruct H; [easy|]. exact K.
      + assert (K : Forall2 item_is (flat_map items (map go l)) (flat_map (fun e => match map_get x (e_attrs e) with Some v => [r_attribute v] | None => [] end) es)).
        { rewrite flat_map_concat_map, map_map, <- flat_map_concat_map. unfold go. rewrite ER, EQ. cbn [leaf].
          rewrite (flat_map_ext2 _ _ _ (attribute x)) by (intros y; unfold attribute; now destruct (attr_value x (attrs_of y))).
          eapply f2_flat_map; [exact H|]. intros; now apply attribute_is. }
        destruct (finish_ok [] _ _ eq_refl K) as [r [R1 R2]]. exists r. split; auto.
      + assert (K : Forall2 item_is (flat_map items (map go l)) (map (fun e => r_text (e_content e)) es)).
        { rewrite flat_map_concat_map, map_map, <- flat_map_concat_map. unfold go. rewrite ER, EQ. cbn [leaf items]. rewrite flat_map_one.
          eapply f2_map; [exact H|]. intros; now apply text_is. }
        destruct (finish_ok [] _ _ eq_refl K) as [r [R1 R2]]. exists r. split; auto.
      + now destruct Hcount.
      + now destruct (NF eq_refl f).
    - assert (NE : rest <> []) by (rewrite ER; discriminate). destruct (rsegs_more NE) as (nx & more & E1 & K).
      destruct (wild_each_ok key l es NE H) as [rs [R1 R2]].
      assert (MO : s_mods nx = []). { unfold rsegs, query_segs in E1. rewrite ER in E1. clear - E1. destruct s0 as [n [| |]| |c all|[n|]]; cbn [flat_map qstep_segs app] in E1; injection E1; intros; subst; reflexivity. }
      assert (EX : handle_wildcard E rec key es rsegs = match rs with [] => Ok (if existsb is_empty_list (map go l) then r_array [] else r_null) | _ :: _ => Ok (package rs) end).
      { rewrite E1 in *. cbn [handle_wildcard]. rewrite R1. cbn [bind fst snd]. rewrite MO. destruct K as [->|[->|[-> _]]]; reflexivity. }
      rewrite EX. unfold wild_reply. pose proof (says_pack _ _ R2) as SP. destruct R2 as [|i r li rs Q1 Q2].
      + destruct (existsb is_empty_list (map go l)); eexists; (split; [reflexivity|]); cbn; auto.
      + eexists. split; [reflexivity|]. exact SP.
  Qed.
  Lemma search_add_ok : forall key nd e, shown nd e -> exists add, search_add E rec key e rsegs = Ok add /\ Forall2 item_is (items (go nd)) add.
  Proof.
    intros key nd e Sh. destruct rest as [|s0 r0] eqn:ER; [|rewrite <- ER in *].
    - unfold rsegs, go, query_segs. rewrite ER in *. cbn [flat_map app].
      destruct q as [|x| | |f] eqn:EQ; cbn [qend_segs search_add step_seg s_type s_value s_mods leaf field_seg].
      + eexists. split; [reflexivity|]. constructor; auto. now apply element_is.
      + pose proof (attribute_is x nd e Sh) as A. eexists. split; [reflexivity|]. unfold attribute in *. destruct (map_get x (e_attrs e)), (attr_value x (attrs_of nd)); auto.
      + eexists. split; [reflexivity|]. constructor; auto. now apply text_is.
      + now destruct Hcount.
      + destruct (fields_ok E Hord key f [nd] [e]) as [r [R1 R2]]; auto. fold (field_seg f). rewrite R1. cbn [bind]. eexists. split; [reflexivity|].
        unfold fields in *. destruct R2 as [Q1 Q2]. now rewrite Q1.
    - assert (NE : rest <> []) by (rewrite ER; discriminate). rewrite go_more by auto. destruct (rsegs_more NE) as (nx & more & E1 & K).
      destruct (Hrec NE nd e (child_key site_query e key) Sh) as [r [R1 R2]]. exists (flatten1 r). split; [|now apply says_flat]. fold rsegs in R1.
      rewrite E1 in *. cbn [search_add]. rewrite R1. destruct K as [->|[->|[-> _]]]; auto.
  Qed.
End Lang.
