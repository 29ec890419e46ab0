(** The whole language on documents with markup inside comments. *)
From Coq Require Import List Ascii String NArith ZArith Bool Lia Permutation.
From Verif Require Import GoStr ModelParser ModelPath ModelResult ModelQuery SpecText SpecPath SpecTree SpecQuery SpecValid SpecEdit SpecContent SpecFilter SpecLang SpecHidden
  ProofBase ProofEscape ProofPath ProofScan ProofSyntax ProofFuel ProofFuel2 ProofMono ProofFilter ProofTree ProofTree2 ProofTree3 ProofTree4 ProofTree5 ProofRaw2 ProofLang ProofLang2 ProofLang3 ProofLang4
  ProofHidden ProofHidden2.
Import ListNotations.

(** ** Queries without conditions on text *)
Definition good_condition (c : condition) : Prop := SpecLang.good_condition c /\ structural c.
Definition good_which (w : which) : Prop :=
  match w with Leading => True | Number ds => ds <> [] /\ Forall digit ds | Where c _ => good_condition c end.
Definition good_qstep (s : qstep) : Prop :=
  match s with
  | Child n w => step_name n /\ good_which w
  | AnyKid | Descendant None => True
  | Kid c _ => good_condition c
  | Descendant (Some n) => step_name n
  end.
Definition good_field (f : field) : Prop :=
  match f with FieldName n => field_name n | FieldAttr x => field_name x | FieldText => False end.
Definition good_qend (steps : list qstep) (e : qend) : Prop :=
  match e with
  | EElement => True
  | EAttr x => ~ In "|"%char x
  | EText => forall a n ds, steps <> a ++ [Child n (Number ds)]
  | ECount => exists a n, steps = a ++ [Child n Leading]
  | EField f => good_field f /\ forall a, steps <> a ++ [AnyKid] /\ forall n ds, steps <> a ++ [Child n (Number ds)]
  end.
Definition simple (a : answer) : Prop := match a with SpecQuery.Nothing | Attribute _ | Count _ => True | _ => False end.
Lemma query_simple : forall fin, fin = TheCount \/ (exists x, fin = TheAttribute x) -> forall steps top F, simple (query top steps fin F).
Proof.
  intros fin HF.
  assert (FA : forall nd, simple (final_answer fin nd)).
  { intros nd. destruct HF as [->|[x ->]]; cbn [final_answer]; [exact I|]. now destruct (attr_value x (attrs_of nd)). }
  induction steps as [|[n idx] rest IH]; intros top F.
  - destruct HF as [->|[x ->]]; exact I.
  - rewrite query_cons. cbv zeta.
    assert (AT : forall nd, simple (if is_last rest fin then final_answer fin nd else query false rest fin (kids_of nd))).
    { intros nd. destruct (is_last rest fin); auto. }
    destruct idx as [ds|].
    + destruct (nth_error _ _); auto. exact I.
    + destruct (is_last rest fin).
      * destruct fin; try (destruct (called (selects n) F); [exact I|apply FA]).
        unfold count_answer. now destruct (List.length _).
      * generalize (called (selects n) F). intros L. induction L as [|nd L IHL]; cbn [first_answer]; [exact I|].
        pose proof (AT nd) as K. destruct (query false rest fin (kids_of nd)); auto.
Qed.

(** ** Results *)
Lemma hint_type : forall i r, hint i r -> r_type r <> RNull /\ r_type r <> RArray.
Proof. intros [k|v|k|n] r H; cbn [hint item_is describes] in H; [destruct H as [H _]..|destruct H as [[H _] _]]; rewrite H; split; discriminate. Qed.
Lemma hints_null : forall r a, hints r a -> is_null r = match a with NoReply => true | _ => false end.
Proof.
  intros r [|i|l] H; cbn [hints] in H; unfold is_null.
  - now rewrite H.
  - destruct (hint_type _ _ H) as [K _]. destruct (r_type r); auto. contradiction.
  - destruct H as [H _]. now rewrite H.
Qed.
Lemma hints_flat : forall r a, hints r a -> Forall2 hint (items a) (flatten1 r).
Proof.
  intros r [|i|l] H; cbn [hints items] in *; unfold flatten1.
  - rewrite H. constructor.
  - destruct (hint_type _ _ H) as [K1 K2]. destruct (r_type r); try contradiction; constructor; auto.
  - destruct H as [H1 H2]. now rewrite H1.
Qed.
Lemma hints_empty : forall r a, hints r a -> match r_type r, r_results r with RArray, [] => true | _, _ => false end = is_empty_list a.
Proof.
  intros r [|i|l] H; cbn [hints] in *.
  - now rewrite H.
  - destruct (hint_type _ _ H) as [K1 K2]. destruct (r_type r); auto; contradiction.
  - destruct H as [H1 H2]. rewrite H1. now destruct H2.
Qed.
Lemma hints_pack : forall l rs, Forall2 hint l rs ->
  hints (match rs with [] => r_null | _ => package rs end) (pack l).
Proof.
  intros l rs H. inversion H as [|i r l' rs' H1 H2]; subst; [reflexivity|].
  inversion H2; subst; cbn [package pack hints r_array r_type r_results]; auto.
Qed.

Section Lang.
  Variable E : env.
  Hypothesis Hord : forall k l, Permutation l (e_ord E k l).

  Definition shown (nd : node) (e : elem) : Prop := shows nd e /\ within (kids_of nd).
  Definition reads_in (s : bytes) (F : list node) : Prop := reads E s F /\ within F.
  Lemma shown_all : forall F es, within F -> Forall2 shows (elems F) es -> Forall2 shown (elems F) es.
  Proof.
    intros F es W H. assert (K : forall nd, In nd (elems F) -> within (kids_of nd)).
    { intros nd Hn. apply filter_In in Hn. eapply within_kids; eauto; apply Hn. }
    revert K. induction H; intros K; constructor; [split; auto; apply K; now left|]. apply IHForall2. intros nd Hn. apply K. now right.
  Qed.
  Lemma reads_scan : forall s F key, reads_in s F -> exists es, scan_res E key s = Ok es /\ Forall2 shown (elems F) es.
  Proof. intros s F key [H W]. destruct (H key) as [es [H1 H2]]. exists es. unfold scan_res. rewrite H1. split; auto using shown_all. Qed.
  Lemma shown_reads : forall nd e, shown nd e -> reads_in (e_content e) (kids_of nd).
  Proof. intros nd e [H W]. split; auto. now apply shows_reads. Qed.
  Lemma shown_good : forall nd e, shown nd e -> fair nd. Proof. intros nd e [H _]. apply H. Qed.
  Lemma shown_elem : forall nd e, shown nd e -> is_elem nd = true. Proof. intros nd e [H _]. apply H. Qed.
  Lemma shown_name : forall nd e, shown nd e -> e_name e = name_of nd /\ xml_name (name_of nd).
  Proof. intros nd e [H _]. split; [apply H|]. destruct H as [K1 K2 _ _ _]. inversion K2; subst; try discriminate. auto. Qed.
  Lemma shown_called : forall f g l es, Forall2 shown l es -> (forall n, xml_name n -> f n = g n) ->
    Forall2 shown (filter (fun nd => f (name_of nd)) l) (filter (fun e => g (e_name e)) es).
  Proof.
    intros f g l es H Hfg. eapply f2_filter; eauto. intros a b R. destruct (shown_name _ _ R) as [K1 K2]. cbn. rewrite K1. auto.
  Qed.
  Lemma shown_matching : forall n F es, step_name n -> Forall2 shown (elems F) es -> Forall2 shown (called (selects n) F) (matching (elem_seg n) es).
  Proof. intros n F es Hn H. rewrite called_elems. unfold matching. apply shown_called; auto. intros m Hm. symmetry. now apply selects_match. Qed.
  Lemma shown_exact : forall n F es, Forall2 shown (elems F) es -> Forall2 shown (called (bytes_eqb n) F) (filter (fun e => bytes_eqb (e_name e) n) es).
  Proof. intros n F es H. rewrite called_elems. apply shown_called with (g := fun m => bytes_eqb m n); auto. intros m Hm. apply bytes_eqb_sym. Qed.

  (** ** Items *)
  Lemma element_is : forall nd e, shown nd e -> hint (element nd) (r_element (e_content e)).
  Proof. intros nd e H. cbn [hint element]. apply element_sketch. now apply shows_element, H. Qed.
  Lemma text_is : forall nd e, shown nd e -> hint (AText (kids_of nd)) (r_text (e_content e)).
  Proof.
    intros nd e H. destruct H as [[_ _ _ _ [kids' [K1 K2]]] _]. exact (denotes_sketches (TextAnswer (kids_of nd)) _ (ex_intro _ kids' (conj K1 (f_equal r_text K2)))).
  Qed.
  Lemma attribute_is : forall x nd e, shown nd e ->
    Forall2 hint (attribute x nd) (match map_get x (e_attrs e) with Some v => [r_attribute v] | None => [] end).
  Proof.
    intros x nd e [H _]. rewrite (shows_attr _ _ x H). unfold attribute. destruct (attr_value x (attrs_of nd)); repeat constructor.
  Qed.
  Lemma field_kids : forall key n l es, Forall2 shown l es ->
    exists rs, field_children E key n es = Ok rs /\ Forall2 hint (flat_map (fields_of (FieldName n)) l) rs.
  Proof.
    intros key n l es H. induction H as [|nd e l es H1 H2 [rs [R1 R2]]]; [exists []; split; [reflexivity|constructor]|].
    cbn [field_children flat_map]. destruct (reads_scan _ _ (child_key site_field e key) (shown_reads _ _ H1)) as [cs [C1 C2]].
    rewrite C1. cbn [bind]. rewrite R1. cbn [bind]. eexists. split; [reflexivity|]. apply Forall2_app; auto.
    cbn [fields_of]. eapply f2_map; [now apply shown_exact|]. apply element_is.
  Qed.
  Lemma fields_ok : forall key f l es, good_field f -> Forall2 shown l es ->
    exists r, field_extract E key es (field_seg f) = Ok r /\ hints r (fields f l).
  Proof.
    intros key f l es Hf H.
    assert (K : exists all,
      match field_text f with
      | [] => False
      | c :: name => (if Ascii.eqb c "@" then
           Ok (flat_map (fun e => match map_get name (e_attrs e) with Some v => [r_attribute v] | None => [] end) es)
         else if bytes_eqb (field_text f) (bs "%") then
           Ok (flat_map (fun e => match extract_direct (e_content e) with [] => [] | t => [mkR RString t (unescape_xml t) f64_zero []] end) es)
         else field_children E key (field_text f) es) = Ok all
      end /\ Forall2 hint (flat_map (fields_of f) l) all).
    { destruct f as [n|x|]; cbn [field_text good_field] in *.
      - pose proof (field_plain n Hf) as P. destruct (field_kids key n l es H) as [rs [R1 R2]]. exists rs. split; auto.
        destruct n as [|c n]; [now destruct P|]. destruct (Ascii.eqb_spec c "@"); [subst; now destruct (pn_not_attr _ P n)|].
        destruct (bytes_eqb (c :: n) (bs "%")) eqn:B; auto. apply bytes_eqb_eq in B. exfalso. apply (pn_not_special _ P). rewrite B. now left.
      - change (Ascii.eqb "@" "@") with true. eexists. split; [reflexivity|]. eapply f2_flat_map; [exact H|]. intros; now apply attribute_is.
      - destruct Hf. }
    destruct K as [all [K1 K2]]. unfold field_extract. cbn [field_seg s_field s_mods]. destruct (field_text f) as [|c name]; [easy|].
    match goal with |- exists r, bind ?x _ = _ /\ _ => replace x with (Ok all) by (symmetry; exact K1) end. cbn [bind]. apply (f2_firstn _ _ _ 1000) in K2. rewrite wild_max. unfold fields.
    destruct K2 as [|i r li rs Q1 Q2].
    - exists (r_array []). repeat split; constructor.
    - exists (r_array (r :: rs)). split; [reflexivity|]. cbn [hints r_array r_type r_results]. auto.
  Qed.
End Lang.

Section Lang.
  Variable E : env.
  Hypothesis Hord : forall k l, Permutation l (e_ord E k l).
  Variable sat : condition -> node -> bool.
  Hypothesis Hsat : forall c nd, structural c -> fair nd -> (sat c nd = true <-> true_of (e_parse_float E) c nd).
  Variable q : qend.

  Lemma eval_ok : forall c n key nd e, good_condition c -> shown nd e -> 2 * len (subject_text (c_about c)) + 2 <= n ->
    eval_filter_opt E (exec E n) key (Some (cond_filt c)) e = Ok (sat c nd).
  Proof.
    intros c n key nd e [[[_ [_ HS]] _] ST] Sh Hn. pose proof (Hsat c nd ST (shown_good _ _ Sh)) as S. unfold structural in ST. unfold cond_filt, true_of, about in *.
    destruct (c_about c) as [x|steps fin]; cbn [subject_text] in *.
    - rewrite eval_attr. f_equal. apply bool_iff. rewrite S, filter_decide_spec. destruct Sh as [Sh _]. rewrite (shows_attr _ _ x Sh).
      split; [intros H; exists (attr_value x (attrs_of nd)); split; [reflexivity|]; now destruct (attr_value x (attrs_of nd))|].
      intros (o & -> & H). now destruct (attr_value x (attrs_of nd)).
    - destruct HS as [HP NC]. pose proof (segs_parse _ _ HP) as P. pose proof (parse_path_cost _ _ P) as [C _].
      assert (NE : steps <> []). { destruct HP as [_ HF _]. destruct fin; cbn [good_final] in HF; try tauto. }
      pose proof (tpath_not_attr steps fin) as NA.
      destruct (exec_query E Hord steps fin (gt_steps _ _ HP) (gt_final _ _ HP) n true (child_key site_filter e key) (e_content e) (kids_of nd)) as [r [R1 R2]].
      { apply shows_reads; auto. apply Sh. } { pose proof (len_cost (segs_of steps fin)). lia. }
      assert (EV : eval_filter_opt E (exec E n) key (Some (mkFilt (tpath steps fin) (c_op c) (c_lit c))) e = Ok (filter_decide E (c_op c) (r_exists r) (r_string r) (c_lit c))).
      { unfold eval_filter_opt, eval_filter. cbn [f_path f_op f_value]. destruct (tpath steps fin) as [|a t] eqn:T.
        - rewrite P. cbn [bind]. now rewrite R1.
        - destruct (Ascii.eqb_spec a "@"); [subst; destruct (NA t (gt_steps _ _ HP) NE eq_refl)|]. rewrite P. cbn [bind]. now rewrite R1. }
      rewrite EV. f_equal. apply bool_iff. rewrite S, filter_decide_spec.
      set (a := query true steps fin (kids_of nd)) in *.
      assert (NEL : forall l, a <> Elements l) by (intros l; now apply query_not_elements).
      destruct ST as [O|ST].
      + rewrite O. assert (X : r_exists r = match a with Nothing => false | _ => true end).
        { change (r_exists r) with (negb (is_null r)). rewrite (denotes_null _ _ R2). now destruct a. }
        rewrite X. clear - NEL. split.
        * intros H. exists (heard a). split; [now apply told_heard|]. destruct a; try constructor; try inversion H. now destruct (NEL l).
        * intros (o & T & H). destruct T; try constructor; inversion H.
      + assert (T : told a (if r_exists r then Some (r_string r) else None)).
        { pose proof (query_simple fin ST steps true (kids_of nd)) as Q. fold a in Q. destruct a; try contradiction; cbn [denotes] in R2; subst r.
          - constructor.
          - constructor.
          - cbn [r_exists is_null r_count r_type negb r_string]. rewrite itoa_decimal. constructor. }
        split; [intros H; eexists; split; [exact T|now destruct (r_exists r)]|]. intros (o & T' & H). rewrite (told_fun _ _ _ T' T) in H. now destruct (r_exists r).
  Qed.
  Lemma filter_ok : forall c n key l es, good_condition c -> 2 * len (subject_text (c_about c)) + 2 <= n -> Forall2 shown l es ->
    exists es', filter_elems E (exec E n) key (Some (cond_filt c)) es = Ok es' /\ Forall2 shown (filter (sat c) l) es'.
  Proof.
    intros c n key l es Hc Hn H. induction H as [|nd e l es H1 H2 [es' [K1 K2]]]; [exists []; split; auto; constructor|].
    cbn [filter_elems filter]. rewrite (eval_ok c n key nd e Hc H1 Hn). cbn [bind]. rewrite K1. cbn [bind].
    destruct (sat c nd); eexists; split; try reflexivity; auto.
  Qed.
  Lemma filter_upto_ok : forall c n key l es, good_condition c -> 2 * len (subject_text (c_about c)) + 2 <= n -> Forall2 shown l es ->
    forall m, exists es', filter_elems_upto (S m) E (exec E n) key (Some (cond_filt c)) es = Ok es' /\ Forall2 shown (firstn (S m) (filter (sat c) l)) es'.
  Proof.
    intros c n key l es Hc Hn H. induction H as [|nd e l es H1 H2 IH]; intros m; [exists []; split; auto; constructor|].
    cbn [filter_elems_upto filter]. rewrite (eval_ok c n key nd e Hc H1 Hn). cbn [bind]. destruct (sat c nd).
    - destruct m as [|m].
      + eexists. split; [reflexivity|]. cbn [firstn]. auto.
      + destruct (IH m) as [es' [K1 K2]]. rewrite K1. cbn [bind]. eexists. split; [reflexivity|]. cbn [firstn] in *. auto.
    - apply IH.
  Qed.

  (** ** Continuations *)
  Variable rec : qrec.
  Variable rest : list qstep.
  Hypothesis Hrec : rest <> [] -> forall nd e k, shown nd e ->
    exists r, rec k false (e_content e) (query_segs rest q) = Ok r /\ hints r (ask sat q false rest (kids_of nd)).
  Hypothesis Hcount : rest = [] -> q <> ECount.
  Hypothesis Hfield : forall f, q = EField f -> good_field f.
  Definition go (nd : node) : reply := match rest with [] => leaf q nd | _ => ask sat q false rest (kids_of nd) end.
  Definition rsegs : list seg := query_segs rest q.
  Lemma go_more : forall nd, rest <> [] -> go nd = ask sat q false rest (kids_of nd).
  Proof. intros nd H. unfold go. now destruct rest. Qed.
  Lemma rsegs_more : rest <> [] -> exists nx more, rsegs = nx :: more /\
    (s_type nx = SElem \/ s_type nx = SWild \/ (s_type nx = SFilter /\ exists c all r, rest = Kid c all :: r)).
  Proof. apply segs_more. Qed.
  Lemma process_first_ok : forall key sg nd e, s_mods sg = [] -> shown nd e ->
    exists r, process_first E rec key e sg rsegs = Ok r /\ hints r (go nd).
  Proof.
    intros key sg nd e Hm Sh. destruct rest as [|s0 r0] eqn:ER; [|rewrite <- ER in *].
    - unfold rsegs, go, query_segs. rewrite ER in *. cbn [flat_map app].
      destruct q as [|x| | |f] eqn:EQ; cbn [qend_segs process_first step_seg s_type s_value s_mods leaf field_seg].
      + rewrite Hm. eexists. split; [reflexivity|]. rewrite no_mods. now apply element_is.
      + pose proof (attribute_is x nd e Sh) as A. unfold attribute in *. destruct (map_get x (e_attrs e)), (attr_value x (attrs_of nd)); inversion A; subst; eexists; (split; [reflexivity|]); auto.
        reflexivity.
      + eexists. split; [reflexivity|]. now apply text_is.
      + now destruct Hcount.
      + apply fields_ok; auto.
    - assert (NE : rest <> []) by (rewrite ER; discriminate). rewrite go_more by auto. destruct (rsegs_more NE) as (nx & more & E1 & K).
      destruct (Hrec NE nd e (child_key site_query e key) Sh) as [r [R1 R2]]. exists r. split; auto. fold rsegs in R1.
      rewrite E1 in *. cbn [process_first]. destruct K as [->|[->|[-> _]]]; auto.
  Qed.
  Lemma query_each_ok : forall key l es, rest <> [] -> Forall2 shown l es ->
    exists rs, query_each rec key es rsegs = Ok rs /\ Forall2 hint (flat_map (fun nd => items (go nd)) l) rs.
  Proof.
    intros key l es NE H. induction H as [|nd e l es H1 H2 [rs [R1 R2]]]; [exists []; split; auto; constructor|].
    cbn [query_each flat_map]. destruct (Hrec NE nd e (child_key site_query e key) H1) as [r [K1 K2]]. fold rsegs in K1. rewrite K1. cbn [bind].
    rewrite R1. cbn [bind]. eexists. split; [reflexivity|]. apply Forall2_app; auto. rewrite go_more by auto. now apply hints_flat.
  Qed.
  Definition chosen (all : bool) (l : list node) : reply :=
    match l with
    | [] => NoReply
    | nd :: _ =>
        if all then
          match rest, q with
          | [], EElement => Many (map element l)
          | [], EField f => fields f l
          | _, _ => pack (flat_map (fun nd => items (go nd)) l)
          end
        else go nd
    end.
  Lemma finish_ok : forall (mods : list bytes) l rs, mods = [] -> Forall2 hint l rs ->
    exists r, match rs with [] => Ok r_null | _ :: _ => Ok (apply_modifiers E (package rs) mods) end = Ok r /\ hints r (pack l).
  Proof. intros mods l rs -> H. apply hints_pack in H. destruct rs; eexists; (split; [reflexivity|]); auto. Qed.
  Lemma process_all_ok : forall key sg l es, s_mods sg = [] -> Forall2 shown l es -> l <> [] ->
    exists r, process_all E rec key es sg rsegs = Ok r /\ hints r (chosen true l).
  Proof.
    intros key sg l es Hm H NL. unfold chosen. destruct l as [|nd0 l0] eqn:EL; [easy|]. rewrite <- EL in *. clear EL NL.
    destruct rest as [|s0 r0] eqn:ER; [|rewrite <- ER in *].
    - unfold rsegs, go, query_segs. rewrite ER in *. cbn [flat_map app].
      destruct q as [|x| | |f] eqn:EQ; cbn [qend_segs process_all step_seg s_type s_value s_mods leaf field_seg].
      + rewrite Hm. eexists. split; [reflexivity|]. rewrite no_mods. cbn [hints r_array r_type r_results]. split; auto.
        eapply f2_map; [exact H|]. intros; now apply element_is.
      + apply finish_ok; auto. rewrite (flat_map_ext2 _ _ _ (attribute x)) by (intros y; unfold attribute; now destruct (attr_value x (attrs_of y))).
        eapply f2_flat_map; [exact H|]. intros; now apply attribute_is.
      + apply finish_ok; auto. cbn [items]. rewrite flat_map_one. eapply f2_map; [exact H|]. intros; now apply text_is.
      + now destruct Hcount.
      + apply fields_ok; auto.
    - assert (NE : rest <> []) by (rewrite ER; discriminate). destruct (rsegs_more NE) as (nx & more & E1 & K).
      destruct (query_each_ok key l es NE H) as [rs [R1 R2]].
      assert (MO : s_mods nx = []). { unfold rsegs, query_segs in E1. rewrite ER in E1. clear - E1. destruct s0 as [n [| |]| |c all|[n|]]; cbn [flat_map qstep_segs app] in E1; injection E1; intros; subst; reflexivity. }
      assert (EX : process_all E rec key es sg rsegs = match rs with [] => Ok r_null | _ :: _ => Ok (apply_modifiers E (package rs) (s_mods nx)) end).
      { rewrite E1 in *. cbn [process_all]. rewrite R1. destruct K as [->|[->|[-> _]]]; reflexivity. }
      rewrite EX. replace (match rest with [] => match q with EElement => Many (map element l) | EField f => fields f l | _ => pack (flat_map (fun nd : node => items (go nd)) l) end | _ :: _ => pack (flat_map (fun nd : node => items (go nd)) l) end)
        with (pack (flat_map (fun nd : node => items (go nd)) l)) by (rewrite ER; reflexivity).
      now apply finish_ok.
  Qed.
  Lemma route_ok : forall key sg l es, s_mods sg = [] -> Forall2 shown l es ->
    exists r, route_matches E rec key es sg rsegs = Ok r /\ hints r (chosen (s_all sg) l).
  Proof.
    intros key sg l es Hm H. unfold route_matches. inversion H as [|nd e l' es' H1 H2]; subst.
    - exists r_null. split; reflexivity.
    - destruct (s_all sg).
      + apply process_all_ok; auto. discriminate.
      + cbn [chosen]. now apply process_first_ok.
  Qed.
  Lemma first_loop_ok : forall key sg l es, rest <> [] -> (forall c all r, rest <> Kid c all :: r) -> Forall2 shown l es ->
    exists r, first_loop E rec key es sg rsegs = Ok r /\ hints r (first_reply go l).
  Proof.
    intros key sg l es NE NK H. destruct (rsegs_more NE) as (nx & more & E1 & K).
    induction H as [|nd e l es H1 H2 IH]; [exists r_null; split; reflexivity|].
    destruct (Hrec NE nd e (child_key site_query e key) H1) as [r [R1 R2]]. fold rsegs in R1.
    assert (X : first_loop E rec key (e :: es) sg rsegs = (if is_null r then first_loop E rec key es sg rsegs else Ok r)).
    { rewrite E1 in *. cbn [first_loop]. rewrite R1. cbn [bind]. destruct K as [->|[->|[_ (c & a & t & Q)]]]; auto. now destruct (NK c a t). }
    rewrite X, (hints_null _ _ R2). cbn [first_reply]. rewrite <- go_more in * by auto. destruct (go nd); eauto.
  Qed.
  Lemma wild_each_ok : forall key l es, rest <> [] -> Forall2 shown l es ->
    exists rs, wild_each rec key es rsegs = Ok (rs, existsb is_empty_list (map go l)) /\ Forall2 hint (flat_map items (map go l)) rs.
  Proof.
    intros key l es NE H. induction H as [|nd e l es H1 H2 [rs [R1 R2]]]; [exists []; split; auto; constructor|].
    cbn [wild_each flat_map map existsb]. destruct (Hrec NE nd e (child_key site_query e key) H1) as [r [K1 K2]]. fold rsegs in K1. rewrite K1. cbn [bind].
    rewrite R1. cbn [bind fst snd]. rewrite go_more by auto. rewrite (hints_empty _ _ K2). eexists. split; [reflexivity|]. apply Forall2_app; auto. now apply hints_flat.
  Qed.
  Definition wild_reply (l : list node) : reply :=
    match flat_map items (map go l) with
    | [] => if existsb is_empty_list (map go l) then Many [] else NoReply
    | l => pack l
    end.
  Lemma wild_reply_no : forall l, existsb is_empty_list (map go l) = false -> wild_reply l = pack (flat_map items (map go l)).
  Proof. intros l H. unfold wild_reply. rewrite H. now destruct (flat_map items (map go l)). Qed.
  Lemma wildcard_ok : forall key l es, Forall2 shown l es -> (rest = [] -> forall f, q <> EField f) -> l <> [] ->
    exists r, handle_wildcard E rec key es rsegs = Ok r /\ hints r (wild_reply l).
  Proof.
    intros key l es H NF NL. destruct rest as [|s0 r0] eqn:ER; [|rewrite <- ER in *].
    - assert (EM : existsb is_empty_list (map go l) = false).
      { clear - ER Hcount NF. unfold go. rewrite ER in *. induction l as [|nd l IH]; auto. cbn [map existsb]. rewrite IH.
        destruct q; cbn [leaf is_empty_list]; auto. - unfold attribute. now destruct (attr_value x (attrs_of nd)). - now destruct (NF eq_refl f). }
      rewrite wild_reply_no by auto. unfold rsegs, query_segs. rewrite ER in *. cbn [flat_map app].
      destruct q as [|x| | |f] eqn:EQ; cbn [qend_segs handle_wildcard step_seg s_type s_value s_mods leaf field_seg].
      + exists (package (map (fun e => r_element (e_content e)) es)). split; auto.
        assert (K : Forall2 hint (flat_map items (map go l)) (map (fun e => r_element (e_content e)) es)).
        { rewrite flat_map_concat_map, map_map, <- flat_map_concat_map. unfold go. rewrite ER, EQ. cbn [leaf items]. rewrite flat_map_one.
          eapply f2_map; [exact H|]. intros; now apply element_is. }
        apply hints_pack in K. destruct H; [easy|]. exact K.
      + assert (K : Forall2 hint (flat_map items (map go l)) (flat_map (fun e => match map_get x (e_attrs e) with Some v => [r_attribute v] | None => [] end) es)).
        { rewrite flat_map_concat_map, map_map, <- flat_map_concat_map. unfold go. rewrite ER, EQ. cbn [leaf].
          rewrite (flat_map_ext2 _ _ _ (attribute x)) by (intros y; unfold attribute; now destruct (attr_value x (attrs_of y))).
          eapply f2_flat_map; [exact H|]. intros; now apply attribute_is. }
        destruct (finish_ok [] _ _ eq_refl K) as [r [R1 R2]]. exists r. split; auto.
      + assert (K : Forall2 hint (flat_map items (map go l)) (map (fun e => r_text (e_content e)) es)).
        { rewrite flat_map_concat_map, map_map, <- flat_map_concat_map. unfold go. rewrite ER, EQ. cbn [leaf items]. rewrite flat_map_one.
          eapply f2_map; [exact H|]. intros; now apply text_is. }
        destruct (finish_ok [] _ _ eq_refl K) as [r [R1 R2]]. exists r. split; auto.
      + now destruct Hcount.
      + now destruct (NF eq_refl f).
    - assert (NE : rest <> []) by (rewrite ER; discriminate). destruct (rsegs_more NE) as (nx & more & E1 & K).
      destruct (wild_each_ok key l es NE H) as [rs [R1 R2]].
      assert (MO : s_mods nx = []). { unfold rsegs, query_segs in E1. rewrite ER in E1. clear - E1. destruct s0 as [n [| |]| |c all|[n|]]; cbn [flat_map qstep_segs app] in E1; injection E1; intros; subst; reflexivity. }
      assert (EX : handle_wildcard E rec key es rsegs = match rs with [] => Ok (if existsb is_empty_list (map go l) then r_array [] else r_null) | _ :: _ => Ok (package rs) end).
      { rewrite E1 in *. cbn [handle_wildcard]. rewrite R1. cbn [bind fst snd]. rewrite MO. destruct K as [->|[->|[-> _]]]; reflexivity. }
      rewrite EX. unfold wild_reply. pose proof (hints_pack _ _ R2) as SP. destruct R2 as [|i r li rs Q1 Q2].
      + destruct (existsb is_empty_list (map go l)); eexists; (split; [reflexivity|]); cbn; auto.
      + eexists. split; [reflexivity|]. exact SP.
  Qed.
  Lemma search_add_ok : forall key nd e, shown nd e -> exists add, search_add E rec key e rsegs = Ok add /\ Forall2 hint (items (go nd)) add.
  Proof.
    intros key nd e Sh. destruct rest as [|s0 r0] eqn:ER; [|rewrite <- ER in *].
    - unfold rsegs, go, query_segs. rewrite ER in *. cbn [flat_map app].
      destruct q as [|x| | |f] eqn:EQ; cbn [qend_segs search_add step_seg s_type s_value s_mods leaf field_seg].
      + eexists. split; [reflexivity|]. constructor; auto. now apply element_is.
      + pose proof (attribute_is x nd e Sh) as A. eexists. split; [reflexivity|]. unfold attribute in *. destruct (map_get x (e_attrs e)), (attr_value x (attrs_of nd)); auto.
      + eexists. split; [reflexivity|]. constructor; auto. now apply text_is.
      + now destruct Hcount.
      + destruct (fields_ok E Hord key f [nd] [e]) as [r [R1 R2]]; auto. fold (field_seg f). rewrite R1. cbn [bind]. eexists. split; [reflexivity|].
        unfold fields in *. destruct R2 as [Q1 Q2]. now rewrite Q1.
    - assert (NE : rest <> []) by (rewrite ER; discriminate). rewrite go_more by auto. destruct (rsegs_more NE) as (nx & more & E1 & K).
      destruct (Hrec NE nd e (child_key site_query e key) Sh) as [r [R1 R2]]. exists (flatten1 r). split; [|now apply hints_flat]. fold rsegs in R1.
      rewrite E1 in *. cbn [search_add]. rewrite R1. destruct K as [->|[->|[-> _]]]; auto.
  Qed.
End Lang.

Section Search.
  Variable E : env.
  Hypothesis Hord : forall k l, Permutation l (e_ord E k l).
  Variable rec : qrec.
  Variable target : seg.
  Variable rest : list seg.
  Variable sel : bytes -> bool.
  Hypothesis Hsel : forall n, xml_name n -> seg_matches target n = sel n.
  Variable C : node -> list item.
  Hypothesis HC : forall key nd e, shown nd e -> exists add, search_add E rec key e rest = Ok add /\ Forall2 hint (C nd) add.
  Definition found (F : list node) (A : list item) : list item := fold_left gather_step (map C (called sel (post F))) A.

  Definition go_loop (n' : nat) (key : list nat) := fix go (es : list elem) (st : N * list result) : Res (N * list result) :=
     match es with
     | [] => Ok st
     | e :: es' =>
         let* st1 :=
           (match e_content e with
            | [] => Ok st
            | _ :: _ => rsearch E rec n' (child_key site_search e key) target rest st (e_content e)
            end) in
         if (MaxRecursiveOperations <=? fst st1)%N then Ok st1
         else if seg_matches target (e_name e) then
           if Nat.leb MaxWildcardResults (List.length (snd st1)) then Ok st1
           else
             let* add := search_add E rec key e rest in
             go es' (fst st1, snd st1 ++ add)
         else go es' st1
     end.
  Lemma found_app : forall F G A, found (F ++ G) A = found G (found F A).
  Proof. intros F G A. unfold found, post, called. now rewrite flat_map_app, filter_app, map_app, fold_left_app. Qed.
  Lemma found_node : forall nd A, is_elem nd = true -> found [nd] A =
    if sel (name_of nd) then gather_step (found (kids_of nd) A) (C nd) else found (kids_of nd) A.
  Proof.
    intros nd A H. unfold found. change (post [nd]) with (post_node nd ++ []). rewrite app_nil_r, post_node_elem by auto. unfold called. rewrite filter_app, map_app, fold_left_app.
    fold (called sel (post (kids_of nd))). fold (called sel [nd]). rewrite called_cons by auto. destruct (sel (name_of nd)); reflexivity.
  Qed.
  Lemma search_ok : forall n F key s ops A acc, reads_in E s F -> Forall (fun nd => levels nd <= n) F -> Forall2 hint A acc ->
    (ops + 1 + elements F < 10000)%N ->
    exists ops' acc', rsearch E rec n key target rest (ops, acc) s = Ok (ops', acc') /\
      (ops' <= ops + 1 + elements F)%N /\ Forall2 hint (found F A) acc'.
  Proof.
    induction n as [|n IH]; intros F key s ops A acc HR HL HA HO.
    - assert (Z : elems F = []).
      { clear - HL. induction HL as [|nd F H1 H2 IH]; auto. unfold elems in *. cbn [filter]. destruct (is_elem nd) eqn:Q; auto. apply levels_elem in Q. lia. }
      cbn [rsearch fst snd]. exists (ops + 1)%N, acc. repeat split; [lia|]. unfold found. rewrite post_elems, Z. exact HA.
    - cbn [rsearch fst snd]. fold (go_loop n key). rewrite wild_max. change MaxRecursiveOperations with 10000%N.
      rewrite (proj2 (N.leb_gt 10000 (ops + 1))) by lia. rewrite orb_false_r. rewrite <- (f2_length _ _ _ _ _ HA).
      destruct (Nat.leb 1000 (len A)) eqn:FU.
      { apply Nat.leb_le in FU. exists (ops + 1)%N, acc. repeat split; [lia|]. unfold found. now rewrite gather_full. }
      clear FU. destruct (reads_scan E s F key HR) as [es [R1 R2]]. rewrite R1. cbn [bind].
      assert (LE : Forall (fun nd => levels nd <= S n) (elems F)).
      { apply Forall_forall. intros x Hx. apply filter_In in Hx. rewrite Forall_forall in HL. now apply HL. }
      assert (EE : elements F = elements (elems F)) by (unfold elements; now rewrite post_elems).
      assert (FE : found F A = found (elems F) A) by (unfold found; now rewrite post_elems). rewrite FE. rewrite EE in *. clear EE FE HR HL R1.
      assert (OPS : exists o, o = (ops + 1)%N) by eauto. destruct OPS as [o Ho]. rewrite <- Ho in *. set (L := elems F) in *. clearbody L. clear Ho ops s F. rename HO into HO'.
      revert LE A acc HA o HO'. induction R2 as [|nd e l es H1 H2 IHl]; intros LE A acc HA o HO.
      + exists o, acc. cbn [go_loop]. repeat split; auto. lia.
      + inversion LE as [|? ? L1 L2]; subst. pose proof (shown_elem _ _ H1) as EL. change (nd :: l) with ([nd] ++ l) in *. rewrite found_app.
        assert (E1 : elements ([nd] ++ l) = (elements (kids_of nd) + 1 + elements l)%N).
        { cbn [app]. rewrite elements_cons, elements_kids by auto. lia. }
        rewrite E1 in *. cbn [go_loop].
        assert (SUB : exists o1 acc1, match e_content e with [] => Ok (o, acc) | _ :: _ => rsearch E rec n (child_key site_search e key) target rest (o, acc) (e_content e) end = Ok (o1, acc1) /\
          (o1 <= o + 1 + elements (kids_of nd))%N /\ Forall2 hint (found (kids_of nd) A) acc1).
        { destruct (e_content e) eqn:CE.
          - exists o, acc. repeat split; [lia|]. pose proof (shown_reads E Hord _ _ H1) as RR. rewrite CE in RR. destruct (reads_scan E [] _ key RR) as [es0 [K1 K2]].
            assert (es0 = []) by (clear - K1; cbv in K1; congruence). subst es0. inversion K2 as [Q|]. unfold found. rewrite post_elems, <- Q. exact HA.
          - rewrite <- CE. apply IH; auto.
            + now apply shown_reads.
            + now apply levels_kids.
            + lia. }
        destruct SUB as (o1 & acc1 & S1 & S2 & S3). rewrite S1. cbn [bind fst snd]. change MaxRecursiveOperations with 10000%N.
        rewrite (proj2 (N.leb_gt 10000 o1)) by lia. rewrite found_node by auto.
        destruct (shown_name _ _ H1) as [N1 N2]. rewrite N1, Hsel by auto. destruct (sel (name_of nd)).
        * rewrite wild_max, <- (f2_length _ _ _ _ _ S3). unfold gather_step. destruct (Nat.leb 1000 (len (found (kids_of nd) A))) eqn:FU.
          -- apply Nat.leb_le in FU. exists o1, acc1. repeat split; [lia|]. unfold found at 1. now rewrite gather_full.
          -- destruct (HC key nd e H1) as [add [A1 A2]]. rewrite A1. cbn [bind].
             destruct (IHl L2 (found (kids_of nd) A ++ C nd) (acc1 ++ add) ltac:(now apply Forall2_app) o1 ltac:(lia)) as (o2 & acc2 & T1 & T2 & T3).
             exists o2, acc2. repeat split; auto. lia.
        * destruct (IHl L2 (found (kids_of nd) A) acc1 S3 o1 ltac:(lia)) as (o2 & acc2 & T1 & T2 & T3).
          exists o2, acc2. repeat split; auto. lia.
  Qed.
  Lemma recursive_ok : forall key s F, reads_in E s F ->
    exists r, handle_recursive E rec key (target :: rest) s = Ok r /\ hints r (pack (gather (map C (called sel (post F))))).
  Proof.
    intros key s F HR. destruct HR as [HR [W1 W2]].
    destruct (search_ok (S MaxNestingDepth) F key s 0%N [] []) as (o & acc & R1 & R2 & R3); auto.
    - split; auto. split; auto.
    - eapply Forall_impl; [|exact W1]. intros nd H. cbn beta in H. unfold MaxNestingDepth. lia.
    - lia.
    - unfold handle_recursive. rewrite R1. cbn [bind snd]. apply hints_pack in R3. destruct acc; eexists; (split; [reflexivity|]); exact R3.
  Qed.
End Search.

(** ** The language *)
Section Lang.
  Variable E : env.
  Hypothesis Hord : forall k l, Permutation l (e_ord E k l).
  Variable sat : condition -> node -> bool.
  Hypothesis Hsat : forall c nd, structural c -> fair nd -> (sat c nd = true <-> true_of (e_parse_float E) c nd).
  Variable q : qend.
  Hypothesis Hfield : forall f, q = EField f -> good_field f.

  Lemma ask_cons : forall top s rest F, ask sat q top (s :: rest) F =
    match s with
    | Child n w =>
        let named := called (selects n) F in
        let listed := firstn 1000 (called (if top then bytes_eqb n else selects n) F) in
        match w with
        | Number ds => match nth_error listed (N.to_nat (decimal_value ds)) with Some nd => go sat q rest nd | None => NoReply end
        | Where c all => chosen sat q rest all (filter (sat c) (firstn 1000 named))
        | Leading =>
            match rest, q with
            | [], ECount => match listed with [] => NoReply | _ => One (ACount (List.length listed)) end
            | [], EField f => match listed with [] => if top then NoReply else Many [] | _ => fields f listed end
            | [], _ => match named with nd :: _ => go sat q rest nd | [] => NoReply end
            | _, _ => first_reply (go sat q rest) named
            end
        end
    | AnyKid => wild_reply sat q rest (firstn 1000 (elems F))
    | Kid c all => chosen sat q rest all (firstn 1000 (filter (sat c) (elems F)))
    | Descendant n =>
        pack (gather (map (fun nd => items (go sat q rest nd))
          (called (match n with Some n => selects n | None => fun _ => true end) (post F))))
    end.
  Proof. intros top s rest F. destruct s as [n [| |]| | |]; reflexivity. Qed.

  Lemma cost_cons : forall sg segs, cost (sg :: segs) = seg_cost sg + cost segs. Proof. reflexivity. Qed.
  Lemma segs_cons : forall s rest, query_segs (s :: rest) q = qstep_segs s ++ query_segs rest q.
  Proof. intros. unfold query_segs. cbn [flat_map]. now rewrite app_assoc. Qed.
  Lemma array_op_nth : forall rec key top es ds more, (match more with n2 :: _ => s_type n2 <> SText /\ s_mods n2 = [] | [] => True end) ->
    (if top : bool then root_array E rec key es (step_seg (Nth ds, [])) more else array_op E rec key es (step_seg (Nth ds, [])) more) =
    match nth_elem es (Z.min (Z.of_N (decimal_value ds)) int64_max) with
    | None => Ok r_null
    | Some e =>
      match more with
      | [] => Ok (r_element (e_content e))
      | n2 :: more2 =>
        match s_type n2 with
        | SAttr => Ok (match map_get (s_value n2) (e_attrs e) with Some v => r_attribute v | None => r_null end)
        | _ => rec (child_key site_query e key) false (e_content e) more
        end
      end
    end.
  Proof.
    intros rec key top es ds more H. assert (Z0 : es = [] -> nth_elem es (Z.min (Z.of_N (decimal_value ds)) int64_max) = None).
    { intros ->. unfold nth_elem. cbn [List.length].
      destruct (Z.min (Z.of_N (decimal_value ds)) int64_max <? Z.of_nat 0)%Z eqn:Q; [|now rewrite andb_false_r].
      apply Z.ltb_lt in Q. assert (0 < int64_max)%Z by reflexivity. lia. }
    destruct top; unfold root_array, array_op; (destruct es as [|e0 es]; [rewrite Z0 by auto; reflexivity|]); cbn [step_seg s_type s_index s_mods];
      destruct (nth_elem (e0 :: es) _); auto; destruct more as [|n2 more2]; auto; destruct H as [H1 H2]; rewrite ?H2.
    - destruct (s_type n2); auto. contradiction.
    - destruct (s_type n2); auto. destruct (map_get (s_value n2) (e_attrs e)); auto. now destruct more2.
  Qed.

  Lemma exec_ask : forall steps, steps <> [] -> Forall good_qstep steps -> well_split steps -> good_qend steps q ->
    forall fuel top key s F, reads_in E s F -> cost (query_segs steps q) < fuel ->
    exists r, exec E fuel key top s (query_segs steps q) = Ok r /\ hints r (ask sat q top steps F).
  Proof.
    induction steps as [|s0 rest IH]; intros NE Hs Hw Hq fuel top key s F HR Hfuel; [easy|]. clear NE.
    inversion Hs as [|? ? Hs0 Hrest]; subst. destruct fuel as [|fuel]; [lia|].
    rewrite segs_cons in *. cbn [exec].
    assert (Hw' : well_split rest). { clear - Hw. cbn [well_split] in Hw. destruct s0 as [n [| |]| | |]; auto. destruct rest as [|[ | | | ] ?]; auto. destruct Hw. }
    assert (Hq' : rest <> [] -> good_qend rest q).
    { intros NR. destruct q as [|x| | |f]; cbn [good_qend] in *; auto.
      - intros a n ds K. apply (Hq (s0 :: a) n ds). now rewrite K.
      - destruct Hq as (a & n & K). destruct a as [|a0 a]; cbn [app] in K; injection K; intros; subst; [easy|]. eauto.
      - destruct Hq as [K1 K2]. split; auto. intros a. split.
        + intros K. apply (proj1 (K2 (s0 :: a))). now rewrite K.
        + intros n ds K. apply (proj2 (K2 (s0 :: a)) n ds). now rewrite K. }
    destruct (reads_scan E s F key HR) as [es [R1 R2]].
    assert (HC1 : cost (query_segs rest q) < fuel).
    { destruct s0 as [n [| |]| | |[|]]; cbn [qstep_segs app cost] in Hfuel;
        repeat match type of Hfuel with context [seg_cost ?x] => pose proof (seg_cost_pos x); generalize dependent (seg_cost x); intros end; lia. }
    assert (Hrec : rest <> [] -> forall nd e k, shown nd e -> exists r, exec E fuel k false (e_content e) (query_segs rest q) = Ok r /\ hints r (ask sat q false rest (kids_of nd))).
    { intros NR nd e k Sh. apply IH; auto. now apply shown_reads. }
    clear IH. rewrite ask_cons.
    destruct s0 as [n w| |c all|d].
    - (* children by name *)
      cbn [good_qstep] in Hs0. destruct Hs0 as [Hn Hwh]. cbv zeta.
      pose proof (shown_matching n F es Hn R2) as MS. pose proof (shown_exact n F es R2) as MX.
      set (listed := firstn 1000 (called (if top then bytes_eqb n else selects n) F)).
      set (es1 := firstn 1000 (if top then filter (fun e => bytes_eqb (e_name e) n) es else matching (elem_seg n) es)).
      assert (ML : Forall2 shown listed es1) by (unfold listed, es1; apply f2_firstn; destruct top; auto).
      assert (LL : len listed <= 1000) by (unfold listed; apply firstn_le_length).
      destruct w as [|ds|c all]; cbn [qstep_segs app].
      + (* leading on *)
        destruct rest as [|s1 rest'] eqn:ER; [|rewrite <- ER in *; assert (NR : rest <> []) by (rewrite ER; discriminate)].
        * cbn [query_segs flat_map app]. assert (FIRST : q <> ECount -> (forall f, q <> EField f) ->
            exists r, exec_body E (exec E fuel) key top s (elem_seg n :: qend_segs q) = Ok r /\ hints r (match called (selects n) F with nd :: _ => go sat q [] nd | [] => NoReply end)).
          { intros N1 N2. assert (EX : exec_body E (exec E fuel) key top s (elem_seg n :: qend_segs q) = first_loop E (exec E fuel) key (matching (elem_seg n) es) (elem_seg n) (qend_segs q)).
            { unfold exec_body. rewrite R1. cbn [bind s_type elem_seg]. destruct q as [|x| | |f]; try congruence; destruct top; try reflexivity; now destruct (N2 f). }
            rewrite EX. destruct MS as [|nd e l es' H1 H2]; [exists r_null; split; reflexivity|]. unfold go.
            destruct q as [|x| | |f]; cbn [qend_segs first_loop step_seg s_type s_value s_mods leaf]; try congruence.
            - eexists. split; [reflexivity|]. now apply element_is.
            - pose proof (attribute_is x nd e H1) as A. unfold attribute in *. destruct (map_get x (e_attrs e)), (attr_value x (attrs_of nd)); inversion A; subst; eexists; (split; [reflexivity|]); auto. reflexivity.
            - eexists. split; [reflexivity|]. now apply text_is. }
          destruct q as [|x| | |f] eqn:EQ.
          -- apply FIRST; discriminate.
          -- apply FIRST; discriminate.
          -- apply FIRST; discriminate.
          -- cbn [qend_segs]. assert (EX : exec_body E (exec E fuel) key top s [elem_seg n; step_seg (CountOf, [])] = match es1 with [] => Ok r_null | _ :: _ => Ok (r_count (len es1)) end).
             { unfold exec_body. rewrite R1. cbn [bind s_type elem_seg]. unfold es1. destruct top; reflexivity. }
             rewrite EX. rewrite (f2_length _ _ _ _ _ ML). destruct ML as [|nd e l es' H1 H2]; eexists; (split; [reflexivity|]); [reflexivity|].
             cbn [hints hint item_is]. split; [now apply (ProofTree5.denotes_describes (Count _))|]. apply itoa_decimal.
          -- cbn [qend_segs]. assert (EX : exec_body E (exec E fuel) key top s [elem_seg n; field_seg f] = match es1, top with [], true => Ok r_null | _, _ => field_extract E key es1 (field_seg f) end).
             { unfold exec_body. rewrite R1. cbn [bind s_type elem_seg]. unfold es1. destruct top; cbn iota.
               - cbn [s_type field_seg s_value]. rewrite wild_max. change (s_value (elem_seg n)) with n. now destruct (firstn 1000 (filter (fun e => bytes_eqb (e_name e) n) es)).
               - unfold exec_element. cbn [s_type field_seg]. rewrite wild_max. now destruct (firstn 1000 (matching (elem_seg n) es)). }
             rewrite EX. destruct (fields_ok E Hord key f listed es1 (Hfield f eq_refl) ML) as [r [F1 F2]].
             destruct ML as [|nd e l es' H1 H2]; [|exists r; split; auto].
             destruct top; [exists r_null; split; reflexivity|]. exists r. split; auto.
        * assert (NK : forall c all r, rest <> Kid c all :: r). { intros c all r K. rewrite K in Hw. exact Hw. }
          destruct (first_loop_ok E sat q (exec E fuel) rest Hrec (fun h => False_ind _ (NR h)) key (elem_seg n) _ _ NR NK MS) as [r [F1 F2]].
          exists r. split; [|rewrite ER in *; destruct q; exact F2].
          rewrite <- F1. destruct (segs_more q rest NR) as (nx & more & E1 & K). unfold rsegs in *. rewrite E1. unfold exec_body. rewrite R1. cbn [bind].
          change (s_type (elem_seg n)) with SElem. cbn iota. unfold exec_element. destruct K as [->|[->|[_ (c & a & t & Q)]]]; [now destruct top|now destruct top|now destruct (NK c a t)].
      + (* by number *)
        cbn [good_which] in Hwh. pose proof (shows_nth listed es1) as _.
        assert (SH : Forall2 shows listed es1) by (eapply f2_impl; [exact ML|]; intros a b K; apply K).
        pose proof (nth_elem_tree listed es1 ds SH LL) as NT.
        assert (MORE : match query_segs rest q with n2 :: _ => s_type n2 <> SText /\ s_mods n2 = [] | [] => True end).
        { destruct rest as [|s1 rest'].
          - unfold query_segs. cbn [flat_map app]. destruct q as [|x| | |f]; cbn [qend_segs step_seg field_seg]; auto; try (split; [discriminate|reflexivity]).
            exfalso. apply (Hq [] n ds). reflexivity.
          - rewrite segs_cons. destruct s1 as [m [| |]| | |[|]]; cbn [qstep_segs app]; (split; [discriminate|reflexivity]). }
        assert (EX : exec_body E (exec E fuel) key top s (elem_seg n :: step_seg (Nth ds, []) :: query_segs rest q) =
          (if top then root_array E (exec E fuel) key es1 (step_seg (Nth ds, [])) (query_segs rest q) else array_op E (exec E fuel) key es1 (step_seg (Nth ds, [])) (query_segs rest q))).
        { unfold exec_body. rewrite R1. cbn [bind s_type elem_seg s_value]. unfold es1, exec_element. cbn [s_type step_seg]. rewrite ?wild_max. now destruct top. }
        rewrite EX, array_op_nth by auto. clear EX.
        destruct (nth_error listed (N.to_nat (decimal_value ds))) as [nd|] eqn:NTH.
        * destruct NT as [e [-> Sh0]]. assert (Sh : shown nd e).
          { split; auto. clear - NTH ML. apply nth_error_In in NTH. revert NTH. induction ML as [|a b l l' K1 K2 IH]; intros []; [subst; apply K1|auto]. }
          destruct rest as [|s1 rest'] eqn:ER; [|rewrite <- ER in *; assert (NR : rest <> []) by (rewrite ER; discriminate)].
          -- cbn [query_segs flat_map app]. unfold go. destruct q as [|x| | |f] eqn:EQ; cbn [qend_segs step_seg s_type s_value leaf].
             ++ eexists. split; [reflexivity|]. now apply element_is.
             ++ pose proof (attribute_is x nd e Sh) as A. unfold attribute in *. destruct (map_get x (e_attrs e)), (attr_value x (attrs_of nd)); inversion A; subst; eexists; (split; [reflexivity|]); auto. reflexivity.
             ++ exfalso. apply (Hq [] n ds). reflexivity.
             ++ destruct Hq as (a & m & K). destruct a as [|? a]; cbn [app] in K; [discriminate|]. now destruct a.
             ++ exfalso. destruct Hq as [_ K]. apply (proj2 (K []) n ds). reflexivity.
          -- assert (GM : go sat q rest nd = ask sat q false rest (kids_of nd)) by (unfold go; rewrite ER; reflexivity). rewrite GM. destruct (Hrec NR nd e (child_key site_query e key) Sh) as [r [Q1 Q2]]. exists r. split; auto.
             destruct (segs_more q rest NR) as (nx & more & E1 & K). unfold rsegs in *. rewrite <- Q1, E1. destruct K as [->|[->|[-> _]]]; reflexivity.
        * rewrite NT. exists r_null. split; reflexivity.
      + (* by condition *)
        cbn [good_which] in Hwh.
        assert (FUEL : 2 * len (subject_text (c_about c)) + 2 <= fuel).
        { cbn [qstep_segs app cost] in Hfuel. unfold where_seg, filter_seg, seg_cost, cond_filt in Hfuel. cbn [s_filter elem_seg f_path] in Hfuel. lia. }
        destruct (filter_ok E Hord sat Hsat c fuel key _ _ Hwh FUEL (f2_firstn _ _ _ 1000 _ _ MS)) as [es' [F1 F2]].
        assert (EX : exec_body E (exec E fuel) key top s (elem_seg n :: where_seg c all :: query_segs rest q) =
          route_matches E (exec E fuel) key es' (where_seg c all) (query_segs rest q)).
        { unfold exec_body. rewrite R1. cbn [bind s_type elem_seg where_seg filter_seg]. unfold exec_element. cbn [s_type s_filter where_seg filter_seg]. rewrite wild_max.
          fold (elem_seg n). rewrite F1. now destruct top. }
        rewrite EX. apply (route_ok E Hord sat q (exec E fuel) rest Hrec); auto.
        intros ER EC. subst rest. rewrite EC in Hq. destruct Hq as (a & m & K). destruct a as [|? a]; cbn [app] in K; [discriminate|]. now destruct a.
    - (* any child *)
      cbn [qstep_segs app]. unfold exec_body. rewrite R1. cbn [bind s_type any_seg step_seg s_wild s_mods]. rewrite wild_max.
      apply (f2_firstn _ _ _ 1000) in R2. destruct R2 as [|nd e l es' H1 H2] eqn:RR.
      + exists r_null. split; reflexivity.
      + destruct (wildcard_ok E sat q (exec E fuel) rest Hrec) with (key := key) (l := nd :: l) (es := e :: es') as [r [W1 W2]]; auto.
        * intros ER EC. subst rest. rewrite EC in Hq. destruct Hq as (a & m & K). destruct a as [|? a]; cbn [app] in K; [discriminate|]. now destruct a.
        * intros -> f EF. rewrite EF in Hq. destruct Hq as [_ K]. now destruct (K []).
        * discriminate.
        * unfold rsegs in W1. rewrite W1. cbn [bind]. exists r. split; auto. now destruct (query_segs rest q).
    - (* any child by condition *)
      cbn [qstep_segs app good_qstep] in *.
      assert (FUEL : 2 * len (subject_text (c_about c)) + 2 <= fuel).
      { cbn [cost] in Hfuel. unfold where_seg, filter_seg, seg_cost, cond_filt in Hfuel. cbn [s_filter f_path] in Hfuel. lia. }
      destruct (filter_upto_ok E Hord sat Hsat c fuel key _ _ Hs0 FUEL R2 999) as [es' [F1 F2]].
      assert (EX : exec_body E (exec E fuel) key top s (where_seg c all :: query_segs rest q) =
        route_matches E (exec E fuel) key es' (where_seg c all) (query_segs rest q)).
      { unfold exec_body. rewrite R1. cbn [bind s_type where_seg filter_seg s_filter]. change MaxWildcardResults with 1000. rewrite F1. reflexivity. }
      rewrite EX. apply (route_ok E Hord sat q (exec E fuel) rest Hrec); auto.
      intros ER EC. subst rest. rewrite EC in Hq. destruct Hq as (a & m & K). destruct a as [|? a]; cbn [app] in K; [discriminate|]. now destruct a.
    - (* search *)
      assert (Hcount : rest = [] -> q <> ECount).
      { intros ER EC. subst rest. rewrite EC in Hq. destruct Hq as (a & m & K). destruct a as [|? a]; cbn [app] in K; [discriminate|]. now destruct a. }
      assert (AD := search_add_ok E Hord sat q (exec E fuel) rest Hrec Hcount Hfield). unfold rsegs in AD.
      destruct d as [n|]; cbn [qstep_segs app]; unfold exec_body; rewrite R1; cbn [bind s_type deep_seg step_seg s_wild].
      + apply (recursive_ok E Hord (exec E fuel) (elem_seg n) (query_segs rest q) (selects n)); auto. intros m Hm. now apply selects_match.
      + apply (recursive_ok E Hord (exec E fuel) any_seg (query_segs rest q) (fun _ => true)); auto.
  Qed.
  Lemma get_ask : forall s F steps, reads_in E s F -> (blen s <= 10485760)%N -> SpecLang.good_query steps q -> Forall structural_step steps -> q <> EField FieldText ->
    exists r, get E s (query_text steps q) = Ok r /\ hints r (ask sat q true steps F).
  Proof.
    intros s F steps HR HS HP ST QF. pose proof (query_parses _ _ HP) as P. destruct HP as [H1 H2 H3 H4 _].
    assert (H2' : Forall good_qstep steps).
    { rewrite Forall_forall in *. intros x Hx. specialize (H2 x Hx). specialize (ST x Hx). destruct x as [n [| |c b]| |c b|[|]]; cbn in *; auto. all: unfold good_condition; tauto. }
    assert (H4' : good_qend steps q). { destruct q as [| | | |[| |]]; cbn in *; try tauto. }
    assert (NE : query_segs steps q <> []).
    { destruct steps as [|s0 steps]; [easy|]. rewrite segs_cons. destruct s0 as [n [| |]| | |[|]]; discriminate. }
    rewrite (get_exec E s _ _ (S (cost (query_segs steps q))) HS P NE) by lia. apply exec_ask; auto.
  Qed.
End Lang.
