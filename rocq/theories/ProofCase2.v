(** Case-insensitive queries on canonical text: conditions and continuations. *)
From Coq Require Import List Ascii String NArith ZArith Bool Lia Permutation.
From Verif Require Import GoStr ModelParser ModelPath ModelResult ModelQuery ModelBuilder ModelQueryOpts SpecText SpecPath SpecTree SpecQuery SpecValid SpecEdit SpecContent SpecFilter SpecLang SpecCase
  ProofBase ProofEscape ProofPath ProofScan ProofSyntax ProofFuel ProofFuel2 ProofMono ProofFilter ProofTree ProofTree2 ProofTree3 ProofTree4 ProofTree5 ProofRaw2 ProofLang ProofLang2 ProofLang3 ProofLang4 ProofCase.
Import ListNotations.

Section Case.
  Variable E : env.
  Hypothesis Hord : forall k l, Permutation l (e_ord E k l).
  Variable sat : condition -> node -> bool.
  Hypothesis Hsat : forall c nd, good nd -> (sat c nd = true <-> true_of (e_parse_float E) c nd).
  Variable q : qend.

  Lemma filter_ci : forall c n key l es, good_condition c -> 2 * len (subject_text (c_about c)) + 2 <= n -> Forall2 shown_ci l es ->
    exists es', filter_elems E (exec E n) key (Some (cond_filt c)) es = Ok es' /\ Forall2 shown_ci (filter (sat c) l) es'.
  Proof.
    intros c n key l es Hc Hn H. induction H as [|nd e l es H1 H2 [es' [K1 K2]]]; [exists []; split; auto; constructor|].
    cbn [filter_elems filter]. rewrite (eval_ok E Hord sat Hsat c n key nd e Hc (shown_ci_shown _ _ H1) Hn). cbn [bind]. rewrite K1. cbn [bind].
    destruct (sat c nd); eexists; split; try reflexivity; auto.
  Qed.
  Lemma filter_upto_ci : forall c n key l es, good_condition c -> 2 * len (subject_text (c_about c)) + 2 <= n -> Forall2 shown_ci l es ->
    forall m, exists es', filter_elems_upto (S m) E (exec E n) key (Some (cond_filt c)) es = Ok es' /\ Forall2 shown_ci (firstn (S m) (filter (sat c) l)) es'.
  Proof.
    intros c n key l es Hc Hn H. induction H as [|nd e l es H1 H2 IH]; intros m; [exists []; split; auto; constructor|].
    cbn [filter_elems_upto filter]. rewrite (eval_ok E Hord sat Hsat c n key nd e Hc (shown_ci_shown _ _ H1) Hn). cbn [bind]. destruct (sat c nd).
    - destruct m as [|m].
      + eexists. split; [reflexivity|]. cbn [firstn]. auto.
      + destruct (IH m) as [es' [K1 K2]]. rewrite K1. cbn [bind]. eexists. split; [reflexivity|]. cbn [firstn] in *. auto.
    - apply IH.
  Qed.

  (** ** Continuations *)
  Variable rec : qrec.
  Variable rest : list qstep.
  Hypothesis Hrec : rest <> [] -> forall nd e k, shown_ci nd e ->
    exists r, rec k false (e_content e) (csegs rest q) = Ok r /\ says r (ask_ci sat q rest (kids_of nd)).
  Hypothesis Hcount : rest = [] -> q <> ECount.
  Hypothesis Hfield : forall f, q = EField f -> good_field f.
  Definition go_ci (nd : node) : reply := match rest with [] => leaf_ci q nd | _ => ask_ci sat q rest (kids_of nd) end.
  Lemma go_ci_more : forall nd, rest <> [] -> go_ci nd = ask_ci sat q rest (kids_of nd).
  Proof. intros nd H. unfold go_ci. now destruct rest. Qed.
  Lemma pack_attribute : forall x nd e key, shown_ci nd e -> exists r,
    match attr_lookup E false key (folded x) e with Some v => Ok (r_attribute v) | None => Ok r_null end = Ok r /\ says r (pack (attribute_ci x nd)).
  Proof.
    intros x nd e key H. pose proof (attribute_ci_is E Hord x nd e key H) as A. destruct (attr_lookup E false key (folded x) e); inversion A as [|? ? ? ? A1 A2]; subst; eexists; (split; [reflexivity|]).
    - inversion A2; subst. exact A1.
    - reflexivity.
  Qed.
  Lemma process_first_ci : forall key sg nd e, s_mods sg = [] -> shown_ci nd e ->
    exists r, process_first_opts E false rec key e sg (csegs rest q) = Ok r /\ says r (go_ci nd).
  Proof.
    intros key sg nd e Hm Sh. destruct rest as [|s0 r0] eqn:ER; [|rewrite <- ER in *].
    - unfold csegs, go_ci, query_segs. rewrite ER in *. cbn [flat_map app].
      destruct q as [|x| | |f] eqn:EQ; cbn [qend_segs map]; rewrite ?lower_attr; cbn [process_first_opts step_seg s_type s_value s_mods leaf_ci field_seg lower_seg].
      + rewrite Hm. eexists. split; [reflexivity|]. rewrite no_mods. now apply element_is, shown_ci_shown.
      + destruct (pack_attribute x nd e key Sh) as [r [R1 R2]]. exists r. split; auto.
      + eexists. split; [reflexivity|]. now apply text_is, shown_ci_shown.
      + now destruct Hcount.
      + apply (fields_ci_ok E Hord key f [nd] [e]); auto.
    - assert (NE : rest <> []) by (rewrite ER; discriminate). rewrite go_ci_more by auto. destruct (csegs_more q rest NE) as (nx & more & E1 & MO & K).
      destruct (Hrec NE nd e (child_key site_query e key) Sh) as [r [R1 R2]]. exists r. split; auto.
      rewrite E1 in *. cbn [process_first_opts]. destruct K as [->|[->|[-> _]]]; auto.
  Qed.
  Lemma query_each_ci : forall key l es, rest <> [] -> Forall2 shown_ci l es ->
    exists rs, query_each rec key es (csegs rest q) = Ok rs /\ Forall2 item_is (flat_map (fun nd => items (go_ci nd)) l) rs.
  Proof.
    intros key l es NE H. induction H as [|nd e l es H1 H2 [rs [R1 R2]]]; [exists []; split; auto; constructor|].
    cbn [query_each flat_map]. destruct (Hrec NE nd e (child_key site_query e key) H1) as [r [K1 K2]]. rewrite K1. cbn [bind].
    rewrite R1. cbn [bind]. eexists. split; [reflexivity|]. apply Forall2_app; auto. rewrite go_ci_more by auto. now apply says_flat.
  Qed.
  Definition chosen_ci (all : bool) (l : list node) : reply :=
    match l with
    | [] => NoReply
    | nd :: _ =>
        if all then
          match rest, q with
          | [], EElement => Many (map element l)
          | [], EField f => fields_ci f l
          | _, _ => pack (flat_map (fun nd => items (go_ci nd)) l)
          end
        else go_ci nd
    end.
  Lemma attrs_flat : forall x l es key, Forall2 shown_ci l es ->
    Forall2 item_is (flat_map (fun nd => items (pack (attribute_ci x nd))) l)
      (flat_map (fun e => map r_attribute (attr_lookup_all E false key (folded x) e)) es).
  Proof.
    intros x l es key H. rewrite (flat_map_ext2 _ _ _ (attribute_ci x)).
    - eapply f2_flat_map; [exact H|]. intros; now apply attribute_all_ci.
    - intros y. unfold attribute_ci. now destruct (filter _ (attrs_of y)).
  Qed.
  Lemma process_all_ci : forall key sg l es, s_mods sg = [] -> Forall2 shown_ci l es -> l <> [] ->
    exists r, process_all_opts E false rec key es sg (csegs rest q) = Ok r /\ says r (chosen_ci true l).
  Proof.
    intros key sg l es Hm H NL. unfold chosen_ci. destruct l as [|nd0 l0] eqn:EL; [easy|]. rewrite <- EL in *. clear EL NL.
    destruct rest as [|s0 r0] eqn:ER; [|rewrite <- ER in *].
    - unfold csegs, go_ci, query_segs. rewrite ER in *. cbn [flat_map app].
      destruct q as [|x| | |f] eqn:EQ; cbn [qend_segs map]; rewrite ?lower_attr; cbn [process_all_opts step_seg s_type s_value s_mods leaf_ci field_seg lower_seg].
      + rewrite Hm. eexists. split; [reflexivity|]. rewrite no_mods. cbn [says r_array r_type r_results]. split; auto.
        eapply f2_map; [exact H|]. intros; now apply element_is, shown_ci_shown.
      + apply finish_ok; auto. now apply attrs_flat.
      + apply finish_ok; auto. cbn [items]. rewrite flat_map_one. eapply f2_map; [exact H|]. intros; now apply text_is, shown_ci_shown.
      + now destruct Hcount.
      + apply (fields_ci_ok E Hord); auto.
    - assert (NE : rest <> []) by (rewrite ER; discriminate). destruct (csegs_more q rest NE) as (nx & more & E1 & MO & K).
      destruct (query_each_ci key l es NE H) as [rs [R1 R2]].
      assert (EX : process_all_opts E false rec key es sg (csegs rest q) = match rs with [] => Ok r_null | _ :: _ => Ok (apply_modifiers E (package rs) (s_mods nx)) end).
      { rewrite E1 in *. cbn [process_all_opts]. rewrite R1. destruct K as [->|[->|[-> _]]]; reflexivity. }
      rewrite EX. replace (match rest with [] => match q with EElement => Many (map element l) | EField f => fields_ci f l | _ => pack (flat_map (fun nd : node => items (go_ci nd)) l) end | _ :: _ => pack (flat_map (fun nd : node => items (go_ci nd)) l) end)
        with (pack (flat_map (fun nd : node => items (go_ci nd)) l)) by (rewrite ER; reflexivity).
      now apply finish_ok.
  Qed.
  Lemma route_ci : forall key sg l es, s_mods sg = [] -> Forall2 shown_ci l es ->
    exists r, route_matches_opts E false rec key es sg (csegs rest q) = Ok r /\ says r (chosen_ci (s_all sg) l).
  Proof.
    intros key sg l es Hm H. unfold route_matches_opts. inversion H as [|nd e l' es' H1 H2]; subst.
    - exists r_null. split; reflexivity.
    - destruct (s_all sg).
      + apply process_all_ci; auto. discriminate.
      + cbn [chosen_ci]. now apply process_first_ci.
  Qed.
  Lemma first_loop_ci : forall key sg l es, rest <> [] -> (forall c all r, rest <> Kid c all :: r) -> Forall2 shown_ci l es ->
    exists r, first_loop_opts E false rec key es sg (csegs rest q) = Ok r /\ says r (first_reply go_ci l).
  Proof.
    intros key sg l es NE NK H. destruct (csegs_more q rest NE) as (nx & more & E1 & MO & K).
    induction H as [|nd e l es H1 H2 IH]; [exists r_null; split; reflexivity|].
    destruct (Hrec NE nd e (child_key site_query e key) H1) as [r [R1 R2]].
    assert (X : first_loop_opts E false rec key (e :: es) sg (csegs rest q) = (if is_null r then first_loop_opts E false rec key es sg (csegs rest q) else Ok r)).
    { rewrite E1 in *. cbn [first_loop_opts]. rewrite R1. cbn [bind]. destruct K as [->|[->|[_ (c & a & t & Q)]]]; auto. now destruct (NK c a t). }
    rewrite X, (says_null _ _ R2). cbn [first_reply]. rewrite <- go_ci_more in * by auto. destruct (go_ci nd); eauto.
  Qed.
  Lemma wildcard_ci : forall key l es, Forall2 shown_ci l es -> (rest = [] -> forall f, q <> EField f) -> l <> [] ->
    exists r, handle_wildcard_opts E false rec key es (csegs rest q) = Ok r /\ says r (pack (flat_map (fun nd => items (go_ci nd)) l)).
  Proof.
    intros key l es H NF NL. destruct rest as [|s0 r0] eqn:ER; [|rewrite <- ER in *].
    - unfold csegs, go_ci, query_segs. rewrite ER in *. cbn [flat_map app].
      destruct q as [|x| | |f] eqn:EQ; cbn [qend_segs map]; rewrite ?lower_attr; cbn [handle_wildcard_opts step_seg s_type s_value s_mods leaf_ci field_seg lower_seg].
      + exists (package (map (fun e => r_element (e_content e)) es)). split; auto.
        assert (K : Forall2 item_is (flat_map (fun nd => items (One (element nd))) l) (map (fun e => r_element (e_content e)) es)).
        { cbn [items]. rewrite flat_map_one. eapply f2_map; [exact H|]. intros; now apply element_is, shown_ci_shown. }
        apply says_pack in K. destruct H; [easy|]. exact K.
      + apply (finish_ok E []); auto. now apply attrs_flat.
      + apply (finish_ok E []); auto. cbn [items]. rewrite flat_map_one. eapply f2_map; [exact H|]. intros; now apply text_is, shown_ci_shown.
      + now destruct Hcount.
      + now destruct (NF eq_refl f).
    - assert (NE : rest <> []) by (rewrite ER; discriminate). destruct (csegs_more q rest NE) as (nx & more & E1 & MO & K).
      destruct (query_each_ci key l es NE H) as [rs [R1 R2]].
      assert (EX : handle_wildcard_opts E false rec key es (csegs rest q) = match rs with [] => Ok r_null | _ :: _ => Ok (apply_modifiers E (package rs) (s_mods nx)) end).
      { rewrite E1 in *. cbn [handle_wildcard_opts]. rewrite R1. destruct K as [->|[->|[-> _]]]; reflexivity. }
      rewrite EX. now apply finish_ok.
  Qed.
  Definition adds_ci (nd : node) : list item := match rest, q with [], EField _ => [] | _, _ => items (go_ci nd) end.
  Hypothesis Hlist : rest = [] -> forall f k s, q = EField f -> rec k false s (csegs rest q) = Ok (r_array []).
  Lemma search_add_ci : forall key nd e, shown_ci nd e -> exists add, search_add_opts E false rec key e (csegs rest q) = Ok add /\ Forall2 item_is (adds_ci nd) add.
  Proof.
    intros key nd e Sh. destruct rest as [|s0 r0] eqn:ER; [|rewrite <- ER in *].
    - pose proof (fun f => Hlist eq_refl f (child_key site_query e key) (e_content e)) as HL.
      unfold adds_ci, csegs, go_ci, query_segs in *. rewrite ER in *. cbn [flat_map app] in *.
      destruct q as [|x| | |f] eqn:EQ; cbn [qend_segs map] in *; rewrite ?lower_attr in *; cbn [search_add_opts step_seg s_type s_value s_mods leaf_ci field_seg lower_seg] in *.
      + eexists. split; [reflexivity|]. constructor; auto. now apply element_is, shown_ci_shown.
      + eexists. split; [reflexivity|]. pose proof (attribute_all_ci E Hord x nd e key Sh) as A. unfold attribute_ci in *. destruct (filter _ (attrs_of nd)); auto.
      + eexists. split; [reflexivity|]. constructor; auto. now apply text_is, shown_ci_shown.
      + now destruct Hcount.
      + rewrite (HL f eq_refl). cbn [bind]. eexists. split; [reflexivity|]. constructor.
    - assert (NE : rest <> []) by (rewrite ER; discriminate). unfold adds_ci. rewrite go_ci_more by auto. destruct (csegs_more q rest NE) as (nx & more & E1 & MO & K).
      destruct (Hrec NE nd e (child_key site_query e key) Sh) as [r [R1 R2]]. exists (flatten1 r). split.
      + rewrite E1 in *. cbn [search_add_opts]. rewrite R1. destruct K as [->|[->|[-> _]]]; auto.
      + replace (match rest with [] => match q with EField _ => [] | _ => items (ask_ci sat q rest (kids_of nd)) end | _ :: _ => items (ask_ci sat q rest (kids_of nd)) end)
          with (items (ask_ci sat q rest (kids_of nd))) by (rewrite ER; reflexivity). now apply says_flat.
  Qed.
End Case.
