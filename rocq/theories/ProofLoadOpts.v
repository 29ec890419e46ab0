(** Lemmas for C84: erasing the count of elements under options, and its bound. *)
From Coq Require Import List Ascii String NArith ZArith Bool Lia SpecFloat Permutation.
From Verif Require Import GoStr ModelParser ModelPattern ModelPath ModelPretty ModelResult ModelQuery ModelBuilder ModelQueryOpts ModelWork ModelLoad ModelLoadOpts SpecText SpecPath SpecTree SpecGrammar SpecScan SpecWork SpecLoad
  ProofBase ProofScan ProofFuel ProofGrammar2 ProofSight3 ProofModest ProofWork ProofWork2 ProofLoad.
Import ListNotations.

Lemma oerase_children : forall E cs key f l, erase (lfield_children_opts E cs key f l) = field_children_opts E cs key f l.
Proof.
  intros E cs key f l. induction l as [|e l IH]; [reflexivity|]. cbn [lfield_children_opts field_children_opts]. rewrite erase_bind, erase_scan. apply bind_ext; auto. intros es.
  rewrite erase_bind, IH. apply bind_ext; auto.
Qed.
Lemma oerase_extract : forall E cs key l sg, erase (lfield_extract_opts E cs key l sg) = field_extract_opts E cs key l sg.
Proof.
  intros E cs key l sg. unfold lfield_extract_opts, field_extract_opts. destruct (s_field sg) as [|c n] eqn:F; [reflexivity|]. rewrite erase_bind. apply bind_ext.
  - destruct (Ascii.eqb c "@"); [reflexivity|]. destruct (bytes_eqb _ _); [reflexivity|]. apply oerase_children.
  - intros all. destruct (firstn _ all); reflexivity.
Qed.
Section Erase.
  Variable E : env.
  Variable cs : bool.
  Variable p w : wrec.
  Variable q r : qrec.
  Hypothesis WP : forall key root s segs, erase (p key root s segs) = q key root s segs.
  Hypothesis WR : forall key root s segs, erase (w key root s segs) = r key root s segs.
  Ltac er := repeat first [rewrite erase_ret|rewrite erase_lift|rewrite erase_bind|rewrite WR].
  Lemma oerase_first : forall key e sg rest, erase (lprocess_first_opts E cs w key e sg rest) = process_first_opts E cs r key e sg rest.
  Proof.
    intros key e sg [|nx more]; [reflexivity|]. cbn [lprocess_first_opts process_first_opts].
    destruct (s_type nx); try apply WR; try reflexivity; [destruct (attr_lookup _ _ _ _ _); reflexivity|apply oerase_extract].
  Qed.
  Lemma oerase_all : forall key l sg rest, erase (lprocess_all_opts E cs w key l sg rest) = process_all_opts E cs r key l sg rest.
  Proof.
    intros key l sg [|nx more]; [reflexivity|]. cbn [lprocess_all_opts process_all_opts].
    destruct (s_type nx); try apply oerase_extract; try (destruct (flat_map _ l); reflexivity); try (destruct (map _ l); reflexivity);
      er; rewrite (erase_each w r WR); apply bind_ext; auto; intros [|x xs]; reflexivity.
  Qed.
  Lemma oerase_route : forall key l sg rest, erase (lroute_matches_opts E cs w key l sg rest) = route_matches_opts E cs r key l sg rest.
  Proof. intros key [|e l] sg rest; [reflexivity|]. cbn [lroute_matches_opts route_matches_opts]. destruct (s_all sg); [apply oerase_all|apply oerase_first]. Qed.
  Lemma oerase_wildcard : forall key l rest, erase (lhandle_wildcard_opts E cs w key l rest) = handle_wildcard_opts E cs r key l rest.
  Proof.
    intros key l [|nx more]; [reflexivity|]. cbn [lhandle_wildcard_opts handle_wildcard_opts].
    destruct (s_type nx); try (destruct more; [destruct (flat_map _ l)|]; reflexivity); try (destruct (map _ l); reflexivity);
      er; rewrite (erase_each w r WR); apply bind_ext; auto; intros [|x xs]; reflexivity.
  Qed.
  Lemma oerase_add : forall key e rest, erase (lsearch_add_opts E cs w key e rest) = search_add_opts E cs r key e rest.
  Proof.
    intros key e [|nx more]; [reflexivity|]. cbn [lsearch_add_opts search_add_opts]. destruct (s_type nx); try reflexivity; er; apply bind_ext; auto.
  Qed.
  Lemma oerase_search : forall n key target rest st s, erase (lrsearch_opts E cs w n key target rest st s) = rsearch_opts E cs r n key target rest st s.
  Proof.
    induction n as [|n IH]; intros key target rest st s; cbn [lrsearch_opts rsearch_opts]; rewrite erase_tick; [reflexivity|]. cbv zeta.
    destruct (_ || _); [reflexivity|]. rewrite erase_bind, erase_scan. apply bind_ext; auto. intros es. generalize ((fst st + 1)%N, snd st). induction es as [|e es IHe]; intros st'; [reflexivity|].
    er. apply bind_ext.
    - destruct (e_content e) as [|c0 l0]; [reflexivity|]. apply IH.
    - intros st1. destruct (_ <=? _)%N; [reflexivity|]. destruct (seg_matches_opts _ _ _); [|apply IHe]. destruct (Nat.leb _ _); [reflexivity|]. er. rewrite oerase_add.
      apply bind_ext; auto.
  Qed.
  Lemma oerase_recursive : forall key rest s, erase (lhandle_recursive_opts E cs w key rest s) = handle_recursive_opts E cs r key rest s.
  Proof. intros key [|t rest] s; [reflexivity|]. cbn [lhandle_recursive_opts handle_recursive_opts]. er. rewrite oerase_search. apply bind_ext; auto. intros st. destruct (snd st); reflexivity. Qed.
  Lemma oerase_root : forall key l nx more, erase (lroot_array_opts E cs w key l nx more) = root_array_opts E cs r key l nx more.
  Proof.
    intros key [|e l] nx more; [reflexivity|]. cbn [lroot_array_opts root_array_opts]. destruct (s_type nx); try reflexivity; [|apply oerase_extract].
    destruct (nth_elem _ _); [|reflexivity]. destruct more as [|n2 more]; [reflexivity|]. destruct (s_type n2); try apply WR; reflexivity.
  Qed.
  Lemma oerase_array : forall key l nx more, erase (larray_op_opts E cs w key l nx more) = array_op_opts E cs r key l nx more.
  Proof.
    intros key [|e l] nx more; [reflexivity|]. cbn [larray_op_opts array_op_opts]. destruct (s_type nx); try reflexivity.
    destruct (nth_elem _ _); [|reflexivity]. destruct more as [|n2 more]; [reflexivity|]. destruct (s_type n2); try apply WR; reflexivity.
  Qed.
  Lemma oerase_loop : forall key l sg rest, erase (lfirst_loop_opts E cs w key l sg rest) = first_loop_opts E cs r key l sg rest.
  Proof.
    intros key l sg rest. induction l as [|e l IH]; [reflexivity|]. cbn [lfirst_loop_opts first_loop_opts]. destruct rest as [|nx more]; [reflexivity|].
    destruct (s_type nx); try reflexivity; try (destruct (attr_lookup _ _ _ _ _); [destruct more|]; reflexivity); er; apply bind_ext; auto; intros x; destruct (is_null x); auto.
  Qed.
  Lemma oerase_element : forall key es sg rest, erase (lexec_element_opts E cs p w key es sg rest) = exec_element_opts E cs q r key es sg rest.
  Proof.
    intros key es sg rest. unfold lexec_element_opts, exec_element_opts. cbv zeta. destruct rest as [|nx more]; [apply oerase_loop|].
    destruct (s_type nx); try apply oerase_loop; try apply oerase_array; try apply oerase_extract.
    er. rewrite (erase_filter E p q WP). apply bind_ext; auto. intros l. apply oerase_route.
  Qed.
  Lemma oerase_body : forall key root s segs, erase (lexec_body_opts E cs p w key root s segs) = exec_body_opts E cs q r key root s segs.
  Proof.
    intros key root s [|sg rest]; [reflexivity|]. cbn [lexec_body_opts exec_body_opts]. er. apply bind_ext; auto. intros es. cbv zeta. destruct (s_type sg); try reflexivity; try rewrite erase_cost; try reflexivity.
    - destruct (root && cs), rest as [|nx more]; try apply oerase_element. destruct (s_type nx); try apply oerase_element; apply oerase_root.
    - destruct (s_wild sg); [apply oerase_recursive|]. rewrite erase_cost. destruct (firstn _ es); [reflexivity|]. apply oerase_wildcard.
    - er. rewrite (erase_filter_upto E p q WP). apply bind_ext; auto. intros l. apply oerase_route.
  Qed.
End Erase.
Lemma oerase_exec : forall E cs f key root s segs, erase (lexec_opts E cs f key root s segs) = exec_opts E cs f key root s segs.
Proof. induction f as [|f IH]; intros key root s segs; [reflexivity|]. cbn [lexec_opts exec_opts]. apply oerase_body; [apply lerase_exec|exact IH]. Qed.
Lemma oerase_get : forall E o xml path, erase (lget_opts E o xml path) = get_opts E o xml path.
Proof.
  intros E o xml path. unfold lget_opts, get_opts. destruct (_ <? _)%N; [reflexivity|]. destruct (is_default_options o); rewrite erase_bind, erase_lift; apply bind_ext; auto;
    intros [|sg l]; try reflexivity; [apply lerase_exec|apply oerase_exec].
Qed.

(** ** The bound *)
Definition seg_under (cs : bool) (x : gstep * list bytes) : seg := if cs then seg_of x else lower_seg (seg_of x).
Lemma under_type : forall cs x, s_type (seg_under cs x) = s_type (seg_of x).
Proof. intros [|] x; [reflexivity|]. unfold seg_under, lower_seg. destruct (s_type (seg_of x)) eqn:T; cbn; congruence. Qed.
Lemma under_wild : forall cs x, s_wild (seg_under cs x) = s_wild (seg_of x).
Proof. intros [|] x; [reflexivity|]. unfold seg_under, lower_seg. destruct (s_type (seg_of x)) eqn:T; cbn; congruence. Qed.
Lemma under_filter : forall cs x, s_filter (seg_under cs x) = s_filter (seg_of x).
Proof. intros [|] x; [reflexivity|]. unfold seg_under, lower_seg. destruct (s_type (seg_of x)) eqn:T; cbn; congruence. Qed.
Definition worthy (cs : bool) (segs : list seg) (n : N) : Prop := exists l, segs = map (seg_under cs) l /\ effort l n.
Lemma worthy_as : forall cs sg rest n, worthy cs (sg :: rest) n -> exists sg' rest', worth (sg' :: rest') n /\
  s_type sg' = s_type sg /\ s_wild sg' = s_wild sg /\ s_filter sg' = s_filter sg /\ (forall n', worth rest' n' -> worthy cs rest n').
Proof.
  intros cs sg rest n (l & Q & H). destruct l as [|x l]; [discriminate|]. injection Q as -> ->. exists (seg_of x), (map seg_of l). split; [exists (x :: l); auto|].
  rewrite under_type, under_wild, under_filter. repeat split; auto. intros n' (l' & Q & H'). exists l'. split; auto.
  assert (G : forall a b, map seg_of a = map seg_of b -> map (seg_under cs) a = map (seg_under cs) b).
  { intros a b G. destruct cs; [exact G|]. change (map (seg_under false) a) with (map (fun x => lower_seg (seg_of x)) a). change (map (seg_under false) b) with (map (fun x => lower_seg (seg_of x)) b).
    rewrite <- !(map_map seg_of lower_seg). now rewrite G. }
  now apply G.
Qed.
Lemma worthy_tail : forall cs sg rest n, worthy cs (sg :: rest) n -> exists n', worthy cs rest n' /\ (1 + n' <= n)%N.
Proof. intros cs sg rest n H. apply worthy_as in H as (sg' & rest' & H & _ & _ & _ & G). apply worth_tail in H as (n' & H & L). eauto. Qed.
Lemma worthy_pos : forall cs sg rest n, worthy cs (sg :: rest) n -> (1 <= n)%N.
Proof. intros cs sg rest n H. apply worthy_tail in H as (n' & _ & H). lia. Qed.
Lemma worthy_deep : forall cs sg rest n, worthy cs (sg :: rest) n -> s_type sg = SWild -> s_wild sg = true -> exists n', worthy cs rest n' /\ (102 * (1 + n') <= n)%N.
Proof.
  intros cs sg rest n H T Wd. apply worthy_as in H as (sg' & rest' & H & T' & W' & _ & G). rewrite <- T' in T. rewrite <- W' in Wd. destruct (worth_deep _ _ _ H T Wd) as (n' & H1 & H2). eauto.
Qed.
Lemma worthy_filter : forall E, (forall k l, Permutation l (e_ord E k l)) -> forall p, (forall n key root s segs, worth segs n -> within (n * (1 + brackets s)) (p key root s segs)) ->
  forall cs sg rest n, worthy cs (sg :: rest) n -> exists m n', worthy cs rest n' /\ (1 + m + n' <= n)%N /\
    forall key l, within (m * weight l) (wfilter_elems E p key (s_filter sg) l) /\ forall k, within (m * weight l) (wfilter_elems_upto k E p key (s_filter sg) l).
Proof.
  intros E P p WP cs sg rest n H. apply worthy_as in H as (sg' & rest' & H & _ & _ & F & G). destruct (filter_load E p WP _ _ _ H) as (m & n' & H1 & H2 & H3).
  exists m, n'. split; auto. split; auto. rewrite <- F. exact H3.
Qed.

Section Upper.
  Variable E : env.
  Hypothesis Hord : forall k l, Permutation l (e_ord E k l).
  Variable cs : bool.
  Lemma ochildren_load : forall key f l, within (weight l) (lfield_children_opts E cs key f l).
  Proof.
    intros key f l. induction l as [|e l IH]; [apply within_ret|]. cbn [lfield_children_opts weight]. apply within_bind. exists (1 + brackets (e_content e))%N, (weight l).
    split; [apply (pass_load E Hord)|]. split; [|lia]. intros x c _. apply within_then; [exact IH|]. intros; apply free_ret.
  Qed.
  Lemma oextract_load : forall key l sg, within (weight l) (lfield_extract_opts E cs key l sg).
  Proof.
    intros key l sg. unfold lfield_extract_opts. destruct (s_field sg); [apply within_ret|]. apply within_then; [|intros all; destruct (firstn _ all); apply free_ret].
    destruct (Ascii.eqb _ _); [apply within_ret|]. destruct (bytes_eqb _ _); [apply within_ret|]. apply ochildren_load.
  Qed.
  Variable p w : wrec.
  Hypothesis WP : forall n key root s segs, worth segs n -> within (n * (1 + brackets s)) (p key root s segs).
  Hypothesis WB : forall n key root s segs, worthy cs segs n -> within (n * (1 + brackets s)) (w key root s segs).
  Lemma ofirst_load : forall n key e sg rest, worthy cs rest n -> within (n * (1 + brackets (e_content e))) (lprocess_first_opts E cs w key e sg rest).
  Proof.
    intros n key e sg [|nx more] H; [apply within_ret|]. cbn [lprocess_first_opts]. pose proof (worthy_pos _ _ _ _ H).
    destruct (s_type nx); try (apply WB; exact H); try apply within_ret; [destruct (attr_lookup _ _ _ _ _); apply within_ret|].
    eapply within_le; [apply oextract_load|]. cbn [weight]. apply times; lia.
  Qed.
  Lemma oeach_load : forall n key l rest, worthy cs rest n -> within (n * weight l) (wquery_each w key l rest).
  Proof.
    intros n key l rest H. induction l as [|e l IH]; [apply within_ret|]. cbn [wquery_each weight]. apply within_bind. exists (n * (1 + brackets (e_content e)))%N, (n * weight l)%N.
    split; [apply WB, H|]. split; [|lia]. intros x c _. apply within_then; [exact IH|]. intros; apply free_ret.
  Qed.
  Lemma oall_load : forall n key l sg rest, worthy cs rest n -> within (n * weight l) (lprocess_all_opts E cs w key l sg rest).
  Proof.
    intros n key l sg [|nx more] H; [apply within_ret|]. cbn [lprocess_all_opts]. pose proof (worthy_pos _ _ _ _ H).
    destruct (s_type nx); try (destruct (flat_map _ l); apply within_ret); try (destruct (map _ l); apply within_ret);
      try (apply within_then; [apply oeach_load, H|]; intros [|x xs]; apply free_ret).
    eapply within_le; [apply oextract_load|]. apply times; lia.
  Qed.
  Lemma oroute_load : forall n key l sg rest, worthy cs rest n -> within (n * weight l) (lroute_matches_opts E cs w key l sg rest).
  Proof.
    intros n key [|e l] sg rest H; [apply within_ret|]. cbn [lroute_matches_opts]. destruct (s_all sg); [now apply oall_load|]. eapply within_le; [apply ofirst_load; exact H|].
    cbn [weight]. apply N.mul_le_mono_l. lia.
  Qed.
  Lemma owildcard_load : forall n key l rest, worthy cs rest n -> within (n * weight l) (lhandle_wildcard_opts E cs w key l rest).
  Proof.
    intros n key l [|nx more] H; [apply within_ret|]. cbn [lhandle_wildcard_opts].
    destruct (s_type nx); try (destruct more; [destruct (flat_map _ l)|]; apply within_ret); try (destruct (map _ l); apply within_ret);
      (apply within_then; [apply oeach_load, H|]; intros [|x xs]; apply free_ret).
  Qed.
  Lemma oadd_load : forall n key e rest, worthy cs rest n -> within (n * (1 + brackets (e_content e))) (lsearch_add_opts E cs w key e rest).
  Proof.
    intros n key e [|nx more] H; [apply within_ret|]. cbn [lsearch_add_opts].
    destruct (s_type nx); try apply within_ret; (apply within_then; [|intros; apply free_ret]); apply WB, H.
  Qed.
  Lemma osearch_load : forall m n key target rest st s, worthy cs rest m -> within ((1 + N.of_nat n * (1 + m)) * (1 + brackets s)) (lrsearch_opts E cs w n key target rest st s).
  Proof.
    intros m. induction n as [|n IH]; intros key target rest st s H st' c Q; cbn [lrsearch_opts] in Q; apply wtick_ok in Q as (c' & Q & ->); cbv zeta in Q.
    - apply wret_ok in Q as [-> ->]. lia.
    - destruct (_ || _); [apply wret_ok in Q as [-> ->]; nia|].
      apply wbind_ok in Q as (es & c1 & c2 & Q1 & Q & ->). unfold lscan in Q1. apply bind_ok in Q1 as (es' & Q1 & Q2). assert (c1 = 1 + N.of_nat (List.length es))%N as -> by congruence. assert (es' = es) as -> by congruence. clear Q2. apply (scan_load E Hord) in Q1 as [Q1 Q2].
      assert (G : (c2 <= (1 + N.of_nat n * (1 + m) + m) * weight es)%N).
      { clear Q1 Q2. revert Q. generalize ((fst st + 1)%N, snd st). revert c2. induction es as [|e es IHe]; intros c2 s0 Q; [apply wret_ok in Q as [-> ->]; lia|].
        apply wbind_ok in Q as (st1 & ca & cb & Q1 & Q & ->). cbn [weight].
        assert (G : (ca <= (1 + N.of_nat n * (1 + m)) * (1 + brackets (e_content e)))%N).
        { destruct (e_content e) as [|b0 l0] eqn:C; [apply wret_ok in Q1 as [-> ->]; lia|]. rewrite <- C in *. eapply IH; eauto. }
        assert (G2 : (cb <= m * (1 + brackets (e_content e)) + (1 + N.of_nat n * (1 + m) + m) * weight es)%N).
        { destruct (_ <=? _)%N; [apply wret_ok in Q as [-> ->]; lia|]. destruct (seg_matches_opts _ _ _).
          - destruct (Nat.leb _ _); [apply wret_ok in Q as [-> ->]; lia|]. apply wbind_ok in Q as (add & cc & cd & Q2 & Q & ->).
            apply (oadd_load m) in Q2; [|exact H]. apply IHe in Q. lia.
          - apply IHe in Q. lia. }
        lia. }
      rewrite Nnat.Nat2N.inj_succ. assert (X : forall a b z l, (c2 <= (1 + a * (1 + m) + m) * z)%N -> (z <= b)%N -> (1 + l <= 1 + b)%N -> (1 + (1 + l + c2) <= (1 + N.succ a * (1 + m)) * (1 + b))%N) by (intros; nia).
      eapply X; eassumption.
  Qed.
  Lemma oroot_load : forall n key l nx more, worthy cs more n -> within ((1 + n) * weight l) (lroot_array_opts E cs w key l nx more).
  Proof.
    intros n key l nx more H. assert (G : forall e rest key, In e l -> worthy cs rest n -> within ((1 + n) * weight l) (w key false (e_content e) rest)).
    { intros e rest key' I C. eapply within_le; [apply WB; exact C|]. pose proof (weight_in e l I). nia. }
    destruct l as [|e l]; [apply within_ret|]. cbn [lroot_array_opts]. destruct (s_type nx); try apply within_ret.
    - unfold nth_elem. destruct (_ && _)%bool; [|apply within_ret]. destruct (nth_error (e :: l) _) as [e'|] eqn:X; [|apply within_ret]. apply nth_error_In in X.
      destruct more as [|n2 more]; [apply within_ret|]. destruct (s_type n2); try (apply G; assumption); apply within_ret.
    - eapply within_le; [apply oextract_load|]. lia.
  Qed.
  Lemma oarray_load : forall n key l nx more, worthy cs more n -> within (n * weight l) (larray_op_opts E cs w key l nx more).
  Proof.
    intros n key l nx more H. assert (G : forall e rest key, In e l -> worthy cs rest n -> within (n * weight l) (w key false (e_content e) rest)).
    { intros e rest key' I C. eapply within_le; [apply WB; exact C|]. apply N.mul_le_mono_l. now apply weight_in. }
    destruct l as [|e l]; [apply within_ret|]. cbn [larray_op_opts]. destruct (s_type nx); try apply within_ret.
    unfold nth_elem. destruct (_ && _)%bool; [|apply within_ret]. destruct (nth_error (e :: l) _) as [e'|] eqn:X; [|apply within_ret]. apply nth_error_In in X.
    destruct more as [|n2 more]; [apply within_ret|]. destruct (s_type n2); try (apply G; assumption); apply within_ret.
  Qed.
  Lemma oloop_load : forall n key l sg rest, worthy cs rest n -> within (n * weight l) (lfirst_loop_opts E cs w key l sg rest).
  Proof.
    intros n key l sg rest H. induction l as [|e l IH]; [apply within_ret|]. cbn [lfirst_loop_opts]. destruct rest as [|nx more]; [apply within_ret|].
    destruct (s_type nx); try apply within_ret; try (destruct (attr_lookup _ _ _ _ _); [destruct more|]; apply within_ret);
      (apply within_bind; exists (n * (1 + brackets (e_content e)))%N, (n * weight l)%N; split; [apply WB, H|split; [|cbn [weight]; lia]]; intros x c _;
       destruct (is_null x); [exact IH|apply within_ret]).
  Qed.
  Lemma oelement_load : forall n key es sg rest, worthy cs rest n -> within (n * weight es) (lexec_element_opts E cs p w key es sg rest).
  Proof.
    intros n key es sg rest H. unfold lexec_element_opts. cbv zeta. set (ms := filter _ es).
    assert (M : (weight ms <= weight es)%N) by apply weight_filter.
    assert (C : (weight (firstn MaxWildcardResults ms) <= weight es)%N) by (pose proof (weight_firstn MaxWildcardResults ms); lia).
    assert (ML : within (n * weight es) (lfirst_loop_opts E cs w key ms sg rest)) by (eapply within_le; [apply oloop_load; exact H|now apply N.mul_le_mono_l]).
    clearbody ms. destruct rest as [|nx more]; [exact ML|]. destruct (worthy_tail _ _ _ _ H) as (n' & H' & L'). pose proof (worthy_pos _ _ _ _ H).
    destruct (s_type nx); try exact ML; try (eapply within_le; [apply oarray_load; exact H'|nia]).
    - destruct (worthy_filter E Hord p WP _ _ _ _ H) as (m & n2 & H2 & L2 & F2). apply within_bind. exists (m * weight (firstn MaxWildcardResults ms))%N, (n2 * weight es)%N.
      split; [apply F2|]. split; [|nia]. intros l c F. apply filter_weight in F. eapply within_le; [apply oroute_load; exact H2|]. apply N.mul_le_mono_l. lia.
    - eapply within_le; [apply oextract_load|]. apply times; lia.
  Qed.
  Lemma obody_load : forall n key root s segs, worthy cs segs n -> within (n * (1 + brackets s)) (lexec_body_opts E cs p w key root s segs).
  Proof.
    intros n key root s [|sg rest] H; [apply within_ret|]. cbn [lexec_body_opts]. apply within_after; [apply free_lift|]. intros es c S. apply wlift_ok in S as [S _]. apply (scan_load E Hord) in S as [S1 S2].
    cbv zeta. destruct (worthy_tail _ _ _ _ H) as (n' & H' & L'). pose proof (worthy_pos _ _ _ _ H) as NP.
    assert (P : forall k (m : W result), within k m -> (k <= (n - 1) * brackets s)%N -> within (n * (1 + brackets s)) (wcost (1 + N.of_nat (List.length es)) m)) by (intros k m K1 K2; eapply within_cost; [exact K1|nia]).
    pose proof (worthy_deep _ _ _ _ H) as D. destruct (s_type sg) eqn:T; try apply within_ret; try (apply (P 0%N); [apply within_ret|apply N.le_0_l]).
    - assert (EC : within (n' * weight es) (lexec_element_opts E cs p w key es sg rest)) by (apply oelement_load; exact H').
      apply (P (n' * weight es)%N); [|nia]. destruct (root && cs), rest as [|nx more]; try exact EC. destruct (worthy_tail _ _ _ _ H') as (n2 & H2 & L2).
      assert (RC : within (n' * weight es) (lroot_array_opts E cs w key (firstn MaxWildcardResults (filter (fun e => bytes_eqb (e_name e) (s_value sg)) es)) nx more)).
      { eapply within_le; [apply oroot_load; exact H2|]. apply N.mul_le_mono; [exact L2|]. etransitivity; [apply weight_firstn|]. apply weight_filter. }
      destruct (s_type nx); try exact EC; exact RC.
    - destruct (s_wild sg).
      + destruct (D eq_refl eq_refl) as (n2 & H2 & L2). destruct rest as [|nx more]; [apply within_ret|]. cbn [lhandle_recursive_opts]. apply within_then; [|intros z; destruct (snd z); apply free_ret].
        destruct (worthy_tail _ _ _ _ H2) as (n3 & H3 & L3). change (Datatypes.S MaxNestingDepth) with 101. eapply within_le; [apply (osearch_load n3); exact H3|].
        apply N.mul_le_mono_r. change (N.of_nat 101) with 101%N. lia.
      + apply (P (n' * weight es)%N); [|nia]. destruct (firstn _ es) as [|e0 l0] eqn:F; [apply within_ret|]. eapply within_le; [apply owildcard_load, H'|].
        rewrite <- F. apply N.mul_le_mono_l. apply weight_firstn.
    - destruct (worthy_filter E Hord p WP _ _ _ _ H) as (m & n2 & H2 & L2 & F2). apply (P ((m + n2) * weight es)%N); [|nia]. apply within_bind. exists (m * weight es)%N, (n2 * weight es)%N.
      split; [apply F2|]. split; [|lia]. intros l c' F. apply filter_upto_weight in F. eapply within_le; [apply oroute_load; exact H2|]. apply N.mul_le_mono_l. lia.
  Qed.
End Upper.
Lemma oload_exec : forall E cs, (forall k l, Permutation l (e_ord E k l)) -> forall f n key root s segs, worthy cs segs n -> within (n * (1 + brackets s)) (lexec_opts E cs f key root s segs).
Proof.
  intros E cs Hord. induction f as [|f IH]; intros n key root s segs H; [intros x c Q; discriminate|]. cbn [lexec_opts]. apply obody_load; auto. intros. now apply load_exec.
Qed.
