(** Lemmas for C82: erasing the count of elements, and its bound. *)
From Coq Require Import List Ascii String NArith ZArith Bool Lia SpecFloat Permutation.
From Verif Require Import GoStr ModelParser ModelPattern ModelPath ModelPretty ModelResult ModelQuery ModelWork ModelLoad SpecText SpecPath SpecTree SpecGrammar SpecScan SpecWork SpecLoad
  ProofBase ProofScan ProofFuel ProofGrammar2 ProofSight3 ProofModest ProofWork ProofWork2.
Import ListNotations.

Lemma erase_cost : forall A c (m : W A), erase (wcost c m) = erase m.
Proof. intros A c [x| |]; reflexivity. Qed.
Lemma erase_scan : forall E key s, erase (lscan E key s) = scan_res E key s.
Proof. intros E key s. unfold lscan, erase. destruct (scan_res E key s); reflexivity. Qed.
Lemma erase_children : forall E key f l, erase (lfield_children E key f l) = field_children E key f l.
Proof.
  intros E key f l. induction l as [|e l IH]; [reflexivity|]. cbn [lfield_children field_children]. rewrite erase_bind, erase_scan. apply bind_ext; auto. intros cs.
  rewrite erase_bind, IH. apply bind_ext; auto.
Qed.
Lemma erase_extract : forall E key l sg, erase (lfield_extract E key l sg) = field_extract E key l sg.
Proof.
  intros E key l sg. unfold lfield_extract, field_extract. destruct (s_field sg) as [|c n] eqn:F; [reflexivity|]. rewrite erase_bind. apply bind_ext.
  - destruct (Ascii.eqb c "@"); [reflexivity|]. destruct (bytes_eqb _ _); [reflexivity|]. apply erase_children.
  - intros all. destruct (firstn _ all); reflexivity.
Qed.
Section Erase.
  Variable E : env.
  Variable w : wrec.
  Variable r : qrec.
  Hypothesis WR : forall key root s segs, erase (w key root s segs) = r key root s segs.
  Ltac er := repeat first [rewrite erase_ret|rewrite erase_lift|rewrite erase_bind|rewrite WR].
  Lemma lerase_first : forall key e sg rest, erase (lprocess_first E w key e sg rest) = process_first E r key e sg rest.
  Proof.
    intros key e sg [|nx more]; [reflexivity|]. cbn [lprocess_first process_first].
    destruct (s_type nx); try apply WR; try reflexivity; [destruct (map_get _ _); reflexivity|apply erase_extract].
  Qed.
  Lemma lerase_all : forall key l sg rest, erase (lprocess_all E w key l sg rest) = process_all E r key l sg rest.
  Proof.
    intros key l sg [|nx more]; [reflexivity|]. cbn [lprocess_all process_all].
    destruct (s_type nx); try apply erase_extract; try (destruct (flat_map _ l); reflexivity); try (destruct (map _ l); reflexivity);
      er; rewrite (erase_each w r WR); apply bind_ext; auto; intros [|x xs]; reflexivity.
  Qed.
  Lemma lerase_route : forall key l sg rest, erase (lroute_matches E w key l sg rest) = route_matches E r key l sg rest.
  Proof. intros key [|e l] sg rest; [reflexivity|]. cbn [lroute_matches route_matches]. destruct (s_all sg); [apply lerase_all|apply lerase_first]. Qed.
  Lemma lerase_add : forall key e rest, erase (lsearch_add E w key e rest) = search_add E r key e rest.
  Proof.
    intros key e [|nx more]; [reflexivity|]. cbn [lsearch_add search_add]. destruct (s_type nx); try reflexivity; er; rewrite ?erase_extract; apply bind_ext; auto.
  Qed.
  Lemma lerase_search : forall n key target rest st s, erase (lrsearch E w n key target rest st s) = rsearch E r n key target rest st s.
  Proof.
    induction n as [|n IH]; intros key target rest st s; cbn [lrsearch rsearch]; rewrite erase_tick; [reflexivity|]. cbv zeta.
    destruct (_ || _); [reflexivity|]. rewrite erase_bind, erase_scan. apply bind_ext; auto. intros es. generalize ((fst st + 1)%N, snd st). induction es as [|e es IHe]; intros st'; [reflexivity|].
    er. apply bind_ext.
    - destruct (e_content e) as [|c0 l0]; [reflexivity|]. apply IH.
    - intros st1. destruct (_ <=? _)%N; [reflexivity|]. destruct (seg_matches _ _); [|apply IHe]. destruct (Nat.leb _ _); [reflexivity|]. er. rewrite lerase_add.
      apply bind_ext; auto.
  Qed.
  Lemma lerase_recursive : forall key rest s, erase (lhandle_recursive E w key rest s) = handle_recursive E r key rest s.
  Proof. intros key [|t rest] s; [reflexivity|]. cbn [lhandle_recursive handle_recursive]. er. rewrite lerase_search. apply bind_ext; auto. intros st. destruct (snd st); reflexivity. Qed.
  Lemma lerase_root : forall key l nx more, erase (lroot_array E w key l nx more) = root_array E r key l nx more.
  Proof.
    intros key [|e l] nx more; [reflexivity|]. cbn [lroot_array root_array]. destruct (s_type nx); try reflexivity; [|apply erase_extract].
    destruct (nth_elem _ _); [|reflexivity]. destruct more as [|n2 more]; [reflexivity|]. destruct (s_type n2); try apply WR; reflexivity.
  Qed.
  Lemma lerase_element : forall key es sg rest, erase (lexec_element E w key es sg rest) = exec_element E r key es sg rest.
  Proof.
    intros key es sg rest. unfold lexec_element, exec_element. cbv zeta. destruct rest as [|nx more]; [apply (erase_loop E w r WR)|].
    destruct (s_type nx); try apply (erase_loop E w r WR); try apply (erase_array E w r WR); try apply erase_extract.
    er. rewrite (erase_filter E w r WR). apply bind_ext; auto. intros l. apply lerase_route.
  Qed.
  Lemma lerase_body : forall key root s segs, erase (lexec_body E w key root s segs) = exec_body E r key root s segs.
  Proof.
    intros key root s [|sg rest]; [reflexivity|]. cbn [lexec_body exec_body]. er. apply bind_ext; auto. intros es. cbv zeta. destruct (s_type sg); try reflexivity; try rewrite erase_cost; try reflexivity.
    - destruct root, rest as [|nx more]; try apply lerase_element. destruct (s_type nx); try apply lerase_element; apply lerase_root.
    - destruct (s_wild sg); [apply lerase_recursive|]. rewrite erase_cost. destruct (firstn _ es); [reflexivity|]. er. rewrite (erase_wildcard E w r WR). apply bind_ext; auto.
    - er. rewrite (erase_filter_upto E w r WR). apply bind_ext; auto. intros l. apply lerase_route.
  Qed.
End Erase.
Lemma lerase_exec : forall E f key root s segs, erase (lexec E f key root s segs) = exec E f key root s segs.
Proof. induction f as [|f IH]; intros key root s segs; [reflexivity|]. cbn [lexec exec]. apply lerase_body. exact IH. Qed.
Lemma lerase_get : forall E xml path, erase (lget E xml path) = ModelQuery.get E xml path.
Proof.
  intros E xml path. unfold lget, ModelQuery.get. destruct (_ <? _)%N; [reflexivity|]. rewrite erase_bind, erase_lift. apply bind_ext; auto.
  intros [|sg l]; [reflexivity|]. apply lerase_exec.
Qed.

(** ** The bound *)
Definition worth (segs : list seg) (n : N) : Prop := exists l, segs = map seg_of l /\ effort l n.
Lemma worth_nil : worth [] 0.
Proof. exists []. split; [reflexivity|constructor]. Qed.
Lemma worth_tail : forall sg rest n, worth (sg :: rest) n -> exists n', worth rest n' /\ (1 + n' <= n)%N.
Proof.
  intros sg rest n (l & Q & H). destruct l as [|st l]; [discriminate|]. injection Q as -> ->.
  inversion H; subst; eexists; (split; [exists l; split; [reflexivity|eassumption]|lia]).
Qed.
Lemma worth_pos : forall sg rest n, worth (sg :: rest) n -> (1 <= n)%N.
Proof. intros sg rest n H. apply worth_tail in H as (n' & _ & H). lia. Qed.
Lemma worth_deep : forall sg rest n, worth (sg :: rest) n -> s_type sg = SWild -> s_wild sg = true -> exists n', worth rest n' /\ (102 * (1 + n') <= n)%N.
Proof.
  intros sg rest n (l & Q & H) T Wd. destruct l as [|[st ms] l]; [discriminate|]. injection Q as -> ->. destruct st; try discriminate.
  inversion H; subst; [congruence|]. eexists. split; [exists l; split; [reflexivity|eassumption]|lia].
Qed.
Lemma worth_where : forall sg rest n f, worth (sg :: rest) n -> s_filter sg = Some f -> exists m n', worth rest n' /\ (1 + m + n' <= n)%N /\
  (forall fs, parse_path (f_path f) = Ok fs -> (forall x, f_path f <> "@"%char :: x) -> worth fs m).
Proof.
  intros sg rest n f (l & Q & H) F. destruct l as [|[st ms] l]; [discriminate|]. injection Q as -> ->. destruct st; try discriminate. cbn in F. injection F as <-. cbn [f_path] in *.
  inversion H as [|? ? ? ? D NW|? ? ? ? ? ? n0 H0|? ? ? ? ? ? n0 o M O H0|? ? ? ? ? ? n0 l' m M A H1 H0|]; subst.
  - exfalso. eapply NW. reflexivity.
  - exists 0%N, n0. split; [exists l; auto|]. split; [lia|]. intros fs _ A. exfalso. eapply A. reflexivity.
  - exists 0%N, n0. split; [exists l; auto|]. split; [lia|]. intros fs P _. apply path_means_res in M. rewrite P in M. destruct O as [->| ->]; cbn in M; [injection M as ->; apply worth_nil|discriminate].
  - exists m, n0. split; [exists l; auto|]. split; [lia|]. intros fs P _. apply path_means_res in M. rewrite P in M. cbn in M. injection M as ->. exists l'. auto.
Qed.
Lemma within_cost : forall A c k k' (m : W A), within k m -> (c + k <= k')%N -> within k' (wcost c m).
Proof. intros A c k k' [[x c0]| |] H L y c1 Q; try discriminate. cbn in Q. injection Q as <- <-. pose proof (H _ _ eq_refl). lia. Qed.

Section Upper.
  Variable E : env.
  Hypothesis Hord : forall k l, Permutation l (e_ord E k l).
  Lemma weight_len : forall l, (N.of_nat (List.length l) <= weight l)%N.
  Proof. induction l as [|e l IH]; [cbn; lia|]. cbn [List.length weight]. lia. Qed.
  Lemma scan_load : forall key s es, scan_res E key s = Ok es -> (weight es <= brackets s)%N /\ (1 + N.of_nat (List.length es) <= 1 + brackets s)%N.
  Proof. intros key s es H. apply (scan_weight E Hord) in H. pose proof (weight_len es). lia. Qed.
  Lemma pass_load : forall key s, within (1 + brackets s) (lscan E key s).
  Proof. intros key s x c H. unfold lscan in H. apply bind_ok in H as (es & H & Q). assert (c = 1 + N.of_nat (List.length es))%N as -> by congruence. apply scan_load in H. lia. Qed.
  Lemma children_load : forall key f l, within (weight l) (lfield_children E key f l).
  Proof.
    intros key f l. induction l as [|e l IH]; [apply within_ret|]. cbn [lfield_children weight]. apply within_bind. exists (1 + brackets (e_content e))%N, (weight l).
    split; [apply pass_load|]. split; [|lia]. intros x c _. apply within_then; [exact IH|]. intros; apply free_ret.
  Qed.
  Lemma extract_load : forall key l sg, within (weight l) (lfield_extract E key l sg).
  Proof.
    intros key l sg. unfold lfield_extract. destruct (s_field sg); [apply within_ret|]. apply within_then; [|intros all; destruct (firstn _ all); apply free_ret].
    destruct (Ascii.eqb _ _); [apply within_ret|]. destruct (bytes_eqb _ _); [apply within_ret|]. apply children_load.
  Qed.
  Lemma times : forall n a b, (1 <= n)%N -> (a <= b)%N -> (a <= n * b)%N. Proof. intros. nia. Qed.
  Variable w : wrec.
  Hypothesis WB : forall n key root s segs, worth segs n -> within (n * (1 + brackets s)) (w key root s segs).
  Lemma eval_load : forall key f e m, (forall fs, parse_path (f_path f) = Ok fs -> (forall x, f_path f <> "@"%char :: x) -> worth fs m) ->
    within (m * (1 + brackets (e_content e))) (weval_filter_opt E w key (Some f) e).
  Proof.
    intros key f e m H. cbn [weval_filter_opt]. unfold weval_filter. destruct (f_path f) as [|c n] eqn:P.
    - apply within_after; [apply free_lift|]. intros l k L. apply wlift_ok in L as [L _]. apply within_then; [|intros; apply free_ret]. apply WB. apply H; auto. intros x; discriminate.
    - destruct (Ascii.eqb c "@") eqn:A; [destruct (map_get n (e_attrs e)); apply within_ret|].
      apply within_after; [apply free_lift|]. intros l k L. apply wlift_ok in L as [L _]. apply within_then; [|intros; apply free_ret]. apply WB. apply H; auto.
      intros x X. injection X as -> _. discriminate.
  Qed.
  Lemma filter_load : forall sg rest n, worth (sg :: rest) n -> exists m n', worth rest n' /\ (1 + m + n' <= n)%N /\
    forall key l, within (m * weight l) (wfilter_elems E w key (s_filter sg) l) /\ forall k, within (m * weight l) (wfilter_elems_upto k E w key (s_filter sg) l).
  Proof.
    intros sg rest n H. assert (G : exists m n', worth rest n' /\ (1 + m + n' <= n)%N /\ forall key e, within (m * (1 + brackets (e_content e))) (weval_filter_opt E w key (s_filter sg) e)).
    { destruct (s_filter sg) as [f|] eqn:F.
      - destruct (worth_where _ _ _ _ H F) as (m & n' & H1 & H2 & H3). exists m, n'. split; auto. split; auto. intros key e. now apply eval_load.
      - destruct (worth_tail _ _ _ H) as (n' & H1 & H2). exists 0%N, n'. split; auto. split; [lia|]. intros. apply within_ret. }
    destruct G as (m & n' & H1 & H2 & G). exists m, n'. split; auto. split; auto. intros key l. split.
    - induction l as [|e l IH]; [apply within_ret|]. cbn [wfilter_elems weight]. apply within_bind. exists (m * (1 + brackets (e_content e)))%N, (m * weight l)%N.
      split; [apply G|]. split; [|lia]. intros b c _. apply within_then; [exact IH|]. intros; apply free_ret.
    - induction l as [|e l IH]; intros k; [apply within_ret|]. cbn [wfilter_elems_upto weight]. apply within_bind. exists (m * (1 + brackets (e_content e)))%N, (m * weight l)%N.
      split; [apply G|]. split; [|lia]. intros b c _. destruct b; [|apply IH]. destruct k as [|[|k]]; try apply within_ret. apply within_then; [apply IH|]. intros; apply free_ret.
  Qed.
  Lemma first_load : forall n key e sg rest, worth rest n -> within (n * (1 + brackets (e_content e))) (lprocess_first E w key e sg rest).
  Proof.
    intros n key e sg [|nx more] H; [apply within_ret|]. cbn [lprocess_first]. pose proof (worth_pos _ _ _ H).
    destruct (s_type nx); try (apply WB; exact H); try apply within_ret; [destruct (map_get _ _); apply within_ret|].
    eapply within_le; [apply extract_load|]. cbn [weight]. apply times; lia.
  Qed.
  Lemma each_load : forall n key l rest, worth rest n -> within (n * weight l) (wquery_each w key l rest).
  Proof.
    intros n key l rest H. induction l as [|e l IH]; [apply within_ret|]. cbn [wquery_each weight]. apply within_bind. exists (n * (1 + brackets (e_content e)))%N, (n * weight l)%N.
    split; [apply WB, H|]. split; [|lia]. intros x c _. apply within_then; [exact IH|]. intros; apply free_ret.
  Qed.
  Lemma all_load : forall n key l sg rest, worth rest n -> within (n * weight l) (lprocess_all E w key l sg rest).
  Proof.
    intros n key l sg [|nx more] H; [apply within_ret|]. cbn [lprocess_all]. pose proof (worth_pos _ _ _ H).
    destruct (s_type nx); try (destruct (flat_map _ l); apply within_ret); try (destruct (map _ l); apply within_ret);
      try (apply within_then; [apply each_load, H|]; intros [|x xs]; apply free_ret).
    eapply within_le; [apply extract_load|]. apply times; lia.
  Qed.
  Lemma route_load : forall n key l sg rest, worth rest n -> within (n * weight l) (lroute_matches E w key l sg rest).
  Proof.
    intros n key [|e l] sg rest H; [apply within_ret|]. cbn [lroute_matches]. destruct (s_all sg); [now apply all_load|]. eapply within_le; [apply first_load; exact H|].
    cbn [weight]. apply N.mul_le_mono_l. lia.
  Qed.
  Lemma wild_each_load : forall n key l rest, worth rest n -> within (n * weight l) (wwild_each w key l rest).
  Proof.
    intros n key l rest H. induction l as [|e l IH]; [apply within_ret|]. cbn [wwild_each weight]. apply within_bind. exists (n * (1 + brackets (e_content e)))%N, (n * weight l)%N.
    split; [apply WB, H|]. split; [|lia]. intros x c _. apply within_then; [exact IH|]. intros; apply free_ret.
  Qed.
  Lemma wildcard_load : forall n key l rest, worth rest n -> within (n * weight l) (whandle_wildcard E w key l rest).
  Proof.
    intros n key l [|nx more] H; [apply within_ret|]. cbn [whandle_wildcard].
    destruct (s_type nx); try (destruct more; [destruct (flat_map _ l)|]; apply within_ret); try (destruct (map _ l); apply within_ret);
      (apply within_then; [apply wild_each_load, H|]; intros [[|x xs] b]; apply free_ret).
  Qed.
  Lemma add_load : forall n key e rest, worth rest n -> within (n * (1 + brackets (e_content e))) (lsearch_add E w key e rest).
  Proof.
    intros n key e [|nx more] H; [apply within_ret|]. cbn [lsearch_add]. pose proof (worth_pos _ _ _ H).
    destruct (s_type nx); try apply within_ret; (apply within_then; [|intros; apply free_ret]); try (apply WB, H).
    eapply within_le; [apply extract_load|]. cbn [weight]. apply times; lia.
  Qed.
  Lemma search_load : forall m n key target rest st s, worth rest m -> within ((1 + N.of_nat n * (1 + m)) * (1 + brackets s)) (lrsearch E w n key target rest st s).
  Proof.
    intros m. induction n as [|n IH]; intros key target rest st s H st' c Q; cbn [lrsearch] in Q; apply wtick_ok in Q as (c' & Q & ->); cbv zeta in Q.
    - apply wret_ok in Q as [-> ->]. lia.
    - destruct (_ || _); [apply wret_ok in Q as [-> ->]; nia|].
      apply wbind_ok in Q as (es & c1 & c2 & Q1 & Q & ->). unfold lscan in Q1. apply bind_ok in Q1 as (es' & Q1 & Q2). assert (c1 = 1 + N.of_nat (List.length es))%N as -> by congruence. assert (es' = es) as -> by congruence. clear Q2. apply scan_load in Q1 as [Q1 Q2].
      assert (G : (c2 <= (1 + N.of_nat n * (1 + m) + m) * weight es)%N).
      { clear Q1 Q2. revert Q. generalize ((fst st + 1)%N, snd st). revert c2. induction es as [|e es IHe]; intros c2 s0 Q; [apply wret_ok in Q as [-> ->]; lia|].
        apply wbind_ok in Q as (st1 & ca & cb & Q1 & Q & ->). cbn [weight].
        assert (G : (ca <= (1 + N.of_nat n * (1 + m)) * (1 + brackets (e_content e)))%N).
        { destruct (e_content e) as [|b0 l0] eqn:C; [apply wret_ok in Q1 as [-> ->]; lia|]. rewrite <- C in *. eapply IH; eauto. }
        assert (G2 : (cb <= m * (1 + brackets (e_content e)) + (1 + N.of_nat n * (1 + m) + m) * weight es)%N).
        { destruct (_ <=? _)%N; [apply wret_ok in Q as [-> ->]; lia|]. destruct (seg_matches _ _).
          - destruct (Nat.leb _ _); [apply wret_ok in Q as [-> ->]; lia|]. apply wbind_ok in Q as (add & cc & cd & Q2 & Q & ->).
            apply (add_load m) in Q2; [|exact H]. apply IHe in Q. lia.
          - apply IHe in Q. lia. }
        lia. }
      rewrite Nnat.Nat2N.inj_succ. assert (X : forall a b z l, (c2 <= (1 + a * (1 + m) + m) * z)%N -> (z <= b)%N -> (1 + l <= 1 + b)%N -> (1 + (1 + l + c2) <= (1 + N.succ a * (1 + m)) * (1 + b))%N) by (intros; nia).
      eapply X; eassumption.
  Qed.
  Lemma root_load : forall n key l nx more, worth more n -> within ((1 + n) * weight l) (lroot_array E w key l nx more).
  Proof.
    intros n key l nx more H. assert (G : forall e rest key, In e l -> worth rest n -> within ((1 + n) * weight l) (w key false (e_content e) rest)).
    { intros e rest key' I C. eapply within_le; [apply WB; exact C|]. pose proof (weight_in e l I). nia. }
    destruct l as [|e l]; [apply within_ret|]. cbn [lroot_array]. destruct (s_type nx); try apply within_ret.
    - unfold nth_elem. destruct (_ && _)%bool; [|apply within_ret]. destruct (nth_error (e :: l) _) as [e'|] eqn:X; [|apply within_ret]. apply nth_error_In in X.
      destruct more as [|n2 more]; [apply within_ret|]. destruct (s_type n2); try (apply G; assumption); apply within_ret.
    - eapply within_le; [apply extract_load|]. lia.
  Qed.
  Lemma array_load : forall n key l nx more, worth more n -> within (n * weight l) (warray_op E w key l nx more).
  Proof.
    intros n key l nx more H. assert (G : forall e rest key, In e l -> worth rest n -> within (n * weight l) (w key false (e_content e) rest)).
    { intros e rest key' I C. eapply within_le; [apply WB; exact C|]. apply N.mul_le_mono_l. now apply weight_in. }
    destruct l as [|e l]; [apply within_ret|]. cbn [warray_op]. destruct (s_type nx); try apply within_ret.
    unfold nth_elem. destruct (_ && _)%bool; [|apply within_ret]. destruct (nth_error (e :: l) _) as [e'|] eqn:X; [|apply within_ret]. apply nth_error_In in X.
    destruct more as [|n2 more]; [apply within_ret|]. destruct (s_type n2); try (apply G; assumption); apply within_ret.
  Qed.
  Lemma loop_load : forall n key l sg rest, worth rest n -> within (n * weight l) (wfirst_loop E w key l sg rest).
  Proof.
    intros n key l sg rest H. induction l as [|e l IH]; [apply within_ret|]. cbn [wfirst_loop]. destruct rest as [|nx more]; [apply within_ret|].
    destruct (s_type nx); try apply within_ret; try (destruct (map_get _ _); [destruct more|]; apply within_ret);
      (apply within_bind; exists (n * (1 + brackets (e_content e)))%N, (n * weight l)%N; split; [apply WB, H|split; [|cbn [weight]; lia]]; intros x c _;
       destruct (is_null x); [exact IH|apply within_ret]).
  Qed.
  Lemma element_load : forall n key es sg rest, worth rest n -> within (n * weight es) (lexec_element E w key es sg rest).
  Proof.
    intros n key es sg rest H. unfold lexec_element. cbv zeta.
    assert (M : (weight (matching sg es) <= weight es)%N) by apply weight_filter.
    assert (C : (weight (firstn MaxWildcardResults (matching sg es)) <= weight es)%N) by (pose proof (weight_firstn MaxWildcardResults (matching sg es)); lia).
    assert (ML : within (n * weight es) (wfirst_loop E w key (matching sg es) sg rest)) by (eapply within_le; [apply loop_load; exact H|now apply N.mul_le_mono_l]).
    destruct rest as [|nx more]; [exact ML|]. destruct (worth_tail _ _ _ H) as (n' & H' & L'). pose proof (worth_pos _ _ _ H).
    destruct (s_type nx); try exact ML; try (eapply within_le; [apply array_load; exact H'|nia]).
    - destruct (filter_load _ _ _ H) as (m & n2 & H2 & L2 & F2). apply within_bind. exists (m * weight (firstn MaxWildcardResults (matching sg es)))%N, (n2 * weight es)%N.
      split; [apply F2|]. split; [|nia]. intros l c F. apply filter_weight in F. eapply within_le; [apply route_load; exact H2|]. apply N.mul_le_mono_l. lia.
    - eapply within_le; [apply extract_load|]. apply times; lia.
  Qed.
  Lemma body_load : forall n key root s segs, worth segs n -> within (n * (1 + brackets s)) (lexec_body E w key root s segs).
  Proof.
    intros n key root s [|sg rest] H; [apply within_ret|]. cbn [lexec_body]. apply within_after; [apply free_lift|]. intros es c S. apply wlift_ok in S as [S _]. apply scan_load in S as [S1 S2].
    cbv zeta. destruct (worth_tail _ _ _ H) as (n' & H' & L'). pose proof (worth_pos _ _ _ H) as NP.
    assert (P : forall k (m : W result), within k m -> (k <= (n - 1) * brackets s)%N -> within (n * (1 + brackets s)) (wcost (1 + N.of_nat (List.length es)) m)) by (intros k m K1 K2; eapply within_cost; [exact K1|nia]).
    pose proof (worth_deep _ _ _ H) as D. destruct (s_type sg) eqn:T; try apply within_ret; try (apply (P 0%N); [apply within_ret|apply N.le_0_l]).
    - assert (EC : within (n' * weight es) (lexec_element E w key es sg rest)) by (apply element_load; exact H').
      apply (P (n' * weight es)%N); [|nia]. destruct root, rest as [|nx more]; try exact EC. destruct (worth_tail _ _ _ H') as (n2 & H2 & L2).
      assert (RC : within (n' * weight es) (lroot_array E w key (firstn MaxWildcardResults (filter (fun e => bytes_eqb (e_name e) (s_value sg)) es)) nx more)).
      { eapply within_le; [apply root_load; exact H2|]. apply N.mul_le_mono; [exact L2|]. etransitivity; [apply weight_firstn|]. apply weight_filter. }
      destruct (s_type nx); try exact EC; exact RC.
    - destruct (s_wild sg).
      + destruct (D eq_refl eq_refl) as (n2 & H2 & L2). destruct rest as [|nx more]; [apply within_ret|]. cbn [lhandle_recursive]. apply within_then; [|intros z; destruct (snd z); apply free_ret].
        destruct (worth_tail _ _ _ H2) as (n3 & H3 & L3). change (Datatypes.S MaxNestingDepth) with 101. eapply within_le; [apply (search_load n3); exact H3|].
        apply N.mul_le_mono_r. change (N.of_nat 101) with 101%N. lia.
      + apply (P (n' * weight es)%N); [|nia]. destruct (firstn _ es) as [|e0 l0] eqn:F; [apply within_ret|]. apply within_then; [|intros; apply free_ret]. eapply within_le; [apply wildcard_load, H'|].
        rewrite <- F. apply N.mul_le_mono_l. apply weight_firstn.
    - destruct (filter_load _ _ _ H) as (m & n2 & H2 & L2 & F2). apply (P ((m + n2) * weight es)%N); [|nia]. apply within_bind. exists (m * weight es)%N, (n2 * weight es)%N.
      split; [apply F2|]. split; [|lia]. intros l c' F. apply filter_upto_weight in F. eapply within_le; [apply route_load; exact H2|]. apply N.mul_le_mono_l. lia.
  Qed.
End Upper.
Lemma load_exec : forall E, (forall k l, Permutation l (e_ord E k l)) -> forall f n key root s segs, worth segs n -> within (n * (1 + brackets s)) (lexec E f key root s segs).
Proof.
  intros E Hord. induction f as [|f IH]; intros n key root s segs H; [intros x c Q; discriminate|]. cbn [lexec]. apply body_load; auto.
Qed.

(** ** How much effort a path asks for *)
Lemma where_cost : forall p l', path_means p (Steps l') -> cost (map seg_of l') <= 2 * len p.
Proof. intros p l' M. apply path_means_res in M. cbn [meaning_res] in M. apply parse_path_cost in M. apply M. Qed.
Lemma cost_step : forall st ms l, cost (map seg_of ((st, ms) :: l)) = seg_cost (seg_of (st, ms)) + cost (map seg_of l).
Proof. reflexivity. Qed.
Lemma where_seg : forall all p op v ms, seg_cost (seg_of (GWhere all p op v, ms)) = 2 * len p + 3.
Proof. intros. unfold seg_cost. cbn. lia. Qed.
Lemma quiet_tail : forall x l, quiet (x :: l) -> quiet l.
Proof.
  intros x l H. inversion H as [l0 H1 H2]; subst. constructor.
  - intros ms I. apply (H1 ms). now right.
  - intros all p op v ms l' I. apply (H2 all p op v ms). now right.
Qed.
Lemma effort_all : forall n l, cost (map seg_of l) <= n -> exists m k, effort l m /\ depths l k /\ (quiet l -> k = 0).
Proof.
  induction n as [|n IH]; intros l H.
  - destruct l as [|[st ms] l]; [exists 0%N, 0; repeat split; auto; constructor|]. rewrite cost_step in H. pose proof (seg_cost_pos (seg_of (st, ms))). lia.
  - destruct l as [|[st ms] l]; [exists 0%N, 0; repeat split; auto; constructor|]. rewrite cost_step in H.
    destruct (IH l) as (m & k & H1 & H2 & H3); [pose proof (seg_cost_pos (seg_of (st, ms))); lia|].
    assert (T : quiet ((st, ms) :: l) -> k = 0) by (intros Q; apply H3; eapply quiet_tail; eauto).
    assert (O : st <> GDeep -> (forall all p op v, st <> GWhere all p op v) -> exists m k, effort ((st, ms) :: l) m /\ depths ((st, ms) :: l) k /\ (quiet ((st, ms) :: l) -> k = 0)).
    { intros D W. exists (1 + m)%N, k. split; [now apply eff_step|]. split; [now apply dp_step|auto]. }
    destruct st; try (apply O; intros; discriminate); clear O.
    + exists (102 * (1 + m))%N, (S k). split; [now apply eff_deep|]. split; [now apply dp_deep|]. intros Q. inversion Q as [l0 Q1 _]; subst. exfalso. eapply Q1. now left.
    + rename path into p. rewrite where_seg in H.
      assert (A : (exists x, p = "@"%char :: x) \/ (forall x, p <> "@"%char :: x)).
      { destruct p as [|c x]; [right; discriminate|]. destruct (Ascii.ascii_dec c "@") as [->|N]; [left; eauto|right; congruence]. }
      destruct A as [[x ->]|A]; [exists (1 + m)%N, k; split; [now apply eff_attribute|]; split; [now apply dp_attribute|auto]|].
      destruct (path_means_ex p) as [o M]. destruct o as [l'| |].
      * pose proof (where_cost _ _ M). destruct (IH l') as (m' & k' & G1 & G2 & G3); [lia|]. exists (1 + m' + m)%N, (k' + k). split; [eapply eff_where; eauto|]. split; [eapply dp_where; eauto|].
        intros Q. rewrite (T Q). assert (quiet l') as Q' by (inversion Q as [l0 _ Q2]; subst; eapply Q2; eauto; now left). rewrite (G3 Q'). reflexivity.
      * exists (1 + m)%N, k. split; [eapply eff_pathless; eauto|]. split; [eapply dp_pathless; eauto|auto].
      * exists (1 + m)%N, k. split; [eapply eff_pathless; eauto|]. split; [eapply dp_pathless; eauto|auto].
Qed.
Lemma pow_pos : forall k, (1 <= 102 ^ N.of_nat k)%N.
Proof. intros k. pose proof (N.pow_nonzero 102 (N.of_nat k)). lia. Qed.
Lemma effort_bound : forall l n, effort l n -> forall k, depths l k -> (n <= 102 ^ N.of_nat k * N.of_nat (cost (map seg_of l)))%N.
Proof.
  induction 1 as [|st ms l n D W H IH|all x op v ms l n H IH|all p op v ms l n o M O H IH|all p op v ms l n l' m M A H1 IH1 H IH|ms l n H IH]; intros k G.
  - lia.
  - assert (G' : depths l k). { inversion G; subst; auto; exfalso; [eapply W; reflexivity..|now apply D]. }
    apply IH in G'. rewrite cost_step. pose proof (seg_cost_pos (seg_of (st, ms))). pose proof (pow_pos k). nia.
  - assert (G' : depths l k). { inversion G; subst; auto; exfalso; try congruence. all: match goal with X : forall x, _ <> _ |- _ => eapply X; reflexivity | _ => eauto end. }
    apply IH in G'. rewrite cost_step. pose proof (seg_cost_pos (seg_of (GWhere all ("@"%char :: x) op v, ms))). pose proof (pow_pos k). nia.
  - assert (G' : depths l k).
    { inversion G; subst; auto; exfalso.
      match goal with X : path_means p (Steps _) |- _ => pose proof (path_means_unique _ _ _ M X) as U end. destruct O; congruence. }
    apply IH in G'. rewrite cost_step. pose proof (seg_cost_pos (seg_of (GWhere all p op v, ms))). pose proof (pow_pos k). nia.
  - assert (G' : exists k1 k2, k = k1 + k2 /\ depths l' k1 /\ depths l k2).
    { inversion G as [|? ? ? ? D W|? ? ? ? ? ? k0 D|? ? ? ? ? ? ? o M' O D|? ? ? ? ? ? k0 l2 k' M' A' D1 D2|]; subst.
      - exfalso. eapply W. reflexivity.
      - exfalso. eapply A. reflexivity.
      - pose proof (path_means_unique _ _ _ M M') as U. destruct O; congruence.
      - pose proof (path_means_unique _ _ _ M M') as U. injection U as <-. eauto. }
    destruct G' as (k1 & k2 & -> & G1 & G2). apply IH1 in G1. apply IH in G2. rewrite cost_step, where_seg. pose proof (where_cost _ _ M) as C.
    rewrite Nnat.Nat2N.inj_add, N.pow_add_r. pose proof (pow_pos k1). pose proof (pow_pos k2).
    set (a := (102 ^ N.of_nat k1)%N) in *. set (b := (102 ^ N.of_nat k2)%N) in *. set (c1 := cost (map seg_of l')) in *. set (c2 := cost (map seg_of l)) in *. clearbody a b c1 c2.
    assert (X1 : (m <= a * b * N.of_nat c1)%N) by nia. assert (X2 : (n <= a * b * N.of_nat c2)%N) by nia. assert (X3 : (1 <= a * b)%N) by nia.
    replace (N.of_nat (2 * len p + 3 + c2)) with (N.of_nat (2 * len p) + 3 + N.of_nat c2)%N by lia. assert (X4 : (N.of_nat c1 <= N.of_nat (2 * len p))%N) by lia. nia.
  - assert (G' : exists k', k = S k' /\ depths l k'). { inversion G; subst; eauto. exfalso; congruence. }
    destruct G' as (k' & -> & G'). apply IH in G'. rewrite cost_step. pose proof (pow_pos k'). rewrite Nnat.Nat2N.inj_succ, N.pow_succ_r'. change (seg_cost _) with 1. nia.
Qed.
