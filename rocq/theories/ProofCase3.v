(** Case-insensitive queries on canonical text: searches and the whole language. *)
From Coq Require Import List Ascii String NArith ZArith Bool Lia Permutation.
From Verif Require Import GoStr ModelParser ModelPath ModelResult ModelQuery ModelBuilder ModelQueryOpts SpecText SpecPath SpecTree SpecQuery SpecValid SpecEdit SpecContent SpecFilter SpecLang SpecCase
  ProofBase ProofEscape ProofPath ProofScan ProofSyntax ProofFuel ProofFuel2 ProofMono ProofFilter ProofTree ProofTree2 ProofTree3 ProofTree4 ProofTree5 ProofRaw2 ProofLang ProofLang2 ProofLang3 ProofLang4 ProofCase ProofCase2.
Import ListNotations.

Section Search.
  Variable E : env.
  Hypothesis Hord : forall k l, Permutation l (e_ord E k l).
  Variable rec : qrec.
  Variable target : seg.
  Variable rest : list seg.
  Variable sel : bytes -> bool.
  Hypothesis Hsel : forall n, xml_name n -> seg_matches_opts false target n = sel n.
  Variable C : node -> list item.
  Hypothesis HC : forall key nd e, shown_ci nd e -> exists add, search_add_opts E false rec key e rest = Ok add /\ Forall2 item_is (C nd) add.
  Definition found_ci (F : list node) (A : list item) : list item := fold_left gather_step (map C (called sel (post F))) A.

  Definition go_loop_ci (n' : nat) (key : list nat) := fix go (es : list elem) (st : N * list result) : Res (N * list result) :=
     match es with
     | [] => Ok st
     | e :: es' =>
         let* st1 :=
           (match e_content e with
            | [] => Ok st
            | _ :: _ => rsearch_opts E false rec n' (child_key site_search e key) target rest st (e_content e)
            end) in
         if (MaxRecursiveOperations <=? fst st1)%N then Ok st1
         else if seg_matches_opts false target (e_name e) then
           if Nat.leb MaxWildcardResults (List.length (snd st1)) then Ok st1
           else
             let* add := search_add_opts E false rec key e rest in
             go es' (fst st1, snd st1 ++ add)
         else go es' st1
     end.
  Lemma found_app_ci : forall F G A, found_ci (F ++ G) A = found_ci G (found_ci F A).
  Proof. intros F G A. unfold found_ci, post, called. now rewrite flat_map_app, filter_app, map_app, fold_left_app. Qed.
  Lemma found_node_ci : forall nd A, is_elem nd = true -> found_ci [nd] A =
    if sel (name_of nd) then gather_step (found_ci (kids_of nd) A) (C nd) else found_ci (kids_of nd) A.
  Proof.
    intros nd A H. unfold found_ci. change (post [nd]) with (post_node nd ++ []). rewrite app_nil_r, post_node_elem by auto. unfold called. rewrite filter_app, map_app, fold_left_app.
    fold (called sel (post (kids_of nd))). fold (called sel [nd]). rewrite called_cons by auto. destruct (sel (name_of nd)); reflexivity.
  Qed.
  Lemma search_ok_ci : forall n F key s ops A acc, reads_ci E s F -> Forall (fun nd => levels nd <= n) F -> Forall2 item_is A acc ->
    (ops + 1 + elements F < 10000)%N ->
    exists ops' acc', rsearch_opts E false rec n key target rest (ops, acc) s = Ok (ops', acc') /\
      (ops' <= ops + 1 + elements F)%N /\ Forall2 item_is (found_ci F A) acc'.
  Proof.
    induction n as [|n IH]; intros F key s ops A acc HR HL HA HO.
    - assert (Z : elems F = []).
      { clear - HL. induction HL as [|nd F H1 H2 IH]; auto. unfold elems in *. cbn [filter]. destruct (is_elem nd) eqn:Q; auto. apply levels_elem in Q. lia. }
      cbn [rsearch_opts fst snd]. exists (ops + 1)%N, acc. repeat split; [lia|]. unfold found_ci. rewrite post_elems, Z. exact HA.
    - cbn [rsearch_opts fst snd]. fold (go_loop_ci n key). rewrite wild_max. change MaxRecursiveOperations with 10000%N.
      rewrite (proj2 (N.leb_gt 10000 (ops + 1))) by lia. rewrite orb_false_r. rewrite <- (f2_length _ _ _ _ _ HA).
      destruct (Nat.leb 1000 (len A)) eqn:FU.
      { apply Nat.leb_le in FU. exists (ops + 1)%N, acc. repeat split; [lia|]. unfold found_ci. now rewrite gather_full. }
      clear FU. destruct (reads_ci_scan E s F key HR) as [es [R1 R2]]. rewrite R1. cbn [bind].
      assert (LE : Forall (fun nd => levels nd <= S n) (elems F)).
      { apply Forall_forall. intros x Hx. apply filter_In in Hx. rewrite Forall_forall in HL. now apply HL. }
      assert (EE : elements F = elements (elems F)) by (unfold elements; now rewrite post_elems).
      assert (FE : found_ci F A = found_ci (elems F) A) by (unfold found_ci; now rewrite post_elems). rewrite FE. rewrite EE in *. clear EE FE HR HL R1.
      assert (OPS : exists o, o = (ops + 1)%N) by eauto. destruct OPS as [o Ho]. rewrite <- Ho in *. set (L := elems F) in *. clearbody L. clear Ho ops s F. rename HO into HO'.
      revert LE A acc HA o HO'. induction R2 as [|nd e l es H1 H2 IHl]; intros LE A acc HA o HO.
      + exists o, acc. cbn [go_loop_ci]. repeat split; auto. lia.
      + inversion LE as [|? ? L1 L2]; subst. pose proof (shown_elem _ _ (shown_ci_shown _ _ H1)) as EL. change (nd :: l) with ([nd] ++ l) in *. rewrite found_app_ci.
        assert (E1 : elements ([nd] ++ l) = (elements (kids_of nd) + 1 + elements l)%N).
        { cbn [app]. rewrite elements_cons, elements_kids by auto. lia. }
        rewrite E1 in *. cbn [go_loop_ci].
        assert (SUB : exists o1 acc1, match e_content e with [] => Ok (o, acc) | _ :: _ => rsearch_opts E false rec n (child_key site_search e key) target rest (o, acc) (e_content e) end = Ok (o1, acc1) /\
          (o1 <= o + 1 + elements (kids_of nd))%N /\ Forall2 item_is (found_ci (kids_of nd) A) acc1).
        { destruct (e_content e) eqn:CE.
          - exists o, acc. repeat split; [lia|]. pose proof (shown_ci_reads E Hord _ _ H1) as RR. rewrite CE in RR. destruct (reads_ci_scan E [] _ key RR) as [es0 [K1 K2]].
            assert (es0 = []) by (clear - K1; cbv in K1; congruence). subst es0. inversion K2 as [Q|]. unfold found_ci. rewrite post_elems, <- Q. exact HA.
          - rewrite <- CE. apply IH; auto.
            + now apply shown_ci_reads.
            + now apply levels_kids.
            + lia. }
        destruct SUB as (o1 & acc1 & S1 & S2 & S3). rewrite S1. cbn [bind fst snd]. change MaxRecursiveOperations with 10000%N.
        rewrite (proj2 (N.leb_gt 10000 o1)) by lia. rewrite found_node_ci by auto.
        destruct (shown_name _ _ (shown_ci_shown _ _ H1)) as [N1 N2]. rewrite N1, Hsel by auto. destruct (sel (name_of nd)).
        * rewrite wild_max, <- (f2_length _ _ _ _ _ S3). unfold gather_step. destruct (Nat.leb 1000 (len (found_ci (kids_of nd) A))) eqn:FU.
          -- apply Nat.leb_le in FU. exists o1, acc1. repeat split; [lia|]. unfold found_ci at 1. now rewrite gather_full.
          -- destruct (HC key nd e H1) as [add [A1 A2]]. rewrite A1. cbn [bind].
             destruct (IHl L2 (found_ci (kids_of nd) A ++ C nd) (acc1 ++ add) ltac:(now apply Forall2_app) o1 ltac:(lia)) as (o2 & acc2 & T1 & T2 & T3).
             exists o2, acc2. repeat split; auto. lia.
        * destruct (IHl L2 (found_ci (kids_of nd) A) acc1 S3 o1 ltac:(lia)) as (o2 & acc2 & T1 & T2 & T3).
          exists o2, acc2. repeat split; auto. lia.
  Qed.
  Lemma recursive_ok_ci : forall key s F, reads_ci E s F ->
    exists r, handle_recursive_opts E false rec key (target :: rest) s = Ok r /\ says r (pack (gather (map C (called sel (post F))))).
  Proof.
    intros key s F HR. destruct HR as [[HR [W1 W2]] HA].
    destruct (search_ok_ci (S MaxNestingDepth) F key s 0%N [] []) as (o & acc & R1 & R2 & R3); auto.
    - split; auto. split; auto. split; auto.
    - eapply Forall_impl; [|exact W1]. intros nd H. cbn beta in H. unfold MaxNestingDepth. lia.
    - lia.
    - unfold handle_recursive_opts. rewrite R1. cbn [bind snd]. apply says_pack in R3. destruct acc; eexists; (split; [reflexivity|]); exact R3.
  Qed.
End Search.


(** ** The language *)
Section Case.
  Variable E : env.
  Hypothesis Hord : forall k l, Permutation l (e_ord E k l).
  Variable sat : condition -> node -> bool.
  Hypothesis Hsat : forall c nd, good nd -> (sat c nd = true <-> true_of (e_parse_float E) c nd).
  Variable q : qend.
  Hypothesis Hfield : forall f, q = EField f -> good_field f.

  Lemma ask_ci_cons : forall s rest F, ask_ci sat q (s :: rest) F =
    match s with
    | Child n w =>
        let named := called (alike n) F in
        let listed := firstn 1000 named in
        match w with
        | Number ds => match nth_error listed (N.to_nat (decimal_value ds)) with Some nd => go_ci sat q rest nd | None => NoReply end
        | Where c all => chosen_ci sat q rest all (filter (sat c) listed)
        | Leading =>
            match rest, q with
            | [], ECount => match listed with [] => NoReply | _ => One (ACount (List.length listed)) end
            | [], EField f => fields_ci f listed
            | [], _ => match named with nd :: _ => go_ci sat q rest nd | [] => NoReply end
            | _, _ => first_reply (go_ci sat q rest) named
            end
        end
    | AnyKid => pack (flat_map (fun nd => items (go_ci sat q rest nd)) (firstn 1000 (elems F)))
    | Kid c all => chosen_ci sat q rest all (firstn 1000 (filter (sat c) (elems F)))
    | Descendant n =>
        pack (gather (map (adds_ci sat q rest) (called (match n with Some n => alike n | None => fun _ => true end) (post F))))
    end.
  Proof. intros s rest F. destruct s as [n [| |]| | |]; reflexivity. Qed.
  Lemma csegs_cons : forall s rest, csegs (s :: rest) q = map lower_seg (qstep_segs s) ++ csegs rest q.
  Proof. intros. unfold csegs. rewrite segs_cons. apply map_app. Qed.
  Lemma array_op_nth_ci : forall rec key es ds more, (match more with n2 :: _ => s_type n2 <> SText /\ s_mods n2 = [] | [] => True end) ->
    array_op_opts E false rec key es (step_seg (Nth ds, [])) more =
    match nth_elem es (Z.min (Z.of_N (decimal_value ds)) int64_max) with
    | None => Ok r_null
    | Some e =>
      match more with
      | [] => Ok (r_element (e_content e))
      | n2 :: more2 =>
        match s_type n2 with
        | SAttr => Ok (match attr_lookup E false key (s_value n2) e with Some v => r_attribute v | None => r_null end)
        | _ => rec (child_key site_query e key) false (e_content e) more
        end
      end
    end.
  Proof.
    intros rec key es ds more H. assert (Z0 : es = [] -> nth_elem es (Z.min (Z.of_N (decimal_value ds)) int64_max) = None).
    { intros ->. unfold nth_elem. cbn [List.length].
      destruct (Z.min (Z.of_N (decimal_value ds)) int64_max <? Z.of_nat 0)%Z eqn:Q; [|now rewrite andb_false_r].
      apply Z.ltb_lt in Q. assert (0 < int64_max)%Z by reflexivity. lia. }
    unfold array_op_opts. (destruct es as [|e0 es]; [rewrite Z0 by auto; reflexivity|]); cbn [step_seg s_type s_index s_mods].
    destruct (nth_elem (e0 :: es) _); auto.
  Qed.

  Lemma exec_ask_ci : forall steps, steps <> [] -> Forall good_qstep steps -> well_split steps -> good_qend steps q ->
    forall fuel top key s F, reads_ci E s F -> cost (csegs steps q) < fuel ->
    exists r, exec_opts E false fuel key top s (csegs steps q) = Ok r /\ says r (ask_ci sat q steps F).
  Proof.
    induction steps as [|s0 rest IH]; intros NE Hs Hw Hq fuel top key s F HR Hfuel; [easy|]. clear NE.
    inversion Hs as [|? ? Hs0 Hrest]; subst. destruct fuel as [|fuel]; [lia|].
    rewrite csegs_cons in *. cbn [exec_opts].
    assert (Hw' : well_split rest). { clear - Hw. cbn [well_split] in Hw. destruct s0 as [n [| |]| | |]; auto. destruct rest as [|[ | | | ] ?]; auto. destruct Hw. }
    assert (Hq' : rest <> [] -> good_qend rest q).
    { intros NR. destruct q as [|x| | |f]; cbn [good_qend] in *; auto.
      - intros a n ds K. apply (Hq (s0 :: a) n ds). now rewrite K.
      - destruct Hq as (a & n & K). destruct a as [|a0 a]; cbn [app] in K; injection K; intros; subst; [easy|]. eauto.
      - destruct Hq as [K1 K2]. split; auto. intros a. split.
        + intros K. apply (proj1 (K2 (s0 :: a))). now rewrite K.
        + intros n ds K. apply (proj2 (K2 (s0 :: a)) n ds). now rewrite K. }
    destruct (reads_ci_scan E s F key HR) as [es [R1 R2]].
    assert (HC1 : cost (csegs rest q) < fuel).
    { destruct s0 as [n [| |]| | |[|]]; cbn [qstep_segs map app cost] in Hfuel;
        repeat match type of Hfuel with context [seg_cost ?x] => pose proof (seg_cost_pos x); generalize dependent (seg_cost x); intros end; lia. }
    assert (Hrec : rest <> [] -> forall nd e k, shown_ci nd e -> exists r, exec_opts E false fuel k false (e_content e) (csegs rest q) = Ok r /\ says r (ask_ci sat q rest (kids_of nd))).
    { intros NR nd e k Sh. apply IH; auto. now apply shown_ci_reads. }
    clear IH. rewrite ask_ci_cons.
    destruct s0 as [n w| |c all|d].
    - (* children by name *)
      cbn [good_qstep] in Hs0. destruct Hs0 as [Hn Hwh]. cbv zeta.
      pose proof (matching_ci n F es Hn R2) as MS. set (es0 := filter (fun e => seg_matches_opts false (elem_seg (folded n)) (e_name e)) es) in *.
      set (listed := firstn 1000 (called (alike n) F)). set (es1 := firstn 1000 es0).
      assert (ML : Forall2 shown_ci listed es1) by (unfold listed, es1; now apply f2_firstn).
      assert (LL : len listed <= 1000) by (unfold listed; apply firstn_le_length).
      destruct w as [|ds|c all]; cbn [qstep_segs map app]; rewrite lower_elem, ?lower_where.
      + (* leading on *)
        destruct rest as [|s1 rest'] eqn:ER; [|rewrite <- ER in *; assert (NR : rest <> []) by (rewrite ER; discriminate)].
        * unfold csegs. cbn [query_segs flat_map app]. assert (FIRST : q <> ECount -> (forall f, q <> EField f) ->
            exists r, exec_body_opts E false (exec E fuel) (exec_opts E false fuel) key top s (elem_seg (folded n) :: map lower_seg (qend_segs q)) = Ok r /\
              says r (match called (alike n) F with nd :: _ => go_ci sat q [] nd | [] => NoReply end)).
          { intros N1 N2. assert (EX : exec_body_opts E false (exec E fuel) (exec_opts E false fuel) key top s (elem_seg (folded n) :: map lower_seg (qend_segs q)) =
              first_loop_opts E false (exec_opts E false fuel) key es0 (elem_seg (folded n)) (map lower_seg (qend_segs q))).
            { unfold exec_body_opts. rewrite R1. cbn [bind s_type elem_seg]. rewrite andb_false_r. destruct q as [|x| | |f]; try congruence; reflexivity. }
            rewrite EX. destruct MS as [|nd e l es' H1 H2]; [exists r_null; split; reflexivity|]. unfold go_ci.
            destruct q as [|x| | |f]; cbn [qend_segs map]; rewrite ?lower_attr; cbn [first_loop_opts step_seg s_type s_value s_mods leaf_ci lower_seg]; try congruence.
            - eexists. split; [reflexivity|]. now apply element_is, shown_ci_shown.
            - destruct (pack_attribute E Hord x nd e key H1) as [r [A1 A2]]. exists r. split; auto.
            - eexists. split; [reflexivity|]. now apply text_is, shown_ci_shown. }
          destruct q as [|x| | |f] eqn:EQ.
          -- apply FIRST; discriminate.
          -- apply FIRST; discriminate.
          -- apply FIRST; discriminate.
          -- cbn [qend_segs map]. assert (EX : exec_body_opts E false (exec E fuel) (exec_opts E false fuel) key top s [elem_seg (folded n); step_seg (CountOf, [])] = match es1 with [] => Ok r_null | _ :: _ => Ok (r_count (len es1)) end).
             { unfold exec_body_opts. rewrite R1. cbn [bind s_type elem_seg]. rewrite andb_false_r. reflexivity. }
             change (lower_seg (step_seg (CountOf, []))) with (step_seg (CountOf, [])). rewrite EX. rewrite (f2_length _ _ _ _ _ ML). destruct ML as [|nd e l es' H1 H2]; eexists; (split; [reflexivity|]); [reflexivity|].
             cbn [says item_is]. split; [now apply (denotes_describes (Count _))|]. apply itoa_decimal.
          -- cbn [qend_segs map]. assert (EX : exec_body_opts E false (exec E fuel) (exec_opts E false fuel) key top s [elem_seg (folded n); field_seg f] = field_extract_opts E false key es1 (field_seg f)).
             { unfold exec_body_opts. rewrite R1. cbn [bind s_type elem_seg]. rewrite andb_false_r. reflexivity. }
             change (lower_seg (field_seg f)) with (field_seg f). rewrite EX. apply (fields_ci_ok E Hord key f listed es1 (Hfield f eq_refl) ML).
        * assert (NK : forall c all r, rest <> Kid c all :: r). { intros c all r K. rewrite K in Hw. exact Hw. }
          destruct (first_loop_ci E sat q (exec_opts E false fuel) rest Hrec (fun h => False_ind _ (NR h)) key (elem_seg (folded n)) _ _ NR NK MS) as [r [F1 F2]].
          exists r. split; [|rewrite ER in *; destruct q; exact F2].
          rewrite <- F1. destruct (csegs_more q rest NR) as (nx & more & E1 & MO & K). rewrite E1. unfold exec_body_opts. rewrite R1. cbn [bind].
          change (s_type (elem_seg (folded n))) with SElem. cbn iota. rewrite andb_false_r. unfold exec_element_opts. destruct K as [->|[->|[_ (c & a & t & Q)]]]; auto. now destruct (NK c a t).
      + (* by number *)
        cbn [good_which] in Hwh.
        assert (SH : Forall2 shows listed es1) by (eapply f2_impl; [exact ML|]; intros a b K; apply K).
        pose proof (nth_elem_tree listed es1 ds SH LL) as NT.
        assert (MORE : match csegs rest q with n2 :: _ => s_type n2 <> SText /\ s_mods n2 = [] | [] => True end).
        { destruct rest as [|s1 rest'].
          - unfold csegs, query_segs. cbn [flat_map app]. destruct q as [|x| | |f]; cbn [qend_segs step_seg field_seg map]; auto; try (split; [discriminate|reflexivity]).
            exfalso. apply (Hq [] n ds). reflexivity.
          - rewrite csegs_cons. destruct s1 as [m [| |]| | |[|]]; cbn [qstep_segs map app]; (split; [discriminate|reflexivity]). }
        assert (EX : exec_body_opts E false (exec E fuel) (exec_opts E false fuel) key top s (elem_seg (folded n) :: step_seg (Nth ds, []) :: csegs rest q) =
          array_op_opts E false (exec_opts E false fuel) key es1 (step_seg (Nth ds, [])) (csegs rest q)).
        { unfold exec_body_opts. rewrite R1. cbn [bind s_type elem_seg s_value]. rewrite andb_false_r. reflexivity. }
        change (lower_seg (step_seg (Nth ds, []))) with (step_seg (Nth ds, [])). rewrite EX, array_op_nth_ci by auto. clear EX.
        destruct (nth_error listed (N.to_nat (decimal_value ds))) as [nd|] eqn:NTH.
        * assert (NT2 : exists e, nth_elem es1 (Z.min (Z.of_N (decimal_value ds)) int64_max) = Some e /\ shown_ci nd e).
          { destruct NT as [e [N1 _]]. exists e. split; auto. unfold nth_elem in N1.
            match type of N1 with (if ?b then _ else _) = _ => destruct b eqn:B; [|discriminate] end. apply andb_true_iff in B. destruct B as [B1 B2]. apply Z.leb_le in B1. apply Z.ltb_lt in B2.
            assert (L1 : len es1 = len listed) by (symmetry; eapply f2_length; eauto).
            assert (I1 : (1000 < int64_max)%Z) by reflexivity.
            assert (MI : Z.to_nat (Z.min (Z.of_N (decimal_value ds)) int64_max) = N.to_nat (decimal_value ds)) by lia. rewrite MI in N1.
            clear - NTH ML N1. revert NTH N1. generalize (N.to_nat (decimal_value ds)). induction ML as [|a b l l' K1 K2 IH]; intros [|i] Q1 Q2; cbn [nth_error] in *; try discriminate; [congruence|eauto]. }
          destruct NT2 as [e [-> Sh]].
          destruct rest as [|s1 rest'] eqn:ER; [|rewrite <- ER in *; assert (NR : rest <> []) by (rewrite ER; discriminate)].
          -- unfold csegs. cbn [query_segs flat_map app]. unfold go_ci. destruct q as [|x| | |f] eqn:EQ; cbn [qend_segs map]; rewrite ?lower_attr; cbn [step_seg s_type s_value leaf_ci].
             ++ eexists. split; [reflexivity|]. now apply element_is, shown_ci_shown.
             ++ destruct (pack_attribute E Hord x nd e key Sh) as [r [A1 A2]]. exists r. split; auto. rewrite <- A1. now destruct (attr_lookup E false key (folded x) e).
             ++ exfalso. apply (Hq [] n ds). reflexivity.
             ++ destruct Hq as (a & m & K). destruct a as [|? a]; cbn [app] in K; [discriminate|]. now destruct a.
             ++ exfalso. destruct Hq as [_ K]. apply (proj2 (K []) n ds). reflexivity.
          -- assert (GM : go_ci sat q rest nd = ask_ci sat q rest (kids_of nd)) by (unfold go_ci; rewrite ER; reflexivity). rewrite GM. destruct (Hrec NR nd e (child_key site_query e key) Sh) as [r [Q1 Q2]]. exists r. split; auto.
             destruct (csegs_more q rest NR) as (nx & more & E1 & MO & K). rewrite <- Q1, E1. destruct K as [->|[->|[-> _]]]; reflexivity.
        * rewrite NT. exists r_null. split; reflexivity.
      + (* by condition *)
        cbn [good_which] in Hwh.
        assert (FUEL : 2 * len (subject_text (c_about c)) + 2 <= fuel).
        { cbn [qstep_segs map app cost] in Hfuel. rewrite lower_where in Hfuel. unfold where_seg, filter_seg, seg_cost, cond_filt in Hfuel. cbn [s_filter elem_seg f_path lower_seg s_type] in Hfuel. lia. }
        destruct (filter_ci E Hord sat Hsat c fuel key _ _ Hwh FUEL ML) as [es' [F1 F2]].
        assert (EX : exec_body_opts E false (exec E fuel) (exec_opts E false fuel) key top s (elem_seg (folded n) :: where_seg c all :: csegs rest q) =
          route_matches_opts E false (exec_opts E false fuel) key es' (where_seg c all) (csegs rest q)).
        { unfold exec_body_opts. rewrite R1. cbn [bind s_type elem_seg]. rewrite andb_false_r. fold (elem_seg (folded n)). unfold exec_element_opts. cbn [s_type s_filter where_seg filter_seg]. rewrite wild_max.
          fold es0. fold es1. rewrite F1. reflexivity. }
        rewrite EX. apply (route_ci E Hord sat q (exec_opts E false fuel) rest Hrec); auto.
        intros ER EC. subst rest. rewrite EC in Hq. destruct Hq as (a & m & K). destruct a as [|? a]; cbn [app] in K; [discriminate|]. now destruct a.
    - (* any child *)
      cbn [qstep_segs map app]. unfold exec_body_opts. rewrite R1. change (lower_seg any_seg) with any_seg. cbn [bind s_type any_seg step_seg s_wild]. rewrite wild_max.
      apply (f2_firstn _ _ _ 1000) in R2. destruct R2 as [|nd e l es' H1 H2] eqn:RR.
      + exists r_null. split; reflexivity.
      + destruct (wildcard_ci E Hord sat q (exec_opts E false fuel) rest Hrec) with (key := key) (l := nd :: l) (es := e :: es') as [r [W1 W2]]; eauto.
        * intros ER EC. subst rest. rewrite EC in Hq. destruct Hq as (a & m & K). destruct a as [|? a]; cbn [app] in K; [discriminate|]. now destruct a.
        * intros -> f EF. rewrite EF in Hq. destruct Hq as [_ K]. now destruct (K []).
        * discriminate.
    - (* any child by condition *)
      cbn [qstep_segs map app good_qstep] in *. rewrite lower_where in *.
      assert (FUEL : 2 * len (subject_text (c_about c)) + 2 <= fuel).
      { cbn [cost] in Hfuel. unfold where_seg, filter_seg, seg_cost, cond_filt in Hfuel. cbn [s_filter f_path] in Hfuel. lia. }
      destruct (filter_upto_ci E Hord sat Hsat c fuel key _ _ Hs0 FUEL R2 999) as [es' [F1 F2]].
      assert (EX : exec_body_opts E false (exec E fuel) (exec_opts E false fuel) key top s (where_seg c all :: csegs rest q) =
        route_matches_opts E false (exec_opts E false fuel) key es' (where_seg c all) (csegs rest q)).
      { unfold exec_body_opts. rewrite R1. cbn [bind s_type where_seg filter_seg s_filter]. change MaxWildcardResults with 1000. rewrite F1. reflexivity. }
      rewrite EX. apply (route_ci E Hord sat q (exec_opts E false fuel) rest Hrec); auto.
      intros ER EC. subst rest. rewrite EC in Hq. destruct Hq as (a & m & K). destruct a as [|? a]; cbn [app] in K; [discriminate|]. now destruct a.
    - (* search *)
      assert (Hcount : rest = [] -> q <> ECount).
      { intros ER EC. subst rest. rewrite EC in Hq. destruct Hq as (a & m & K). destruct a as [|? a]; cbn [app] in K; [discriminate|]. now destruct a. }
      destruct fuel as [|fuel']; [lia|].
      assert (AD := search_add_ci E Hord sat q (exec_opts E false (Datatypes.S fuel')) rest Hrec Hcount).
      assert (HL : rest = [] -> forall f k s, q = EField f -> exec_opts E false (Datatypes.S fuel') k false s (csegs rest q) = Ok (r_array [])).
      { intros -> f k s1 ->. unfold csegs, query_segs. cbn [flat_map app qend_segs map exec_opts]. unfold exec_body_opts, scan_res. destruct (scan_total (e_ord E) k s1) as [l ->]. reflexivity. }
      specialize (AD Hfield HL).
      destruct d as [n|]; cbn [qstep_segs map app]; unfold exec_body_opts; rewrite R1; cbn [bind lower_seg s_type deep_seg step_seg s_wild].
      + rewrite lower_elem. apply (recursive_ok_ci E Hord (exec_opts E false (Datatypes.S fuel')) (elem_seg (folded n)) (csegs rest q) (alike n)); auto. intros m Hm. now apply alike_match.
      + apply (recursive_ok_ci E Hord (exec_opts E false (Datatypes.S fuel')) any_seg (csegs rest q) (fun _ => true)); auto.
  Qed.
  Lemma get_ask_ci : forall o s F steps, o_case o = false -> reads_ci E s F -> (blen s <= 10485760)%N -> good_query steps q ->
    exists r, get_opts E o s (query_text steps q) = Ok r /\ says r (ask_ci sat q steps F).
  Proof.
    intros o s F steps Ho HR HS HP. pose proof (query_parses _ _ HP) as P. destruct HP as [H1 H2 H3 H4 _].
    assert (P2 : parse_path_opts o (query_text steps q) = Ok (csegs steps q)) by (unfold parse_path_opts; rewrite P; cbn [bind]; now rewrite Ho).
    assert (NE : csegs steps q <> []).
    { destruct steps as [|s0 steps]; [easy|]. rewrite csegs_cons. destruct s0 as [n [| |]| | |[|]]; discriminate. }
    assert (FU : cost (csegs steps q) < query_fuel (query_text steps q)).
    { pose proof (parse_opts_cost _ _ _ P2) as [C _]. unfold query_fuel. lia. }
    destruct (exec_ask_ci steps H1 H2 H3 H4 _ true [] s F HR FU) as [r [R1 R2]]. exists r. split; auto. unfold get_opts.
    assert (SZ : (MaxDocumentSize <? blen s)%N = false) by (apply N.ltb_ge; exact HS). rewrite SZ.
    unfold is_default_options. rewrite Ho. cbn [andb]. rewrite P2. cbn [bind]. destruct (csegs steps q) eqn:Q; [easy|]. exact R1.
  Qed.
End Case.
