(** Queries on canonical text are queries on trees: searches and the whole language. *)
From Coq Require Import List Ascii String NArith ZArith Bool Lia Permutation.
From Verif Require Import GoStr ModelParser ModelPath ModelResult ModelQuery SpecText SpecPath SpecTree SpecQuery SpecValid SpecEdit SpecContent SpecFilter SpecLang
  ProofBase ProofEscape ProofPath ProofScan ProofSyntax ProofFuel ProofFuel2 ProofMono ProofFilter ProofTree ProofTree2 ProofTree3 ProofTree4 ProofTree5 ProofRaw2 ProofLang ProofLang2 ProofLang3.
Import ListNotations.

(** ** Searches *)
Definition gather_step (acc c : list item) : list item := if Nat.leb 1000 (List.length acc) then acc else acc ++ c.
Lemma gather_full : forall l acc, 1000 <= len acc -> fold_left gather_step l acc = acc.
Proof.
  induction l as [|c l IH]; intros acc H; auto. cbn [fold_left]. unfold gather_step at 2. rewrite (proj2 (Nat.leb_le _ _) H). auto.
Qed.
Lemma post_elems : forall F, post F = post (elems F).
Proof. unfold post, elems. induction F as [|[n a self kids|t|b] F IH]; auto; cbn [flat_map filter is_elem post_node app]; congruence. Qed.
Lemma post_node_elem : forall nd, is_elem nd = true -> post_node nd = post (kids_of nd) ++ [nd].
Proof. intros [n a self kids| |] H; try discriminate. reflexivity. Qed.
Lemma levels_kids : forall nd n, is_elem nd = true -> levels nd <= S n -> Forall (fun k => levels k <= n) (kids_of nd).
Proof.
  intros [m a self kids| |] n H L; try discriminate. cbn [kids_of levels] in *. apply Forall_forall. intros k Hk. pose proof (height_in k kids Hk). lia.
Qed.
Lemma levels_elem : forall nd, is_elem nd = true -> 1 <= levels nd.
Proof. intros [m a self kids| |] H; try discriminate. cbn [levels]. lia. Qed.
Lemma called_cons : forall f nd l, is_elem nd = true -> called f (nd :: l) = if f (name_of nd) then nd :: called f l else called f l.
Proof. intros f [n a self kids| |] l H; try discriminate. reflexivity. Qed.

Section Search.
  Variable E : env.
  Hypothesis Hord : forall k l, Permutation l (e_ord E k l).
  Variable rec : qrec.
  Variable target : seg.
  Variable rest : list seg.
  Variable sel : bytes -> bool.
  Hypothesis Hsel : forall n, xml_name n -> seg_matches target n = sel n.
  Variable C : node -> list item.
  Hypothesis HC : forall key nd e, shown nd e -> exists add, search_add E rec key e rest = Ok add /\ Forall2 item_is (C nd) add.
  Definition found (F : list node) (A : list item) : list item := fold_left gather_step (map C (called sel (post F))) A.

  Definition go_loop (n' : nat) (key : list nat) := fix go (es : list elem) (st : N * list result) : Res (N * list result) :=
     match es with
     | [] => Ok st
     | e :: es' =>
         let* st1 :=
           (match e_content e with
            | [] => Ok st
            | _ :: _ => rsearch E rec n' (child_key site_search e key) target rest st (e_content e)
            end) in
         if (MaxRecursiveOperations <=? fst st1)%N then Ok st1
         else if seg_matches target (e_name e) then
           if Nat.leb MaxWildcardResults (List.length (snd st1)) then Ok st1
           else
             let* add := search_add E rec key e rest in
             go es' (fst st1, snd st1 ++ add)
         else go es' st1
     end.
  Lemma found_app : forall F G A, found (F ++ G) A = found G (found F A).
  Proof. intros F G A. unfold found, post, called. now rewrite flat_map_app, filter_app, map_app, fold_left_app. Qed.
  Lemma found_node : forall nd A, is_elem nd = true -> found [nd] A =
    if sel (name_of nd) then gather_step (found (kids_of nd) A) (C nd) else found (kids_of nd) A.
  Proof.
    intros nd A H. unfold found. change (post [nd]) with (post_node nd ++ []). rewrite app_nil_r, post_node_elem by auto. unfold called. rewrite filter_app, map_app, fold_left_app.
    fold (called sel (post (kids_of nd))). fold (called sel [nd]). rewrite called_cons by auto. destruct (sel (name_of nd)); reflexivity.
  Qed.
  Lemma search_ok : forall n F key s ops A acc, reads_in E s F -> Forall (fun nd => levels nd <= n) F -> Forall2 item_is A acc ->
    (ops + 1 + elements F < 10000)%N ->
    exists ops' acc', rsearch E rec n key target rest (ops, acc) s = Ok (ops', acc') /\
      (ops' <= ops + 1 + elements F)%N /\ Forall2 item_is (found F A) acc'.
  Proof.
    induction n as [|n IH]; intros F key s ops A acc HR HL HA HO.
    - assert (Z : elems F = []).
      { clear - HL. induction HL as [|nd F H1 H2 IH]; auto. unfold elems in *. cbn [filter]. destruct (is_elem nd) eqn:Q; auto. apply levels_elem in Q. lia. }
      cbn [rsearch fst snd]. exists (ops + 1)%N, acc. repeat split; [lia|]. unfold found. rewrite post_elems, Z. exact HA.
    - cbn [rsearch fst snd]. fold (go_loop n key). rewrite wild_max. change MaxRecursiveOperations with 10000%N.
      rewrite (proj2 (N.leb_gt 10000 (ops + 1))) by lia. rewrite orb_false_r. rewrite <- (f2_length _ _ _ _ _ HA).
      destruct (Nat.leb 1000 (len A)) eqn:FU.
      { apply Nat.leb_le in FU. exists (ops + 1)%N, acc. repeat split; [lia|]. unfold found. now rewrite gather_full. }
      clear FU. destruct (reads_scan E s F key HR) as [es [R1 R2]]. rewrite R1. cbn [bind].
      assert (LE : Forall (fun nd => levels nd <= S n) (elems F)).
      { apply Forall_forall. intros x Hx. apply filter_In in Hx. rewrite Forall_forall in HL. now apply HL. }
      assert (EE : elements F = elements (elems F)) by (unfold elements; now rewrite post_elems).
      assert (FE : found F A = found (elems F) A) by (unfold found; now rewrite post_elems). rewrite FE. rewrite EE in *. clear EE FE HR HL R1.
      assert (OPS : exists o, o = (ops + 1)%N) by eauto. destruct OPS as [o Ho]. rewrite <- Ho in *. set (L := elems F) in *. clearbody L. clear Ho ops s F. rename HO into HO'.
      revert LE A acc HA o HO'. induction R2 as [|nd e l es H1 H2 IHl]; intros LE A acc HA o HO.
      + exists o, acc. cbn [go_loop]. repeat split; auto. lia.
      + inversion LE as [|? ? L1 L2]; subst. pose proof (shown_elem _ _ H1) as EL. change (nd :: l) with ([nd] ++ l) in *. rewrite found_app.
        assert (E1 : elements ([nd] ++ l) = (elements (kids_of nd) + 1 + elements l)%N).
        { cbn [app]. rewrite elements_cons, elements_kids by auto. lia. }
        rewrite E1 in *. cbn [go_loop].
        assert (SUB : exists o1 acc1, match e_content e with [] => Ok (o, acc) | _ :: _ => rsearch E rec n (child_key site_search e key) target rest (o, acc) (e_content e) end = Ok (o1, acc1) /\
          (o1 <= o + 1 + elements (kids_of nd))%N /\ Forall2 item_is (found (kids_of nd) A) acc1).
        { destruct (e_content e) eqn:CE.
          - exists o, acc. repeat split; [lia|]. pose proof (shown_reads E Hord _ _ H1) as RR. rewrite CE in RR. destruct (reads_scan E [] _ key RR) as [es0 [K1 K2]].
            assert (es0 = []) by (clear - K1; cbv in K1; congruence). subst es0. inversion K2 as [Q|]. unfold found. rewrite post_elems, <- Q. exact HA.
          - rewrite <- CE. apply IH; auto.
            + now apply shown_reads.
            + now apply levels_kids.
            + lia. }
        destruct SUB as (o1 & acc1 & S1 & S2 & S3). rewrite S1. cbn [bind fst snd]. change MaxRecursiveOperations with 10000%N.
        rewrite (proj2 (N.leb_gt 10000 o1)) by lia. rewrite found_node by auto.
        destruct (shown_name _ _ H1) as [N1 N2]. rewrite N1, Hsel by auto. destruct (sel (name_of nd)).
        * rewrite wild_max, <- (f2_length _ _ _ _ _ S3). unfold gather_step. destruct (Nat.leb 1000 (len (found (kids_of nd) A))) eqn:FU.
          -- apply Nat.leb_le in FU. exists o1, acc1. repeat split; [lia|]. unfold found at 1. now rewrite gather_full.
          -- destruct (HC key nd e H1) as [add [A1 A2]]. rewrite A1. cbn [bind].
             destruct (IHl L2 (found (kids_of nd) A ++ C nd) (acc1 ++ add) ltac:(now apply Forall2_app) o1 ltac:(lia)) as (o2 & acc2 & T1 & T2 & T3).
             exists o2, acc2. repeat split; auto. lia.
        * destruct (IHl L2 (found (kids_of nd) A) acc1 S3 o1 ltac:(lia)) as (o2 & acc2 & T1 & T2 & T3).
          exists o2, acc2. repeat split; auto. lia.
  Qed.
  Lemma recursive_ok : forall key s F, reads_in E s F ->
    exists r, handle_recursive E rec key (target :: rest) s = Ok r /\ says r (pack (gather (map C (called sel (post F))))).
  Proof.
    intros key s F HR. destruct HR as [HR [W1 W2]].
    destruct (search_ok (S MaxNestingDepth) F key s 0%N [] []) as (o & acc & R1 & R2 & R3); auto.
    - split; auto. split; auto.
    - eapply Forall_impl; [|exact W1]. intros nd H. cbn beta in H. unfold MaxNestingDepth. lia.
    - lia.
    - unfold handle_recursive. rewrite R1. cbn [bind snd]. apply says_pack in R3. destruct acc; eexists; (split; [reflexivity|]); exact R3.
  Qed.
End Search.

(** ** The language *)
Section Lang.
  Variable E : env.
  Hypothesis Hord : forall k l, Permutation l (e_ord E k l).
  Variable sat : condition -> node -> bool.
  Hypothesis Hsat : forall c nd, good nd -> (sat c nd = true <-> true_of (e_parse_float E) c nd).
  Variable q : qend.
  Hypothesis Hfield : forall f, q = EField f -> good_field f.

  Lemma ask_cons : forall top s rest F, ask sat q top (s :: rest) F =
    match s with
    | Child n w =>
        let named := called (selects n) F in
        let listed := firstn 1000 (called (if top then bytes_eqb n else selects n) F) in
        match w with
        | Number ds => match nth_error listed (N.to_nat (decimal_value ds)) with Some nd => go sat q rest nd | None => NoReply end
        | Where c all => chosen sat q rest all (filter (sat c) (firstn 1000 named))
        | Leading =>
            match rest, q with
            | [], ECount => match listed with [] => NoReply | _ => One (ACount (List.length listed)) end
            | [], EField f => match listed with [] => if top then NoReply else Many [] | _ => fields f listed end
            | [], _ => match named with nd :: _ => go sat q rest nd | [] => NoReply end
            | _, _ => first_reply (go sat q rest) named
            end
        end
    | AnyKid => wild_reply sat q rest (firstn 1000 (elems F))
    | Kid c all => chosen sat q rest all (firstn 1000 (filter (sat c) (elems F)))
    | Descendant n =>
        pack (gather (map (fun nd => items (go sat q rest nd))
          (called (match n with Some n => selects n | None => fun _ => true end) (post F))))
    end.
  Proof. intros top s rest F. destruct s as [n [| |]| | |]; reflexivity. Qed.

  Lemma cost_cons : forall sg segs, cost (sg :: segs) = seg_cost sg + cost segs. Proof. reflexivity. Qed.
  Lemma segs_cons : forall s rest, query_segs (s :: rest) q = qstep_segs s ++ query_segs rest q.
  Proof. intros. unfold query_segs. cbn [flat_map]. now rewrite app_assoc. Qed.
  Lemma array_op_nth : forall rec key top es ds more, (match more with n2 :: _ => s_type n2 <> SText /\ s_mods n2 = [] | [] => True end) ->
    (if top : bool then root_array E rec key es (step_seg (Nth ds, [])) more else array_op E rec key es (step_seg (Nth ds, [])) more) =
    match nth_elem es (Z.min (Z.of_N (decimal_value ds)) int64_max) with
    | None => Ok r_null
    | Some e =>
      match more with
      | [] => Ok (r_element (e_content e))
      | n2 :: more2 =>
        match s_type n2 with
        | SAttr => Ok (match map_get (s_value n2) (e_attrs e) with Some v => r_attribute v | None => r_null end)
        | _ => rec (child_key site_query e key) false (e_content e) more
        end
      end
    end.
  Proof.
    intros rec key top es ds more H. assert (Z0 : es = [] -> nth_elem es (Z.min (Z.of_N (decimal_value ds)) int64_max) = None).
    { intros ->. unfold nth_elem. cbn [List.length].
      destruct (Z.min (Z.of_N (decimal_value ds)) int64_max <? Z.of_nat 0)%Z eqn:Q; [|now rewrite andb_false_r].
      apply Z.ltb_lt in Q. assert (0 < int64_max)%Z by reflexivity. lia. }
    destruct top; unfold root_array, array_op; (destruct es as [|e0 es]; [rewrite Z0 by auto; reflexivity|]); cbn [step_seg s_type s_index s_mods];
      destruct (nth_elem (e0 :: es) _); auto; destruct more as [|n2 more2]; auto; destruct H as [H1 H2]; rewrite ?H2.
    - destruct (s_type n2); auto. contradiction.
    - destruct (s_type n2); auto. destruct (map_get (s_value n2) (e_attrs e)); auto. now destruct more2.
  Qed.

  Lemma exec_ask : forall steps, steps <> [] -> Forall good_qstep steps -> well_split steps -> good_qend steps q ->
    forall fuel top key s F, reads_in E s F -> cost (query_segs steps q) < fuel ->
    exists r, exec E fuel key top s (query_segs steps q) = Ok r /\ says r (ask sat q top steps F).
  Proof.
    induction steps as [|s0 rest IH]; intros NE Hs Hw Hq fuel top key s F HR Hfuel; [easy|]. clear NE.
    inversion Hs as [|? ? Hs0 Hrest]; subst. destruct fuel as [|fuel]; [lia|].
    rewrite segs_cons in *. cbn [exec].
    assert (Hw' : well_split rest). { clear - Hw. cbn [well_split] in Hw. destruct s0 as [n [| |]| | |]; auto. destruct rest as [|[ | | | ] ?]; auto. destruct Hw. }
    assert (Hq' : rest <> [] -> good_qend rest q).
    { intros NR. destruct q as [|x| | |f]; cbn [good_qend] in *; auto.
      - intros a n ds K. apply (Hq (s0 :: a) n ds). now rewrite K.
      - destruct Hq as (a & n & K). destruct a as [|a0 a]; cbn [app] in K; injection K; intros; subst; [easy|]. eauto.
      - destruct Hq as [K1 K2]. split; auto. intros a. split.
        + intros K. apply (proj1 (K2 (s0 :: a))). now rewrite K.
        + intros n ds K. apply (proj2 (K2 (s0 :: a)) n ds). now rewrite K. }
    destruct (reads_scan E s F key HR) as [es [R1 R2]].
    assert (HC1 : cost (query_segs rest q) < fuel).
    { destruct s0 as [n [| |]| | |[|]]; cbn [qstep_segs app cost] in Hfuel;
        repeat match type of Hfuel with context [seg_cost ?x] => pose proof (seg_cost_pos x); generalize dependent (seg_cost x); intros end; lia. }
    assert (Hrec : rest <> [] -> forall nd e k, shown nd e -> exists r, exec E fuel k false (e_content e) (query_segs rest q) = Ok r /\ says r (ask sat q false rest (kids_of nd))).
    { intros NR nd e k Sh. apply IH; auto. now apply shown_reads. }
    clear IH. rewrite ask_cons.
    destruct s0 as [n w| |c all|d].
    - (* children by name *)
      cbn [good_qstep] in Hs0. destruct Hs0 as [Hn Hwh]. cbv zeta.
      pose proof (shown_matching n F es Hn R2) as MS. pose proof (shown_exact n F es R2) as MX.
      set (listed := firstn 1000 (called (if top then bytes_eqb n else selects n) F)).
      set (es1 := firstn 1000 (if top then filter (fun e => bytes_eqb (e_name e) n) es else matching (elem_seg n) es)).
      assert (ML : Forall2 shown listed es1) by (unfold listed, es1; apply f2_firstn; destruct top; auto).
      assert (LL : len listed <= 1000) by (unfold listed; apply firstn_le_length).
      destruct w as [|ds|c all]; cbn [qstep_segs app].
      + (* leading on *)
        destruct rest as [|s1 rest'] eqn:ER; [|rewrite <- ER in *; assert (NR : rest <> []) by (rewrite ER; discriminate)].
        * cbn [query_segs flat_map app]. assert (FIRST : q <> ECount -> (forall f, q <> EField f) ->
            exists r, exec_body E (exec E fuel) key top s (elem_seg n :: qend_segs q) = Ok r /\ says r (match called (selects n) F with nd :: _ => go sat q [] nd | [] => NoReply end)).
          { intros N1 N2. assert (EX : exec_body E (exec E fuel) key top s (elem_seg n :: qend_segs q) = first_loop E (exec E fuel) key (matching (elem_seg n) es) (elem_seg n) (qend_segs q)).
            { unfold exec_body. rewrite R1. cbn [bind s_type elem_seg]. destruct q as [|x| | |f]; try congruence; destruct top; try reflexivity; now destruct (N2 f). }
            rewrite EX. destruct MS as [|nd e l es' H1 H2]; [exists r_null; split; reflexivity|]. unfold go.
            destruct q as [|x| | |f]; cbn [qend_segs first_loop step_seg s_type s_value s_mods leaf]; try congruence.
            - eexists. split; [reflexivity|]. now apply element_is.
            - pose proof (attribute_is x nd e H1) as A. unfold attribute in *. destruct (map_get x (e_attrs e)), (attr_value x (attrs_of nd)); inversion A; subst; eexists; (split; [reflexivity|]); auto. reflexivity.
            - eexists. split; [reflexivity|]. now apply text_is. }
          destruct q as [|x| | |f] eqn:EQ.
          -- apply FIRST; discriminate.
          -- apply FIRST; discriminate.
          -- apply FIRST; discriminate.
          -- cbn [qend_segs]. assert (EX : exec_body E (exec E fuel) key top s [elem_seg n; step_seg (CountOf, [])] = match es1 with [] => Ok r_null | _ :: _ => Ok (r_count (len es1)) end).
             { unfold exec_body. rewrite R1. cbn [bind s_type elem_seg]. unfold es1. destruct top; reflexivity. }
             rewrite EX. rewrite (f2_length _ _ _ _ _ ML). destruct ML as [|nd e l es' H1 H2]; eexists; (split; [reflexivity|]); [reflexivity|].
             cbn [says item_is]. split; [now apply (denotes_describes (Count _))|]. apply itoa_decimal.
          -- cbn [qend_segs]. assert (EX : exec_body E (exec E fuel) key top s [elem_seg n; field_seg f] = match es1, top with [], true => Ok r_null | _, _ => field_extract E key es1 (field_seg f) end).
             { unfold exec_body. rewrite R1. cbn [bind s_type elem_seg]. unfold es1. destruct top; cbn iota.
               - cbn [s_type field_seg s_value]. rewrite wild_max. change (s_value (elem_seg n)) with n. now destruct (firstn 1000 (filter (fun e => bytes_eqb (e_name e) n) es)).
               - unfold exec_element. cbn [s_type field_seg]. rewrite wild_max. now destruct (firstn 1000 (matching (elem_seg n) es)). }
             rewrite EX. destruct (fields_ok E Hord key f listed es1 (Hfield f eq_refl) ML) as [r [F1 F2]].
             destruct ML as [|nd e l es' H1 H2]; [|exists r; split; auto].
             destruct top; [exists r_null; split; reflexivity|]. exists r. split; auto.
        * assert (NK : forall c all r, rest <> Kid c all :: r). { intros c all r K. rewrite K in Hw. exact Hw. }
          destruct (first_loop_ok E sat q (exec E fuel) rest Hrec (fun h => False_ind _ (NR h)) key (elem_seg n) _ _ NR NK MS) as [r [F1 F2]].
          exists r. split; [|rewrite ER in *; destruct q; exact F2].
          rewrite <- F1. destruct (segs_more q rest NR) as (nx & more & E1 & K). unfold rsegs in *. rewrite E1. unfold exec_body. rewrite R1. cbn [bind].
          change (s_type (elem_seg n)) with SElem. cbn iota. unfold exec_element. destruct K as [->|[->|[_ (c & a & t & Q)]]]; [now destruct top|now destruct top|now destruct (NK c a t)].
      + (* by number *)
        cbn [good_which] in Hwh. pose proof (shows_nth listed es1) as _.
        assert (SH : Forall2 shows listed es1) by (eapply f2_impl; [exact ML|]; intros a b K; apply K).
        pose proof (nth_elem_tree listed es1 ds SH LL) as NT.
        assert (MORE : match query_segs rest q with n2 :: _ => s_type n2 <> SText /\ s_mods n2 = [] | [] => True end).
        { destruct rest as [|s1 rest'].
          - unfold query_segs. cbn [flat_map app]. destruct q as [|x| | |f]; cbn [qend_segs step_seg field_seg]; auto; try (split; [discriminate|reflexivity]).
            exfalso. apply (Hq [] n ds). reflexivity.
          - rewrite segs_cons. destruct s1 as [m [| |]| | |[|]]; cbn [qstep_segs app]; (split; [discriminate|reflexivity]). }
        assert (EX : exec_body E (exec E fuel) key top s (elem_seg n :: step_seg (Nth ds, []) :: query_segs rest q) =
          (if top then root_array E (exec E fuel) key es1 (step_seg (Nth ds, [])) (query_segs rest q) else array_op E (exec E fuel) key es1 (step_seg (Nth ds, [])) (query_segs rest q))).
        { unfold exec_body. rewrite R1. cbn [bind s_type elem_seg s_value]. unfold es1, exec_element. cbn [s_type step_seg]. rewrite ?wild_max. now destruct top. }
        rewrite EX, array_op_nth by auto. clear EX.
        destruct (nth_error listed (N.to_nat (decimal_value ds))) as [nd|] eqn:NTH.
        * destruct NT as [e [-> Sh0]]. assert (Sh : shown nd e).
          { split; auto. clear - NTH ML. apply nth_error_In in NTH. revert NTH. induction ML as [|a b l l' K1 K2 IH]; intros []; [subst; apply K1|auto]. }
          destruct rest as [|s1 rest'] eqn:ER; [|rewrite <- ER in *; assert (NR : rest <> []) by (rewrite ER; discriminate)].
          -- cbn [query_segs flat_map app]. unfold go. destruct q as [|x| | |f] eqn:EQ; cbn [qend_segs step_seg s_type s_value leaf].
             ++ eexists. split; [reflexivity|]. now apply element_is.
             ++ pose proof (attribute_is x nd e Sh) as A. unfold attribute in *. destruct (map_get x (e_attrs e)), (attr_value x (attrs_of nd)); inversion A; subst; eexists; (split; [reflexivity|]); auto. reflexivity.
             ++ exfalso. apply (Hq [] n ds). reflexivity.
             ++ destruct Hq as (a & m & K). destruct a as [|? a]; cbn [app] in K; [discriminate|]. now destruct a.
             ++ exfalso. destruct Hq as [_ K]. apply (proj2 (K []) n ds). reflexivity.
          -- assert (GM : go sat q rest nd = ask sat q false rest (kids_of nd)) by (unfold go; rewrite ER; reflexivity). rewrite GM. destruct (Hrec NR nd e (child_key site_query e key) Sh) as [r [Q1 Q2]]. exists r. split; auto.
             destruct (segs_more q rest NR) as (nx & more & E1 & K). unfold rsegs in *. rewrite <- Q1, E1. destruct K as [->|[->|[-> _]]]; reflexivity.
        * rewrite NT. exists r_null. split; reflexivity.
      + (* by condition *)
        cbn [good_which] in Hwh.
        assert (FUEL : 2 * len (subject_text (c_about c)) + 2 <= fuel).
        { cbn [qstep_segs app cost] in Hfuel. unfold where_seg, filter_seg, seg_cost, cond_filt in Hfuel. cbn [s_filter elem_seg f_path] in Hfuel. lia. }
        destruct (filter_ok E Hord sat Hsat c fuel key _ _ Hwh FUEL (f2_firstn _ _ _ 1000 _ _ MS)) as [es' [F1 F2]].
        assert (EX : exec_body E (exec E fuel) key top s (elem_seg n :: where_seg c all :: query_segs rest q) =
          route_matches E (exec E fuel) key es' (where_seg c all) (query_segs rest q)).
        { unfold exec_body. rewrite R1. cbn [bind s_type elem_seg where_seg filter_seg]. unfold exec_element. cbn [s_type s_filter where_seg filter_seg]. rewrite wild_max.
          fold (elem_seg n). rewrite F1. now destruct top. }
        rewrite EX. apply (route_ok E Hord sat q (exec E fuel) rest Hrec); auto.
        intros ER EC. subst rest. rewrite EC in Hq. destruct Hq as (a & m & K). destruct a as [|? a]; cbn [app] in K; [discriminate|]. now destruct a.
    - (* any child *)
      cbn [qstep_segs app]. unfold exec_body. rewrite R1. cbn [bind s_type any_seg step_seg s_wild s_mods]. rewrite wild_max.
      apply (f2_firstn _ _ _ 1000) in R2. destruct R2 as [|nd e l es' H1 H2] eqn:RR.
      + exists r_null. split; reflexivity.
      + destruct (wildcard_ok E sat q (exec E fuel) rest Hrec) with (key := key) (l := nd :: l) (es := e :: es') as [r [W1 W2]]; auto.
        * intros ER EC. subst rest. rewrite EC in Hq. destruct Hq as (a & m & K). destruct a as [|? a]; cbn [app] in K; [discriminate|]. now destruct a.
        * intros -> f EF. rewrite EF in Hq. destruct Hq as [_ K]. now destruct (K []).
        * discriminate.
        * unfold rsegs in W1. rewrite W1. cbn [bind]. exists r. split; auto. now destruct (query_segs rest q).
    - (* any child by condition *)
      cbn [qstep_segs app good_qstep] in *.
      assert (FUEL : 2 * len (subject_text (c_about c)) + 2 <= fuel).
      { cbn [cost] in Hfuel. unfold where_seg, filter_seg, seg_cost, cond_filt in Hfuel. cbn [s_filter f_path] in Hfuel. lia. }
      destruct (filter_upto_ok E Hord sat Hsat c fuel key _ _ Hs0 FUEL R2 999) as [es' [F1 F2]].
      assert (EX : exec_body E (exec E fuel) key top s (where_seg c all :: query_segs rest q) =
        route_matches E (exec E fuel) key es' (where_seg c all) (query_segs rest q)).
      { unfold exec_body. rewrite R1. cbn [bind s_type where_seg filter_seg s_filter]. change MaxWildcardResults with 1000. rewrite F1. reflexivity. }
      rewrite EX. apply (route_ok E Hord sat q (exec E fuel) rest Hrec); auto.
      intros ER EC. subst rest. rewrite EC in Hq. destruct Hq as (a & m & K). destruct a as [|? a]; cbn [app] in K; [discriminate|]. now destruct a.
    - (* search *)
      assert (Hcount : rest = [] -> q <> ECount).
      { intros ER EC. subst rest. rewrite EC in Hq. destruct Hq as (a & m & K). destruct a as [|? a]; cbn [app] in K; [discriminate|]. now destruct a. }
      assert (AD := search_add_ok E Hord sat q (exec E fuel) rest Hrec Hcount Hfield). unfold rsegs in AD.
      destruct d as [n|]; cbn [qstep_segs app]; unfold exec_body; rewrite R1; cbn [bind s_type deep_seg step_seg s_wild].
      + apply (recursive_ok E Hord (exec E fuel) (elem_seg n) (query_segs rest q) (selects n)); auto. intros m Hm. now apply selects_match.
      + apply (recursive_ok E Hord (exec E fuel) any_seg (query_segs rest q) (fun _ => true)); auto.
  Qed.
  Lemma get_ask : forall s F steps, reads_in E s F -> (blen s <= 10485760)%N -> good_query steps q ->
    exists r, get E s (query_text steps q) = Ok r /\ says r (ask sat q true steps F).
  Proof.
    intros s F steps HR HS HP. pose proof (query_parses _ _ HP) as P. destruct HP as [H1 H2 H3 H4 _].
    assert (NE : query_segs steps q <> []).
    { destruct steps as [|s0 steps]; [easy|]. rewrite segs_cons. destruct s0 as [n [| |]| | |[|]]; discriminate. }
    rewrite (get_exec E s _ _ (S (cost (query_segs steps q))) HS P NE) by lia. apply exec_ask; auto.
  Qed.
End Lang.
