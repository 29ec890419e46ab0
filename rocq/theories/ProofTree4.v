(** Queries on canonical text are queries on the tree. *)
From Coq Require Import List Ascii String NArith ZArith Bool Lia Permutation.
From Verif Require Import GoStr ModelParser ModelPath ModelResult ModelQuery SpecText SpecPath SpecTree SpecQuery
  ProofBase ProofEscape ProofPath ProofScan ProofSyntax ProofTree ProofTree2 ProofTree3.
Import ListNotations.

Definition name_of (nd : node) : bytes := match nd with Elem n _ _ _ => n | _ => [] end.
Lemma wild_max : MaxWildcardResults = 1000. Proof. reflexivity. Qed.

Lemma f2_length : forall A B (R : A -> B -> Prop) l l', Forall2 R l l' -> List.length l = List.length l'.
Proof. intros A B R l l' H. induction H; cbn [List.length]; auto. Qed.

Section Trees.
  Variable E : env.
  Hypothesis Hord : forall k l, Permutation l (e_ord E k l).

  (** The scanner finds [nd] as [e]. *)
  Record shows (nd : node) (e : elem) : Prop := {
    sh_elem : is_elem nd = true;
    sh_good : good nd;
    sh_name : e_name e = name_of nd;
    sh_attrs : Permutation (attrs_of nd) (e_attrs e);
    sh_content : exists kids', Forall2 same (kids_of nd) kids' /\ e_content e = forest_text kids'
  }.
  Definition reads (s : bytes) (F : list node) : Prop :=
    forall key, exists es, scan (e_ord E) key s = Some es /\ Forall2 shows (elems F) es.

  Lemma scanned_shows : forall F es, scanned F es -> Forall good F -> Forall2 shows (elems F) es.
  Proof.
    induction 1 as [|t F es H IH|b F es H IH|n a self kids kids' F es H1 H2 IH]; intros G; inversion G as [|? ? G1 G2]; subst;
      cbn [elems filter is_elem]; auto; fold (elems F); auto.
    constructor; auto. constructor; auto. exists kids'. auto.
  Qed.
  Lemma same_elems : forall F F', Forall2 same F F' -> Forall2 same (elems F) (elems F').
  Proof.
    induction 1 as [|nd nd' F F' H1 H2 IH]; [constructor|]. unfold elems in *. cbn [filter].
    inversion H1; subst; cbn [is_elem]; auto.
  Qed.
  Lemma shows_same : forall nd nd' e, same nd nd' -> good nd -> shows nd' e -> shows nd e.
  Proof.
    intros nd nd' e S G [H1 H2 H3 H4 [kids' [H5 H6]]]. inversion S as [? ? ? ? ? ? P K| |]; subst; try discriminate.
    constructor; auto; cbn [attrs_of kids_of] in *.
    - eapply perm_trans; eauto.
    - exists kids'. split; auto. eapply same_all_trans; eauto.
  Qed.
  Lemma good_elems : forall F, Forall good F -> Forall good (elems F).
  Proof. intros F H. apply Forall_forall. intros x Hx. apply filter_In in Hx. rewrite Forall_forall in H. now apply H. Qed.
  Lemma reads_text : forall p F F', skippable p -> Forall2 same F F' -> Forall good F -> reads (p ++ forest_text F') F.
  Proof.
    intros p F F' Hp S G key. rewrite scan_skip by auto.
    assert (G' : Forall good F') by (eapply same_good_all; eauto).
    destruct (scan_forest (e_ord E) key F' Hord G') as [es [H1 H2]]. exists es. split; auto.
    apply scanned_shows in H2; auto. apply same_elems in S. apply good_elems in G. clear H1 G' Hp.
    revert es H2 G. induction S as [|nd nd' l l' S1 S2 IH]; intros es H2 G; inversion H2; subst; auto.
    inversion G; subst. constructor; auto. eapply shows_same; eauto.
  Qed.
  Lemma good_kids : forall nd, good nd -> Forall good (kids_of nd).
  Proof. intros nd H. inversion H; subst; cbn [kids_of]; auto. Qed.
  Lemma shows_reads : forall nd e, shows nd e -> reads (e_content e) (kids_of nd).
  Proof.
    intros nd e [H1 H2 H3 H4 [kids' [H5 H6]]]. rewrite H6. apply (reads_text [] _ _ skippable_nil H5). now apply good_kids.
  Qed.
  Lemma called_elems : forall f F, called f F = filter (fun nd => f (name_of nd)) (elems F).
  Proof.
    intros f F. unfold called, elems. induction F as [|[n a self kids|t|b] F IH]; auto; cbn [filter is_elem name_of]; auto.
    rewrite IH. reflexivity.
  Qed.
  Lemma shows_filter : forall f g l es, Forall2 shows l es -> (forall n, xml_name n -> f n = g n) ->
    Forall2 shows (filter (fun nd => f (name_of nd)) l) (filter (fun e => g (e_name e)) es).
  Proof.
    intros f g l es H Hfg. induction H as [|nd e l es H1 H2 IH]; [constructor|]. cbn [filter].
    assert (N : xml_name (name_of nd)).
    { destruct H1 as [K1 K2 _ _ _]. inversion K2; subst; try discriminate. auto. }
    rewrite (sh_name _ _ H1), <- Hfg by auto. destruct (f (name_of nd)); auto.
  Qed.
  Lemma shows_firstn : forall n l es, Forall2 shows l es -> Forall2 shows (firstn n l) (firstn n es).
  Proof. intros n l es H. revert n. induction H; intros [|n]; cbn [firstn]; constructor; auto. Qed.
  Lemma shows_nth : forall l es i, Forall2 shows l es ->
    match nth_error l i, nth_error es i with Some nd, Some e => shows nd e | None, None => True | _, _ => False end.
  Proof. intros l es i H. revert i. induction H; intros [|i]; cbn [nth_error]; auto. apply IHForall2. Qed.
  Lemma attr_map : forall x a, attr_value x a = map_get x a.
  Proof.
    intros x a. unfold map_get. induction a as [|[n v] a IH]; auto. cbn [attr_value]. rewrite IH. reflexivity.
  Qed.
  Lemma shows_attr : forall nd e x, shows nd e -> map_get x (e_attrs e) = attr_value x (attrs_of nd).
  Proof.
    intros nd e x [H1 H2 _ H4 _]. rewrite attr_map. symmetry. apply map_get_perm; auto.
    inversion H2 as [? ? ? ? _ A _ _| |]; subst; try discriminate. apply A.
  Qed.

  (** ** Results *)
  Definition same_element (kids : list node) (r : result) : Prop :=
    exists kids', Forall2 same kids kids' /\ r = r_element (forest_text kids').
  Definition denotes (a : answer) (r : result) : Prop :=
    match a with
    | Nothing => r = r_null
    | Element kids => same_element kids r
    | Attribute v => r = r_attribute v
    | TextAnswer kids => exists kids', Forall2 same kids kids' /\ r = r_text (forest_text kids')
    | Count n => r = r_count n
    | Elements l => exists rs, r = r_array rs /\ Forall2 same_element l rs
    end.
  Lemma denotes_null : forall a r, denotes a r -> is_null r = match a with Nothing => true | _ => false end.
  Proof.
    intros [| | | | |] r H; cbn [denotes] in H; try (subst r; reflexivity).
    - destruct H as [? [? ->]]. reflexivity.
    - destruct H as [? [? ->]]. reflexivity.
    - destruct H as [? [-> ?]]. reflexivity.
  Qed.
  Lemma shows_element : forall nd e, shows nd e -> same_element (kids_of nd) (r_element (e_content e)).
  Proof. intros nd e [_ _ _ _ [kids' [H1 H2]]]. exists kids'. now rewrite H2. Qed.

  Definition segs_of (steps : list tstep) (fin : final) : list seg :=
    map (fun st => step_seg (st, [])) (tpath_steps steps fin).

  Section Step.
    Variable rec : qrec.
    Lemma first_loop_tree : forall key (f : node -> answer) sg nx more l es,
      s_type nx <> SAttr -> s_type nx <> SText ->
      (forall nd e k, shows nd e -> exists r, rec k false (e_content e) (nx :: more) = Ok r /\ denotes (f nd) r) ->
      Forall2 shows l es ->
      exists r, first_loop E rec key es sg (nx :: more) = Ok r /\ denotes (first_answer f l) r.
    Proof.
      intros key f sg nx more l es N1 N2 Hrec H. induction H as [|nd e l es H1 H2 IH].
      - exists r_null. split; reflexivity.
      - destruct (Hrec nd e (child_key site_query e key) H1) as [r [R1 R2]].
        assert (X : first_loop E rec key (e :: es) sg (nx :: more) =
          (if is_null r then first_loop E rec key es sg (nx :: more) else Ok r)).
        { cbn [first_loop]. rewrite R1. cbn [bind]. destruct (s_type nx); auto; contradiction. }
        rewrite X, (denotes_null _ _ R2). cbn [first_answer].
        destruct (f nd); try (exists r; split; [reflexivity|exact R2]). exact IH.
    Qed.
    Lemma nth_elem_tree : forall l es ds, Forall2 shows l es -> len l <= 1000 ->
      match nth_error l (N.to_nat (decimal_value ds)) with
      | Some nd => exists e, nth_elem es (Z.min (Z.of_N (decimal_value ds)) int64_max) = Some e /\ shows nd e
      | None => nth_elem es (Z.min (Z.of_N (decimal_value ds)) int64_max) = None
      end.
    Proof.
      intros l es ds H Hl. assert (L : len es = len l) by (symmetry; eapply f2_length; eauto).
      pose proof (shows_nth _ _ (N.to_nat (decimal_value ds)) H) as K.
      assert (Q : nth_elem es (Z.min (Z.of_N (decimal_value ds)) int64_max) = nth_error es (N.to_nat (decimal_value ds))).
      { destruct (Z.le_gt_cases (Z.of_N (decimal_value ds)) int64_max) as [C|C].
        - rewrite Z.min_l by auto. apply nth_elem_spec.
        - rewrite Z.min_r by lia. assert (B : (1000 < int64_max)%Z) by reflexivity.
          rewrite (proj2 (nth_error_None _ _)) by lia. unfold nth_elem.
          rewrite (proj2 (Z.ltb_ge int64_max (Z.of_nat (len es)))) by lia. now rewrite andb_false_r. }
      rewrite Q. destruct (nth_error l _) as [nd|]; destruct (nth_error es _) as [e|]; try contradiction; eauto.
    Qed.
  End Step.

  Lemma same_packed : forall l es, Forall2 shows l es ->
    denotes (list_answer l) (match es with [] => r_null | _ => package (map (fun e => r_element (e_content e)) es) end).
  Proof.
    intros l es H. inversion H as [|nd e l' es' H1 H2]; subst; [reflexivity|].
    inversion H2 as [|nd2 e2 l2 es2 H3 H4]; subst; cbn [list_answer map package denotes].
    - now apply shows_element.
    - eexists. split; [reflexivity|]. constructor; [now apply shows_element|]. constructor; [now apply shows_element|].
      clear -H4. induction H4; constructor; auto. now apply shows_element.
  Qed.
  (** Not the last step. *)
  Definition more_steps (rest : list tstep) (fin : final) : Prop := rest <> [] \/ fin = TheChildren.
  Lemma more_segs : forall rest fin, more_steps rest fin -> exists nx more, segs_of rest fin = nx :: more /\
    (s_type nx = SElem \/ s_type nx = SWild).
  Proof.
    intros rest fin H. destruct rest as [|[n [ds|]] rest].
    - destruct H as [H| ->]; [easy|]. eexists. eexists. split; [reflexivity|]. now right.
    - eexists. eexists. split; [reflexivity|]. now left.
    - eexists. eexists. split; [reflexivity|]. now left.
  Qed.
  Definition is_last (rest : list tstep) (fin : final) : bool :=
    match rest, fin with [], TheChildren => false | [], _ => true | _, _ => false end.
  Lemma is_last_more : forall rest fin, is_last rest fin = false <-> more_steps rest fin.
  Proof.
    intros [|s rest] fin; unfold is_last, more_steps; [|split; intros; [left|]; easy].
    destruct fin; split; intros H; try discriminate; auto; destruct H as [H|H]; try easy.
  Qed.
  Lemma query_cons : forall top n idx rest fin F, query top ((n, idx) :: rest) fin F =
    let at_elem := fun nd => if is_last rest fin then final_answer fin nd else query false rest fin (kids_of nd) in
    let exactly := firstn 1000 (called (if top then bytes_eqb n else selects n) F) in
    match idx with
    | Some ds =>
        match nth_error exactly (N.to_nat (decimal_value ds)) with
        | Some nd => at_elem nd
        | None => Nothing
        end
    | None =>
        if is_last rest fin then
          match fin with
          | TheCount => count_answer (List.length exactly)
          | _ => match called (selects n) F with nd :: _ => final_answer fin nd | [] => Nothing end
          end
        else first_answer at_elem (called (selects n) F)
    end.
  Proof. reflexivity. Qed.

  Lemma exec_query : forall steps fin, Forall good_tstep steps -> good_final steps fin ->
    forall fuel top key s F, reads s F -> len (segs_of steps fin) < fuel ->
    exists r, exec E fuel key top s (segs_of steps fin) = Ok r /\ denotes (query top steps fin F) r.
  Proof.
    induction steps as [|[n idx] rest IH]; intros fin Hs Hf fuel top key s F HR Hfuel.
    - destruct fin; cbn [good_final] in Hf; try (destruct Hf; congruence); try congruence.
      destruct fuel as [|fuel]; [lia|]. cbn [exec segs_of tpath_steps flat_map final_steps app map step_seg].
      destruct (HR key) as [es [R1 R2]].
      unfold exec_body, scan_res. rewrite R1. cbn [bind s_type s_wild s_mods].
      apply (shows_firstn MaxWildcardResults) in R2. rewrite wild_max in *. cbn [query].
      pose proof (same_packed _ _ R2) as P. revert R2 P. generalize (firstn 1000 es), (firstn 1000 (elems F)).
      intros es' l R2 P. destruct es' as [|e es'].
      + exists r_null. split; [reflexivity|exact P].
      + eexists. split; [|exact P]. reflexivity.
    - inversion Hs as [|? ? [Hn Hi] Hrest]; subst. cbn [fst snd] in Hn, Hi.
      destruct fuel as [|fuel]; [lia|]. destruct (HR key) as [es [R1 R2]].
      (* the recursive call *)
      assert (HM : more_steps rest fin -> Forall good_tstep rest /\ good_final rest fin).
      { intros M. split; auto. destruct fin; cbn [good_final] in *; auto; destruct M as [M|M]; try discriminate; auto;
          (split; [|tauto || auto]); try tauto.
        - intros [a [n0 [ds0 Ea]]]. apply (proj1 Hf). exists ((n, idx) :: a), n0, ds0. now rewrite Ea.
        - intros [a [n0 [ds0 Ea]]]. apply (proj1 Hf). exists ((n, idx) :: a), n0, ds0. now rewrite Ea. }
      assert (Hlen : len (segs_of rest fin) < fuel).
      { unfold segs_of, tpath_steps in *. rewrite map_length in *. cbn [flat_map] in Hfuel. rewrite !app_length in *.
        destruct idx; cbn [tstep_steps List.length] in Hfuel; lia. }
      assert (Hrec : more_steps rest fin -> forall nd e k, shows nd e ->
        exists r, exec E fuel k false (e_content e) (segs_of rest fin) = Ok r /\ denotes (query false rest fin (kids_of nd)) r).
      { intros M nd e k Sh. destruct (HM M) as [M1 M2]. apply IH; auto. now apply shows_reads. }
      clear IH.
      (* the matching elements *)
      assert (MS : Forall2 shows (called (selects n) F) (matching (elem_seg n) es)).
      { rewrite called_elems. unfold matching. apply shows_filter; auto. intros m Hm. symmetry. now apply selects_match. }
      assert (MX : Forall2 shows (firstn 1000 (called (bytes_eqb n) F)) (firstn 1000 (filter (fun e => bytes_eqb (e_name e) n) es))).
      { apply shows_firstn. rewrite called_elems. apply shows_filter with (g := fun m => bytes_eqb m n); auto.
        intros m Hm. apply bytes_eqb_sym. }
      assert (MC : Forall2 shows (firstn 1000 (called (selects n) F)) (firstn 1000 (matching (elem_seg n) es))).
      { now apply shows_firstn. }
      rewrite query_cons. cbv zeta.
      destruct idx as [ds|].
      + (* index *)
        match goal with |- context [exec E (S fuel) key top s ?x] =>
          change x with (elem_seg n :: step_seg (Nth ds, []) :: segs_of rest fin) end. cbn [exec]. unfold exec_body, scan_res. rewrite R1. cbn [bind s_type elem_seg s_value step_seg].
        set (l := firstn 1000 (called (if top then bytes_eqb n else selects n) F)).
        set (es1 := if top then firstn 1000 (filter (fun e => bytes_eqb (e_name e) n) es) else firstn 1000 (matching (elem_seg n) es)).
        assert (ML : Forall2 shows l es1) by (unfold l, es1; destruct top; auto).
        assert (LL : len l <= 1000) by (unfold l; apply firstn_le_length).
        pose proof (nth_elem_tree l es1 ds ML LL) as NT.
        assert (EQ : (if top
                      then root_array E (exec E fuel) key es1 (step_seg (Nth ds, [])) (segs_of rest fin)
                      else array_op E (exec E fuel) key es1 (step_seg (Nth ds, [])) (segs_of rest fin)) =
                     match nth_elem es1 (Z.min (Z.of_N (decimal_value ds)) int64_max) with
                     | None => Ok r_null
                     | Some e =>
                       match segs_of rest fin with
                       | [] => Ok (r_element (e_content e))
                       | n2 :: more2 =>
                         match s_type n2 with
                         | SAttr => Ok (match map_get (s_value n2) (e_attrs e) with
                                        | Some v => match more2 with [] => apply_modifiers E (r_attribute v) (if top then [] else s_mods n2) | _ => r_attribute v end
                                        | None => r_null end)
                         | SText => if top then Ok (r_text (e_content e)) else exec E fuel (child_key site_query e key) false (e_content e) (segs_of rest fin)
                         | _ => exec E fuel (child_key site_query e key) false (e_content e) (segs_of rest fin)
                         end
                       end
                     end).
        { clear. assert (Z0 : es1 = [] -> nth_elem es1 (Z.min (Z.of_N (decimal_value ds)) int64_max) = None).
          { intros ->. unfold nth_elem. cbn [List.length].
            destruct (Z.min (Z.of_N (decimal_value ds)) int64_max <? Z.of_nat 0)%Z eqn:Q; [|now rewrite andb_false_r].
            apply Z.ltb_lt in Q. assert (0 < int64_max)%Z by reflexivity. lia. }
          clearbody es1. destruct top; unfold root_array, array_op.
          - destruct es1 as [|e0 es1]; [rewrite Z0 by auto; reflexivity|]. cbn [step_seg s_type s_index].
            destruct (nth_elem (e0 :: es1) _); auto. destruct (segs_of rest fin) as [|n2 more2]; auto.
            destruct (s_type n2); auto. destruct (map_get (s_value n2) (e_attrs e)); auto. now destruct more2.
          - destruct es1 as [|e0 es1]; [rewrite Z0 by auto; reflexivity|]. cbn [step_seg s_type s_index].
            destruct (nth_elem (e0 :: es1) _); auto. }
        match goal with |- exists r, ?X = Ok r /\ _ => assert (GO : X = (if top
                      then root_array E (exec E fuel) key es1 (step_seg (Nth ds, [])) (segs_of rest fin)
                      else array_op E (exec E fuel) key es1 (step_seg (Nth ds, [])) (segs_of rest fin))) end.
        { unfold es1. clear. destruct top; unfold exec_element; cbn [s_type step_seg]; rewrite ?wild_max; reflexivity. }
        rewrite GO, EQ. clear GO EQ.
        destruct (nth_error l (N.to_nat (decimal_value ds))) as [nd|].
        * destruct NT as [e [-> Sh]]. destruct (is_last rest fin) eqn:IL.
          -- destruct rest as [|? ?]; [|discriminate]. destruct fin; try discriminate IL.
             ++ exists (r_element (e_content e)). split; [reflexivity|]. now apply shows_element.
             ++ cbn [segs_of tpath_steps flat_map final_steps app map step_seg s_type s_value s_mods final_answer].
                rewrite (shows_attr _ _ a Sh). destruct (attr_value a (attrs_of nd)).
                ** eexists. split; [reflexivity|]. now destruct top.
                ** eexists. split; reflexivity.
             ++ exfalso. apply (proj1 Hf). exists [], n, ds. reflexivity.
             ++ exfalso. apply (proj1 Hf). exists [], n, ds. reflexivity.
          -- apply is_last_more in IL. destruct (more_segs rest fin IL) as [nx [more [ES TY]]].
             destruct (Hrec IL nd e (child_key site_query e key) Sh) as [r [Q1 Q2]]. exists r. split; auto.
             rewrite <- Q1, ES. destruct TY as [-> | ->]; reflexivity.
        * rewrite NT. exists r_null. split; reflexivity.
      + match goal with |- context [exec E (S fuel) key top s ?x] =>
          change x with (elem_seg n :: segs_of rest fin) end. cbn [exec]. unfold exec_body, scan_res. rewrite R1. cbn [bind s_type elem_seg s_value].
        destruct (is_last rest fin) eqn:IL.
        * destruct rest as [|? ?]; [|discriminate]. destruct fin; try discriminate IL;
            cbn [segs_of tpath_steps flat_map final_steps app map step_seg].
          -- replace (if top then exec_element E (exec E fuel) key es (mkSeg SElem n 0 false None false [] []) []
                      else exec_element E (exec E fuel) key es (mkSeg SElem n 0 false None false [] []) [])
               with (exec_element E (exec E fuel) key es (elem_seg n) []) by (destruct top; reflexivity).
             unfold exec_element. inversion MS as [|nd e l es' H1 H2]; cbn [first_loop].
             ++ exists r_null. split; [now destruct top|reflexivity].
             ++ exists (r_element (e_content e)). split; [now destruct top|]. now apply shows_element.
          -- exists (match matching (elem_seg n) es with
                     | e :: _ => match map_get a (e_attrs e) with Some v => r_attribute v | None => r_null end
                     | [] => r_null end). split.
             ++ destruct top; cbn [s_type]; unfold exec_element; cbn [s_type]; fold (elem_seg n);
                  destruct (matching (elem_seg n) es) as [|e es']; try reflexivity; cbn [first_loop s_type s_value s_mods];
                  now destruct (map_get a (e_attrs e)).
             ++ inversion MS as [|nd e l es' H1 H2]; [reflexivity|]. cbn [final_answer]. rewrite (shows_attr _ _ a H1).
                now destruct (attr_value a (attrs_of nd)).
          -- exists (match matching (elem_seg n) es with e :: _ => r_text (e_content e) | [] => r_null end). split.
             ++ destruct top; cbn [s_type]; unfold exec_element; cbn [s_type]; fold (elem_seg n);
                  destruct (matching (elem_seg n) es) as [|e es']; reflexivity.
             ++ inversion MS as [|nd e l es' H1 H2]; [reflexivity|]. cbn [final_answer denotes].
                destruct H1 as [_ _ _ _ [kids' [K1 K2]]]. exists kids'. now rewrite K2.
          -- set (es1 := if top then firstn 1000 (filter (fun e => bytes_eqb (e_name e) n) es) else firstn 1000 (matching (elem_seg n) es)).
             exists (match es1 with [] => r_null | _ => r_count (len es1) end). split.
             ++ unfold es1. destruct top; cbn [s_type]; unfold exec_element, root_array, array_op; cbn [s_type]; rewrite ?wild_max; fold (elem_seg n).
                ** now destruct (firstn 1000 (filter (fun e => bytes_eqb (e_name e) n) es)).
                ** now destruct (firstn 1000 (matching (elem_seg n) es)).
             ++ assert (ML : Forall2 shows (firstn 1000 (called (if top then bytes_eqb n else selects n) F)) es1)
                  by (unfold es1; destruct top; auto).
                rewrite (f2_length _ _ _ _ _ ML). unfold count_answer. now destruct es1.
        * apply is_last_more in IL. destruct (more_segs rest fin IL) as [nx [more [ES TY]]].
          pose proof (Hrec IL) as Hr. rewrite ES in Hr |- *.
          destruct (first_loop_tree (exec E fuel) key (fun nd => query false rest fin (kids_of nd)) (elem_seg n) nx more
                      _ _ ltac:(destruct TY as [-> | ->]; discriminate) ltac:(destruct TY as [-> | ->]; discriminate) Hr MS) as [r [Q1 Q2]].
          exists r. split; auto. rewrite <- Q1. unfold exec_element. fold (elem_seg n).
          destruct top; destruct TY as [-> | ->]; reflexivity.
  Qed.
End Trees.
