(** Fragments one after the other. *)
From Coq Require Import List Ascii String NArith ZArith Bool Lia Permutation.
From Verif Require Import GoStr ModelParser ModelPath ModelResult ModelQuery SpecText SpecPath SpecTree SpecQuery SpecValid SpecNotation
  ProofBase ProofScan ProofSyntax ProofPath ProofTree ProofTree2 ProofTree3 ProofTree4 ProofTree5 ProofNotation.
Import ListNotations.

(** ** Acceptance *)
Lemma accepted_found : forall f open s, accepted f open s -> accepted true open s.
Proof.
  intros f open s H. induction H as [|f open c s B H IH|f open c s O C H IH|f open m s A H IH|f open n k a s N K L T H IH|f open n k a s N K L T H IH|f open n w s W H IH].
  - constructor.
  - now apply ac_blank.
  - now apply ac_text.
  - now apply ac_aside.
  - now apply (ac_open true open n k a s).
  - now apply (ac_self true open n k a s).
  - now apply ac_close.
Qed.
Lemma accepted_app : forall f open a b, accepted f open a -> accepted true [] b -> accepted f open (a ++ b).
Proof.
  intros f open a b H B. induction H as [|f open c s X H IH|f open c s O C H IH|f open m s A H IH|f open n k a s N K L T H IH|f open n k a s N K L T H IH|f open n w s W H IH];
    cbn [app].
  - exact B.
  - now apply ac_blank.
  - now apply ac_text.
  - rewrite <- app_assoc. now apply ac_aside.
  - rewrite <- !app_assoc. cbn [app]. now apply (ac_open f open n k a).
  - rewrite <- !app_assoc. cbn [app]. now apply (ac_self f open n k a).
  - rewrite <- !app_assoc. cbn [app]. now apply ac_close.
Qed.

Section Append.
  Variable E : env.
  Hypothesis Hord : forall k l, Permutation l (e_ord E k l).
  Lemma scan_app : forall key F x b lb, written_all F x -> Forall good F -> scan (e_ord E) key b = Some lb ->
    exists es, scan (e_ord E) key (x ++ b) = Some (es ++ lb) /\ Forall2 shows (elems F) es.
  Proof.
    intros key F x b lb W G B. induction W as [|nd F x y H1 H2 IH].
    - exists []. split; [exact B|constructor].
    - inversion G as [|? ? G1 G2]; subst. destruct (IH G2) as [es [E1 E2]].
      inversion H1 as [n a kids t xs w Ht Hk Hw L|n a t Ht|t|c]; subst.
      + inversion G1 as [? ? ? ? N A S K| |]; subst.
        destruct (parse_content_written (e_ord E) Hord key n kids xs w (y ++ b) N K Hk Hw L) as [kids' [P1 P2]].
        exists (mkElem n a false (forest_text kids') (bs "<" ++ n ++ t ++ shut false ++ xs ++ "<"%char :: "/"%char :: n ++ w ++ ">"%char :: y ++ b)
          (xs ++ "<"%char :: "/"%char :: n ++ w ++ ">"%char :: y ++ b) (y ++ b) :: es). split.
        * match goal with |- scan _ _ ?x = _ => replace x with (bs "<" ++ n ++ t ++ shut false ++ xs ++ "<"%char :: "/"%char :: n ++ w ++ ">"%char :: y ++ b) by (cbn [bs list_ascii_of_string shut]; repeat (rewrite <- app_assoc; cbn [app]); reflexivity) end.
          apply scan_step; auto.
          { apply (skip_any 1). destruct (name_first n N) as [c [r [-> Hc]]]. cbn [bs list_ascii_of_string app skip_next_loop].
            change (Ascii.eqb "<" "<") with true. cbn iota.
            rewrite (name_eqb c "!" Hc), (name_eqb c "?" Hc), (name_eqb c "/" Hc) by inlist. reflexivity. }
          cbn [bs list_ascii_of_string app next]. now apply parse_element_name_as.
        * unfold elems in *. cbn [filter is_elem]. constructor; auto. constructor; auto. exists kids'. auto.
      + inversion G1 as [? ? ? ? N A S K| |]; subst.
        exists (mkElem n a true [] (bs "<" ++ n ++ t ++ shut true ++ y ++ b) (y ++ b) (y ++ b) :: es). split.
        * match goal with |- scan _ _ ?x = _ => replace x with (bs "<" ++ n ++ t ++ shut true ++ y ++ b) by (cbn [bs list_ascii_of_string shut]; repeat (rewrite <- app_assoc; cbn [app]); reflexivity) end.
          apply scan_step; auto.
          { apply (skip_any 1). destruct (name_first n N) as [c [r [-> Hc]]]. cbn [bs list_ascii_of_string app skip_next_loop].
            change (Ascii.eqb "<" "<") with true. cbn iota.
            rewrite (name_eqb c "!" Hc), (name_eqb c "?" Hc), (name_eqb c "/" Hc) by inlist. reflexivity. }
          cbn [bs list_ascii_of_string app next]. now apply parse_element_name_as.
        * unfold elems in *. cbn [filter is_elem]. constructor; auto. constructor; auto. exists []. split; [constructor|reflexivity].
      + exists es. split; [|exact E2]. inversion G1; subst. rewrite <- app_assoc, scan_skip; auto. apply skippable_text. match goal with H : no_angle _ |- _ => apply H end.
      + exists es. split; [|exact E2]. inversion G1; subst. rewrite <- app_assoc, scan_skip; auto. now apply skippable_misc.
  Qed.

  Definition body_on (rec : qrec) (key : list nat) (es : list elem) (sg : seg) (rest : list seg) : Res result :=
    match rest with
    | nx :: more =>
        match s_type nx with
        | SIndex | SCount | SField => root_array E rec key (firstn MaxWildcardResults (filter (fun e => bytes_eqb (e_name e) (s_value sg)) es)) nx more
        | _ => exec_element E rec key es sg rest
        end
    | [] => exec_element E rec key es sg rest
    end.
  Lemma exec_on : forall f key s es sg rest, scan (e_ord E) key s = Some es -> s_type sg = SElem ->
    exec E (S f) key true s (sg :: rest) = body_on (exec E f) key es sg rest.
  Proof. intros f key s es sg rest H T. cbn [exec]. unfold exec_body, scan_res. rewrite H. cbn [bind]. rewrite T. reflexivity. Qed.
  Lemma exec_on_query : forall n idx rest fin, Forall good_tstep ((n, idx) :: rest) -> good_final ((n, idx) :: rest) fin ->
    forall fuel key es F, Forall2 shows (elems F) es -> len (segs_of ((n, idx) :: rest) fin) < S fuel ->
    exists r, body_on (exec E fuel) key es (elem_seg n) (tl (segs_of ((n, idx) :: rest) fin)) = Ok r /\ denotes (query true ((n, idx) :: rest) fin F) r.
  Proof.
    intros n idx rest fin Hs Hf fuel key es F R2 Hfuel. inversion Hs as [|? ? [Hn Hi] Hrest]; subst. cbn [fst snd] in Hn, Hi.
      (* the recursive call *)
      assert (HM : more_steps rest fin -> Forall good_tstep rest /\ good_final rest fin).
      { intros M. split; auto. destruct fin; cbn [good_final] in *; auto; destruct M as [M|M]; try discriminate; auto;
          (split; [|tauto || auto]); try tauto.
        - intros [a [n0 [ds0 Ea]]]. apply (proj1 Hf). exists ((n, idx) :: a), n0, ds0. now rewrite Ea.
        - intros [a [n0 [ds0 Ea]]]. apply (proj1 Hf). exists ((n, idx) :: a), n0, ds0. now rewrite Ea. }
      assert (Hlen : len (segs_of rest fin) < fuel).
      { unfold segs_of, tpath_steps in *. rewrite map_length in *. cbn [flat_map] in Hfuel. rewrite !app_length in *.
        destruct idx; cbn [tstep_steps List.length] in Hfuel; lia. }
      assert (Hrec : more_steps rest fin -> forall nd e k, shows nd e ->
        exists r, exec E fuel k false (e_content e) (segs_of rest fin) = Ok r /\ denotes (query false rest fin (kids_of nd)) r).
      { intros M nd e k Sh. destruct (HM M) as [M1 M2]. apply (exec_query E Hord); auto. now apply shows_reads. }
      (* the matching elements *)
      assert (MS : Forall2 shows (called (selects n) F) (matching (elem_seg n) es)).
      { rewrite called_elems. unfold matching. apply shows_filter; auto. intros m Hm. symmetry. now apply selects_match. }
      assert (MX : Forall2 shows (firstn 1000 (called (bytes_eqb n) F)) (firstn 1000 (filter (fun e => bytes_eqb (e_name e) n) es))).
      { apply shows_firstn. rewrite called_elems. apply shows_filter with (g := fun m => bytes_eqb m n); auto.
        intros m Hm. apply bytes_eqb_sym. }
      assert (MC : Forall2 shows (firstn 1000 (called (selects n) F)) (firstn 1000 (matching (elem_seg n) es))).
      { now apply shows_firstn. }
      rewrite query_cons. cbv zeta.
      destruct idx as [ds|].
      + (* index *)
        match goal with |- context [body_on (exec E fuel) key es ?y ?x] =>
          change x with (step_seg (Nth ds, []) :: segs_of rest fin) end.
        set (l := firstn 1000 (called (bytes_eqb n) F)).
        set (es1 := firstn 1000 (filter (fun e => bytes_eqb (e_name e) n) es)).
        assert (ML : Forall2 shows l es1) by (unfold l, es1; auto).
        assert (LL : len l <= 1000) by (unfold l; apply firstn_le_length).
        pose proof (nth_elem_tree l es1 ds ML LL) as NT.
        assert (EQ : (root_array E (exec E fuel) key es1 (step_seg (Nth ds, [])) (segs_of rest fin)) =
                     match nth_elem es1 (Z.min (Z.of_N (decimal_value ds)) int64_max) with
                     | None => Ok r_null
                     | Some e =>
                       match segs_of rest fin with
                       | [] => Ok (r_element (e_content e))
                       | n2 :: more2 =>
                         match s_type n2 with
                         | SAttr => Ok (match map_get (s_value n2) (e_attrs e) with
                                        | Some v => match more2 with [] => apply_modifiers E (r_attribute v) [] | _ => r_attribute v end
                                        | None => r_null end)
                         | SText => Ok (r_text (e_content e))
                         | _ => exec E fuel (child_key site_query e key) false (e_content e) (segs_of rest fin)
                         end
                       end
                     end).
        { clear. assert (Z0 : es1 = [] -> nth_elem es1 (Z.min (Z.of_N (decimal_value ds)) int64_max) = None).
          { intros ->. unfold nth_elem. cbn [List.length].
            destruct (Z.min (Z.of_N (decimal_value ds)) int64_max <? Z.of_nat 0)%Z eqn:Q; [|now rewrite andb_false_r].
            apply Z.ltb_lt in Q. assert (0 < int64_max)%Z by reflexivity. lia. }
          clearbody es1. unfold root_array.
          destruct es1 as [|e0 es1]; [rewrite Z0 by auto; reflexivity|]. cbn [step_seg s_type s_index].
          destruct (nth_elem (e0 :: es1) _); auto. destruct (segs_of rest fin) as [|n2 more2]; auto.
          destruct (s_type n2); auto. destruct (map_get (s_value n2) (e_attrs e)); auto. now destruct more2. }
        match goal with |- exists r, ?X = Ok r /\ _ => assert (GO : X = (root_array E (exec E fuel) key es1 (step_seg (Nth ds, [])) (segs_of rest fin))) end.
        { reflexivity. }
        rewrite GO, EQ. clear GO EQ.
        destruct (nth_error l (N.to_nat (decimal_value ds))) as [nd|].
        * destruct NT as [e [-> Sh]]. destruct (is_last rest fin) eqn:IL.
          -- destruct rest as [|? ?]; [|discriminate]. destruct fin; try discriminate IL.
             ++ exists (r_element (e_content e)). split; [reflexivity|]. now apply shows_element.
             ++ cbn [segs_of tpath_steps flat_map final_steps app map step_seg s_type s_value s_mods final_answer].
                rewrite (shows_attr _ _ a Sh). destruct (attr_value a (attrs_of nd)).
                ** eexists. split; [reflexivity|]. reflexivity.
                ** eexists. split; reflexivity.
             ++ exfalso. apply (proj1 Hf). exists [], n, ds. reflexivity.
             ++ exfalso. apply (proj1 Hf). exists [], n, ds. reflexivity.
          -- apply is_last_more in IL. destruct (more_segs rest fin IL) as [nx [more [ES TY]]].
             destruct (Hrec IL nd e (child_key site_query e key) Sh) as [r [Q1 Q2]]. exists r. split; auto.
             rewrite <- Q1, ES. destruct TY as [-> | ->]; reflexivity.
        * rewrite NT. exists r_null. split; reflexivity.
      + match goal with |- context [body_on (exec E fuel) key es ?y ?x] => change x with (segs_of rest fin) end.
        destruct (is_last rest fin) eqn:IL.
        * destruct rest as [|? ?]; [|discriminate]. destruct fin; try discriminate IL;
            cbn [segs_of tpath_steps flat_map final_steps app map step_seg].
          -- unfold body_on.
             unfold exec_element. inversion MS as [|nd e l es' H1 H2]; cbn [first_loop].
             ++ exists r_null. split; reflexivity.
             ++ exists (r_element (e_content e)). split; [reflexivity|]. now apply shows_element.
          -- exists (match matching (elem_seg n) es with
                     | e :: _ => match map_get a (e_attrs e) with Some v => r_attribute v | None => r_null end
                     | [] => r_null end). split.
             ++ unfold body_on; cbn [s_type]; unfold exec_element; cbn [s_type];
                  destruct (matching (elem_seg n) es) as [|e es']; try reflexivity; cbn [first_loop s_type s_value s_mods];
                  now destruct (map_get a (e_attrs e)).
             ++ inversion MS as [|nd e l es' H1 H2]; [reflexivity|]. cbn [final_answer]. rewrite (shows_attr _ _ a H1).
                now destruct (attr_value a (attrs_of nd)).
          -- exists (match matching (elem_seg n) es with e :: _ => r_text (e_content e) | [] => r_null end). split.
             ++ unfold body_on; cbn [s_type]; unfold exec_element; cbn [s_type];
                  destruct (matching (elem_seg n) es) as [|e es']; reflexivity.
             ++ inversion MS as [|nd e l es' H1 H2]; [reflexivity|]. cbn [final_answer denotes].
                destruct H1 as [_ _ _ _ [kids' [K1 K2]]]. exists kids'. now rewrite K2.
          -- set (es1 := firstn 1000 (filter (fun e => bytes_eqb (e_name e) n) es)).
             exists (match es1 with [] => r_null | _ => r_count (len es1) end). split.
             ++ unfold body_on; cbn [s_type]; unfold root_array; rewrite wild_max. cbn [elem_seg s_value s_type]. fold es1. now destruct es1.
             ++ assert (ML : Forall2 shows (firstn 1000 (called (bytes_eqb n) F)) es1)
                  by (unfold es1; auto).
                rewrite (f2_length _ _ _ _ _ ML). unfold count_answer. now destruct es1.
        * apply is_last_more in IL. destruct (more_segs rest fin IL) as [nx [more [ES TY]]].
          pose proof (Hrec IL) as Hr. rewrite ES in Hr |- *.
          destruct (first_loop_tree E (exec E fuel) key (fun nd => query false rest fin (kids_of nd)) (elem_seg n) nx more
                      _ _ ltac:(destruct TY as [-> | ->]; discriminate) ltac:(destruct TY as [-> | ->]; discriminate) Hr MS) as [r [Q1 Q2]].
          exists r. split; auto. rewrite <- Q1. unfold body_on, exec_element.
          destruct TY as [-> | ->]; reflexivity.
  Qed.

  (** ** What follows *)
  Lemma first_loop_app : forall rec key l l' sg rest r, first_loop E rec key l sg rest = Ok r -> r_type r <> RNull ->
    first_loop E rec key (l ++ l') sg rest = Ok r.
  Proof.
    intros rec key l l' sg rest r H N. induction l as [|e l IH]; cbn [first_loop app] in *; [injection H as <-; now destruct N|].
    destruct rest as [|nx more]; auto. destruct (s_type nx); auto.
    all: apply bind_ok in H as [x [H1 H2]]; rewrite H1; cbn [bind]; destruct (is_null x) eqn:Q; auto.
  Qed.
  Lemma nth_elem_app : forall l l' i e, nth_elem (firstn MaxWildcardResults l) i = Some e -> nth_elem (firstn MaxWildcardResults (l ++ l')) i = Some e.
  Proof.
    intros l l' i e H. unfold nth_elem in *. destruct ((0 <=? i)%Z) eqn:A; cbn [andb] in *; [|discriminate]. rewrite firstn_app.
    destruct (i <? Z.of_nat (len (firstn MaxWildcardResults l)))%Z eqn:B; [|discriminate]. apply Z.ltb_lt in B.
    rewrite app_length, (proj2 (Z.ltb_lt _ _)) by lia. rewrite nth_error_app1; [exact H|]. apply Z.leb_le in A. lia.
  Qed.
  (** A path that is decided by the first element it leads to. *)
  Definition forward (rest : list seg) : Prop :=
    match rest with nx :: _ => match s_type nx with SCount | SField | SFilter => False | _ => True end | [] => True end.
  Lemma body_forward : forall rec key es lb sg rest r, s_type sg = SElem -> forward rest -> body_on rec key es sg rest = Ok r -> r_type r <> RNull ->
    body_on rec key (es ++ lb) sg rest = Ok r.
  Proof.
    intros rec key es lb sg rest r T Fw H N.
    assert (X : forall r0, exec_element E rec key es sg rest = Ok r0 -> match rest with nx :: _ => match s_type nx with SIndex => False | _ => True end | [] => True end ->
      r_type r0 <> RNull -> exec_element E rec key (es ++ lb) sg rest = Ok r0).
    { intros r0 H0 I N0. unfold exec_element in *. unfold matching in *. rewrite filter_app. cbv zeta in *. destruct rest as [|nx more]; [now apply first_loop_app|].
      cbn [forward] in Fw. destruct (s_type nx); try contradiction; now apply first_loop_app. }
    unfold body_on in *. destruct rest as [|nx more]; [now apply X|]. cbn [forward] in Fw.
    destruct (s_type nx) eqn:TN; try contradiction; try (apply X; auto; rewrite TN; exact I).
    unfold root_array in *. rewrite TN in *. rewrite filter_app.
    set (l := filter (fun e => bytes_eqb (e_name e) (s_value sg)) es) in *. set (l' := filter (fun e => bytes_eqb (e_name e) (s_value sg)) lb).
    destruct (firstn MaxWildcardResults l) as [|e0 l0] eqn:Q; [injection H as <-; now destruct N|].
    assert (Q' : exists e1 l1, firstn MaxWildcardResults (l ++ l') = e1 :: l1).
    { destruct l as [|x l]; [discriminate|]. cbn [app]. rewrite wild_max. change 1000 with (S 999). rewrite firstn_cons. eauto. }
    destruct Q' as (e1 & l1 & Q'). pose proof (nth_elem_app l l' (s_index nx)) as NA. rewrite Q, Q' in NA.
    rewrite Q'. destruct (nth_elem (e0 :: l0) (s_index nx)) as [e|]; [|injection H as <-; now destruct N]. now rewrite (NA e eq_refl).
  Qed.
  Lemma seg_matches_value : forall sg name, s_type sg = SElem -> seg_matches sg name = seg_matches (elem_seg (s_value sg)) name.
  Proof. intros sg name T. unfold seg_matches. rewrite T. reflexivity. Qed.
  Lemma none_selected : forall F es n, Forall2 shows (elems F) es -> step_name n -> called (selects n) F = [] ->
    filter (fun e => seg_matches (elem_seg n) (e_name e)) es = [] /\ filter (fun e => bytes_eqb (e_name e) n) es = [].
  Proof.
    intros F es n H N C. rewrite called_elems in C. apply and_comm. split.
    - induction H as [|nd e l es H1 H2 IH]; auto. cbn [filter] in *. destruct (selects n (name_of nd)) eqn:Q; [discriminate|].
      destruct (bytes_eqb (e_name e) n) eqn:B; auto. apply bytes_eqb_eq in B. rewrite (sh_name _ _ H1) in B. unfold selects in Q. rewrite B, bytes_eqb_refl in Q. discriminate.
    - pose proof (shows_filter (selects n) (fun m => seg_matches (elem_seg n) m) _ _ H ltac:(intros m Hm; symmetry; now apply selects_match)) as K.
      rewrite C in K. now inversion K.
  Qed.
  Lemma body_skip : forall rec key F es lb sg rest, s_type sg = SElem -> Forall2 shows (elems F) es -> step_name (s_value sg) -> called (selects (s_value sg)) F = [] ->
    body_on rec key (es ++ lb) sg rest = body_on rec key lb sg rest.
  Proof.
    intros rec key F es lb sg rest T H N C. destruct (none_selected _ _ _ H N C) as [K1 K2].
    assert (M : matching sg (es ++ lb) = matching sg lb).
    { unfold matching. rewrite filter_app. replace (filter (fun e => seg_matches sg (e_name e)) es) with (@nil elem); auto.
      rewrite <- K1. apply filter_ext. intros e. symmetry. now apply seg_matches_value. }
    unfold body_on, exec_element. rewrite M, filter_app, K2. reflexivity.
  Qed.
End Append.
