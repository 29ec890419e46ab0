(** Edits of any document: creation, appending, attributes, Set and Delete. *)
From Coq Require Import List Ascii String NArith ZArith Bool Lia Permutation.
From Verif Require Import GoStr ModelParser ModelPath ModelResult ModelQuery ModelValidate ModelBuilder ModelQueryOpts SpecText SpecPath SpecTree SpecEdit SpecContent SpecCase SpecOptions
  SpecGrammar SpecScan SpecAnswer SpecError SpecOutcome ProofBase ProofCase ProofEscape ProofPath ProofScan ProofFuel ProofSyntax ProofTree ProofEdit3 ProofOpt2 ProofError ProofSight3
  ProofAnswer2 ProofAnswer4 ProofOutcome.
Import ListNotations.

Lemma prefix_firstn : forall A (l a b : list A), l = a ++ b -> a = firstn (List.length a) l.
Proof. intros A l a b ->. rewrite firstn_app, Nat.sub_diag, firstn_all. cbn [firstn]. now rewrite app_nil_r. Qed.
Lemma blen_size : forall s, (MaxDocumentSize <? blen s)%N = (10485760 <? size s)%Z.
Proof. intros s. unfold blen, size. change MaxDocumentSize with 10485760%N. destruct (N.ltb_spec 10485760 (N.of_nat (List.length s))), (Z.ltb_spec 10485760 (Z.of_nat (List.length s))); auto; lia. Qed.

Section Edits.
  Variable E : env.
  Variable sight : bytes -> list elem -> Prop.
  Variable order : attrs -> attrs -> Prop.
  Variable o : options.
  Hypothesis Eperm : forall k m, Permutation m (e_ord E k m).
  Hypothesis Hs : forall key s l, scan_res E key s = Ok l -> sight s l.
  Hypothesis Ho : forall key a, order a (e_ord E key a).
  Notation cs := (o_case o).
  Notation sg := (seg_o (o_case o)).
  Notation lies := (lies sight (o_case o)).
  Notation found := (found sight o).

  Lemma parent_found : forall key d l n, exists r, find_parent E o key d (map sg l) n = Ok r /\
    match r with
    | None => forall i, (1 <= i <= n)%nat -> lies d 0 (firstn i l) None
    | Some (loc, i) => (1 <= i <= n)%nat /\ found d 0 (firstn i l) (Some loc) /\ forall j, (i < j <= n)%nat -> lies d 0 (firstn j l) None
    end.
  Proof.
    intros key d l. induction n as [|n (r & Q & R)].
    { exists None. split; auto. intros i H. lia. }
    cbn [find_parent]. rewrite firstn_map.
    destruct (find_found E sight o Eperm Hs (firstn (S n) l) (S n :: key) d 0) as (f & F & G). rewrite F. cbn [bind].
    destruct f as [loc|].
    - exists (Some (loc, S n)). split; auto. split; [lia|]. split; auto. intros j J. lia.
    - exists r. split; auto. destruct r as [[loc i]|].
      + destruct R as (R1 & R2 & R3). split; [lia|]. split; auto. intros j J. destruct (Nat.eq_dec j (S n)) as [->|]; [exact G|]. apply R3. lia.
      + intros i I. destruct (Nat.eq_dec i (S n)) as [->|]; [exact G|]. apply R. lia.
  Qed.
  Lemma sibling_is : forall es l, (match map sg l with
      | s :: _ => segtype_eqb (s_type s) SElem && should_create_sibling es (s_value s)
      | [] => false end = true) <-> beside cs es l.
  Proof.
    intros es l. unfold beside. destruct l as [|[st ms] l]; [split; [discriminate|intros (n & m & more & X & _); discriminate]|]. cbn [map].
    destruct st as [n| | | | | | | |]; try (split; [discriminate|intros (n' & m & more & X & _); discriminate]).
    cbn [seg_o fst snd s_type s_value segtype_eqb andb]. unfold should_create_sibling. rewrite negb_true_iff, lower_spelled. split.
    - intros H. exists n, ms, l. split; auto. intros e I Q. assert (X : existsb (fun e => bytes_eqb (e_name e) (spelled cs n)) es = true); [|congruence].
      apply existsb_exists. exists e. split; auto. rewrite Q. apply bytes_eqb_refl.
    - intros (n' & m & more & X & H). injection X as <- <- <-. destruct (existsb _ es) eqn:Q; auto. apply existsb_exists in Q. destruct Q as (e & I & Q).
      apply bytes_eqb_eq in Q. now elim (H e I).
  Qed.
  Lemma under_is : forall e l, exists l', under_root cs e l l' /\
    match map sg l with
    | s :: rest => if segtype_eqb (s_type s) SElem && bytes_eqb (s_value s) (e_name e) then rest else map sg l
    | [] => map sg l
    end = map sg l'.
  Proof.
    intros e l. destruct l as [|[st ms] l].
    { exists []. split; auto. apply under_other. intros; discriminate. }
    cbn [map]. destruct st as [n| | | | | | | |]; try (eexists; split; [apply under_other; intros; discriminate|reflexivity]).
    cbn [seg_o fst snd s_type s_value segtype_eqb andb]. rewrite lower_spelled. destruct (bytes_eqb (spelled cs n) (e_name e)) eqn:Q.
    - apply bytes_eqb_eq in Q. exists l. split; auto. now apply under_same.
    - eexists. split; [apply under_other|reflexivity]. intros n' m more X. injection X as <- <- <-. intros K. rewrite K, bytes_eqb_refl in Q. discriminate.
  Qed.
  Lemma root_is : forall key d l t, d <> [] -> unrooted sight cs d l -> exists out, created sight order cs (o_indent o) d l t out /\
    create_in_root E o key d (map sg l) t = conv out.
  Proof.
    intros key d l t ND UR. unfold create_in_root. destruct (scan_res_ok E (0%nat :: key) d) as [es S]. rewrite S. cbn [bind].
    pose proof (keyed_scan E Eperm _ _ _ S) as K. apply Hs in S. pose proof (sibling_is es l) as SB.
    destruct (match map sg l with s :: _ => _ | [] => false end) eqn:Q.
    { eexists (Done _). split; [eapply created_beside; eauto; [now apply SB|apply (build_built o)]|reflexivity]. }
    assert (NB : ~ beside cs es l) by (intros X; apply SB in X; discriminate). clear Q SB.
    destruct es as [|e es]; [exists (Refused ErrMalformedXML); split; [now apply created_nowhere|reflexivity]|].
    destruct (under_is e l) as (l' & U & Q). cbv zeta.
    match goal with |- context [match ?x with [] => Ok (inr []) | _ :: _ => _ end] => change x with (match map sg l with
      | s :: rest => if segtype_eqb (s_type s) SElem && bytes_eqb (s_value s) (e_name e) then rest else map sg l
      | [] => map sg l end) end.
    rewrite Q. destruct l' as [|x more]; [exists (Done []); split; [eapply created_nothing; eauto|reflexivity]|].
    change (map sg (x :: more)) with (sg x :: map sg more). cbv iota. change (sg x :: map sg more) with (map sg (x :: more)).
    set (u := build_path (o_indent o) 0 (map sg (x :: more)) t).
    assert (INS : exists out, inserted order d (place_of d 0 e) u out /\
      (if e_self e then
              let* a := slice_to d (pos_of d (e_start e)) in
              let* b := slice_from d (pos_of d (e_body e)) in
              Ok (inr (a ++ reopen_tag E (1 :: key)%nat (e_name e) (e_attrs e) ++ u ++ close_tag (e_name e) ++ b))
            else
              let* a := slice_to d (pos_of d (e_after e) - Z.of_nat (List.length (e_name e)) - 3) in
              let* b := slice_from d (pos_of d (e_after e) - Z.of_nat (List.length (e_name e)) - 3) in
              Ok (inr (a ++ u ++ b))) = conv out).
    { destruct (e_self e) eqn:LS.
      - destruct (splice_is d (pos_of d (e_start e)) (pos_of d (e_body e)) (bs "<" ++ e_name e ++ listed (escaped (e_ord E (1 :: key)%nat (e_attrs e))) ++ bs ">" ++ u ++ bs "</" ++ e_name e ++ bs ">")) as (out & SP & F).
        exists out. split.
        + eapply inserted_empty; [exact LS|apply Ho|]. cbn [p_start p_end p_name place_of]. rewrite LS. exact SP.
        + rewrite <- F with (f := fun a b => a ++ reopen_tag E (1 :: key)%nat (e_name e) (e_attrs e) ++ u ++ close_tag (e_name e) ++ b); [reflexivity|].
          intros a b. unfold reopen_tag, close_tag. rewrite written_escaped, write_attrs_text. now rewrite <- ?app_assoc.
      - set (z := (pos_of d (e_after e) - Z.of_nat (List.length (e_name e)) - 3)%Z). destruct (splice_is d z z u) as (out & SP & F).
        exists out. split; [|rewrite <- F with (f := fun a b => a ++ u ++ b); reflexivity].
        apply inserted_full; [exact LS|]. cbn [p_end place_of]. rewrite LS.
        replace (0 + offset d (e_after e) - (size (e_name e) + 3))%Z with z; [exact SP|]. unfold z, pos_of, offset, size. lia. }
    destruct INS as (out & I & M). exists out. split; [|exact M]. eapply created_top; eauto. apply (build_built o).
  Qed.
  Lemma create_is : forall key d l t, exists out, created sight order cs (o_indent o) d l t out /\ create_element E o key d (map sg l) t = conv out.
  Proof.
    intros key d l t. unfold create_element. destruct d as [|c d].
    { eexists (Done _). split; [apply created_all; [reflexivity|apply (build_built o)]|reflexivity]. }
    set (D := c :: d). assert (ND : D <> []) by discriminate. clearbody D. clear c d. rewrite map_length.
    destruct (parent_found (0 :: key)%nat D l (List.length l - 1)) as (r & Q & R). rewrite Q. cbn [bind]. clear Q. destruct r as [[loc i]|].
    - destruct R as (I & [F SD] & N). rewrite skipn_map.
      destruct (create_parent_is E order o Ho (2 :: key)%nat D loc (skipn i l) t SD) as (u & out & B & INS & M).
      exists out. split; [|exact M].
      assert (LN : List.length (firstn i l) = i) by (rewrite firstn_length; lia).
      eapply created_in with (l1 := firstn i l) (l2 := skipn i l); eauto.
      + symmetry. apply firstn_skipn.
      + intros X. apply (f_equal (@List.length _)) in X. rewrite LN in X. cbn in X. lia.
      + intros X. apply (f_equal (@List.length _)) in X. rewrite skipn_length in X. cbn in X. lia.
      + intros x y X NX NY. assert (P : l = (firstn i l ++ x) ++ y) by (rewrite <- app_assoc, <- X; symmetry; apply firstn_skipn).
        rewrite (prefix_firstn _ _ _ _ P). apply N. rewrite app_length, LN.
        apply (f_equal (@List.length _)) in X. rewrite skipn_length, app_length in X. destruct x; [easy|]. destruct y; [easy|]. cbn [List.length] in *. lia.
    - apply root_is; auto. intros l1 l2 X N1 N2. rewrite (prefix_firstn _ _ _ _ X). apply R. subst l. rewrite app_length.
      destruct l1; [easy|]. destruct l2; [easy|]. cbn [List.length]. lia.
  Qed.
  Lemma finish_is : forall d m out, m = conv out ->
    (let* r := m in match r with inl e => Ok (inl e) | inr r => Ok (inr (get_result d r)) end) = conv (settled d out).
  Proof. intros d m out ->. destruct out; reflexivity. Qed.

  (** ** Appending *)
  Lemma last_pos : forall n ms d es dflt, exists z, after_last cs n d dflt es z /\ last_match_pos o (sg (GName n, ms)) d es dflt = z.
  Proof.
    intros n ms d. induction es as [|e es IH]; intros dflt.
    { exists dflt. split; [apply after_none; intros e []|reflexivity]. }
    cbn [last_match_pos]. pose proof (bears_is (Under cs) n ms e) as B. rewrite (seg_o_is cs) in B. cbn [strict] in B.
    destruct (seg_matches_opts cs (sg (GName n, ms)) (e_name e)) eqn:Q.
    - destruct (IH (pos_of d (e_after e))) as (z & A & M). exists z. split; auto. inversion A as [l1 e' l2 X Y Z|X]; subst.
      + apply after_one with (l1 := e :: l1) (l2 := l2); auto.
      + apply after_one with (l1 := []) (l2 := es); auto. now apply B.
    - assert (NB : ~ bears (Under cs) n e) by (intros X; apply B in X; discriminate).
      destruct (IH dflt) as (z & A & M). exists z. split; auto. inversion A as [l1 e' l2 X Y Z|X]; subst.
      + apply after_one with (l1 := e :: l1) (l2 := l2); auto.
      + apply after_none. intros e' [<-|I]; auto.
  Qed.
  Lemma last_shift : forall n d es dflt z z', after_last cs n d dflt es z -> dflt = z' -> after_last cs n d z' es z.
  Proof. intros; subst; auto. Qed.
  Lemma limit_is : forall d p q m out f, spliced d p q m out -> (forall f', (forall a b, f' a b = a ++ m ++ b) -> (let* a := slice_to d p in let* b := slice_from d q in Ok (inr (f' a b))) = conv out) ->
    (forall a b, f a b = a ++ m ++ b) ->
    (let* a := slice_to d p in let* b := slice_from d q in
      if (MaxDocumentSize <? blen (f a b))%N then Ok (inl ErrInvalidValue) else Ok (inr (f a b))) = conv (limited out).
  Proof.
    intros d p q m out f S F G. specialize (F f G). destruct (slice_to d p) as [a| |]; cbn [bind] in *; [|destruct out; discriminate||auto|destruct out; discriminate].
    destruct (slice_from d q) as [b| |]; cbn [bind] in *; [|destruct out; discriminate||auto|destruct out; discriminate].
    destruct out as [x| |]; try discriminate. cbn [conv] in F. injection F as F. rewrite blen_size, F. cbn [limited]. now destruct (_ <? _)%Z.
  Qed.
  Lemma append_is : forall key d pre n ms ms' t, exists out, appended sight order cs (o_indent o) d pre n ms t out /\
    append_element E o key d (map sg (pre ++ [(GName n, ms); (GNth (-1), ms')])) t = conv out.
  Proof.
    intros key d pre n ms ms' t. unfold append_element. rewrite map_app, rev_app_distr. cbn [map rev app].
    change (segtype_eqb (s_type (sg (GNth (-1), ms'))) SIndex) with true. change (s_index (sg (GNth (-1), ms'))) with (-1)%Z.
    change (segtype_eqb (s_type (sg (GName n, ms))) SElem) with true. cbn [negb orb Z.eqb Pos.eqb]. rewrite rev_involutive.
    assert (TT : s_value (sg (GName n, ms)) = spelled cs n) by (apply (title_is o (GName n)); exact (fun x => x)).
    assert (NEW : new_elem (spelled cs n) t = enclosed (spelled cs n) t) by (unfold new_elem, enclosed, open_tag, close_tag; now rewrite <- ?app_assoc).
    destruct pre as [|x pre].
    - cbn [map]. unfold append_root. rewrite TT, NEW. destruct d as [|c d]; [eexists (Done _); split; [now apply appended_all|reflexivity]|].
      set (D := c :: d). assert (ND : D <> []) by discriminate. clearbody D. clear c d.
      destruct (scan_res_ok E (0 :: key)%nat D) as [es S]. rewrite S. cbn [bind]. apply Hs in S.
      destruct (last_pos n ms D es (Z.of_nat (List.length D))) as (z & A & M). rewrite M. cbv zeta.
      destruct (splice_is D z z (enclosed (spelled cs n) t)) as (out & SP & F).
      exists (limited out). split; [eapply appended_top; eauto|].
      apply (limit_is D z z (enclosed (spelled cs n) t) out (fun a b => a ++ enclosed (spelled cs n) t ++ b)); auto.
    - set (P := x :: pre). assert (NP : P <> []) by discriminate.
      change (match map sg P with [] => append_root E o (0 :: key)%nat d (sg (GName n, ms)) t | _ :: _ => ?b end) with b.
      clearbody P. clear x pre. destruct (find_found E sight o Eperm Hs P (1 :: key)%nat d 0) as (r & Q & F). rewrite Q. cbn [bind]. clear Q.
      destruct r as [loc|].
      2:{ change [sg (GName n, ms)] with (map sg [(GName n, ms)]). rewrite <- map_app. destruct (create_is (2 :: key)%nat d (P ++ [(GName n, ms)]) t) as (out & C & M).
          exists out. split; auto. now apply appended_new. }
      destruct F as [F [ET ND]]. rewrite TT, NEW. destruct (l_self loc) eqn:LS.
      + destruct (sorted_written (l_attrs loc) ND) as (w & W1 & W2 & W3).
        destruct (splice_is d (l_start loc) (l_content_end loc) (bs "<" ++ l_name loc ++ listed (escaped w) ++ bs ">" ++ enclosed (spelled cs n) t ++ bs "</" ++ l_name loc ++ bs ">")) as (out & SP & G).
        exists out. split; [eapply appended_empty; eauto|].
        rewrite <- G with (f := fun a b => a ++ bs "<" ++ l_name loc ++ sorted_attrs (l_attrs loc) ++ bs ">" ++ enclosed (spelled cs n) t ++ close_tag (l_name loc) ++ b); [reflexivity|].
        intros a b. rewrite W3. unfold close_tag. now rewrite <- ?app_assoc.
      + unfold find_last_match, sliced.
        destruct (Z.leb_spec (l_content_start loc) (l_content_end loc)) as [L|L].
        2:{ exists Crashed. split; [|reflexivity]. eapply appended_lost; eauto. cbn [p_body p_end place_loc]. lia. }
        destruct (slice_cases d (l_content_end loc)) as [(R & A & _)|(R & A & _)].
        2:{ rewrite A. exists Crashed. split; [|reflexivity]. eapply appended_lost; eauto. cbn [p_body p_end place_loc]. lia. }
        rewrite A. cbn [bind]. clear A.
        destruct (slice_cases (firstn (Z.to_nat (l_content_end loc)) d) (l_content_start loc)) as [(R2 & _ & A)|(R2 & _ & A)].
        2:{ rewrite A. exists Crashed. split; [|reflexivity]. eapply appended_lost; eauto. cbn [p_body p_end place_loc]. rewrite (firstn_size d _ R) in R2. lia. }
        rewrite A. cbn [bind]. clear A. rewrite (firstn_size d _ R) in R2.
        set (cc := skipn (Z.to_nat (l_content_start loc)) (firstn (Z.to_nat (l_content_end loc)) d)).
        set (aa := firstn (Z.to_nat (l_content_start loc)) (firstn (Z.to_nat (l_content_end loc)) d)).
        assert (AC : aa ++ cc = firstn (Z.to_nat (l_content_end loc)) d) by apply firstn_skipn.
        assert (SA : size aa = l_content_start loc) by (apply firstn_size; rewrite (firstn_size d _ R); lia).
        assert (SC : size cc = (l_content_end loc - l_content_start loc)%Z).
        { pose proof (firstn_size d _ R) as X. rewrite <- AC in X. unfold size in *. rewrite app_length in X. lia. }
        clearbody aa cc. destruct (scan_res_ok E (3 :: key)%nat cc) as [es S]. rewrite S. cbn [bind]. apply Hs in S.
        destruct (last_pos n ms cc es (l_content_end loc - l_content_start loc)) as (z & AL & M). rewrite M. cbv zeta. rewrite map_length.
        rewrite <- SC in AL.
        set (ind := match o_indent o with [] => [] | _ :: _ => if (l_content_start loc <? z + l_content_start loc)%Z then lf :: repeat_bytes (List.length P) (o_indent o) else [] end).
        assert (IND : ind = if (0 <? z)%Z then margin (o_indent o) (List.length P) else []).
        { unfold ind. replace (l_content_start loc <? z + l_content_start loc)%Z with (0 <? z)%Z by (destruct (Z.ltb_spec 0 z), (Z.ltb_spec (l_content_start loc) (z + l_content_start loc)); auto; lia).
          rewrite <- (margin_is o). destruct (o_indent o), (0 <? z)%Z; reflexivity. }
        rewrite IND. clear ind IND. rewrite (Z.add_comm z).
        destruct (splice_is d (l_content_start loc + z) (l_content_start loc + z) ((if (0 <? z)%Z then margin (o_indent o) (List.length P) else []) ++ enclosed (spelled cs n) t)) as (out & SP & G).
        exists (limited out). split.
        * eapply appended_in with (a := aa) (c := cc) (b := skipn (Z.to_nat (l_content_end loc)) d); eauto.
          -- rewrite app_assoc, AC. symmetry. apply firstn_skipn.
          -- rewrite AC. apply firstn_size. exact R.
        * refine (limit_is d _ _ _ out (fun a b => a ++ (if (0 <? z)%Z then margin (o_indent o) (List.length P) else []) ++ enclosed (spelled cs n) t ++ b) SP G _).
          intros a b. now rewrite <- ?app_assoc.
  Qed.

  (** ** Attributes *)
  Lemma give_is : forall d pre x t loc, found d 0 pre (Some loc) -> exists out, given sight cs d pre x t out /\
    lift (replace_attribute o d loc (spelled cs x) t) (fun y => y) = conv out.
  Proof.
    intros d pre x t loc [F [_ ND]]. destruct (put_written o (l_attrs loc) x t ND) as (w & W1 & W2 & W3).
    destruct (splice_is d (l_start loc) (l_content_start loc) (bs "<" ++ l_name loc ++ listed w ++ (if l_self loc then bs "/>" else bs ">"))) as (out & SP & G).
    exists out. split.
    - eapply given_to; [exact F|apply (retagged_as (place_loc loc)); [exact W1|exact W2]|exact SP].
    - unfold lift, replace_attribute. cbv zeta. rewrite W3.
      rewrite <- G with (f := fun a b => a ++ bs "<" ++ l_name loc ++ listed w ++ (if l_self loc then bs "/>" else bs ">") ++ b); [|intros a b; now rewrite <- ?app_assoc].
      destruct (slice_to d (l_start loc)); auto. cbn [bind]. destruct (slice_from d (l_content_start loc)); auto.
  Qed.
  Lemma attribute_is : forall key d pre x t, lies d 0 pre None -> exists out, attributed sight order cs (o_indent o) d pre x t out /\
    create_element_for_attr E o key d (map sg pre) (spelled cs x) t = conv out.
  Proof.
    intros key d pre x t F. unfold create_element_for_attr. destruct (create_is (0 :: key)%nat d pre []) as (out & C & M). rewrite M.
    destruct out as [d'|e|]; cbn [conv bind].
    - change (get_result d d') with (kept d d'). rewrite blen_size. destruct (Z.ltb_spec 10485760 (size (kept d d'))) as [L|L].
      { exists (Refused ErrMalformedXML). split; auto. eapply attributed_large; eauto. }
      destruct (find_found E sight o Eperm Hs pre (1 :: key)%nat (kept d d') 0) as (r & Q & F2). rewrite Q. cbn [bind]. destruct r as [loc|].
      + destruct (give_is (kept d d') pre x t loc F2) as (out & G & M2). exists (settled (kept d d') out). split; [eapply attributed_new; eauto|].
        rewrite <- (finish_is (kept d d') _ _ M2). unfold lift. destruct (replace_attribute o (kept d d') loc (spelled cs x) t); reflexivity.
      + exists (Refused ErrInvalidPath). split; auto. eapply attributed_lost; eauto.
    - exists (Refused e). split; auto. eapply attributed_fail; eauto. discriminate.
    - exists Crashed. split; auto. eapply attributed_fail; eauto. discriminate.
  Qed.

  (** ** Set and Delete *)
  Lemma last_low : forall l d, l <> [] -> exists pre x, l = pre ++ [x] /\ last (map sg l) d = sg x /\ removelast (map sg l) = map sg pre.
  Proof.
    intros l d N. destruct (exists_last N) as (pre & x & ->). exists pre, x. split; auto. rewrite map_app. cbn [map]. rewrite last_last, removelast_last. auto.
  Qed.
  Lemma set_is : forall g d l v t, l <> [] -> value_to_xml g v = inr t -> (MaxValueSize <? blen t)%N = false -> (MaxDocumentSize <? blen d)%N = false ->
    exists out, set_outcome sight order cs (o_indent o) d l t out /\ set_element E g o d (map sg l) v = conv out.
  Proof.
    intros g d l v t NE V VS DS. unfold set_element.
    assert (CB : forall A (z y : A), match map sg l with [] => z | _ :: _ => y end = y) by (intros; destruct l; [easy|reflexivity]).
    rewrite CB, V, VS, DS. cbv zeta.
    pose proof (check_intents_err (lowered o l)) as CE. pose proof (check_intents_append (lowered o l)) as CA.
    rewrite <- misplaced_bad in CE. rewrite lowered_seg in CE, CA. destruct (check_intents (map sg l)) eqn:CI.
    - assert (NM : ~ misplaced l) by (intros X; apply CE in X; discriminate).
      assert (NA : ~ appends l) by (intros X; apply (appends_append o l NM) in X; rewrite lowered_seg in X; apply CA in X; discriminate).
      destruct (last_low l (mkSeg SElem [] 0 false None false [] []) NE) as (pre & x & X & L1 & L2). rewrite L1, L2. destruct x as [st ms].
      destruct (segtype_eqb (s_type (sg (st, ms))) SAttr) eqn:TA.
      + destruct st; try discriminate. change (s_value (sg (GAttr n, ms))) with (lower_if cs n). rewrite lower_spelled.
        destruct (find_found E sight o Eperm Hs pre [1%nat] d 0) as (r & Q & F). rewrite Q. cbn [bind]. destruct r as [loc|].
        * destruct (give_is d pre n t loc F) as (out & G & M). exists (settled d out). split; [|now apply finish_is].
          eapply set_attr; eauto. now apply attributed_there.
        * destruct (attribute_is [2%nat] d pre n t F) as (out & A & M). exists out. split; auto. eapply set_attr; eauto.
      + assert (NT : ~ at_attribute l).
        { intros (p & n & m & X'). rewrite X in X'. apply app_inj_tail in X'. destruct X' as [_ X']. injection X' as -> ->. discriminate. }
        destruct (find_found E sight o Eperm Hs l [3%nat] d 0) as (r & Q & F). rewrite Q. cbn [bind]. destruct r as [loc|].
        * destruct F as [F _]. destruct (splice_is d (l_content_start loc) (l_content_end loc) t) as (out & SP & G).
          exists (settled d out). split; [eapply set_content; eauto|]. apply finish_is. rewrite <- G with (f := fun a b => a ++ t ++ b) by reflexivity.
          unfold lift, replace_element. destruct (slice_to d (l_content_start loc)); auto. cbn [bind]. destruct (slice_from d (l_content_end loc)); auto.
        * destruct (create_is [4%nat] d l t) as (out & C & M). exists (settled d out). split; [eapply set_create; eauto|]. now apply finish_is.
    - assert (NM : ~ misplaced l) by (intros X; apply CE in X; discriminate).
      assert (AP : appends l) by (apply (appends_append o l NM); rewrite lowered_seg; now apply CA).
      destruct AP as (pre & ms & ->). assert (NP : pre = [] \/ pre <> []) by (destruct pre; [now left|right; discriminate]). destruct NP as [->|NP].
      + exists (Refused ErrInvalidPath). split; [|reflexivity]. apply set_unnamed; auto; [now exists [], ms|].
        intros n (p & m0 & m & X). destruct p as [|? [|? p]]; discriminate.
      + destruct (exists_last NP) as (p & [st m] & ->). rewrite <- app_assoc in *. cbn [app] in *.
        assert (NN : (exists n, st = GName n) \/ segtype_eqb (s_type (sg (st, m))) SElem = false) by (destruct st; eauto).
        destruct NN as [[n ->]|NN].
        * destruct (append_is [0%nat] d p n m ms t) as (out & A & M). exists (settled d out). split; [eapply set_append; eauto|]. now apply finish_is.
        * exists (Refused ErrInvalidPath). split.
          -- apply set_unnamed; auto; [exists (p ++ [(st, m)]), ms; now rewrite <- app_assoc|].
             intros n (p' & m0 & m' & X). change [(st, m); (GNth (-1), ms)] with ([(st, m)] ++ [(GNth (-1), ms)]) in X.
             change [(GName n, m0); (GNth (-1), m')] with ([(GName n, m0)] ++ [(GNth (-1), m')]) in X. rewrite !app_assoc in X.
             apply app_inj_tail in X. destruct X as [X _]. apply app_inj_tail in X. destruct X as [_ X]. injection X as -> _. discriminate.
          -- unfold append_element. rewrite map_app, rev_app_distr. cbn [map rev app]. rewrite NN. reflexivity.
    - exists (Refused ErrInvalidPath). split; [|reflexivity]. apply SpecOutcome.set_misplaced. now apply CE.
  Qed.
  Lemma delete_is : forall d l, l <> [] -> (MaxDocumentSize <? blen d)%N = false ->
    exists out, delete_outcome sight cs d l out /\ delete_element E o d (map sg l) = conv out.
  Proof.
    intros d l NE DS. unfold delete_element.
    assert (CB : forall A (z y : A), match map sg l with [] => z | _ :: _ => y end = y) by (intros; destruct l; [easy|reflexivity]).
    rewrite CB, DS. cbv zeta. destruct (last_low l (mkSeg SElem [] 0 false None false [] []) NE) as (pre & x & X & L1 & L2). rewrite L1, L2. destruct x as [st ms].
    destruct (segtype_eqb (s_type (sg (st, ms))) SAttr) eqn:TA.
    - destruct st; try discriminate. change (s_value (sg (GAttr n, ms))) with (lower_if cs n). rewrite lower_spelled.
      destruct pre as [|y pre]; [exists (Refused ErrInvalidPath); split; [eapply SpecOutcome.delete_bare; eauto|reflexivity]|].
      destruct (find_found E sight o Eperm Hs (y :: pre) [5%nat] d 0) as (r & Q & F). cbn [map] in Q. cbn [map]. rewrite Q. cbn [bind]. clear Q L1 L2.
      set (P := y :: pre) in *. assert (NP : P <> []) by discriminate. clearbody P. clear y pre. destruct r as [loc|].
      2:{ exists (Done d). split; [eapply delete_no_element; eauto|reflexivity]. }
      destruct F as [F [_ ND]].
      assert (FD : (if cs then match map_get (spelled cs n) (l_attrs loc) with Some _ => true | None => false end
                    else existsb (fun m => attr_eqb o m (spelled cs n)) (map fst (l_attrs loc))) =
                   existsb (fun m => bytes_eqb (spelled cs m) (spelled cs n)) (map fst (l_attrs loc))).
      { unfold attr_eqb, spelled. destruct cs eqn:C.
        - clear. induction (l_attrs loc) as [|[k v] a IH]; [reflexivity|]. cbn [map_get map fst existsb]. rewrite <- IH, (bytes_eqb_sym k n). now destruct (bytes_eqb n k).
        - clear. induction (map fst (l_attrs loc)) as [|k a IH]; [reflexivity|]. cbn [existsb]. rewrite IH. f_equal. rewrite !lower_eq_map.
          fold (SpecCase.folded k) (SpecCase.folded n) (SpecCase.folded (SpecCase.folded n)). now rewrite folded_idem. }
      unfold delete_attribute. cbv zeta. rewrite FD. clear FD. destruct (existsb _ (map fst (l_attrs loc))) eqn:EX; cbn [negb].
      + apply existsb_exists in EX. destruct EX as (y & I & Q2). apply bytes_eqb_eq in Q2. apply in_map_iff in I. destruct I as ([y' v] & <- & I). cbn [fst] in Q2.
        destruct (drop_written o (l_attrs loc) n ND) as (w & W1 & W2 & W3). rewrite W3.
        destruct (splice_is d (l_start loc) (l_content_start loc) (bs "<" ++ l_name loc ++ listed w ++ (if l_self loc then bs "/>" else bs ">"))) as (out & SP & G).
        exists (settled d out). split.
        * eapply delete_attr; [exact NP|exact X|exact F|exact I|exact Q2|apply (retagged_as (place_loc loc)); [exact W1|exact W2]|exact SP].
        * unfold lift. specialize (G (fun a b => a ++ bs "<" ++ l_name loc ++ listed w ++ (if l_self loc then bs "/>" else bs ">") ++ b)).
          rewrite <- (finish_is d _ _ (G ltac:(intros a b; now rewrite <- ?app_assoc))).
          destruct (slice_to d (l_start loc)); auto. cbn [bind]. destruct (slice_from d (l_content_start loc)); auto.
      + exists (Done d). split.
        * eapply delete_no_attr; eauto. intros y v I Q2. assert (EX2 : existsb (fun m => bytes_eqb (spelled cs m) (spelled cs n)) (map fst (l_attrs loc)) = true); [|congruence].
          apply existsb_exists. exists y. split; [exact (in_map fst _ _ I)|]. rewrite Q2. apply bytes_eqb_refl.
        * unfold lift. cbn [bind]. unfold get_result. now destruct d.
    - assert (NT : ~ at_attribute l).
      { intros (p & n & m & X'). rewrite X in X'. apply app_inj_tail in X'. destruct X' as [_ X']. injection X' as -> ->. discriminate. }
      destruct (find_found E sight o Eperm Hs l [6%nat] d 0) as (r & Q & F). rewrite Q. cbn [bind]. destruct r as [loc|].
      2:{ exists (Done d). split; [now apply delete_absent|reflexivity]. }
      destruct F as [F [ET _]].
      destruct (splice_is d (l_start loc) (if l_self loc then l_content_start loc else l_content_end loc + (size (l_name loc) + 3)) []) as (out & SP & G).
      exists (settled d out). split; [eapply delete_present; eauto|].
      rewrite <- (finish_is d _ _ (G (fun a b => a ++ b) ltac:(reflexivity))). rewrite ET.
      replace (l_content_end loc + Z.of_nat (List.length (l_name loc)) + 3)%Z with (l_content_end loc + (size (l_name loc) + 3))%Z by (unfold size; lia).
      destruct (slice_to d (l_start loc)); auto. cbn [bind]. destruct (slice_from d _); auto.
  Qed.
End Edits.
