(** The texts of the errors of Set. *)
From Coq Require Import List Ascii String NArith ZArith Bool Lia Permutation.
From Verif Require Import GoStr ModelParser ModelPath ModelResult ModelQuery ModelValidate ModelBuilder ModelQueryOpts ModelErrText SpecText SpecPath SpecTree SpecEdit SpecContent SpecCase SpecOptions
  SpecGrammar SpecScan SpecAnswer SpecError SpecOutcome SpecComplaint ProofBase ProofCase ProofEscape ProofPath ProofScan ProofFuel ProofSyntax ProofTree ProofRaw2 ProofEdit3 ProofOpt2 ProofError ProofSight3
  ProofAnswer2 ProofAnswer4 ProofOutcome ProofOutcome2 ProofOutcome3 ProofComplaint2.
Import ListNotations.

Definition nested_text : failure := detailed ErrInvalidPath (bs "append (-1 index) cannot be used with nested paths (e.g., item.-1.child)").
Definition reserved_text (i : Z) : failure :=
  detailed ErrInvalidPath (bs "index " ++ fmt_int i ++ bs " reserved for future use; only -1 (append) is currently supported").
Lemma negative_later : forall x l i post, (forall j, fst x = GNth j -> (0 <= j)%Z) -> first_negative l i post -> first_negative (x :: l) i post.
Proof.
  intros [st ms] l i post H [pre ms' -> L N]. apply (first_neg _ _ _ ((st, ms) :: pre) ms'); auto. intros j m [X|X]; [injection X as -> _; now apply H|eauto].
Qed.
Lemma intents_says : forall cs l f, check_intents_t (map (seg_o cs) l) = inl f ->
  (exists post, first_negative l (-1) post /\ post <> [] /\ f = nested_text) \/
  (exists i post, first_negative l i post /\ (i < -1)%Z /\ f = reserved_text i).
Proof.
  intros cs. induction l as [|[st ms] l IH]; intros f H; [discriminate|]. cbn [map check_intents_t] in H.
  assert (T : (exists i, st = GNth i /\ s_type (seg_o cs (st, ms)) = SIndex /\ s_index (seg_o cs (st, ms)) = i) \/ ((forall i, st <> GNth i) /\ s_type (seg_o cs (st, ms)) <> SIndex)).
  { destruct st; try (right; split; [discriminate|destruct cs; discriminate]). left. exists i. destruct cs; auto. }
  destruct T as [(i & -> & T1 & T2)|[T1 T2]].
  - rewrite T1, T2 in H. unfold resolve_index_intent_t in H. destruct (Z.leb_spec 0 i) as [L|L].
    + destruct (IH f H) as [(post & F & N)|(j & post & F & N)]; [left; exists post|right; exists j, post]; (split; [|exact N]); apply negative_later; auto; intros k X; injection X as <-; exact L.
    + destruct (Z.eqb_spec i (-1)) as [X|NE]; [subst i|].
      * destruct l as [|x l]; [discriminate|]. cbn [map] in H. injection H as <-. left. exists (x :: l). split; [|split; [discriminate|reflexivity]].
        apply (first_neg _ _ _ [] ms); [reflexivity|lia|intros j m []].
      * injection H as <-. right. exists i, l. split; [|split; [lia|reflexivity]]. apply (first_neg _ _ _ [] ms); [reflexivity|lia|intros j m []].
  - assert (H' : check_intents_t (map (seg_o cs) l) = inl f) by (destruct (s_type (seg_o cs (st, ms))); auto; congruence).
    destruct (IH f H') as [(post & F & N)|(j & post & F & N)]; [left; exists post|right; exists j, post]; (split; [|exact N]); apply negative_later; auto; intros k X; cbn [fst] in X; now apply T1 in X.
Qed.
Lemma negative_unique : forall l i post j post', first_negative l i post -> first_negative l j post' -> j = i /\ post' = post.
Proof.
  intros l i post j post' [pre ms -> L N] [pre' ms' E' L' N']. revert pre' E' N'. induction pre as [|x pre IH]; intros [|y pre'] E' N'; cbn [app] in E'.
  - injection E' as -> -> ->. auto.
  - injection E' as <- ->. specialize (N' i ms (or_introl eq_refl)). lia.
  - injection E' as -> <-. specialize (N j ms' (or_introl eq_refl)). lia.
  - injection E' as <- E'. apply IH with (pre' := pre'); auto; intros k m I; [eapply N|eapply N']; right; eauto.
Qed.
Lemma negative_misplaced : forall l i post, first_negative l i post -> (i < -1)%Z \/ i = (-1)%Z /\ post <> [] -> misplaced l.
Proof. intros l i post [pre ms -> L N] H. exists pre, i, ms, post. auto. Qed.

Lemma append_text : forall E o key d pre n ms ms' t f,
  append_element_t E o key d (map (seg_o (o_case o)) (pre ++ [(GName n, ms); (GNth (-1), ms')])) t = Ok (inl f) ->
  f = plain ErrMalformedXML \/ f = detailed ErrInvalidValue (bs "resulting document exceeds maximum size").
Proof.
  intros E o key d pre n ms ms' t f H. unfold append_element_t in H. rewrite map_app, rev_app_distr in H. cbn [map rev app] in H.
  replace (segtype_eqb (s_type (seg_o (o_case o) (GNth (-1), ms'))) SIndex) with true in H by (destruct (o_case o); reflexivity).
  replace (s_index (seg_o (o_case o) (GNth (-1), ms'))) with (-1)%Z in H by (destruct (o_case o); reflexivity).
  replace (segtype_eqb (s_type (seg_o (o_case o) (GName n, ms))) SElem) with true in H by (destruct (o_case o); reflexivity).
  change (-1 =? -1)%Z with true in H. cbn [negb orb] in H. rewrite rev_involutive in H. destruct (map (seg_o (o_case o)) pre) as [|p0 ps].
  - unfold append_root_t in H. destruct d as [|c d]; [discriminate|]. apply bind_ok in H. destruct H as (es & _ & H). cbv zeta in H.
    apply bind_ok in H. destruct H as (a & _ & H). apply bind_ok in H. destruct H as (b & _ & H). destruct (MaxDocumentSize <? _)%N; [injection H as <-; auto|discriminate].
  - apply bind_ok in H. destruct H as (loc & _ & H). destruct loc as [loc|].
    + destruct (l_self loc).
      * apply bind_ok in H. destruct H as (a & _ & H). apply bind_ok in H. destruct H as (b & _ & H). discriminate.
      * apply bind_ok in H. destruct H as (p & _ & H). apply bind_ok in H. destruct H as (a & _ & H). cbv zeta in H. apply bind_ok in H. destruct H as (b & _ & H).
        destruct (MaxDocumentSize <? _)%N; [injection H as <-; auto|discriminate].
    + unfold plainly in H. apply bind_ok in H. destruct H as ([e|r] & H & X); [|discriminate]. injection X as <-. apply create_err in H. destruct H as [-> _]. auto.
Qed.

Section Edits.
  Variable E : env.
  Variable sight : bytes -> list elem -> Prop.
  Variable order : attrs -> attrs -> Prop.
  Variable o : options.
  Hypothesis Eperm : forall k m, Permutation m (e_ord E k m).
  Hypothesis Hs : forall key s l, scan_res E key s = Ok l -> sight s l.
  Hypothesis Ho : forall key a, order a (e_ord E key a).
  Notation cs := (o_case o).
  Notation sg := (seg_o (o_case o)).

  Lemma create_says : forall key d l t f, plainly (create_element E o key d (map sg l) t) = Ok (inl f) ->
    f = plain ErrMalformedXML /\ created sight order cs (o_indent o) d l t (Refused ErrMalformedXML).
  Proof.
    intros key d l t f H. destruct (create_is E sight order o Eperm Hs Ho key d l t) as (out & C & M). rewrite M in H.
    destruct out as [d'|e|]; try discriminate. cbn [conv plainly bind] in H. injection H as <-.
    assert (X : e = ErrMalformedXML); [|subst e; auto].
    exact (proj1 (create_err _ _ _ _ _ _ _ M)).
  Qed.

  Lemma finish_err : forall d m f, (let* r := m in match r with inl f => Ok (inl f) | inr r => Ok (inr (get_result d r)) end) = Ok (inl f) -> m = @Ok (failure + bytes) (inl f).
  Proof. intros d [[f'|r]| |] f H; try discriminate. cbn [bind] in H. injection H as ->. reflexivity. Qed.
  Lemma lift_err : forall m f, plainly (lift m (fun x : bytes => x)) <> Ok (inl f).
  Proof. intros [x| |] f; discriminate. Qed.
  Lemma set_element_says : forall g d l tn v t f, l <> [] -> value_to_xml g v = inr t -> (MaxValueSize <? blen t)%N = false -> (MaxDocumentSize <? blen d)%N = false ->
    set_element_t E g o d (map sg l) tn v = Ok (inl f) -> set_says sight order cs (o_indent o) d l t (f_text f).
  Proof.
    intros g d l tn v t f NE V VS DS H. unfold set_element_t in H.
    assert (CB : forall A (z y : A), match map sg l with [] => z | _ :: _ => y end = y) by (intros; destruct l; [easy|reflexivity]).
    assert (V' : value_to_xml_t g tn v = inr t) by (destruct v; try discriminate; exact (f_equal _ V) || (injection V as <-; reflexivity)).
    rewrite CB, V', VS, DS in H. cbv zeta in H. clear V'.
    pose proof (check_intents_err (lowered o l)) as CE. pose proof (check_intents_append (lowered o l)) as CA.
    rewrite <- misplaced_bad in CE. rewrite lowered_seg in CE, CA. rewrite intents_kinds in CE, CA. destruct (check_intents_t (map sg l)) as [f'|[]] eqn:CI.
    - injection H as ->. destruct (intents_says _ _ _ CI) as [(post & F & N & ->)|(i & post & F & L & ->)].
      + exact (says_nested sight order cs (o_indent o) d l t post F N).
      + unfold reserved_text. rewrite fmt_int_decimal. exact (says_reserved sight order cs (o_indent o) d l t i post F L).
    - assert (NM : ~ misplaced l) by (intros X; apply CE in X; discriminate).
      assert (AP : appends l) by (apply (appends_append o l NM); rewrite lowered_seg; now apply CA).
      apply finish_err in H. destruct AP as (pre & ms & ->). assert (NP : pre = [] \/ pre <> []) by (destruct pre; [now left|right; discriminate]). destruct NP as [->|NP].
      + cbn in H. injection H as <-. now apply (says_alone sight order cs (o_indent o) d _ t ms).
      + destruct (exists_last NP) as (p & [st m] & ->). rewrite <- app_assoc in *. cbn [app] in *.
        assert (NN : (exists n, st = GName n) \/ (forall n, st <> GName n) /\ segtype_eqb (s_type (sg (st, m))) SElem = false).
        { destruct st; eauto; right; split; try discriminate; destruct cs; reflexivity. }
        destruct NN as [[n ->]|[NN NT]].
        * pose proof (append_text _ _ _ _ _ _ _ _ _ _ H) as T. destruct (append_is E sight order o Eperm Hs Ho [0%nat] d p n m ms t) as (out & A & M).
          rewrite <- append_kinds, H in M. destruct out as [d'|e|]; try discriminate. cbn [kinds bind kind_of conv] in M. injection M as <-.
          destruct T as [->| ->].
          -- exact (says_unreadable sight order cs (o_indent o) d _ t p n m ms NM eq_refl A).
          -- exact (says_full sight order cs (o_indent o) d _ t p n m ms NM eq_refl A).
        * unfold append_element_t in H. rewrite map_app, rev_app_distr in H. cbn [map rev app] in H.
          replace (segtype_eqb (s_type (sg (GNth (-1), ms))) SIndex) with true in H by (destruct cs; reflexivity).
          replace (s_index (sg (GNth (-1), ms))) with (-1)%Z in H by (destruct cs; reflexivity).
          change (-1 =? -1)%Z with true in H. rewrite NT in H. cbn [negb orb] in H. injection H as <-.
          exact (says_unnamed sight order cs (o_indent o) d _ t p st m ms NM eq_refl NN).
    - assert (NM : ~ misplaced l) by (intros X; apply CE in X; discriminate).
      assert (NA : ~ appends l) by (intros X; apply (appends_append o l NM) in X; rewrite lowered_seg in X; apply CA in X; discriminate).
      destruct (last_low o l (mkSeg SElem [] 0 false None false [] []) NE) as (pre & x & X & L1 & L2). rewrite L1, L2 in H. destruct x as [st ms].
      destruct (segtype_eqb (s_type (sg (st, ms))) SAttr) eqn:TA.
      + destruct st; try (destruct cs; discriminate).
        destruct (find_found E sight o Eperm Hs pre [1%nat] d 0) as (r & Q & F). rewrite Q in H. cbn [bind] in H. destruct r as [loc|]; [apply finish_err in H; now apply lift_err in H|].
        unfold create_element_for_attr_t in H. apply bind_ok in H. destruct H as ([f'|r] & C & H).
        * injection H as <-. apply create_says in C. destruct C as [-> C]. exact (says_orphan sight order cs (o_indent o) d l t pre n ms NM X F C).
        * destruct (create_is E sight order o Eperm Hs Ho [0; 2]%nat d pre []) as (out & CR & M). rewrite M in C. destruct out as [d'|e|]; try discriminate.
          cbn [conv plainly bind] in C. injection C as <-. cbv zeta in H. rewrite blen_size in H. change (get_result d d') with (kept d d') in H.
          destruct (Z.ltb_spec 10485760 (size (kept d d'))) as [L|L].
          -- injection H as <-. exact (says_large sight order cs (o_indent o) d l t pre n ms d' NM X F CR L).
          -- destruct (find_found E sight o Eperm Hs pre [1; 2]%nat (kept d d') 0) as (r & Q2 & F2). rewrite Q2 in H. cbn [bind] in H. destruct r as [loc|].
             ++ apply bind_ok in H. destruct H as (y & _ & H). discriminate.
             ++ injection H as <-. exact (says_lost sight order cs (o_indent o) d l t pre n ms d' NM X F CR L F2).
      + assert (NT : ~ at_attribute l).
        { intros (p & n & m & X'). rewrite X in X'. apply app_inj_tail in X'. destruct X' as [_ X']. injection X' as -> ->. destruct cs; discriminate. }
        destruct (find_found E sight o Eperm Hs l [3%nat] d 0) as (r & Q & F). rewrite Q in H. cbn [bind] in H. destruct r as [loc|]; apply finish_err in H; [now apply lift_err in H|].
        apply create_says in H. destruct H as [-> C]. exact (says_nowhere sight order cs (o_indent o) d l t NM NA NT F C).
  Qed.
End Edits.

Section Det.
  Variable sight : bytes -> list elem -> Prop.
  Variable order : attrs -> attrs -> Prop.
  Variable cs : bool.
  Variable indent : bytes.
  Hypothesis sight_det : forall s l l', sight s l -> sight s l' -> l' = l.
  Hypothesis sight_keyed : forall s l, sight s l -> Forall keyed l.
  Hypothesis order_det : forall a b b', order a b -> order a b' -> b' = b.
  Notation set_outcome := (set_outcome sight order cs indent).
  Notation set_says := (set_says sight order cs indent).

  Lemma alone_fine : forall ms, ~ misplaced [(GNth (-1), ms)].
  Proof. intros ms (pre & i & m & post & X & H). destruct pre as [|x [|y pre]]; try discriminate. injection X as <- _ <-. destruct H as [H|[_ H]]; [lia|easy]. Qed.
  Lemma says_refused : forall d l t m, set_says d l t m -> exists e, set_outcome d l t (Refused e).
  Proof.
    intros d l t m H. destruct H as [post F N|i post F L|ms ->|pre st ms ms' NM -> NN|pre n ms ms' NM X A|pre n ms ms' NM X A|pre x ms NM X F C|pre x ms d' NM X F C L|pre x ms d' NM X F C L F2|NM NA NT F C].
    - exists ErrInvalidPath. apply SpecOutcome.set_misplaced. eapply negative_misplaced; eauto.
    - exists ErrInvalidPath. apply SpecOutcome.set_misplaced. eapply negative_misplaced; eauto.
    - exists ErrInvalidPath. apply set_unnamed; [apply alone_fine|now exists [], ms|]. intros n (pre & m0 & m & X). destruct pre as [|? [|? pre]]; discriminate.
    - exists ErrInvalidPath. apply set_unnamed; auto; [exists (pre ++ [(st, ms)]), ms'; now rewrite <- app_assoc|].
      intros n (p & m0 & m & X). change [(st, ms); (GNth (-1), ms')] with ([(st, ms)] ++ [(GNth (-1), ms')]) in X.
      change [(GName n, m0); (GNth (-1), m)] with ([(GName n, m0)] ++ [(GNth (-1), m)]) in X. rewrite !app_assoc in X.
      apply app_inj_tail in X. destruct X as [X _]. apply app_inj_tail in X. destruct X as [_ X]. injection X as -> _. now apply (NN n).
    - exists ErrInvalidValue. exact (set_append sight order cs indent d l t pre n ms ms' _ NM X A).
    - exists ErrMalformedXML. exact (set_append sight order cs indent d l t pre n ms ms' _ NM X A).
    - exists ErrMalformedXML. eapply set_attr; eauto. eapply attributed_fail; eauto. discriminate.
    - exists ErrMalformedXML. eapply set_attr; eauto. eapply attributed_large; eauto.
    - exists ErrInvalidPath. eapply set_attr; eauto. eapply attributed_lost; eauto.
    - exists ErrMalformedXML. exact (set_create sight order cs indent d l t _ NM NA NT F C).
  Qed.
  Lemma two_last : forall A (a b : list A) x y x' y', a ++ [x; y] = b ++ [x'; y'] -> a = b /\ x = x' /\ y = y'.
  Proof.
    intros A a b x y x' y' H. change [x; y] with ([x] ++ [y]) in H. change [x'; y'] with ([x'] ++ [y']) in H. rewrite !app_assoc in H.
    apply app_inj_tail in H. destruct H as [H ->]. apply app_inj_tail in H. destruct H as [-> ->]. auto.
  Qed.
  Lemma two_one : forall A (a b : list A) x y y', a ++ [x; y] = b ++ [y'] -> y = y'.
  Proof. intros A a b x y y' H. change [x; y] with ([x] ++ [y]) in H. rewrite app_assoc in H. apply app_inj_tail in H. apply H. Qed.
  Lemma two_single : forall A (a : list A) x y z, a ++ [x; y] = [z] -> False.
  Proof. intros A [|? [|? a]] x y z H; discriminate. Qed.
  Lemma one_single : forall A (a : list A) x z, a ++ [x] = [z] -> x = z.
  Proof. intros A [|? [|? a]] x z H; try discriminate. now injection H. Qed.
  Lemma named_appends : forall l a n m m', l = a ++ [(GName n, m); (GNth (-1), m')] -> appends l.
  Proof. intros l a n m m' ->. exists (a ++ [(GName n, m)]), m'. now rewrite <- app_assoc. Qed.
  (** What the texts depend on. *)
  Inductive class : steps -> nat -> Prop :=
  | class_0 : forall l, misplaced l -> class l 0
  | class_1 : forall ms, class [(GNth (-1), ms)] 1
  | class_2 : forall l pre st ms ms', ~ misplaced l -> l = pre ++ [(st, ms); (GNth (-1), ms')] -> (forall n, st <> GName n) -> class l 2
  | class_3 : forall l pre n ms ms', ~ misplaced l -> l = pre ++ [(GName n, ms); (GNth (-1), ms')] -> class l 3
  | class_4 : forall l pre x ms, ~ misplaced l -> l = pre ++ [(GAttr x, ms)] -> class l 4
  | class_5 : forall l, ~ misplaced l -> ~ appends l -> ~ at_attribute l -> class l 5.
  Lemma class_unique : forall l i j, class l i -> class l j -> i = j.
  Proof.
    assert (S1 : forall a st m m', appends (a ++ [(st, m); (GNth (-1), m')])) by (intros; exists (a ++ [(st, m)]), m'; now rewrite <- app_assoc).
    assert (S2 : forall a st m m', ~ at_attribute (a ++ [(st, m); (GNth (-1), m')])) by (intros a st m m' (p & n & k & X); apply two_one in X; discriminate).
    intros l i j A B. destruct A as [l M|ms|l pre st ms ms' M X N|l pre n ms ms' M X|l pre x ms M X|l M NA NT].
    - inversion B; subst; auto; try contradiction. now apply alone_fine in M.
    - inversion B as [? M|?|? ? ? ? ? M X N|? ? ? ? ? M X|? ? ? ? M X|? M NA NT]; subst; auto.
      + now apply alone_fine in M.
      + symmetry in X. now apply two_single in X.
      + symmetry in X. now apply two_single in X.
      + symmetry in X. apply one_single in X. discriminate.
      + exfalso. apply NA. now exists [], ms.
    - inversion B as [? M'|m0|? ? ? ? ? M' X' N'|? ? ? ? ? M' X'|? ? ? ? M' X'|? M' NA NT]; subst; auto; try contradiction.
      + match goal with H : [_] = _ |- _ => symmetry in H; now apply two_single in H | H : _ = [_] |- _ => now apply two_single in H end.
      + apply two_last in X'. destruct X' as (_ & X' & _). injection X' as -> _. now elim (N n).
      + apply two_one in X'. discriminate.
      + exfalso. apply NA, S1.
    - inversion B as [? M'|m0|? ? ? ? ? M' X' N'|? ? ? ? ? M' X'|? ? ? ? M' X'|? M' NA NT]; subst; auto; try contradiction.
      + match goal with H : [_] = _ |- _ => symmetry in H; now apply two_single in H | H : _ = [_] |- _ => now apply two_single in H end.
      + apply two_last in X'. destruct X' as (_ & X' & _). injection X' as <- _. now elim (N' n).
      + apply two_one in X'. discriminate.
      + exfalso. apply NA, S1.
    - inversion B as [? M'|m0|? ? ? ? ? M' X' N'|? ? ? ? ? M' X'|? ? ? ? M' X'|? M' NA NT]; subst; auto; try contradiction.
      + match goal with H : [_] = _ |- _ => symmetry in H; apply one_single in H; discriminate H | H : _ = [_] |- _ => apply one_single in H; discriminate H end.
      + symmetry in X'. apply two_one in X'. discriminate.
      + symmetry in X'. apply two_one in X'. discriminate.
      + exfalso. apply NT. now exists pre, x, ms.
    - inversion B as [? M'|m0|? ? ? ? ? M' X' N'|? ? ? ? ? M' X'|? ? ? ? M' X'|? M' NA' NT']; subst; auto; try contradiction; exfalso.
      + apply NA. now exists [], m0.
      + apply NA, S1.
      + apply NA, S1.
      + apply NT. now exists pre, x, ms.
  Qed.
  Lemma says_det : forall d l t m m', set_says d l t m -> set_says d l t m' -> m' = m.
  Proof.
    intros d l t m m' A B.
    assert (CL : forall m, set_says d l t m -> exists i, class l i /\
      match i with
      | 0%nat => (exists post, first_negative l (-1) post /\ m = because bad_path (bs "append (-1 index) cannot be used with nested paths (e.g., item.-1.child)")) \/
             (exists i post, first_negative l i post /\ (i < -1)%Z /\ m = because bad_path (bs "index " ++ decimal i ++ bs " reserved for future use; only -1 (append) is currently supported"))
      | 1%nat => m = because bad_path (bs "append requires at least element.-1")
      | 2%nat => m = because bad_path (bs "can only append elements, not attributes or other types")
      | 3%nat => exists pre n ms ms' e, l = pre ++ [(GName n, ms); (GNth (-1), ms')] /\ appended sight order cs indent d pre n ms t (Refused e) /\
               m = match e with ErrInvalidValue => because bad_value (bs "resulting document exceeds maximum size") | _ => bad_document end
      | 4%nat => exists pre x ms out, l = pre ++ [(GAttr x, ms)] /\ created sight order cs indent d pre [] out /\
               m = match out with Done d' => if (10485760 <? size (kept d d'))%Z then because bad_document (bs "intermediate result exceeds maximum document size")
                                             else because bad_path (bs "failed to locate created element for attribute")
                                | _ => bs "failed to create parent element: " ++ bad_document end
      | _ => m = bad_document
      end).
    { intros k H. destruct H as [post F N|i post F L|ms X|pre st ms ms' NM X NN|pre n ms ms' NM X K|pre n ms ms' NM X K|pre x ms NM X F C|pre x ms d' NM X F C L|pre x ms d' NM X F C L F2|NM NA NT F C].
      - exists 0%nat. split; [constructor; eapply negative_misplaced; eauto|]. left. eauto.
      - exists 0%nat. split; [constructor; eapply negative_misplaced; eauto|]. right. eauto.
      - subst l. exists 1%nat. split; [constructor|reflexivity].
      - exists 2%nat. split; [econstructor; eauto|reflexivity].
      - exists 3%nat. split; [econstructor; eauto|]. exists pre, n, ms, ms', ErrInvalidValue. auto.
      - exists 3%nat. split; [econstructor; eauto|]. exists pre, n, ms, ms', ErrMalformedXML. auto.
      - exists 4%nat. split; [econstructor; eauto|]. exists pre, x, ms, (Refused ErrMalformedXML). auto.
      - exists 4%nat. split; [econstructor; eauto|]. exists pre, x, ms, (Done d'). rewrite (proj2 (Z.ltb_lt _ _) L). auto.
      - exists 4%nat. split; [econstructor; eauto|]. exists pre, x, ms, (Done d'). rewrite (proj2 (Z.ltb_ge _ _) L). auto.
      - exists 5%nat. split; [constructor; auto|reflexivity]. }
    apply CL in A. apply CL in B. destruct A as (i & C & A). destruct B as (j & C' & B). rewrite <- (class_unique _ _ _ C C') in B. clear j C' CL.
    destruct i as [|[|[|[|[|i]]]]]; try congruence.
    - destruct A as [(post & F & ->)|(i & post & F & L & ->)]; destruct B as [(post' & F' & ->)|(i' & post' & F' & L' & ->)]; auto;
        destruct (negative_unique _ _ _ _ _ F F') as [X _]; subst; auto; lia.
    - destruct A as (pre & n & ms & ms' & e & X & A & ->). destruct B as (pre' & n' & ms0 & ms0' & e' & X' & B & ->). rewrite X in X'. apply two_last in X'.
      destruct X' as (<- & X' & _). injection X' as <- <-. pose proof (appended_det sight order cs indent sight_det sight_keyed order_det _ _ _ _ _ _ _ A B) as Q. injection Q as ->. reflexivity.
    - destruct A as (pre & x & ms & out & X & A & ->). destruct B as (pre' & x' & ms' & out' & X' & B & ->). rewrite X in X'. apply app_inj_tail in X'. destruct X' as [<- _].
      now rewrite (created_det sight order cs indent sight_det order_det _ _ _ _ _ A B).
  Qed.
End Det.
