(** Lemmas for C77: answers are of the kinds of their path. *)
From Coq Require Import List Ascii String NArith ZArith Bool Lia SpecFloat Permutation.
From Verif Require Import GoStr ModelParser ModelPath ModelPretty ModelResult SpecText SpecPath SpecTree SpecContent SpecFilter SpecGrammar SpecScan SpecAnswer SpecShape ProofBase.
Import ListNotations.

Lemma is_true : forall a b, is a b = true <-> a = b.
Proof. intros a b. unfold is. destruct (list_eq_dec ascii_dec a b); split; intros; congruence. Qed.
Lemma existsb_is : forall m l, existsb (is m) l = true <-> In m l.
Proof.
  intros m l. rewrite existsb_exists. split.
  - intros (x & I & H). apply is_true in H. subst. exact I.
  - intros I. exists m. split; auto. now apply is_true.
Qed.

(** ** Kinds name proper types *)
Definition proper (t : rtype) : Prop := t <> RNull /\ t <> RArray.
Definition sound (k : kinds) : Prop := Forall proper (alone k) /\ Forall proper (within k).
Lemma sound_never : sound never. Proof. split; constructor. Qed.
Lemma sound_one : forall t, proper t -> sound (always_one t). Proof. intros t P. split; repeat constructor; apply P. Qed.
Lemma sound_list : forall t, proper t -> sound (list_of t). Proof. intros t P. split; repeat constructor; apply P. Qed.
Lemma sound_full : forall t, proper t -> sound (full_list_of t). Proof. intros t P. split; repeat constructor; apply P. Qed.
Lemma sound_more : forall l, Forall proper l -> sound (one_or_more l). Proof. intros l P. split; exact P. Qed.
Lemma sound_together : forall k, sound k -> sound (together k).
Proof. intros k [A B]. apply sound_more. apply Forall_app; auto. Qed.
Lemma sound_after_one : forall m k, sound k -> sound (after_one m k).
Proof.
  intros m k [A B]. unfold after_one.
  destruct (existsb _ _); [split; cbn; [apply Forall_app; auto|constructor]|].
  destruct (is _ _); [split; auto|]. destruct (existsb _ _); [split; auto|apply sound_never].
Qed.
Lemma sound_after : forall ms k, sound k -> sound (after ms k).
Proof.
  intros ms k S. unfold after. destruct (Nat.leb _ _); [|apply sound_never]. revert k S.
  induction ms as [|m ms IH]; intros k S; cbn; auto. apply IH. now apply sound_after_one.
Qed.
Lemma sound_heard : forall d ms k, sound k -> sound (heard d ms k).
Proof. intros d ms k S. unfold heard. destruct d; auto. now apply sound_after. Qed.
Lemma proper_field : forall f, proper (field_type f).
Proof.
  intros f. unfold field_type. destruct f as [|[[] [] [] [] [] [] [] []] f]; try (split; discriminate);
  match goal with |- proper (if ?b then _ else _) => destruct b end; split; discriminate.
Qed.
Lemma sound_fields : forall f ms, sound (fields_kinds f ms).
Proof. intros f ms. destruct (sound_after ms _ (sound_list _ (proper_field f))) as [A B]. split; assumption. Qed.
#[global] Hint Resolve sound_fields sound_never sound_one sound_list sound_full sound_more sound_together sound_after sound_heard proper_field : shape.
Lemma proper_e : proper RElement. Proof. split; discriminate. Qed.
Lemma proper_a : proper RAttribute. Proof. split; discriminate. Qed.
Lemma proper_s : proper RString. Proof. split; discriminate. Qed.
Lemma proper_n : proper RNumber. Proof. split; discriminate. Qed.
#[global] Hint Resolve proper_e proper_a proper_s proper_n : shape.
#[global] Hint Constructors Forall : shape.
Lemma sound_kinds : forall n d lit l, (List.length l <= n)%nat -> sound (kinds_of d lit l).
Proof.
  induction n as [|n IH]; intros d lit l L.
  { destruct l; [|cbn in L; lia]. apply sound_never. }
  destruct l as [|[st ms] l]; [apply sound_never|]. cbn [List.length] in L.
  assert (IH' : forall lit l', (List.length l' <= List.length l)%nat -> sound (kinds_of d lit l')) by (intros; apply IH; lia).
  clear IH. cbn [kinds_of].
  destruct st; auto with shape; try (split; constructor).
  - destruct l as [|[st ms'] more]; auto with shape. cbn [List.length] in IH'.
    destruct st; auto with shape; try (apply IH'; cbn; lia).
    + destruct more as [|[st2 ms2] more2]; [destruct lit; auto with shape|]. 
      destruct st2; try (apply IH'; cbn; lia).
      * destruct lit; auto with shape. destruct more2; auto with shape.
      * destruct lit; auto with shape.
    + destruct more; auto with shape.
    + destruct lit; auto with shape.
    + destruct more as [|[st2 ms2] more2]; [destruct all; auto with shape|].
      destruct st2; destruct all; auto 6 with shape; try (apply IH'; cbn; lia); apply sound_after, sound_together, IH'; cbn; lia.
  - destruct l as [|[st ms'] more]; auto with shape.
    assert (K : sound (kinds_of d false ((st, ms') :: more))) by (apply IH'; cbn; lia).
    destruct st; auto with shape;
      try (cbv zeta; destruct (sound_after ms' _ (sound_together _ K)); split; assumption).
    destruct more; auto with shape.
  - destruct l as [|[st ms'] more]; auto with shape.
    destruct st; auto with shape;
    (destruct more as [|[st2 ms2] more2]; auto with shape; destruct st2; auto with shape; try (apply sound_together, IH'; cbn; lia);
     try (destruct more2; auto with shape; fail); destruct d; auto with shape; apply sound_more; apply (sound_fields f ms2)).
  - destruct l as [|[st2 ms2] more2]; [destruct all; auto with shape|].
    destruct st2; destruct all; auto 6 with shape; try (apply IH'; cbn; lia); apply sound_after, sound_together, IH'; cbn; lia.
Qed.

(** ** Results of kinds *)
Lemma of_null : forall k, of_kind k null. Proof. intros k. exact I. Qed.
Lemma of_nothing : forall k r, r_type r = RNull -> of_kind k r. Proof. intros k r H. unfold of_kind. rewrite H. exact I. Qed.
Lemma of_one : forall k r, proper (r_type r) -> In (r_type r) (alone k) -> of_kind k r.
Proof. intros k r [A B] H. unfold of_kind. destruct (r_type r); auto; congruence. Qed.
Lemma of_array : forall k l, Forall (fun x => In (r_type x) (within k)) l -> (l = [] -> maybe_empty k = true) -> of_kind k (array l).
Proof. intros k l A B. cbn. auto. Qed.
Lemma of_mono : forall k k' r, incl (alone k) (alone k') -> incl (within k) (within k') -> (maybe_empty k = true -> maybe_empty k' = true) ->
  of_kind k r -> of_kind k' r.
Proof.
  intros k k' r A B C H. unfold of_kind in *. destruct (r_type r); auto. destruct H as (H1 & H2 & H3).
  repeat split; auto. eapply Forall_impl; [|exact H2]. auto.
Qed.
Lemma of_values : forall k r, sound k -> of_kind k r -> Forall (fun x => In (r_type x) (alone k ++ within k)) (values r).
Proof.
  intros k r S H. unfold of_kind, values in *. destruct (r_type r) eqn:T; try constructor; try constructor; rewrite ?T; try (apply in_or_app; tauto).
  destruct H as (_ & H & _). eapply Forall_impl; [|exact H]. intros x I. apply in_or_app; tauto.
Qed.
Lemma of_bundle : forall ts l, l <> [] -> Forall proper ts -> Forall (fun x => In (r_type x) ts) l -> of_kind (one_or_more ts) (bundle l).
Proof.
  intros ts l N P H. destruct l as [|x [|y l]]; [congruence| |].
  - inversion H; subst. apply of_one; auto. rewrite Forall_forall in P. auto.
  - apply of_array; [exact H|discriminate].
Qed.

Scheme search_min := Minimality for search Sort Prop with visited_min := Minimality for visited Sort Prop.
Combined Scheme search_both from search_min, visited_min.
Section Sound.
  Variable E : env.
  Hypothesis sorts : forall lt l, Permutation l (e_sort E lt l).
  Notation mods := (get_modifier E).
  (** Modifiers are built in or unknown. *)
  Definition stocked (ms : list bytes) : Prop := Forall (fun m => In m stock \/ mods m = None) ms.

  Lemma last_in : forall (l : list result) x, In (last l x) (x :: l).
  Proof.
    induction l as [|y l IH]; intros x; [left; auto|]. destruct l as [|z l]; [right; left; auto|].
    change (last (y :: z :: l) x) with (last (z :: l) x). destruct (IH x) as [A|A]; [left; auto|right; right; auto].
  Qed.
  Lemma mods_none : forall m, ~ In m stock -> mods m = e_custom E m.
  Proof.
    intros m N. unfold get_modifier, builtin.
    assert (Q : forall x, In x stock -> bytes_eqb m x = false).
    { intros x I. destruct (bytes_eqb m x) eqn:B; auto. apply bytes_eqb_eq in B. subst. contradiction. }
    rewrite !Q by (cbn; tauto).
    reflexivity.
  Qed.
  Lemma array_same : forall r, r_type r = RArray -> r_is_array r = true.
  Proof. intros r H. unfold r_is_array. rewrite H. reflexivity. Qed.
  Lemma array_not : forall r, r_type r <> RArray -> r_is_array r = false.
  Proof. intros r H. unfold r_is_array. destruct (r_type r); auto; congruence. Qed.
  Lemma one_step : forall m f k r, sound k -> In m stock -> mods m = Some f -> of_kind k r -> of_kind (after_one m k) (f r).
  Proof.
    intros m f k r S I M H. cbn in I.
    destruct (rtype_eqb (r_type r) RArray) eqn:T.
    - assert (T' : r_type r = RArray) by (destruct (r_type r); auto; discriminate). clear T.
      pose proof H as H0. unfold of_kind in H. rewrite T' in H. destruct H as (R & W & B).
      repeat (destruct I as [<-|I]); try contradiction; cbn in M; injection M as <-.
      + unfold mod_reverse. rewrite array_same by auto. destruct (r_results r) eqn:Q; [exact H0|].
        rewrite <- Q in *. apply of_array; [apply Forall_rev; exact W|]. intros K. rewrite Q in K. cbn in K. now apply app_eq_nil in K as [_ K].
      + unfold mod_sort. rewrite array_same by auto. destruct (r_results r) as [|x [|y l]] eqn:Q; try exact H0. rewrite <- Q in *.
        assert (P : forall lt, of_kind k (r_array (e_sort E lt (r_results r)))).
        { intros lt. apply of_array. - eapply Permutation_Forall; [apply sorts|exact W]. - intros K. pose proof (sorts lt (r_results r)) as P. rewrite K in P.
          apply Permutation_sym, Permutation_nil in P. congruence. }
        destruct (forallb _ _); apply P.
      + unfold mod_first. rewrite array_same by auto. destruct (r_results r) as [|x l] eqn:Q.
        * unfold of_kind. rewrite T'. cbn. rewrite Q. auto.
        * inversion W; subst. apply of_one; [|cbn; apply in_or_app; auto]. destruct S as [_ S]. rewrite Forall_forall in S. auto.
      + unfold mod_last. rewrite array_same by auto. destruct (r_results r) as [|x l] eqn:Q.
        * unfold of_kind. rewrite T'. cbn. rewrite Q. auto.
        * rewrite Forall_forall in W. pose proof (W _ (last_in l x)) as W'. apply of_one; [|cbn; apply in_or_app; auto]. destruct S as [_ S]. rewrite Forall_forall in S. auto.
      + unfold mod_flatten. rewrite array_same by auto.
        assert (F : flat_map (fun x => if r_is_array x then r_results x else [x]) (r_results r) = r_results r).
        { clear B H0. destruct S as [_ S]. rewrite Forall_forall in S. induction W as [|x l X W IH]; auto. cbn [flat_map]. rewrite IH.
          destruct (S _ X) as [_ X']. now rewrite array_not. }
        rewrite F. destruct (r_results r) eqn:Q; [exact I|]. rewrite <- Q in *. apply of_array; [exact W|]. intros K. rewrite K in Q. discriminate.
      + unfold mod_pretty. rewrite R. exact H0.
      + unfold mod_ugly. rewrite R. exact H0.
    - assert (T' : r_type r <> RArray) by (intros K; rewrite K in T; discriminate). clear T.
      assert (Q : of_kind (mkKinds (alone k) [] false) r). { unfold of_kind in *. destruct (r_type r); auto. congruence. }
      assert (U : of_kind (after_one m k) r).
      { unfold of_kind in Q |- *. unfold after_one. destruct (r_type r); try congruence; auto; cbn in Q;
        repeat (destruct I as [<-|I]; [vm_compute; auto; try (apply in_or_app; auto)|]); contradiction. }
      repeat (destruct I as [<-|I]); try contradiction; cbn in M; injection M as <-.
      + unfold mod_reverse. now rewrite array_not.
      + unfold mod_sort. now rewrite array_not.
      + unfold mod_first. now rewrite array_not.
      + unfold mod_last. now rewrite array_not.
      + unfold mod_flatten. now rewrite array_not.
      + unfold mod_pretty. destruct (r_raw r); auto. destruct (pretty_text _ _); auto.
        unfold of_kind in *. cbn. destruct (r_type r); auto. congruence.
      + unfold mod_ugly. destruct (r_raw r); auto. unfold of_kind in *. cbn. destruct (r_type r); auto. congruence.
  Qed.
  Lemma of_through : forall ms r r', through mods ms r r' -> forall k, sound k -> stocked ms -> of_kind k r ->
    of_kind (fold_left (fun k m => after_one m k) ms k) r'.
  Proof.
    induction 1 as [r|m ms r N|m ms r f F T|m ms r f r' F T H IH]; intros k S K O; cbn [fold_left]; auto.
    - apply of_null.
    - apply of_nothing. exact T.
    - inversion K as [|? ? [I|I] K']; subst; [|congruence].
      apply IH; auto. { now apply sound_after_one. } eapply one_step; eauto.
  Qed.
  Lemma of_modified : forall ms r r' k, modified mods ms r r' -> sound k -> stocked ms -> of_kind k r -> of_kind (after ms k) r'.
  Proof.
    intros ms r r' k H S K O. unfold after. destruct H as [r' L H|L].
    - apply Nat.leb_le in L. rewrite L. eapply of_through; eauto.
    - apply of_null.
  Qed.

  Lemma of_plainly : forall D ms r r' k, modified_plainly mods D ms r r' -> sound k -> stocked ms -> of_kind k r ->
    of_kind (heard (match D with Plain => false | Under _ => true end) ms k) r'.
  Proof.
    intros D ms r r' k H S K O. unfold modified_plainly, heard in *. destruct D; [eapply of_modified; eauto|subst; auto].
  Qed.
  Lemma element_type : forall e r, element_of e r -> r_type r = RElement.
  Proof. intros e r (t & u & _ & _ & ->). reflexivity. Qed.
  Lemma text_type : forall e r, text_of e r -> r_type r = RString.
  Proof. intros e r (t & u & _ & _ & ->). reflexivity. Qed.
  Lemma elements_types : forall l rs, Forall2 element_of l rs -> Forall (fun x => r_type x = RElement) rs.
  Proof. induction 1; constructor; auto. eapply element_type; eauto. Qed.
  Lemma texts_types : forall l rs, Forall2 text_of l rs -> Forall (fun x => r_type x = RString) rs.
  Proof. induction 1; constructor; auto. eapply text_type; eauto. Qed.
  Lemma all_in : forall t ts rs, In t ts -> Forall (fun x => r_type x = t) rs -> Forall (fun x => In (r_type x) ts) rs.
  Proof. intros t ts rs I H. eapply Forall_impl; [|exact H]. intros x ->. exact I. Qed.
  Lemma concat_all : forall (P : result -> Prop) ls, Forall (Forall P) ls -> Forall P (List.concat ls).
  Proof. induction 1; cbn; auto. apply Forall_app; auto. Qed.
  Lemma firstn_all : forall (P : result -> Prop) n l, Forall P l -> Forall P (firstn n l).
  Proof. intros P n l H. rewrite <- (firstn_skipn n l) in H. apply Forall_app in H. tauto. Qed.
  Lemma of_is : forall t r, proper t -> r_type r = t -> of_kind (always_one t) r.
  Proof. intros t r P <-. apply of_one; auto. cbn. auto. Qed.
  Lemma of_option : forall o, (r_type (entry_or_null o) = RNull) \/ r_type (entry_or_null o) = RAttribute.
  Proof. intros [v|]; cbn; auto. Qed.
  Lemma of_entry : forall o k, In RAttribute (alone k) -> of_kind k (entry_or_null o).
  Proof. intros [v|] k H; [exact H|exact I]. Qed.
  Lemma attributes_types : forall vs, Forall (fun x => r_type x = RAttribute) (map attribute vs).
  Proof. induction vs; cbn; constructor; auto. Qed.
  Lemma of_collected : forall ms l r ts, collected mods ms l r -> Forall proper ts -> stocked ms -> Forall (fun x => In (r_type x) ts) l ->
    of_kind (after ms (one_or_more ts)) r.
  Proof.
    intros ms l r ts [[-> ->]|[N M]] P K H; [apply of_null|].
    eapply of_modified; eauto. { split; exact P. } now apply of_bundle.
  Qed.

  Variable sight : bytes -> list elem -> Prop.
  Variable D : dialect.
  Notation deaf := (match D with Plain => false | Under _ => true end).

  Lemma field_at : forall x, field_type ("@"%char :: x) = RAttribute. Proof. reflexivity. Qed.
  Lemma field_pct : field_type (bs "%") = RString. Proof. reflexivity. Qed.
  Lemma field_other : forall n, (forall x, n <> "@"%char :: x) -> n <> bs "%" -> field_type n = RElement.
  Proof.
    intros n A B. unfold field_type.
    assert (Q : is n (bs "%") = false). { destruct (is n (bs "%")) eqn:Q; auto. apply is_true in Q. contradiction. }
    destruct n as [|c n]; [rewrite Q; auto|]. rewrite Q.
    destruct c as [[] [] [] [] [] [] [] []]; try reflexivity. exfalso. apply (A n). reflexivity.
  Qed.
  Lemma field_types : forall f e rs, field_values sight D f e rs -> Forall (fun x => In (r_type x) [field_type f]) rs.
  Proof.
    intros f e rs H. destruct H as [x e o _|e t u _ _ _|e t _ _|n e es l rs A B _ _ H].
    - rewrite field_at. destruct o; cbn; repeat constructor.
    - rewrite field_pct. repeat constructor.
    - constructor.
    - rewrite (field_other n A B). apply elements_types in H. apply (all_in RElement); cbn; auto.
  Qed.
  Lemma of_fields : forall f ms l r, fields sight mods D f ms l r -> stocked ms -> of_kind (fields_kinds f ms) r.
  Proof.
    intros f ms l r H K.
    assert (W : forall rss, Forall2 (field_values sight D f) l rss -> Forall (fun x => In (r_type x) [field_type f]) (List.concat rss)).
    { intros rss F. apply concat_all. clear H. induction F; constructor; auto. eapply field_types; eauto. }
    assert (S : sound (list_of (field_type f))) by auto with shape.
    destruct H as [rss F C|rss r F C M].
    - apply of_array; [constructor|reflexivity].
    - assert (A : of_kind (after ms (list_of (field_type f))) r).
      { eapply of_modified; eauto. apply of_array; [|reflexivity]. apply firstn_all. auto. }
      revert A. apply of_mono; unfold fields_kinds; cbn; auto using incl_refl.
  Qed.

  Notation steps := (list (gstep * list bytes)).
  Definition stocked_steps (l : steps) : Prop := Forall (fun x => stocked (snd x)) l.
  Variable pf : bytes -> option f64.
  Variable below tested : bytes -> steps -> result -> Prop.
  Hypothesis below_ok : forall s l r, below s l r -> stocked_steps l -> of_kind (kinds_of deaf false l) r.
  Lemma sk : forall d lit l, sound (kinds_of d lit l).
  Proof. intros d lit l. eapply sound_kinds. apply le_n. Qed.
  Lemma stocked_cons : forall x l, stocked_steps (x :: l) -> stocked (snd x) /\ stocked_steps l.
  Proof. intros x l H. inversion H; auto. Qed.

  Lemma first_way_kind : forall rest l r, first_way below rest l r -> stocked_steps rest -> of_kind (kinds_of deaf false rest) r.
  Proof. induction 1; intros K; [apply of_null|eauto|auto]. Qed.
  Lemma below_all : forall rest l rs, Forall2 (fun e => below (e_content e) rest) l rs -> stocked_steps rest -> Forall (of_kind (kinds_of deaf false rest)) rs.
  Proof. intros rest l rs H K. induction H; constructor; eauto. Qed.
  Lemma values_all : forall k rs, sound k -> Forall (of_kind k) rs -> Forall (fun x => In (r_type x) (alone k ++ within k)) (List.concat (map values rs)).
  Proof. intros k rs S H. apply concat_all. induction H; cbn; constructor; auto. now apply of_values. Qed.

  (** What an element that satisfies a condition gives, and what all of them give. *)
  Definition routed_kinds (all : bool) (ms : list bytes) (rest : steps) : kinds :=
    match rest with
    | [] => after ms (if all then full_list_of RElement else always_one RElement)
    | (GAttr _, ms2) :: _ => after ms2 (if all then one_or_more [RAttribute] else always_one RAttribute)
    | (GText, ms2) :: _ => after ms2 (if all then one_or_more [RString] else always_one RString)
    | (GField f, ms2) :: _ => fields_kinds f ms2
    | (_, ms2) :: _ => if all then after ms2 (together (kinds_of deaf false rest)) else kinds_of deaf false rest
    end.
  Lemma routed_kind : forall all ms rest l r, routed sight mods D below all ms rest l r -> stocked ms -> stocked_steps rest ->
    of_kind (routed_kinds all ms rest) r.
  Proof.
    intros all ms rest l r H K KS. destruct H as [|e l r -> H|e l r -> H]; [apply of_null| |].
    - destruct H as [r r' H M|x ms' more o r _ N H|ms' more r r' H M|f ms' more r H|st ms' more r d H]; cbn [routed_kinds];
        try (apply stocked_cons in KS as KS'; destruct KS' as [KS1 KS2]; cbn [snd] in *).
      + eapply of_modified; eauto with shape. apply of_is; auto with shape. eapply element_type; eauto.
      + destruct o as [v|]; [|rewrite N by auto; apply of_null].
        eapply of_modified; [apply H; discriminate|auto with shape|auto|]. apply of_is; auto with shape.
      + eapply of_modified; eauto with shape. apply of_is; auto with shape. eapply text_type; eauto.
      + eapply of_fields; eauto.
      + apply below_ok in H; auto. destruct st; cbn in d; try contradiction; exact H.
    - inversion H as [rs r0 A M|x ms' more vss r0 A M|ms' more rs r0 A M|f ms' more r0 A|st ms' more rs r0 d A M]; subst; cbn [routed_kinds];
        try (apply stocked_cons in KS as KS'; destruct KS' as [KS1 KS2]; cbn [snd] in * ).
      + eapply of_modified; eauto with shape. apply of_array.
        * apply elements_types in A. apply (all_in RElement); cbn; auto.
        * intros ->. inversion A.
      + eapply of_collected; eauto with shape. apply (all_in RAttribute); [cbn; auto|apply attributes_types].
      + eapply of_collected; eauto with shape. apply (all_in RString); [cbn; auto|eapply texts_types; eauto].
      + eapply of_fields; eauto.
      + assert (Q : of_kind (after ms' (together (kinds_of deaf false ((st, ms') :: more)))) r).
        { eapply of_collected; eauto. - destruct (sk deaf false ((st, ms') :: more)) as [X Y]. apply Forall_app; auto.
          - apply values_all; [apply sk|]. eapply below_all; eauto. }
        destruct st; cbn in d; try contradiction; exact Q.
  Qed.

  Lemma spread_kind : forall ms l rest r, spread mods D below ms l rest r -> l <> [] -> stocked ms -> stocked_steps rest ->
    of_kind (kinds_of deaf false ((GAny, ms) :: rest)) r.
  Proof.
    intros ms l rest r H NE K KS.
    destruct H as [rs r A M|x ms' vss r A M|x ms' st more|ms' more rs r A M|st ms' more rs r d A _ M|st ms' more rs W d A C X]; cbn [kinds_of];
      try (apply stocked_cons in KS as KS'; destruct KS' as [KS1 KS2]; cbn [snd] in * ).
    - eapply of_plainly; eauto with shape. apply of_bundle; auto with shape.
      + intros ->. inversion A. subst. congruence.
      + apply (all_in RElement); [cbn; auto|eapply elements_types; eauto].
    - eapply of_collected; eauto with shape. apply (all_in RAttribute); [cbn; auto|apply attributes_types].
    - apply of_null.
    - eapply of_collected; eauto with shape. apply (all_in RString); [cbn; auto|eapply texts_types; eauto].
    - assert (Q : of_kind (after ms' (together (kinds_of deaf false ((st, ms') :: more)))) r).
      { eapply of_collected; eauto. - destruct (sk deaf false ((st, ms') :: more)) as [X Y]. apply Forall_app; auto.
        - apply values_all; [apply sk|]. eapply below_all; eauto. }
      assert (Q' : of_kind (let k := kinds_of deaf false ((st, ms') :: more) in let c := after ms' (together k) in
        mkKinds (alone c) (within c) (maybe_empty c || (negb deaf && maybe_empty k))) r).
      { cbv zeta. revert Q. apply of_mono; cbn; auto using incl_refl. intros ->. reflexivity. }
      destruct d as [d|[f ->]]; [destruct st; cbn in d; try contradiction|]; exact Q'.
    - assert (Q' : of_kind (let k := kinds_of deaf false ((st, ms') :: more) in let c := after ms' (together k) in
        mkKinds (alone c) (within c) (maybe_empty c || (negb deaf && maybe_empty k))) (array [])).
      { cbv zeta. apply of_array; [constructor|]. intros _. cbn [maybe_empty]. unfold without in W. rewrite W. cbn [negb andb].
        apply orb_true_iff. right. pose proof (below_all _ _ _ A KS) as B. apply Exists_exists in X as (y & I & T).
        rewrite Forall_forall in B. pose proof (B y I) as By. rewrite W in By. unfold of_kind in By. rewrite T in By. destruct By as (_ & _ & By). apply By.
        assert (V : incl (values y) (List.concat (map values rs))).
        { intros z Z. apply in_concat. exists (values y). split; auto. apply in_map_iff. eauto. }
        rewrite C in V. unfold values in V. rewrite T in V. destruct (r_results y) as [|z zs]; auto. exfalso. exact (V z (or_introl eq_refl)). }
      destruct d as [d|[f ->]]; [destruct st; cbn in d; try contradiction|]; exact Q'.
  Qed.

  (** What a search collects. *)
  Definition found_kinds (rest : steps) : list rtype :=
    match rest with
    | [] => [RElement]
    | (GAttr _, _) :: more => match more with [] => [RAttribute] | _ => [] end
    | (GText, _) :: _ => [RString]
    | (GField f, ms') :: _ => if deaf then [] else within (fields_kinds f ms')
    | _ => alone (kinds_of deaf false rest) ++ within (kinds_of deaf false rest)
    end.
  Lemma adds_kind : forall e rest rs, adds sight mods D below e rest rs -> stocked_steps rest -> Forall (fun x => In (r_type x) (found_kinds rest)) rs.
  Proof.
    intros e rest rs H KS.
    destruct H as [r A|x ms vs A|x ms st more|ms more r A|f ms more r W A|st ms more r d A]; cbn [found_kinds];
      try (apply stocked_cons in KS as KS'; destruct KS' as [KS1 KS2]; cbn [snd] in * ).
    - apply element_type in A. repeat constructor. auto.
    - apply (all_in RAttribute); [cbn; auto|apply attributes_types].
    - constructor.
    - apply text_type in A. repeat constructor. auto.
    - apply of_fields in A; auto. unfold of_kind in A. unfold without in W. rewrite W. destruct (r_type r); try constructor. apply A.
    - assert (Q := below_ok _ _ _ A KS). apply (of_values _ _ (sk _ _ _)) in Q.
      destruct d as [d|(f & -> & d)]; [destruct st; cbn in d; try contradiction; exact Q|].
      unfold without in d. destruct D; [congruence|]. exact Q.
  Qed.
  Lemma search_kind : forall st rest, stocked_steps rest ->
    (forall k t a b, search sight mods D below st rest k t a b -> Forall (fun x => In (r_type x) (found_kinds rest)) (snd a) ->
      Forall (fun x => In (r_type x) (found_kinds rest)) (snd b)) /\
    (forall k e a b, visited sight mods D below st rest k e a b -> Forall (fun x => In (r_type x) (found_kinds rest)) (snd a) ->
      Forall (fun x => In (r_type x) (found_kinds rest)) (snd b)).
  Proof.
    intros st rest KS.
    apply search_both; cbn [snd]; intros; auto.
    - apply H6. apply Forall_app. split; auto. eapply adds_kind; eauto.
  Qed.
  Lemma search_nothing : forall st rest, match st with GName _ | GAny | GDeep => False | _ => True end ->
    (forall k t a b, search sight mods D below st rest k t a b -> snd b = snd a) /\
    (forall k e a b, visited sight mods D below st rest k e a b -> snd b = snd a).
  Proof.
    intros st rest N. apply search_both; cbn [snd]; intros; auto; try congruence; exfalso; destruct st; cbn in *; auto.
  Qed.
  Lemma search_result : forall ms st ms' rest z y, search sight mods D below st rest 101 (inl z) (0%N, []) y -> stocked_steps rest ->
    of_kind (kinds_of deaf false ((GDeep, ms) :: (st, ms') :: rest)) (match snd y with [] => null | l => bundle l end).
  Proof.
    intros ms st ms' rest z y H KS.
    assert (C : match st with GName _ | GAny | GDeep => True | _ => False end \/ match st with GName _ | GAny | GDeep => False | _ => True end) by (destruct st; auto).
    destruct C as [C|C].
    - pose proof (proj1 (search_kind st rest KS) _ _ _ _ H) as F. cbn [snd] in F. specialize (F (Forall_nil _)).
      destruct (snd y) as [|x l] eqn:Y; [apply of_null|]. rewrite <- Y in *.
      assert (P : Forall proper (found_kinds rest)).
      { unfold found_kinds. destruct rest as [|[s2 m2] more]; auto with shape.
        assert (Q := sk deaf false ((s2, m2) :: more)). destruct Q as [Q1 Q2].
        destruct s2; try (apply Forall_app; split; assumption); auto with shape.
        - destruct more; auto with shape.
        - destruct D; auto with shape. apply (sound_fields f m2). }
      assert (B : of_kind (one_or_more (found_kinds rest)) (bundle (snd y))) by (apply of_bundle; auto; congruence).
      destruct rest as [|[s2 m2] more]; [destruct st; try contradiction; exact B|].
      destruct st; try contradiction; destruct s2; try exact B; try (destruct more; exact B); cbn [found_kinds kinds_of] in *; destruct D; exact B.
    - apply (proj1 (search_nothing _ _ C)) in H. cbn [snd] in H. rewrite H. apply of_null.
  Qed.

  Definition numbered_kinds (ms : list bytes) (more : steps) : kinds :=
    match more with
    | [] => heard deaf ms (always_one RElement)
    | (GAttr _, ms2) :: more2 => match more2 with [] => heard deaf ms2 (always_one RAttribute) | _ => always_one RAttribute end
    | (GText, _) :: _ => never
    | _ => kinds_of deaf false more
    end.
  Lemma numbered_kind : forall i ms l more r, numbered mods D below i ms l more r -> stocked ms -> stocked_steps more ->
    of_kind (numbered_kinds ms more) r.
  Proof.
    intros i ms l more r H K KS.
    destruct H as [more _|e r r' _ A M|e x ms' o r _ _ N M|e x ms' st more o _ _|e st ms' more r _ N A]; cbn [numbered_kinds];
      try (apply stocked_cons in KS as KS'; destruct KS' as [KS1 KS2]; cbn [snd] in * ).
    - apply of_null.
    - eapply of_plainly; eauto with shape. apply of_is; auto with shape. eapply element_type; eauto.
    - destruct o as [v|]; [|rewrite N by auto; apply of_null].
      eapply of_plainly; [apply M; discriminate|auto with shape|auto|]. apply of_is; auto with shape.
    - apply of_entry. cbn. auto.
    - apply below_ok in A; auto. destruct st; try exact A. exfalso. eapply N; eauto.
  Qed.
  Definition root_kinds (more : steps) : kinds :=
    match more with
    | [] => always_one RElement
    | (GAttr _, ms2) :: more2 => always_one RAttribute
    | (GText, _) :: _ => always_one RString
    | _ => kinds_of deaf false more
    end.
  Lemma root_kind : forall i l more r, root_numbered below i l more r -> stocked_steps more -> of_kind (root_kinds more) r.
  Proof.
    intros i l more r H KS.
    destruct H as [more _|e r _ A|e x ms' more o _ _|e ms' more r _ A|e st ms' more r _ d A]; cbn [root_kinds].
    - apply of_null.
    - apply of_is; auto with shape. eapply element_type; eauto.
    - apply of_entry. cbn. auto.
    - apply of_is; auto with shape. eapply text_type; eauto.
    - apply below_ok in A; auto. destruct d as [d|[f ->]]; [destruct st; cbn in d; try contradiction|]; exact A.
  Qed.
  Lemma leaf_kind : forall e n ms lit rest r, leaf mods D e rest r -> stocked_steps rest -> of_kind (kinds_of deaf lit ((GName n, ms) :: rest)) r.
  Proof.
    intros e n ms lit rest r H KS. destruct H as [e x ms' o _ r N M|e x ms' st more|e ms' more r r' A M]; cbn [kinds_of];
      try (apply stocked_cons in KS as KS'; destruct KS' as [KS1 KS2]; cbn [snd] in * ).
    - destruct o as [v|]; [|rewrite N by auto; apply of_null].
      eapply of_plainly; [apply M; discriminate|auto with shape|auto|]. apply of_is; auto with shape.
    - apply of_null.
    - eapply of_plainly; eauto with shape. apply of_is; auto with shape. eapply text_type; eauto.
  Qed.
  Lemma answer_kind : forall top s l r, answer sight pf mods D below tested top s l r -> stocked_steps l ->
    of_kind (kinds_of deaf (top && strict D) l) r.
  Proof.
    intros top s l r H KS.
    inversion H; subst; try apply of_null; try (rewrite H0);
      try (apply stocked_cons in KS as KS'; destruct KS' as [KS1 KS2]; cbn [snd] in KS1);
      try (apply stocked_cons in KS2 as KS'; destruct KS' as [KS3 KS4]; cbn [snd] in KS3).
    - cbn [kinds_of]. eapply of_plainly; eauto with shape. apply of_is; auto with shape. eapply element_type; eauto.
    - eapply leaf_kind; eauto.
    - assert (Q : of_kind (kinds_of deaf false ((st, ms') :: more)) r) by (eapply first_way_kind; eauto).
      cbn [kinds_of]. destruct st; try contradiction; exact Q.
    - assert (Q : of_kind (routed_kinds all ms' more) r) by (eapply routed_kind; eauto). exact Q.
    - cbn [kinds_of]. eapply of_fields; eauto.
    - cbn [kinds_of]. destruct l0 as [|e l0]; [rewrite H3 by auto; apply of_null|].
      eapply of_plainly; [apply H4; discriminate|auto with shape|auto|]. apply of_is; auto with shape.
    - assert (Q : of_kind (numbered_kinds ms' more) r) by (eapply numbered_kind; eauto). exact Q.
    - cbn [kinds_of]. eapply of_fields; eauto.
    - cbn [kinds_of]. apply of_is; auto with shape.
    - assert (Q : of_kind (root_kinds more) r) by (eapply root_kind; eauto). cbn [kinds_of].
      destruct more as [|[s2 m2] more2]; exact Q.
    - assert (Q : of_kind (routed_kinds all ms rest) r) by (eapply routed_kind; eauto). exact Q.
    - cbn [kinds_of]. apply of_array; [constructor|reflexivity].
    - change (kinds_of deaf (top && strict D) ((GAny, ms) :: rest)) with (kinds_of deaf false ((GAny, ms) :: rest)). eapply spread_kind; eauto.
      destruct es; [congruence|discriminate].
    - change (kinds_of deaf (top && strict D) ((GDeep, ms) :: (st, ms') :: rest)) with (kinds_of deaf false ((GDeep, ms) :: (st, ms') :: rest)).
      eapply search_result; eauto.
  Qed.
End Sound.

Lemma answers_kind : forall E (sight : bytes -> list elem -> Prop) pf, (forall lt l, Permutation l (e_sort E lt l)) -> forall k D top s l r,
  answers sight pf (get_modifier E) k D top s l r -> stocked_steps E l ->
  of_kind (kinds_of (match D with Plain => false | Under _ => true end) (top && strict D) l) r.
Proof.
  intros E sight pf S. induction k as [|k IH]; intros D top s l r H K; [contradiction|].
  cbn [answers] in H. eapply answer_kind; [exact S| |exact H|exact K].
  intros s' l' r' H' K'. exact (IH D false s' l' r' H' K').
Qed.
