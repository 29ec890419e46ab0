(** Queries without options against [SpecAnswer]. *)
From Coq Require Import List Ascii String NArith ZArith Bool Lia SpecFloat Permutation.
From Verif Require Import GoStr ModelParser ModelPath ModelResult ModelQuery ModelBuilder ModelQueryOpts SpecText SpecPath SpecTree SpecContent
  SpecFilter SpecGrammar SpecScan SpecAnswer ProofBase ProofScan ProofEscape ProofPath ProofFilter ProofFuel ProofGrammar2 ProofSight ProofSight2 ProofSight3 ProofAnswer.
Import ListNotations.
Notation steps := (list (gstep * list bytes)).

Definition seg_in (D : dialect) (x : gstep * list bytes) : seg := if strict D then seg_of x else lower_seg (seg_of x).
Lemma fold_is : forall D s, SpecAnswer.fold D s = lower_if (strict D) s.
Proof. intros D s. unfold SpecAnswer.fold, lower_if. destruct (strict D); reflexivity. Qed.

(** Names *)
Lemma parted_is : forall n p l, parted_name n p l <-> split_namespace n = (p, l).
Proof.
  intros n p l. split.
  - intros [? ? G|? N]; [now apply split_ns_good|now apply split_ns_other].
  - intros H. destruct (split_ns_cases n) as [(p' & l' & G & -> & K)|[N K]]; rewrite K in H; injection H as <- <-; constructor; auto.
Qed.
Lemma bears_is : forall D n ms e, seg_matches_opts (strict D) (seg_in D (GName n, ms)) (e_name e) = true <-> bears D n e.
Proof.
  intros D n ms e. unfold bears.
  destruct (split_namespace n) as [p l] eqn:E1, (split_namespace (e_name e)) as [p' l'] eqn:E2.
  assert (K : seg_matches_opts (strict D) (seg_in D (GName n, ms)) (e_name e) = true <->
    SpecAnswer.fold D l = SpecAnswer.fold D l' /\ (p = [] \/ SpecAnswer.fold D p = SpecAnswer.fold D p')).
  { rewrite !fold_is. unfold seg_in, lower_if. destruct (strict D).
    - cbn. rewrite E1, E2. destruct p as [|c p]; rewrite ?andb_true_iff, !bytes_eqb_eq; intuition congruence.
    - unfold seg_matches_opts. cbn [seg_of fst snd lower_seg s_type s_value]. rewrite split_ns_lower, E1, E2. cbn [fst snd]. rewrite !lower_idem.
      destruct p as [|c p]; [change (to_lower_ascii []) with (@nil ascii)|change (to_lower_ascii (c :: p)) with (to_lower_char c :: to_lower_ascii p)];
        cbv zeta iota; rewrite ?andb_true_iff, !bytes_eqb_eq; intuition congruence. }
  rewrite K. split.
  - intros H. exists p, l, p', l'. rewrite !parted_is. tauto.
  - intros (q & m & q' & m' & A & B & H). apply parted_is in A. apply parted_is in B. rewrite E1 in A. rewrite E2 in B.
    injection A as <- <-. injection B as <- <-. exact H.
Qed.
Lemma only_filter : forall A (P : A -> Prop) f (l : list A), (forall x, f x = true <-> P x) -> only P l (filter f l).
Proof.
  induction l as [|x l IH]; intros H; cbn [filter]; [constructor|]. destruct (f x) eqn:F; constructor; auto; rewrite <- H; congruence.
Qed.
Lemma only_none : forall A (P : A -> Prop) f (l : list A), (forall x, f x = true <-> P x) -> filter f l = [] -> Forall (fun x => ~ P x) l.
Proof.
  induction l as [|x l IH]; intros H F; constructor; cbn [filter] in F; destruct (f x) eqn:K; try discriminate; auto. rewrite <- H. congruence.
Qed.
(** Attributes *)
Definition keyed (e : elem) : Prop := NoDup (map fst (e_attrs e)).
Lemma has_attr_get : forall D x e, strict D = true -> has_attr D x e (map_get x (e_attrs e)).
Proof.
  intros D x e S. unfold has_attr. destruct (map_get x (e_attrs e)) as [v|] eqn:G.
  - apply ProofBase.map_get_In in G. exists x. auto.
  - intros y v I. rewrite !fold_is, S. cbn [lower_if]. intros ->. apply ProofBase.map_get_None in G. apply G. apply in_map_iff. exists (x, v). auto.
Qed.
Lemma attr_exactly_get : forall x e, attr_exactly x e (map_get x (e_attrs e)).
Proof. intros x e. unfold attr_exactly. destruct (map_get x (e_attrs e)) eqn:G; [now apply ProofBase.map_get_In|now apply ProofBase.map_get_None]. Qed.
Lemma only_key : forall x (m : list (bytes * bytes)), NoDup (map fst m) ->
  only (fun a => fst a = x) m (match map_get x m with Some v => [(x, v)] | None => [] end).
Proof.
  induction m as [|[y v] m IH]; intros N; cbn [map_get]; [constructor|]. inversion N as [|a b N1 N2]; subst. specialize (IH N2).
  cbn [fst] in N1.
  destruct (bytes_eqb x y) eqn:E.
  - apply bytes_eqb_eq in E. subst y. apply only_yes; [reflexivity|]. apply ProofBase.map_get_None in N1. rewrite N1 in IH. exact IH.
  - apply only_no; auto. cbn [fst]. intros ->. rewrite bytes_eqb_refl in E. discriminate.
Qed.
Lemma only_ext : forall A (P Q : A -> Prop) l l', (forall x, P x <-> Q x) -> only P l l' -> only Q l l'.
Proof. induction 2; constructor; auto; rewrite <- H; auto. Qed.
Lemma has_attrs_get : forall D x e, strict D = true -> keyed e -> has_attrs D x e (match map_get x (e_attrs e) with Some v => [v] | None => [] end).
Proof.
  intros D x e S N. exists (e_attrs e), (match map_get x (e_attrs e) with Some v => [(x, v)] | None => [] end).
  split; [apply Permutation_refl|]. split; [|destruct (map_get x (e_attrs e)); reflexivity].
  eapply only_ext; [|apply only_key; exact N]. intros a. cbn beta. rewrite !fold_is, S. reflexivity.
Qed.
(** Modifiers *)
Lemma through_is : forall E ms r, through (get_modifier E) ms r (apply_loop E r ms).
Proof.
  induction ms as [|m ms IH]; intros r; cbn [apply_loop]; [constructor|].
  destruct (get_modifier E m) as [f|] eqn:G; [|now constructor].
  destruct (is_null (f r)) eqn:N; unfold is_null in N.
  - apply through_null; auto. destruct (r_type (f r)); auto; discriminate.
  - eapply through_more; eauto. intros K. rewrite K in N. discriminate.
Qed.
Lemma modified_is : forall E ms r, modified (get_modifier E) ms r (apply_modifiers E r ms).
Proof.
  intros E ms r. unfold apply_modifiers, MaxModifierChainDepth. destruct (Nat.ltb_spec 20 (List.length ms)).
  - now apply modified_long.
  - apply modified_by; [lia|apply through_is].
Qed.
Lemma null_type : forall r, is_null r = true <-> r_type r = RNull.
Proof. intros r. unfold is_null. destruct (r_type r); cbn; split; congruence. Qed.
Lemma values_is : forall r, flatten1 r = values r.
Proof. reflexivity. Qed.

(** Elements that are seen have each attribute once. *)
Lemma sees_keyed : forall s l, sees s l -> Forall keyed l.
Proof. induction 1 as [|? ? ? ? ? ? ? ? T|? ? ? ? ? ? ? ? ? ? T]; constructor; auto; unfold keyed; cbn [e_attrs]; destruct T as [? ? ? ? ? ? ? ? ? ? ? ? S]; exact (proj1 S). Qed.

(** Places that have no field without a name. *)
Definition fine (l : steps) : Prop := Forall (fun x => fst x <> GField []) l.

Lemma firstn_nil : forall A n (l : list A), (0 < n)%nat -> firstn n l = [] -> l = [].
Proof. intros A [|n] [|x l] H E; auto; [lia|discriminate]. Qed.
Lemma forall2_map : forall A B (P : A -> B -> Prop) f (l : list A), (forall x, P x (f x)) -> Forall2 P l (map f l).
Proof. induction l; constructor; auto. Qed.
Lemma forall2_concat : forall A B (P : A -> list B -> Prop) (f : A -> list B) l, (forall x, In x l -> P x (f x)) ->
  exists rss, Forall2 P l rss /\ List.concat rss = flat_map f l.
Proof.
  induction l as [|x l IH]; intros H.
  - exists []. split; [constructor|reflexivity].
  - destruct IH as (rss & A1 & A2); [intros y I; apply H; right; exact I|]. exists (f x :: rss).
    split; [constructor; [apply H; left; reflexivity|exact A1]|cbn; now rewrite A2].
Qed.
Lemma cap_cases : forall E ms all r,
  match firstn MaxWildcardResults all with [] => Ok (r_array []) | rs => Ok (apply_modifiers E (r_array rs) ms) end = Ok r ->
  (all = [] /\ r = array []) \/ (all <> [] /\ r = apply_modifiers E (array (firstn 1000 all)) ms).
Proof.
  intros E ms all r. change 1000%nat with MaxWildcardResults. assert (K : (0 < MaxWildcardResults)%nat) by (unfold MaxWildcardResults; lia).
  generalize dependent MaxWildcardResults. intros c K. destruct (firstn c all) as [|x l] eqn:F; intros H; injection H as <-.
  - left. split; auto. now apply firstn_nil in F.
  - right. split; auto. intros ->. destruct c; discriminate.
Qed.

Lemma path_fine : forall path l, path_means path (Steps l) -> fine l.
Proof.
  intros path l H. inversion H as [|p parts l0 l' A Bd C D| |]; subst.
  assert (N : Forall (fun x => forall f, fst x <> GField f) l0).
  { clear D. remember (Some (Some l0)) as o. revert l0 Heqo. clear A Bd. induction C as [|x ms l1 o1 P C IH|x ms l1 P|x ms l1 P|x st ms l1 o1 P C IH]; intros l0 Q; try discriminate.
    - injection Q as <-. constructor.
    - exact (IH _ Q).
    - destruct o1 as [[l2|]|]; try discriminate. cbn in Q. injection Q as <-.
      constructor; [|exact (IH _ eq_refl)]. cbn [fst]. intros f ->. inversion P; subst.
      match goal with H : head _ _ |- _ => inversion H; subst end;
        match goal with H : SpecGrammar.judged _ ?t = Meant (GField _) |- _ => destruct t; discriminate H | _ => idtac end. }
  clear C A Bd H. induction D as [|ms st ms' f l l' F D IH|st ms l l' K D IH]; [constructor| |].
  - inversion N as [|? ? ? N2]; subst. inversion N2; subst. constructor; [|apply IH; auto]. cbn [fst]. intros Q. injection Q as ->.
    destruct F as [_ F]. destruct st; try contradiction; try discriminate; destruct F as [F1 F2]; subst; try discriminate. destruct F2 as (? & ? & ? & ?); discriminate.
  - inversion N; subst. constructor; [|apply IH; auto]. cbn [fst] in *. auto.
Qed.

Section Plain.
  Variable E : env.
  Hypothesis Eperm : forall k m, Permutation m (e_ord E k m).
  Variable sight : bytes -> list elem -> Prop.
  Hypothesis Hs : forall key s l, scan_res E key s = Ok l -> sight s l.
  Let pf := e_parse_float E.
  Let mods := get_modifier E.

  Lemma keyed_scan : forall key s l, scan_res E key s = Ok l -> Forall keyed l.
  Proof. intros key s l H. eapply sees_keyed. eapply scan_sees; eauto. Qed.

  Lemma fields_plain : forall key l f ms r, f <> [] -> field_extract E key l (seg_of (GField f, ms)) = Ok r -> fields sight mods Plain f ms l r.
  Proof.
    intros key l f ms r F H. unfold field_extract in H. cbn [seg_of fst snd s_field s_mods] in H. destruct f as [|c name]; [congruence|].
    assert (K : exists all rss, Forall2 (field_values sight Plain (c :: name)) l rss /\ List.concat rss = all /\
      match firstn MaxWildcardResults all with [] => Ok (r_array []) | rs => Ok (apply_modifiers E (r_array rs) ms) end = Ok r).
    { destruct (Ascii.eqb_spec c "@") as [->|N1].
      - cbn [bind] in H. eexists. 
        destruct (forall2_concat _ _ (field_values sight Plain ("@"%char :: name)) (fun e => match map_get name (e_attrs e) with Some v => [r_attribute v] | None => [] end) l) as (rss & A & B).
        { intros e _. change (match map_get name (e_attrs e) with Some v => [r_attribute v] | None => [] end) with (entry (map_get name (e_attrs e))).
          constructor. now apply has_attr_get. }
        exists rss. split; [exact A|]. split; [exact B|exact H].
      - destruct (bytes_eqb (c :: name) (bs "%")) eqn:T.
        + apply bytes_eqb_eq in T. rewrite T. cbn [bind] in H. eexists.
          destruct (forall2_concat _ _ (field_values sight Plain (bs "%")) (fun e => match extract_direct (e_content e) with [] => [] | t => [mkR RString t (unescape_xml t) f64_zero []] end) l) as (rss & A & B).
          { intros e _. destruct (extract_direct (e_content e)) as [|x y] eqn:X; unfold extract_direct in X.
            - apply (values_blank sight Plain e _ (own_chars_direct _) X).
            - rewrite <- X. eapply values_text; [apply own_chars_direct|rewrite X; discriminate|apply unescape_decodes]. }
          exists rss. split; [exact A|]. split; [exact B|exact H].
        + destruct (field_children E key (c :: name) l) as [all| |] eqn:C; cbn [bind] in H; try discriminate. exists all.
          assert (X : exists rss, Forall2 (field_values sight Plain (c :: name)) l rss /\ List.concat rss = all).
          { clear H. revert all C. induction l as [|e l IH]; intros all C; cbn [field_children] in C.
            - injection C as <-. exists []. split; [constructor|reflexivity].
            - destruct (scan_res E (child_key site_field e key) (e_content e)) as [cs| |] eqn:S; cbn [bind] in C; try discriminate.
              destruct (field_children E key (c :: name) l) as [all'| |]; cbn [bind] in C; try discriminate. injection C as <-.
              destruct (IH all' eq_refl) as (rss & A & B). eexists (_ :: rss). split; [constructor; [|exact A]|cbn [List.concat]; rewrite B; reflexivity].
              eapply values_named with (l := filter (fun c0 => bytes_eqb (e_name c0) (c :: name)) cs).
              + intros x Q. injection Q as -> _. congruence.
              + intros Q. rewrite Q, bytes_eqb_refl in T. discriminate.
              + eapply Hs. exact S.
              + apply only_filter. intros x. unfold folded, SpecAnswer.fold. cbn. apply bytes_eqb_eq.
              + apply forall2_map. intros x. apply element_is. }
          destruct X as (rss & A & B). exists rss. auto. }
    destruct K as (all & rss & A & B & C). apply cap_cases in C as [[-> ->]|[N ->]].
    - eapply fields_none; [exact A|exact B].
    - subst all. eapply fields_some; [exact A|exact N|apply modified_is].
  Qed.

  Variable rec : qrec.
  Variables B T : bytes -> steps -> result -> Prop.
  Hypothesis REC : forall key s l r, fine l -> rec key false s (map seg_of l) = Ok r -> B s l r.
  Hypothesis TEST : forall key s l r, fine l -> rec key true s (map seg_of l) = Ok r -> T s l r.

  (** Conditions *)
  Lemma judged_plain : forall key p op v e b, eval_filter E rec key (mkFilt p op v) e = Ok b -> judged pf T p op v e b.
  Proof.
    intros key p op v e b H. unfold eval_filter in H. cbn [f_path f_op f_value] in H.
    assert (Path : forall b, (let* segs := parse_path p in let* r := rec (child_key site_filter e key) true (e_content e) segs in
       Ok (filter_decide E op (r_exists r) (r_string r) v)) = Ok b -> (forall x, p <> "@"%char :: x) -> judged pf T p op v e b).
    { clear H b. intros b H N. destruct (path_means_ex p) as [m M]. pose proof (path_means_res _ _ M) as R. rewrite R in H.
      assert (X : exists l, fine l /\ meaning_res m = Ok (map seg_of l) /\ (path_means p (Steps l) \/ (path_means p Unusable /\ l = []))).
      { destruct m as [l| |]; cbn [meaning_res bind] in H; try discriminate.
        - exists l. split; [now apply path_fine in M|]. auto.
        - exists []. split; [constructor|]. auto. }
      destruct X as (l & F & Q & M'). rewrite Q in H. cbn [bind] in H.
      destruct (rec (child_key site_filter e key) true (e_content e) (map seg_of l)) as [r| |] eqn:C; cbn [bind] in H; try discriminate.
      injection H as <-. eapply judged_path; [exact N|exact M'|eapply TEST; [exact F|exact C]|].
      rewrite filter_decide_spec. unfold r_exists. destruct (r_type r); reflexivity. }
    destruct p as [|c name]; [apply Path; [exact H|discriminate]|].
    destruct (Ascii.eqb_spec c "@") as [->|N]; [|apply Path; [exact H|congruence]].
    eapply judged_attr with (o := map_get name (e_attrs e)); [reflexivity|apply attr_exactly_get|].
    destruct (map_get name (e_attrs e)); injection H as <-; apply filter_decide_spec.
  Qed.
  Lemma sifted_upto : forall key p op v l n l', (0 < n)%nat -> filter_elems_upto n E rec key (Some (mkFilt p op v)) l = Ok l' ->
    sifted (judged pf T p op v) n l l'.
  Proof.
    induction l as [|e l IH]; intros n l' N H; cbn [filter_elems_upto eval_filter_opt] in H; [injection H as <-; constructor|].
    destruct (eval_filter E rec key (mkFilt p op v) e) as [b| |] eqn:F; cbn [bind] in H; try discriminate. apply judged_plain in F.
    destruct b.
    - destruct n as [|[|n]]; [lia| |].
      + injection H as <-. constructor; [exact F|]. constructor.
      + destruct (filter_elems_upto (S n) E rec key (Some (mkFilt p op v)) l) as [r| |] eqn:Q; cbn [bind] in H; try discriminate.
        injection H as <-. constructor; [exact F|]. apply IH; [lia|exact Q].
    - constructor; [exact F|]. apply IH; auto.
  Qed.
  Lemma sifted_capped : forall key p op v l n l', (List.length l <= n)%nat -> filter_elems E rec key (Some (mkFilt p op v)) l = Ok l' ->
    sifted (judged pf T p op v) n l l'.
  Proof.
    induction l as [|e l IH]; intros n l' N H; cbn [filter_elems eval_filter_opt] in H; [injection H as <-; constructor|].
    destruct (eval_filter E rec key (mkFilt p op v) e) as [b| |] eqn:F; cbn [bind] in H; try discriminate. apply judged_plain in F.
    destruct (filter_elems E rec key (Some (mkFilt p op v)) l) as [r| |] eqn:Q; cbn [bind] in H; try discriminate. injection H as <-.
    cbn [List.length] in N. destruct b.
    - destruct n as [|n]; [lia|]. constructor; [exact F|]. apply IH; [lia|reflexivity].
    - constructor; [exact F|]. apply IH; [lia|reflexivity].
  Qed.
End Plain.

(** The recursive calls of lists. *)
Lemma each_is : forall rec (B : bytes -> steps -> result -> Prop) segs rest,
  (forall key s r, rec key false s segs = Ok r -> B s rest r) ->
  forall key l all, query_each rec key l segs = Ok all ->
  exists rs, Forall2 (fun e => B (e_content e) rest) l rs /\ List.concat (map values rs) = all.
Proof.
  intros rec B segs rest R key. induction l as [|e l IH]; intros all H; cbn [query_each] in H.
  - injection H as <-. exists []. split; [constructor|reflexivity].
  - destruct (rec (child_key site_query e key) false (e_content e) segs) as [r| |] eqn:Q; cbn [bind] in H; try discriminate.
    destruct (query_each rec key l segs) as [rs| |]; cbn [bind] in H; try discriminate. injection H as <-.
    destruct (IH rs eq_refl) as (rs' & A & C). exists (r :: rs'). split; [constructor; [eapply R; exact Q|exact A]|cbn; now rewrite C].
Qed.
Lemma wild_is : forall rec (B : bytes -> steps -> result -> Prop) segs rest,
  (forall key s r, rec key false s segs = Ok r -> B s rest r) ->
  forall key l p, wild_each rec key l segs = Ok p ->
  exists rs, Forall2 (fun e => B (e_content e) rest) l rs /\ List.concat (map values rs) = fst p /\
    (snd p = true <-> Exists (fun r => r_type r = RArray /\ r_results r = []) rs).
Proof.
  intros rec B segs rest R key. induction l as [|e l IH]; intros p H; cbn [wild_each] in H.
  - injection H as <-. exists []. split; [constructor|]. split; [reflexivity|]. split; [discriminate|intros H; inversion H].
  - destruct (rec (child_key site_query e key) false (e_content e) segs) as [r| |] eqn:Q; cbn [bind] in H; try discriminate.
    destruct (wild_each rec key l segs) as [rs| |]; cbn [bind] in H; try discriminate. injection H as <-.
    destruct (IH rs eq_refl) as (rs' & A & C & D). exists (r :: rs'). split; [constructor; [eapply R; exact Q|exact A]|].
    split; [cbn; now rewrite C|]. cbn [snd]. rewrite orb_true_iff, D, Exists_cons.
    assert (K : match r_type r, r_results r with RArray, [] => true | _, _ => false end = true <-> r_type r = RArray /\ r_results r = []).
    { destruct (r_type r), (r_results r); split; try discriminate; try (intros [? ?]; discriminate); auto. }
    rewrite K. reflexivity.
Qed.
Lemma nth_place : forall l i e, nth_elem l i = Some e -> at_place l i e.
Proof.
  intros l i e H. unfold nth_elem in H. destruct (Z.leb_spec 0 i); cbn [andb] in H; [|discriminate].
  destruct (Z.ltb_spec i (Z.of_nat (List.length l))); [|discriminate]. split; auto.
Qed.
Lemma nth_no_place : forall l i, nth_elem l i = None -> no_place l i.
Proof.
  intros l i H. unfold nth_elem in H. unfold no_place. destruct (Z.leb_spec 0 i); cbn [andb] in H; [|lia].
  destruct (Z.ltb_spec i (Z.of_nat (List.length l))); [|lia]. apply nth_error_None in H. lia.
Qed.
Lemma concat_none : forall rs, List.concat (map values rs) = [] ->
  (Exists (fun r => r_type r = RArray) rs <-> Exists (fun r => r_type r = RArray /\ r_results r = []) rs).
Proof.
  induction rs as [|r rs IH]; intros H; cbn in H; [split; intros K; inversion K|].
  apply app_eq_nil in H as [H1 H2]. rewrite !Exists_cons, IH by auto. unfold values in H1. destruct (r_type r); intuition (auto; discriminate).
Qed.
