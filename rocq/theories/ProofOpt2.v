(** Edits under options: replacement and removal. *)
From Coq Require Import List Ascii String NArith ZArith Bool Lia Permutation.
From Verif Require Import GoStr ModelParser ModelPath ModelResult ModelQuery ModelValidate ModelBuilder SpecText SpecPath SpecTree SpecQuery SpecEdit SpecContent SpecFilter SpecLang SpecCase SpecOptions
  ProofBase ProofEscape ProofPath ProofScan ProofSyntax ProofTree ProofTree2 ProofTree3 ProofTree4 ProofTree5 ProofApi2 ProofTree7 ProofEdit ProofEdit2 ProofEdit3 ProofEdit4 ProofEdit5 ProofMod3 ProofCase ProofOpt.
Import ListNotations.

(** ** Paths *)
Definition cfinal (o : options) (fin : final) : final := match fin with TheAttribute a => TheAttribute (spelled (o_case o) a) | _ => fin end.
Lemma lower_segs : forall o steps fin, o_case o = false -> map lower_seg (segs_of steps fin) = segs_of (csteps o steps) (cfinal o fin).
Proof.
  intros o steps fin C. unfold segs_of, tpath_steps, csteps. rewrite !map_app. f_equal.
  - induction steps as [|[n idx] steps IH]; [reflexivity|]. cbn [map flat_map fst snd]. rewrite !map_app, IH. f_equal. unfold spelled. rewrite C.
    destruct idx; reflexivity.
  - destruct fin; cbn [final_steps cfinal map]; unfold spelled; rewrite ?C; reflexivity.
Qed.
Lemma csteps_exact : forall o steps, o_case o = true -> csteps o steps = steps.
Proof. intros o steps C. unfold csteps, spelled. rewrite C. induction steps as [|[n i] l IH]; [reflexivity|]. cbn [map fst snd]. now rewrite IH. Qed.
Lemma cfinal_exact : forall o fin, o_case o = true -> cfinal o fin = fin.
Proof. intros o fin C. destruct fin; cbn [cfinal]; unfold spelled; rewrite ?C; reflexivity. Qed.
Lemma parse_opts_path : forall o steps fin, good_tpath steps fin -> parse_path_opts o (tpath steps fin) = Ok (segs_of (csteps o steps) (cfinal o fin)).
Proof.
  intros o steps fin GT. unfold parse_path_opts. rewrite (segs_parse _ _ GT). cbn [bind]. f_equal. destruct (o_case o) eqn:C.
  - now rewrite csteps_exact, cfinal_exact.
  - now apply lower_segs.
Qed.
Lemma csteps_nonempty : forall o steps, steps <> [] -> csteps o steps <> [].
Proof. intros o [|s l] H; [contradiction|discriminate]. Qed.
Lemma csteps_app : forall o a b, csteps o (a ++ b) = csteps o a ++ csteps o b.
Proof. intros. apply map_app. Qed.

(** ** Order of attributes *)
Lemma precedes_ltb : forall a b, precedes a b <-> bytes_ltb a b = true.
Proof.
  induction a as [|c a IH]; intros [|d b]; cbn [bytes_ltb].
  - split; [inversion 1|discriminate].
  - split; [reflexivity|constructor].
  - split; [inversion 1|discriminate].
  - unfold code. destruct (N.ltb_spec (N_of_ascii c) (N_of_ascii d)).
    + split; [reflexivity|intros _; now constructor].
    + destruct (Ascii.eqb c d) eqn:Q.
      * apply Ascii.eqb_eq in Q. subst d. rewrite <- IH. split; [inversion 1; subst; [lia|auto]|now constructor].
      * apply Ascii.eqb_neq in Q. split; [inversion 1; subst; [lia|contradiction]|discriminate].
Qed.
Inductive ordered : list bytes -> Prop :=
| ord_nil : ordered []
| ord_cons : forall n l, Forall (fun m => bytes_ltb m n = false) l -> ordered l -> ordered (n :: l).
Lemma ltb_false_trans : forall a b c, bytes_ltb b a = false -> bytes_ltb c b = false -> bytes_ltb c a = false.
Proof.
  intros a b c H1 H2. destruct (bytes_ltb c a) eqn:Q; auto. destruct (bytes_ltb a b) eqn:K.
  - rewrite (bytes_ltb_trans _ _ _ Q K) in H2. discriminate.
  - rewrite (bytes_ltb_total _ _ K H1) in Q. congruence.
Qed.
Lemma insert_ordered : forall n l, ordered l -> ordered (insert_str n l).
Proof.
  intros n l H. induction H as [|m l H1 H2 IH]; cbn [insert_str].
  - constructor; constructor.
  - destruct (bytes_ltb m n) eqn:Q.
    + constructor; auto. apply Forall_forall. intros k I. apply (Permutation_in _ (Permutation_sym (insert_perm n l))) in I. destruct I as [<-|I].
      * destruct (bytes_ltb n m) eqn:K; auto. pose proof (bytes_ltb_trans _ _ _ K Q) as T. now rewrite bytes_ltb_irrefl in T.
      * rewrite Forall_forall in H1. auto.
    + constructor; [|now constructor]. constructor; auto. eapply Forall_impl; [|exact H1]. cbn beta. intros k K. eapply ltb_false_trans; eauto.
Qed.
Lemma sort_ordered : forall l, ordered (sort_strings l).
Proof. induction l as [|n l IH]; [constructor|]. cbn [sort_strings]. now apply insert_ordered. Qed.
Lemma by_names_sorted : forall M l, ordered l -> sorted_by_name (by_names M l).
Proof.
  intros M l H. induction H as [|n l H1 H2 IH]; cbn [by_names map]; constructor; auto. apply Forall_map. eapply Forall_impl; [|exact H1]. cbn beta. intros m K.
  cbn [fst]. rewrite precedes_ltb. congruence.
Qed.

(** ** Attribute lists *)
Lemma attr_eq_is : forall o x n, attr_eqb o n (spelled (o_case o) x) = attr_is (o_case o) x n.
Proof. intros o x n. unfold attr_eqb, attr_is, spelled. destruct (o_case o); auto. rewrite !lower_eq_map. fold (folded n) (folded (folded x)). now rewrite folded_idem. Qed.
Lemma attr_is_self : forall e x, attr_is e x (spelled e x) = true.
Proof. intros [] x; unfold attr_is, spelled; rewrite ?folded_idem; apply bytes_eqb_refl. Qed.
Lemma existsb_names : forall (f : bytes -> bool) (a : list (bytes * bytes)), existsb f (map fst a) = existsb (fun p => f (fst p)) a.
Proof. intros f. induction a as [|q a IH]; [reflexivity|]. cbn [map existsb]. now rewrite IH. Qed.
Lemma puts_names : forall e x v a, map fst (put_attrs e x v a) =
  if existsb (fun p => attr_is e x (fst p)) a then map fst a else map fst a ++ [spelled e x].
Proof.
  intros e x v a. unfold put_attrs. destruct (existsb _ a).
  - rewrite map_map. apply map_ext. intros q. now destruct (attr_is e x (fst q)).
  - now rewrite map_app.
Qed.
Lemma absent_name : forall e x (a : list (bytes * bytes)), existsb (fun p => attr_is e x (fst p)) a = false -> ~ In (spelled e x) (map fst a).
Proof.
  intros e x a H I. rewrite <- existsb_names in H. assert (K : existsb (attr_is e x) (map fst a) = true) by (apply existsb_exists; exists (spelled e x); split; auto; apply attr_is_self). congruence.
Qed.
Lemma puts_nodup : forall e x v a, NoDup (map fst a) -> NoDup (map fst (put_attrs e x v a)).
Proof.
  intros e x v a H. rewrite puts_names. destruct (existsb _ a) eqn:Q; auto. apply (Permutation_NoDup (Permutation_cons_append _ _)). constructor; auto. now apply absent_name.
Qed.
Lemma puts_value : forall e x v a n, In n (map fst (put_attrs e x v a)) ->
  value_in (put_attrs e x v a) n = if attr_is e x n then v else value_in a n.
Proof.
  intros e x v a n I. unfold put_attrs in *. destruct (existsb (fun p => attr_is e x (fst p)) a) eqn:Q.
  - clear Q. revert I. induction a as [|[m w] a IH]; cbn [map]; intros I; [destruct I|].
    unfold value_in in *. destruct (attr_is e x m) eqn:K; cbn [fst map attr_value] in *; rewrite ?K in *; cbn [fst attr_value] in *.
    + destruct (bytes_eqb n m) eqn:N.
      * apply bytes_eqb_eq in N. subst n. now rewrite K.
      * apply IH. destruct I as [I|I]; auto. subst n. now rewrite bytes_eqb_refl in N.
    + destruct (bytes_eqb n m) eqn:N.
      * apply bytes_eqb_eq in N. subst n. now rewrite K.
      * apply IH. destruct I as [I|I]; auto. subst n. now rewrite bytes_eqb_refl in N.
  - revert I Q. induction a as [|[m w] a IH]; cbn [app map existsb fst]; intros I Q.
    + destruct I as [I|[]]. cbn [fst] in I. subst n. rewrite attr_is_self. unfold value_in. cbn [attr_value]. now rewrite bytes_eqb_refl.
    + apply orb_false_iff in Q. destruct Q as [Q1 Q2]. unfold value_in in *. cbn [attr_value]. destruct (bytes_eqb n m) eqn:N.
      * apply bytes_eqb_eq in N. subst n. now rewrite Q1.
      * apply IH; auto. destruct I as [I|I]; auto. subst n. now rewrite bytes_eqb_refl in N.
Qed.
Lemma replaced_opt : forall o a m x v, NoDup (map fst a) -> Permutation a m -> exists a',
  Permutation a' (put_attrs (o_case o) x v a) /\ sorted_by_name a' /\
  flat_map (fun n => bs " " ++ n ++ ["="%char; dquote]
        ++ (if attr_eqb o n (spelled (o_case o) x) then esc v else escape_xml (ModelBuilder.attr_value m n)) ++ [dquote])
      (sort_strings (if existsb (fun n => attr_eqb o n (spelled (o_case o) x)) (map fst m) then map fst m else map fst m ++ [spelled (o_case o) x])) = attrs_text a'.
Proof.
  intros o a m x v H P. set (names := if existsb _ (map fst m) then _ else _).
  assert (PN : Permutation names (map fst (put_attrs (o_case o) x v a))).
  { rewrite puts_names. unfold names. rewrite (existsb_perm _ (map fst m) (map fst a)) by (symmetry; now apply Permutation_map).
    rewrite existsb_names. replace (existsb (fun p => attr_eqb o (fst p) (spelled (o_case o) x)) a) with (existsb (fun p => attr_is (o_case o) x (fst p)) a)
      by (clear; induction a as [|q a IH]; [reflexivity|]; cbn [existsb]; now rewrite attr_eq_is, IH).
    destruct (existsb _ a); [|apply Permutation_app_tail]; symmetry; now apply Permutation_map. }
  exists (by_names (put_attrs (o_case o) x v a) (sort_strings names)). split; [|split].
  - apply by_names_perm; [now apply puts_nodup|]. rewrite <- sort_perm. exact PN.
  - apply by_names_sorted, sort_ordered.
  - unfold attrs_text, by_names. rewrite flat_map_concat_map, (flat_map_concat_map attr_text), map_map. f_equal. apply map_ext_in. intros n I.
    unfold attr_text. cbn [fst snd]. rewrite puts_value.
    2:{ eapply Permutation_in; [exact PN|]. eapply Permutation_in; [symmetry; apply sort_perm|exact I]. }
    rewrite attr_eq_is, value_text, (value_perm m a n H P), <- esc_escape. now destruct (attr_is (o_case o) x n).
Qed.
Lemma drops_names : forall e x a, map fst (drop_attrs e x a) = filter (fun n => negb (attr_is e x n)) (map fst a).
Proof.
  intros e x. unfold drop_attrs. induction a as [|[n v] a IH]; [reflexivity|]. cbn [filter map fst].
  destruct (attr_is e x n); cbn [negb map fst]; now rewrite IH.
Qed.
Lemma drops_other : forall e x a n, attr_is e x n = false -> value_in (drop_attrs e x a) n = value_in a n.
Proof.
  intros e x a n H. unfold drop_attrs, value_in. induction a as [|[m w] a IH]; [reflexivity|]. cbn [filter fst attr_value]. destruct (attr_is e x m) eqn:Q; cbn [negb attr_value].
  - rewrite IH. destruct (bytes_eqb n m) eqn:K; auto. apply bytes_eqb_eq in K. subst m. congruence.
  - now destruct (bytes_eqb n m).
Qed.
Lemma dropped_opt : forall o a m x, NoDup (map fst a) -> Permutation a m -> exists a',
  Permutation a' (drop_attrs (o_case o) x a) /\ sorted_by_name a' /\
  flat_map (fun n => bs " " ++ n ++ ["="%char; dquote] ++ escape_xml (ModelBuilder.attr_value m n) ++ [dquote])
    (sort_strings (filter (fun n => negb (attr_eqb o n (spelled (o_case o) x))) (map fst m))) = attrs_text a'.
Proof.
  intros o a m x H P. set (names := filter _ (map fst m)).
  assert (PN : Permutation names (map fst (drop_attrs (o_case o) x a))).
  { rewrite drops_names. unfold names. rewrite (filter_ext _ (fun n => negb (attr_is (o_case o) x n))) by (intros n; now rewrite attr_eq_is).
    apply filter_perm. symmetry. now apply Permutation_map. }
  exists (by_names (drop_attrs (o_case o) x a) (sort_strings names)). split; [|split].
  - apply by_names_perm; [rewrite drops_names; now apply NoDup_filter|]. rewrite <- sort_perm. exact PN.
  - apply by_names_sorted, sort_ordered.
  - unfold attrs_text, by_names. rewrite flat_map_concat_map, (flat_map_concat_map attr_text), map_map. f_equal. apply map_ext_in. intros n I.
    unfold attr_text. cbn [fst snd]. rewrite value_text. assert (NX : attr_is (o_case o) x n = false).
    { apply (Permutation_in _ (Permutation_sym (sort_perm names))) in I. unfold names in I. apply filter_In in I. destruct I as [_ I]. rewrite attr_eq_is in I.
      now apply negb_true_iff. }
    rewrite (value_perm m a n H P), <- esc_escape, drops_other by auto. reflexivity.
Qed.

Lemma designated_nonempty : forall x steps F A nd B, designated x steps F A nd B -> steps <> [].
Proof. intros x steps F A nd B H. inversion H; discriminate. Qed.

Section Edits.
  Variable E : env.
  Variable fmt_g : f64 -> bytes.
  Hypothesis Hord : forall k l, Permutation l (e_ord E k l).
  Variable o : options.
  Let x := o_case o.
  Section Doc.
  Variable p : bytes.
  Variable F : list node.
  Hypothesis Hp : prolog p.
  Hypothesis Hg : Forall good F.
  Let d := p ++ forest_text F.
  Hypothesis Hd : (blen d <= 10485760)%N.

  Lemma find_doc_opt : forall steps key, steps <> [] -> Forall good_tstep steps ->
    exists r, find_loc E o key d (segs_of (csteps o steps) TheElement) 0 = Ok r /\
      match r with
      | Some l => exists A nd B, designated x steps F A nd B /\ at_loc (Z.of_nat (len p)) A nd l
      | None => forall A nd B, ~ designated x steps F A nd B
      end.
  Proof.
    intros steps key NE GS. destruct (find_loc_tree E Hord o steps NE GS F F p 0 key) as [r [R1 R2]]; auto using same_all_refl, skippable_prolog; [lia| |].
    - pose proof (size_pos _ Hd). unfold d in *. lia.
    - exists r. split; auto.
  Qed.
  Lemma find_some_opt : forall steps key A nd B, Forall good_tstep steps -> designated x steps F A nd B ->
    exists l, find_loc E o key d (segs_of (csteps o steps) TheElement) 0 = Ok (Some l) /\ at_loc (Z.of_nat (len p)) A nd l.
  Proof.
    intros steps key A nd B GS L. destruct (find_doc_opt steps key (designated_nonempty _ _ _ _ _ _ L) GS) as [[l|] [R1 R2]].
    - destruct R2 as [A' [nd' [B' [L' AT]]]]. destruct (designated_unique _ _ _ _ _ _ L _ _ _ L') as [-> [-> ->]]. eauto.
    - destruct (R2 _ _ _ L).
  Qed.
  Lemma find_none_opt : forall steps key, Forall good_tstep steps -> steps <> [] -> (forall A nd B, ~ designated x steps F A nd B) ->
    find_loc E o key d (segs_of (csteps o steps) TheElement) 0 = Ok None.
  Proof.
    intros steps key GS NE H. destruct (find_doc_opt steps key NE GS) as [[l|] [R1 R2]]; auto. destruct R2 as [A' [nd' [B' [L' AT]]]]. destruct (H _ _ _ L').
  Qed.
  Lemma slices_opt : forall steps A n a self kids B l, designated x steps F A (Elem n a self kids) B -> at_loc (Z.of_nat (len p)) A (Elem n a self kids) l ->
    slice_to d (l_start l) = Ok (p ++ A) /\
    slice_from d (l_content_start l) = Ok ((if self then [] else forest_text kids ++ end_tag n) ++ B) /\
    slice_to d (l_content_start l) = Ok (p ++ A ++ start_tag n a self) /\
    slice_from d (l_content_end l) = Ok ((if self then [] else end_tag n) ++ B) /\
    slice_to d (l_content_end l) = Ok (p ++ A ++ start_tag n a self ++ (if self then [] else forest_text kids)) /\
    slice_from d (if l_self l then l_content_start l else (l_end_tag l + Z.of_nat (len (l_name l)) + 3)%Z) = Ok B.
  Proof.
    intros steps A n a self kids B l L AT.
    assert (D : d = (p ++ A) ++ start_tag n a self ++ (if self then [] else forest_text kids ++ end_tag n) ++ B).
    { unfold d. rewrite (designated_text _ _ _ _ _ _ L), node_parts, <- !app_assoc. reflexivity. }
    inversion AT as [n1 a1 self1 kids1 l1 B1 B2 B3 B4 B5 B6 B7]; subst n1 a1 self1 kids1 l1.
    assert (D1 : d = (p ++ A ++ start_tag n a self) ++ (if self then [] else forest_text kids ++ end_tag n) ++ B) by (rewrite D, <- !app_assoc; reflexivity).
    assert (D2 : d = (p ++ A ++ start_tag n a self ++ (if self then [] else forest_text kids)) ++ (if self then [] else end_tag n) ++ B)
      by (rewrite D1, <- !app_assoc; destruct self; [|rewrite <- !app_assoc]; reflexivity).
    assert (D3 : d = (p ++ A ++ start_tag n a self ++ (if self then [] else forest_text kids ++ end_tag n)) ++ B)
      by (rewrite D1, <- !app_assoc; reflexivity).
    repeat split.
    - rewrite D. apply slice_to_app. rewrite B1, app_length. lia.
    - rewrite D1. apply slice_from_app. rewrite B2, !app_length. lia.
    - rewrite D1. apply slice_to_app. rewrite B2, !app_length. lia.
    - rewrite D2. apply slice_from_app. rewrite B3, B2, !app_length. destruct self; cbn [List.length]; lia.
    - rewrite D2. apply slice_to_app. rewrite B3, B2, !app_length. destruct self; cbn [List.length]; lia.
    - rewrite D3. apply slice_from_app. rewrite B7, B5, B4, B3, B2, !app_length. destruct self; cbn [List.length]; [lia|]. rewrite app_length, end_tag_len. lia.
  Qed.

  Hypothesis Hv : valid d = true.
  Lemma set_start_opt : forall path v segs, v <> VNil -> parse_path_opts o path = Ok segs -> segs <> [] ->
    set_opts E fmt_g o d path v = edit_of d (set_element E fmt_g o d segs v).
  Proof.
    intros path v segs NV P NE. unfold set_opts. rewrite (size_ok _ Hd), Hv. cbn [negb].
    replace (match d with [] => false | _ :: _ => false end) with false by (destruct d; reflexivity). rewrite P.
    destruct segs; [contradiction|]. destruct v; try reflexivity. contradiction.
  Qed.
  Lemma set_found_opt : forall steps A n a self kids B v xv, good_tpath steps TheElement -> designated x steps F A (Elem n a self kids) B ->
    v <> VNil -> value_to_xml fmt_g v = inr xv -> (blen xv <= 5242880)%N ->
    set_opts E fmt_g o d (tpath steps TheElement) v =
      Ok (p ++ A ++ start_tag n a self ++ xv ++ (if self then [] else end_tag n) ++ B, None).
  Proof.
    intros steps A n a self kids B v xv GT L NV XV SZ. pose proof (designated_nonempty _ _ _ _ _ _ L) as NE. pose proof (csteps_nonempty o _ NE) as NC.
    destruct (segs_nonempty _ NC) as [sg [r Q]]. pose proof (parse_opts_path o _ _ GT) as P. cbn [cfinal] in P. rewrite (set_start_opt _ v _ NV P) by (rewrite Q; discriminate).
    unfold set_element. rewrite Q. cbn iota. rewrite XV. rewrite (proj2 (N.ltb_ge MaxValueSize (blen xv)) SZ), (size_ok _ Hd).
    rewrite <- Q. rewrite <- (app_nil_r (segs_of (csteps o steps) TheElement)), intents_steps, app_nil_r by (intros ? []).
    rewrite (type_attr_false _ (last_steps _ _ NC)). destruct GT as [GS _ _].
    destruct (find_some_opt steps [3] A _ B GS L) as [l [R AT]]. rewrite R. cbn [bind].
    destruct (slices_opt _ _ _ _ _ _ _ l L AT) as [_ [_ [S3 [S4 _]]]].
    unfold lift, replace_element. rewrite S3. cbn [bind]. rewrite S4. cbn [bind edit_of].
    rewrite get_result_some; [now rewrite <- !app_assoc|]. rewrite <- !app_assoc. rewrite app_assoc. apply start_tag_nonempty.
  Qed.
  Lemma set_attr_found_opt : forall steps A n a self kids B y v, good_tpath steps (TheAttribute y) -> designated x steps F A (Elem n a self kids) B ->
    (blen (esc v) <= 5242880)%N -> exists a', Permutation a' (put_attrs x y v a) /\ sorted_by_name a' /\
    set_opts E fmt_g o d (tpath steps (TheAttribute y)) (VStr v) =
      Ok (p ++ A ++ start_tag n a' self ++ (if self then [] else forest_text kids ++ end_tag n) ++ B, None).
  Proof.
    intros steps A n a self kids B y v GT L SZ. pose proof (designated_nonempty _ _ _ _ _ _ L) as NE. pose proof (csteps_nonempty o _ NE) as NC. pose proof (parse_opts_path o _ _ GT) as P. cbn [cfinal] in P.
    destruct (designated_good _ _ _ _ _ _ L Hg) as [GE _]. inversion GE as [? ? ? ? GN GA GSf GK| |]; subst n0 a0 self0 kids0.
    destruct GT as [GS _ _]. destruct (find_some_opt steps [1] A _ B GS L) as [l [R AT]].
    destruct (slices_opt _ _ _ _ _ _ _ l L AT) as [S1 [S2 _]]. inversion AT as [n1 a1 self1 kids1 l1 B1 B2 B3 B4 B5 B6 B7]; subst n1 a1 self1 kids1 l1.
    destruct (replaced_opt o a (l_attrs l) y v (ga_distinct _ GA) B6) as [a' [PA [OA TA]]]. exists a'. split; auto. split; auto.
    rewrite (set_start_opt _ (VStr v) _ ltac:(discriminate) P (segs_attr_nonempty _ _)).
    unfold set_element. rewrite segs_attr. destruct (segs_nonempty _ NC) as [sg [rr Q]]. rewrite Q. cbn [app]. cbn [value_to_xml]. rewrite <- esc_escape.
    rewrite (proj2 (N.ltb_ge MaxValueSize (blen (esc v))) SZ), (size_ok _ Hd).
    change (sg :: rr ++ ?z) with ((sg :: rr) ++ z). rewrite <- Q.
    rewrite intents_steps by (intros ? [<-|[]]; discriminate). rewrite last_last, removelast_last. cbn [step_seg s_type segtype_eqb s_value].
    rewrite R. cbn [bind]. unfold lift, replace_attribute. rewrite S1. cbn [bind]. rewrite S2. cbn [bind]. cbn [step_seg s_value] in *. rewrite TA. rewrite B5, B7.
    cbn [bind edit_of].
    replace ((p ++ A) ++ bs "<" ++ n ++ attrs_text a' ++ (if self then bs "/>" else bs ">") ++ (if self then [] else forest_text kids ++ end_tag n) ++ B)
      with ((p ++ A) ++ start_tag n a' self ++ (if self then [] else forest_text kids ++ end_tag n) ++ B) by (unfold start_tag; now rewrite <- !app_assoc).
    rewrite get_result_some by apply start_tag_nonempty. now rewrite <- app_assoc.
  Qed.

  (** ** Delete *)
  Lemma delete_start_opt : forall path segs, parse_path_opts o path = Ok segs -> segs <> [] ->
    delete_opts E o d path = edit_of d (delete_element E o d segs).
  Proof.
    intros path segs P NE. unfold delete_opts. rewrite (size_ok _ Hd), Hv. cbn [negb]. rewrite P. cbn [bind]. destruct segs; [contradiction|reflexivity].
  Qed.
  Lemma delete_found_opt : forall steps A nd B, good_tpath steps TheElement -> designated x steps F A nd B ->
    delete_opts E o d (tpath steps TheElement) = Ok (match p ++ A ++ B with [] => d | r => r end, None).
  Proof.
    intros steps A nd B GT L. pose proof (designated_nonempty _ _ _ _ _ _ L) as NE. pose proof (csteps_nonempty o _ NE) as NC.
    destruct (segs_nonempty _ NC) as [sg [r Q]]. pose proof (parse_opts_path o _ _ GT) as P. cbn [cfinal] in P.
    rewrite (delete_start_opt _ _ P) by (rewrite Q; discriminate). destruct GT as [GS _ _]. destruct (find_some_opt steps [6] A _ B GS L) as [l [R AT]].
    destruct (designated_good _ _ _ _ _ _ L Hg) as [GE EL]. destruct nd as [n a self kids| |]; try discriminate.
    destruct (slices_opt _ _ _ _ _ _ _ l L AT) as [S1 [_ [_ [_ [_ S6]]]]].
    unfold delete_element. rewrite Q. cbn iota. rewrite <- Q. rewrite (size_ok _ Hd), (type_attr_false _ (last_steps _ _ NC)). rewrite R. cbn [bind].
    rewrite S1. cbn [bind]. rewrite S6. cbn [bind edit_of]. unfold get_result. rewrite <- app_assoc. now destruct (p ++ A ++ B).
  Qed.
  Lemma delete_missing_opt : forall steps fin, good_tpath steps fin -> fin = TheElement \/ (exists y, fin = TheAttribute y) -> (forall A nd B, ~ designated x steps F A nd B) ->
    delete_opts E o d (tpath steps fin) = Ok (d, None).
  Proof.
    intros steps fin GT HF NL. pose proof (parse_opts_path o _ _ GT) as P. destruct GT as [GS GF _].
    assert (NE : steps <> []) by (destruct HF as [->|[y ->]]; cbn [good_final] in GF; tauto). pose proof (csteps_nonempty o _ NE) as NC.
    destruct (segs_nonempty _ NC) as [sg [r Q]]. destruct HF as [->|[y ->]]; cbn [cfinal] in P.
    - rewrite (delete_start_opt _ _ P) by (rewrite Q; discriminate). unfold delete_element. rewrite Q. cbn iota. rewrite <- Q.
      rewrite (size_ok _ Hd), (type_attr_false _ (last_steps _ _ NC)). rewrite (find_none_opt steps [6] GS NE NL). reflexivity.
    - rewrite (delete_start_opt _ _ P (segs_attr_nonempty _ _)). unfold delete_element. rewrite segs_attr. rewrite Q. cbn [app]. change (sg :: r ++ ?z) with ((sg :: r) ++ z).
      rewrite (size_ok _ Hd). rewrite last_last, removelast_last. cbn [step_seg s_type segtype_eqb]. rewrite <- Q.
      rewrite (find_none_opt steps [5] GS NE NL). reflexivity.
  Qed.
  Lemma delete_attr_found_opt : forall steps A n a self kids B y, good_tpath steps (TheAttribute y) -> designated x steps F A (Elem n a self kids) B ->
    if existsb (fun q => attr_is x y (fst q)) a
    then exists a', Permutation a' (drop_attrs x y a) /\ sorted_by_name a' /\
        delete_opts E o d (tpath steps (TheAttribute y)) =
          Ok (p ++ A ++ start_tag n a' self ++ (if self then [] else forest_text kids ++ end_tag n) ++ B, None)
    else delete_opts E o d (tpath steps (TheAttribute y)) = Ok (d, None).
  Proof.
    intros steps A n a self kids B y GT L. pose proof (designated_nonempty _ _ _ _ _ _ L) as NE. pose proof (csteps_nonempty o _ NE) as NC. pose proof (parse_opts_path o _ _ GT) as P. cbn [cfinal] in P.
    destruct (designated_good _ _ _ _ _ _ L Hg) as [GE _]. inversion GE as [? ? ? ? GN GA GSf GK| |]; subst n0 a0 self0 kids0.
    destruct GT as [GS _ _]. destruct (find_some_opt steps [5] A _ B GS L) as [l [R AT]].
    destruct (slices_opt _ _ _ _ _ _ _ l L AT) as [S1 [S2 _]]. inversion AT as [n1 a1 self1 kids1 l1 B1 B2 B3 B4 B5 B6 B7]; subst n1 a1 self1 kids1 l1.
    rewrite (delete_start_opt _ _ P (segs_attr_nonempty _ _)). unfold delete_element. rewrite segs_attr. destruct (segs_nonempty _ NC) as [sg [r Q]]. rewrite Q. cbn [app]. change (sg :: r ++ ?z) with ((sg :: r) ++ z).
    rewrite (size_ok _ Hd). rewrite last_last, removelast_last. cbn [step_seg s_type segtype_eqb s_value]. rewrite <- Q. rewrite R. cbn [bind].
    unfold lift, delete_attribute. cbn [step_seg s_value].
    assert (FD : (if o_case o then match map_get (spelled (o_case o) y) (l_attrs l) with Some _ => true | None => false end
                  else existsb (fun n0 => attr_eqb o n0 (spelled (o_case o) y)) (map fst (l_attrs l))) = existsb (fun q => attr_is x y (fst q)) a).
    { transitivity (existsb (attr_is x y) (map fst a)); [|apply existsb_names]. destruct (o_case o) eqn:C.
      - rewrite <- (map_get_perm _ a _ (ga_distinct _ GA) B6). rewrite <- attr_map. unfold x, spelled, attr_is. rewrite ?C. clear. induction a as [|[m w] a IH]; [reflexivity|].
        cbn [attr_value map existsb fst]. rewrite <- IH. destruct (bytes_eqb y m) eqn:Q.
        + apply bytes_eqb_eq in Q. subst. now rewrite bytes_eqb_refl.
        + destruct (bytes_eqb m y) eqn:K; auto. apply bytes_eqb_eq in K. subst. now rewrite bytes_eqb_refl in Q.
      - rewrite <- C. rewrite (existsb_perm _ (map fst (l_attrs l)) (map fst a)) by (symmetry; now apply Permutation_map).
        subst x. rewrite <- C. clear. induction (map fst a) as [|m r IH]; [reflexivity|]. cbn [existsb]. rewrite IH. f_equal. apply attr_eq_is. }
    rewrite FD. destruct (existsb (fun q => attr_is x y (fst q)) a); cbn [negb].
    - destruct (dropped_opt o a (l_attrs l) y (ga_distinct _ GA) B6) as [a' [PA [OA TA]]]. exists a'. split; auto. split; auto. rewrite S1. cbn [bind]. rewrite S2. cbn [bind edit_of].
      rewrite TA, B5, B7.
      replace ((p ++ A) ++ bs "<" ++ n ++ attrs_text a' ++ (if self then bs "/>" else bs ">") ++ (if self then [] else forest_text kids ++ end_tag n) ++ B)
        with ((p ++ A) ++ start_tag n a' self ++ (if self then [] else forest_text kids ++ end_tag n) ++ B) by (unfold start_tag; now rewrite <- !app_assoc).
      rewrite get_result_some by apply start_tag_nonempty. now rewrite <- app_assoc.
    - cbn [bind edit_of]. unfold get_result. now destruct d.
  Qed.
  End Doc.
End Edits.
