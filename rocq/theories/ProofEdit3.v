(** Reading back, attributes and removal. *)
From Coq Require Import List Ascii String NArith ZArith Bool Lia Permutation.
From Verif Require Import GoStr ModelParser ModelPath ModelResult ModelQuery ModelValidate ModelBuilder SpecText SpecPath SpecTree SpecQuery SpecEdit
  ProofBase ProofEscape ProofPath ProofScan ProofSyntax ProofApi2 ProofTree ProofTree2 ProofTree3 ProofTree4 ProofTree5 ProofTree7 ProofEdit ProofEdit2.
Import ListNotations.

(** ** Attribute lists *)
Definition value_in (M : list (bytes * bytes)) (n : bytes) : bytes :=
  match attr_value n M with Some v => v | None => [] end.
Definition by_names (M : list (bytes * bytes)) (names : list bytes) : list (bytes * bytes) := map (fun n => (n, value_in M n)) names.
Lemma by_names_self : forall M, NoDup (map fst M) -> by_names M (map fst M) = M.
Proof.
  intros M H. unfold by_names. rewrite map_map.
  assert (Q : forall p, In p M -> (fst p, value_in M (fst p)) = p).
  { intros [n v] I. cbn [fst]. f_equal. unfold value_in. rewrite attr_map. now rewrite (map_get_nodup n v M H I). }
  clear H. rewrite <- (map_id M) at 2. apply map_ext_in. exact Q.
Qed.
Lemma by_names_perm : forall M names, NoDup (map fst M) -> Permutation names (map fst M) -> Permutation (by_names M names) M.
Proof.
  intros M names H P. rewrite <- (by_names_self M H) at 2. unfold by_names. now apply Permutation_map.
Qed.
Lemma insert_perm : forall x l, Permutation (x :: l) (insert_str x l).
Proof.
  intros x. induction l as [|y l IH]; [reflexivity|]. cbn [insert_str]. destruct (bytes_ltb y x); auto.
  rewrite perm_swap. now constructor.
Qed.
Lemma sort_perm : forall l, Permutation l (sort_strings l).
Proof. induction l as [|x l IH]; [constructor|]. cbn [sort_strings]. rewrite <- insert_perm. now constructor. Qed.
Lemma put_names : forall x v a, map fst (put_attr x v a) = if existsb (fun n => bytes_eqb n x) (map fst a) then map fst a else map fst a ++ [x].
Proof.
  intros x v. induction a as [|[n w] a IH]; [reflexivity|]. cbn [put_attr map fst existsb]. destruct (bytes_eqb x n) eqn:Q.
  - apply bytes_eqb_eq in Q. subst n. now rewrite bytes_eqb_refl.
  - assert (Q' : bytes_eqb n x = false) by (destruct (bytes_eqb n x) eqn:K; auto; apply bytes_eqb_eq in K; subst; now rewrite bytes_eqb_refl in Q).
    rewrite Q'. cbn [orb map fst]. rewrite IH. now destruct (existsb _ (map fst a)).
Qed.
Lemma put_same : forall x v a, attr_value x (put_attr x v a) = Some v.
Proof.
  intros x v. induction a as [|[n w] a IH]; cbn [put_attr attr_value]; [now rewrite bytes_eqb_refl|].
  destruct (bytes_eqb x n) eqn:Q; cbn [attr_value]; now rewrite Q.
Qed.
Lemma put_other : forall x v y a, y <> x -> attr_value y (put_attr x v a) = attr_value y a.
Proof.
  intros x v y a H. induction a as [|[n w] a IH]; cbn [put_attr attr_value].
  - destruct (bytes_eqb y x) eqn:Q; auto. apply bytes_eqb_eq in Q. contradiction.
  - destruct (bytes_eqb x n) eqn:Q; cbn [attr_value].
    + apply bytes_eqb_eq in Q. subst n. destruct (bytes_eqb y x) eqn:K; auto. apply bytes_eqb_eq in K. contradiction.
    + now rewrite IH.
Qed.
Lemma existsb_perm : forall (f : bytes -> bool) l l', Permutation l l' -> existsb f l = existsb f l'.
Proof.
  intros f l l' H. induction H; cbn [existsb]; auto; try congruence. destruct (f x), (f y); reflexivity.
Qed.
Lemma put_nodup : forall x v a, NoDup (map fst a) -> NoDup (map fst (put_attr x v a)).
Proof.
  intros x v a H. rewrite put_names. destruct (existsb _ _) eqn:Q; auto. apply NoDup_rev in H.
  rewrite <- (rev_involutive (map fst a ++ [x])). apply NoDup_rev. rewrite rev_app_distr. cbn [rev app]. constructor; auto.
  intros I. apply in_rev in I. assert (K : existsb (fun n => bytes_eqb n x) (map fst a) = true) by (apply existsb_exists; exists x; split; auto; apply bytes_eqb_refl). congruence.
Qed.
Lemma value_text : forall m n, ModelBuilder.attr_value m n = value_in m n.
Proof. intros. unfold ModelBuilder.attr_value, value_in. now rewrite attr_map. Qed.
Lemma value_perm : forall m a n, NoDup (map fst a) -> Permutation a m -> value_in m n = value_in a n.
Proof. intros m a n H P. unfold value_in. rewrite !attr_map. now rewrite (map_get_perm n a m H P). Qed.
Lemma attr_perm : forall a m n, NoDup (map fst a) -> Permutation a m -> attr_value n m = attr_value n a.
Proof. intros a m n H P. rewrite !attr_map. symmetry. now apply map_get_perm. Qed.
(** Rewriting one attribute. *)
Lemma replaced_attrs : forall a m x v, NoDup (map fst a) -> Permutation a m -> exists a',
  Permutation a' (put_attr x v a) /\
  flat_map (fun n => bs " " ++ n ++ ["="%char; dquote]
        ++ (if attr_eqb default_options n x then esc v else escape_xml (ModelBuilder.attr_value m n)) ++ [dquote])
      (sort_strings (if existsb (fun n => attr_eqb default_options n x) (map fst m) then map fst m else map fst m ++ [x])) = attrs_text a'.
Proof.
  intros a m x v H P. set (names := if existsb _ (map fst m) then _ else _).
  assert (PN : Permutation names (map fst (put_attr x v a))).
  { rewrite put_names. unfold names. cbn [attr_eqb o_case default_options]. rewrite (existsb_perm _ (map fst m) (map fst a)) by (symmetry; now apply Permutation_map).
    destruct (existsb _ (map fst a)); [|apply Permutation_app_tail]; symmetry; now apply Permutation_map. }
  exists (by_names (put_attr x v a) (sort_strings names)). split.
  - apply by_names_perm; [now apply put_nodup|]. rewrite <- sort_perm. exact PN.
  - unfold attrs_text, by_names. rewrite flat_map_concat_map, (flat_map_concat_map attr_text), map_map. f_equal. apply map_ext. intros n.
    unfold attr_text. cbn [fst snd]. rewrite value_text. cbn [attr_eqb o_case default_options]. destruct (bytes_eqb n x) eqn:Q.
    + apply bytes_eqb_eq in Q. subst n. unfold value_in. rewrite put_same. reflexivity.
    + assert (NX : n <> x) by (intros ->; now rewrite bytes_eqb_refl in Q). rewrite (value_perm m a n H P), <- esc_escape. unfold value_in. rewrite put_other by auto. reflexivity.
Qed.
(** Removing one attribute. *)
Lemma drop_names : forall x a, map fst (drop_attr x a) = filter (fun n => negb (bytes_eqb n x)) (map fst a).
Proof.
  intros x. unfold drop_attr. induction a as [|[n v] a IH]; [reflexivity|]. cbn [filter map fst].
  destruct (bytes_eqb n x); cbn [negb map fst]; now rewrite IH.
Qed.
Lemma drop_other : forall x y a, y <> x -> attr_value y (drop_attr x a) = attr_value y a.
Proof.
  intros x y a H. unfold drop_attr. induction a as [|[n w] a IH]; [reflexivity|]. cbn [filter fst attr_value]. destruct (bytes_eqb n x) eqn:Q; cbn [negb attr_value].
  - apply bytes_eqb_eq in Q. subst n. rewrite IH. destruct (bytes_eqb y x) eqn:K; auto. apply bytes_eqb_eq in K. contradiction.
  - now rewrite IH.
Qed.
Lemma drop_same : forall x a, attr_value x (drop_attr x a) = None.
Proof.
  intros x a. unfold drop_attr. induction a as [|[n w] a IH]; [reflexivity|]. cbn [filter fst]. destruct (bytes_eqb n x) eqn:Q; cbn [negb attr_value]; auto.
  rewrite IH. destruct (bytes_eqb x n) eqn:K; auto. apply bytes_eqb_eq in K. subst. now rewrite bytes_eqb_refl in Q.
Qed.
Lemma drop_nodup : forall x a, NoDup (map fst a) -> NoDup (map fst (drop_attr x a)).
Proof. intros. rewrite drop_names. now apply NoDup_filter. Qed.
Lemma filter_perm : forall (f : bytes -> bool) l l', Permutation l l' -> Permutation (filter f l) (filter f l').
Proof.
  intros f l l' H. induction H; cbn [filter]; auto.
  - destruct (f x); auto.
  - destruct (f x), (f y); auto. constructor.
  - etransitivity; eauto.
Qed.
Lemma dropped_attrs : forall a m x, NoDup (map fst a) -> Permutation a m -> exists a',
  Permutation a' (drop_attr x a) /\
  flat_map (fun n => bs " " ++ n ++ ["="%char; dquote] ++ escape_xml (ModelBuilder.attr_value m n) ++ [dquote])
    (sort_strings (filter (fun n => negb (attr_eqb default_options n x)) (map fst m))) = attrs_text a'.
Proof.
  intros a m x H P. set (names := filter _ (map fst m)). cbn [attr_eqb o_case default_options] in names.
  assert (PN : Permutation names (map fst (drop_attr x a))).
  { rewrite drop_names. unfold names. apply filter_perm. symmetry. now apply Permutation_map. }
  exists (by_names (drop_attr x a) (sort_strings names)). split.
  - apply by_names_perm; [now apply drop_nodup|]. rewrite <- sort_perm. exact PN.
  - unfold attrs_text, by_names. rewrite flat_map_concat_map, (flat_map_concat_map attr_text), map_map. f_equal. apply map_ext_in. intros n I.
    unfold attr_text. cbn [fst snd]. rewrite value_text. assert (NX : n <> x).
    { intros ->. apply (Permutation_in _ (Permutation_sym (sort_perm names))) in I. unfold names in I. apply filter_In in I. destruct I as [_ I].
      now rewrite bytes_eqb_refl in I. }
    rewrite (value_perm m a n H P), <- esc_escape. unfold value_in. rewrite drop_other by auto. reflexivity.
Qed.

(** ** Paths that end in an attribute *)
Lemma segs_attr : forall steps x, segs_of steps (TheAttribute x) = segs_of steps TheElement ++ [step_seg (Attr x, [])].
Proof. intros. unfold segs_of, tpath_steps. cbn [final_steps]. now rewrite app_nil_r, map_app. Qed.
Lemma segs_attr_nonempty : forall steps x, segs_of steps (TheAttribute x) <> [].
Proof. intros steps x K. rewrite segs_attr in K. now destruct (segs_of steps TheElement). Qed.
Lemma start_tag_nonempty : forall X n a self Y, X ++ start_tag n a self ++ Y <> [].
Proof.
  intros X n a self Y K. apply (f_equal (@List.length ascii)) in K. rewrite !app_length in K. unfold start_tag in K. rewrite !app_length in K.
  change (len (bs "<")) with 1 in K. cbn [List.length] in K. lia.
Qed.
Definition inner (nd : node) : bytes :=
  match nd with Elem n _ self kids => if self then [] else forest_text kids ++ end_tag n | _ => [] end.
Lemma node_parts : forall n a self kids, node_text (Elem n a self kids) = start_tag n a self ++ (if self then [] else forest_text kids ++ end_tag n).
Proof. reflexivity. Qed.

Section Edits.
  Variable E : env.
  Variable fmt_g : f64 -> bytes.
  Hypothesis Hord : forall k l, Permutation l (e_ord E k l).
  Section Doc.
  Variable p : bytes.
  Variable F : list node.
  Hypothesis Hp : prolog p.
  Hypothesis Hg : Forall good F.
  Let d := p ++ forest_text F.
  Hypothesis Hd : (blen d <= 10485760)%N.

  (** Reading at a located element. *)
  Lemma read_at : forall steps A nd B fin, good_tpath steps fin -> located steps F A nd B -> Forall index_small steps -> clear_start steps F ->
    final_answer fin nd <> Nothing -> exists r, get E d (tpath steps fin) = Ok r /\ describes r (final_answer fin nd).
  Proof.
    intros steps A nd B fin GT L SM CS NN. destruct (get_query_text E Hord p F F steps fin Hp (same_all_refl F) Hg Hd GT) as [r [R1 R2]].
    rewrite (query_located _ _ _ _ _ L true fin NN SM (fun _ => CS)) in R2. exists r. split; auto. apply denotes_describes; auto.
    apply final_good. now destruct (located_good _ _ _ _ _ L Hg).
  Qed.

  Hypothesis Hv : valid d = true.
  Lemma around : forall steps A n a self kids B, located steps F A (Elem n a self kids) B ->
    d = (p ++ A) ++ start_tag n a self ++ (if self then [] else forest_text kids ++ end_tag n) ++ B.
  Proof. intros steps A n a self kids B L. unfold d. rewrite (located_text _ _ _ _ _ L), node_parts, <- !app_assoc. reflexivity. Qed.
  Lemma slices : forall steps A n a self kids B l, located steps F A (Elem n a self kids) B -> at_loc (Z.of_nat (len p)) A (Elem n a self kids) l ->
    slice_to d (l_start l) = Ok (p ++ A) /\
    slice_from d (l_content_start l) = Ok ((if self then [] else forest_text kids ++ end_tag n) ++ B) /\
    slice_to d (l_content_start l) = Ok (p ++ A ++ start_tag n a self) /\
    slice_from d (l_content_end l) = Ok ((if self then [] else end_tag n) ++ B) /\
    slice_to d (l_content_end l) = Ok (p ++ A ++ start_tag n a self ++ (if self then [] else forest_text kids)) /\
    slice_from d (if l_self l then l_content_start l else (l_end_tag l + Z.of_nat (len (l_name l)) + 3)%Z) = Ok B.
  Proof.
    intros steps A n a self kids B l L AT. pose proof (around _ _ _ _ _ _ _ L) as D. inversion AT as [n1 a1 self1 kids1 l1 B1 B2 B3 B4 B5 B6 B7]; subst n1 a1 self1 kids1 l1.
    assert (D1 : d = (p ++ A ++ start_tag n a self) ++ (if self then [] else forest_text kids ++ end_tag n) ++ B) by (rewrite D, <- !app_assoc; reflexivity).
    assert (D2 : d = (p ++ A ++ start_tag n a self ++ (if self then [] else forest_text kids)) ++ (if self then [] else end_tag n) ++ B)
      by (rewrite D1, <- !app_assoc; destruct self; [|rewrite <- !app_assoc]; reflexivity).
    assert (D3 : d = (p ++ A ++ start_tag n a self ++ (if self then [] else forest_text kids ++ end_tag n)) ++ B)
      by (rewrite D1, <- !app_assoc; reflexivity).
    repeat split.
    - rewrite D. apply slice_to_app. rewrite B1, app_length. lia.
    - rewrite D1. apply slice_from_app. rewrite B2, !app_length. lia.
    - rewrite D1. apply slice_to_app. rewrite B2, !app_length. lia.
    - rewrite D2. apply slice_from_app. rewrite B3, B2, !app_length. destruct self; cbn [List.length]; lia.
    - rewrite D2. apply slice_to_app. rewrite B3, B2, !app_length. destruct self; cbn [List.length]; lia.
    - rewrite D3. apply slice_from_app. rewrite B7, B5, B4, B3, B2, !app_length. destruct self; cbn [List.length]; [lia|]. rewrite app_length, end_tag_len. lia.
  Qed.
  Lemma set_attr_found : forall steps A n a self kids B x v, good_tpath steps (TheAttribute x) -> located steps F A (Elem n a self kids) B ->
    (blen (esc v) <= 5242880)%N -> exists a', Permutation a' (put_attr x v a) /\
    set E fmt_g d (tpath steps (TheAttribute x)) (VStr v) =
      Ok (p ++ A ++ start_tag n a' self ++ (if self then [] else forest_text kids ++ end_tag n) ++ B, None).
  Proof.
    intros steps A n a self kids B x v GT L SZ. pose proof (located_nonempty _ _ _ _ _ L) as NE. pose proof (segs_parse _ _ GT) as P.
    destruct (located_good _ _ _ _ _ L Hg) as [GE _]. inversion GE as [? ? ? ? GN GA GSf GK| |]; subst n0 a0 self0 kids0.
    destruct GT as [GS _ _]. destruct (find_some E Hord p F Hp Hg Hd steps [1] A _ B GS L) as [l [R AT]]. fold d in R.
    destruct (slices _ _ _ _ _ _ _ l L AT) as [S1 [S2 _]]. inversion AT as [n1 a1 self1 kids1 l1 B1 B2 B3 B4 B5 B6 B7]; subst n1 a1 self1 kids1 l1.
    destruct (replaced_attrs a (l_attrs l) x v (ga_distinct _ GA) B6) as [a' [PA TA]]. exists a'. split; auto.
    unfold d. rewrite (set_start E fmt_g p F Hd Hv _ (VStr v) _ ltac:(discriminate) P (segs_attr_nonempty _ _)). fold d.
    unfold set_element. rewrite segs_attr. destruct (segs_nonempty steps NE) as [sg [rr Q]]. rewrite Q. cbn [app]. cbn [value_to_xml]. rewrite <- esc_escape.
    rewrite (proj2 (N.ltb_ge MaxValueSize (blen (esc v))) SZ), (size_ok _ Hd).
    change (sg :: rr ++ [step_seg (Attr x, [])]) with ((sg :: rr) ++ [step_seg (Attr x, [])]). rewrite <- Q.
    rewrite intents_steps by (intros ? [<-|[]]; discriminate). rewrite last_last, removelast_last. cbn [step_seg s_type segtype_eqb s_value].
    rewrite R. cbn [bind]. unfold lift, replace_attribute. rewrite S1. cbn [bind]. rewrite S2. cbn [bind]. cbn [step_seg s_value] in *. rewrite TA. rewrite B5, B7.
    cbn [bind edit_of].
    replace ((p ++ A) ++ bs "<" ++ n ++ attrs_text a' ++ (if self then bs "/>" else bs ">") ++ (if self then [] else forest_text kids ++ end_tag n) ++ B)
      with ((p ++ A) ++ start_tag n a' self ++ (if self then [] else forest_text kids ++ end_tag n) ++ B) by (unfold start_tag; now rewrite <- !app_assoc).
    rewrite get_result_some by apply start_tag_nonempty. now rewrite <- app_assoc.
  Qed.

  (** ** Delete *)
  Lemma delete_start : forall path segs, parse_path path = Ok segs -> segs <> [] ->
    delete E d path = edit_of d (delete_element E default_options d segs).
  Proof.
    intros path segs P NE. unfold delete, delete_opts. rewrite (size_ok _ Hd), Hv. cbn [negb]. rewrite (parse_default _ _ P). cbn [bind]. destruct segs; [contradiction|reflexivity].
  Qed.
  Lemma delete_found : forall steps A nd B, good_tpath steps TheElement -> located steps F A nd B ->
    delete E d (tpath steps TheElement) = Ok (match p ++ A ++ B with [] => d | r => r end, None).
  Proof.
    intros steps A nd B GT L. pose proof (located_nonempty _ _ _ _ _ L) as NE. destruct (segs_nonempty steps NE) as [sg [r Q]]. pose proof (segs_parse _ _ GT) as P.
    rewrite (delete_start _ _ P) by (rewrite Q; discriminate). destruct GT as [GS _ _]. destruct (find_some E Hord p F Hp Hg Hd steps [6] A _ B GS L) as [l [R AT]].
    destruct (located_good _ _ _ _ _ L Hg) as [GE EL]. destruct nd as [n a self kids| |]; try discriminate.
    destruct (slices _ _ _ _ _ _ _ l L AT) as [S1 [_ [_ [_ [_ S6]]]]].
    unfold delete_element. rewrite Q. cbn iota. rewrite <- Q. rewrite (size_ok _ Hd), (type_attr_false _ (last_steps steps _ NE)). fold d in R. rewrite R. cbn [bind].
    rewrite S1. cbn [bind]. rewrite S6. cbn [bind edit_of]. unfold get_result. rewrite <- app_assoc. now destruct (p ++ A ++ B).
  Qed.
  Lemma delete_missing : forall steps fin, good_tpath steps fin -> fin = TheElement \/ (exists x, fin = TheAttribute x) -> (forall A nd B, ~ located steps F A nd B) ->
    delete E d (tpath steps fin) = Ok (d, None).
  Proof.
    intros steps fin GT HF NL. pose proof (segs_parse _ _ GT) as P. destruct GT as [GS GF _].
    assert (NE : steps <> []) by (destruct HF as [->|[x ->]]; cbn [good_final] in GF; tauto).
    destruct (segs_nonempty steps NE) as [sg [r Q]]. destruct HF as [->|[x ->]].
    - rewrite (delete_start _ _ P) by (rewrite Q; discriminate). unfold delete_element. rewrite Q. cbn iota. rewrite <- Q.
      rewrite (size_ok _ Hd), (type_attr_false _ (last_steps steps _ NE)). pose proof (find_none E Hord p F Hp Hg Hd steps [6] GS NE NL) as R. fold d in R. rewrite R. reflexivity.
    - rewrite (delete_start _ _ P (segs_attr_nonempty _ _)). unfold delete_element. rewrite segs_attr. rewrite Q. cbn [app]. change (sg :: r ++ [step_seg (Attr x, [])]) with ((sg :: r) ++ [step_seg (Attr x, [])]).
      rewrite (size_ok _ Hd). rewrite last_last, removelast_last. cbn [step_seg s_type segtype_eqb]. rewrite <- Q.
      pose proof (find_none E Hord p F Hp Hg Hd steps [5] GS NE NL) as R. fold d in R. rewrite R. reflexivity.
  Qed.
  Lemma delete_attr_found : forall steps A n a self kids B x, good_tpath steps (TheAttribute x) -> located steps F A (Elem n a self kids) B ->
    match attr_value x a with
    | None => delete E d (tpath steps (TheAttribute x)) = Ok (d, None)
    | Some _ => exists a', Permutation a' (drop_attr x a) /\
        delete E d (tpath steps (TheAttribute x)) =
          Ok (p ++ A ++ start_tag n a' self ++ (if self then [] else forest_text kids ++ end_tag n) ++ B, None)
    end.
  Proof.
    intros steps A n a self kids B x GT L. pose proof (located_nonempty _ _ _ _ _ L) as NE. pose proof (segs_parse _ _ GT) as P.
    destruct (located_good _ _ _ _ _ L Hg) as [GE _]. inversion GE as [? ? ? ? GN GA GSf GK| |]; subst n0 a0 self0 kids0.
    destruct GT as [GS _ _]. destruct (find_some E Hord p F Hp Hg Hd steps [5] A _ B GS L) as [l [R AT]]. fold d in R.
    destruct (slices _ _ _ _ _ _ _ l L AT) as [S1 [S2 _]]. inversion AT as [n1 a1 self1 kids1 l1 B1 B2 B3 B4 B5 B6 B7]; subst n1 a1 self1 kids1 l1.
    rewrite (delete_start _ _ P (segs_attr_nonempty _ _)). unfold delete_element. rewrite segs_attr. destruct (segs_nonempty steps NE) as [sg [r Q]]. rewrite Q. cbn [app]. change (sg :: r ++ [step_seg (Attr x, [])]) with ((sg :: r) ++ [step_seg (Attr x, [])]).
    rewrite (size_ok _ Hd). rewrite last_last, removelast_last. cbn [step_seg s_type segtype_eqb s_value]. rewrite <- Q. rewrite R. cbn [bind].
    unfold lift, delete_attribute. cbn [o_case default_options]. rewrite <- attr_map, (attr_perm a _ x (ga_distinct _ GA) B6). cbn [step_seg s_value].
    destruct (attr_value x a) as [w|]; cbn [negb].
    - destruct (dropped_attrs a (l_attrs l) x (ga_distinct _ GA) B6) as [a' [PA TA]]. exists a'. split; auto. rewrite S1. cbn [bind]. rewrite S2. cbn [bind edit_of].
      rewrite TA, B5, B7.
      replace ((p ++ A) ++ bs "<" ++ n ++ attrs_text a' ++ (if self then bs "/>" else bs ">") ++ (if self then [] else forest_text kids ++ end_tag n) ++ B)
        with ((p ++ A) ++ start_tag n a' self ++ (if self then [] else forest_text kids ++ end_tag n) ++ B) by (unfold start_tag; now rewrite <- !app_assoc).
      rewrite get_result_some by apply start_tag_nonempty. now rewrite <- app_assoc.
    - cbn [bind edit_of]. unfold get_result. now destruct d.
  Qed.
  End Doc.
End Edits.
