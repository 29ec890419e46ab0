(** Edits that turn one element into another. *)
From Coq Require Import List Ascii String NArith ZArith Bool Lia Permutation.
From Verif Require Import GoStr ModelParser ModelPath ModelResult ModelQuery ModelBuilder SpecText SpecPath SpecTree SpecQuery SpecEdit SpecContent SpecValid SpecHistory SpecBudget SpecScript
  ProofBase ProofPath ProofTree ProofTree4 ProofTree5 ProofEdit ProofEdit2 ProofEdit3 ProofEdit4 ProofEdit5 ProofEdit6 ProofEdit7 ProofEdit9 ProofEdit8 ProofEdit11 ProofFrame ProofFrame2 ProofFrame3 ProofFrame4 ProofList ProofBudget.
Import ListNotations.
Open Scope nat_scope.

(** ** Attributes *)
Lemma put_keys : forall x v a k, In k (map fst (put_attr x v a)) <-> k = x \/ In k (map fst a).
Proof.
  intros x v a k. induction a as [|[n w] a IH]; cbn [put_attr map fst In]; [intuition|]. destruct (bytes_eqb x n) eqn:Q; cbn [map fst In].
  - apply bytes_eqb_eq in Q. subst. intuition.
  - rewrite IH. intuition.
Qed.
Lemma put_nodup : forall x v a, NoDup (map fst a) -> NoDup (map fst (put_attr x v a)).
Proof.
  intros x v. induction a as [|[n w] a IH]; intros H; cbn [put_attr map fst]; [repeat constructor; auto|]. cbn [map fst] in H. inversion H as [|? ? N D]; subst.
  destruct (bytes_eqb x n) eqn:Q; cbn [map fst]; constructor; auto. rewrite put_keys. intros [->|I]; [|contradiction]. now rewrite (proj2 (bytes_eqb_eq x x) eq_refl) in Q.
Qed.
Lemma put_in : forall x v a y w, NoDup (map fst a) -> (In (y, w) (put_attr x v a) <-> (y = x /\ w = v) \/ (y <> x /\ In (y, w) a)).
Proof.
  intros x v a y w. induction a as [|[n u] a IH]; intros H; cbn [put_attr In].
  - split; [intros [Q|[]]; injection Q as <- <-; auto|]. intros [[-> ->]|[_ []]]. now left.
  - cbn [map fst] in H. inversion H as [|? ? N D]; subst. destruct (bytes_eqb x n) eqn:Q; cbn [In].
    + apply bytes_eqb_eq in Q. subst n. split.
      * intros [Z|Z]; [injection Z as <- <-; auto|]. right. split; [|now right]. intros ->. apply N. now apply (in_map fst) in Z.
      * intros [[-> ->]|[NE [Z|Z]]]; [now left| |now right]. injection Z as <- <-. now elim NE.
    + rewrite (IH D). assert (NX : n <> x) by (intros ->; now rewrite (proj2 (bytes_eqb_eq x x) eq_refl) in Q). split.
      * intros [Z|[Z|[Z1 Z2]]]; [injection Z as <- <-; right; auto|auto|right; auto].
      * intros [Z|[Z1 [Z2|Z2]]]; auto.
Qed.
Definition put_all (b a : list (bytes * bytes)) : list (bytes * bytes) := fold_left (fun a q => put_attr (fst q) (snd q) a) b a.
Lemma put_all_nodup : forall b a, NoDup (map fst a) -> NoDup (map fst (put_all b a)).
Proof. induction b as [|q b IH]; intros a H; [exact H|]. cbn [put_all fold_left]. apply IH. now apply put_nodup. Qed.
Lemma put_all_in : forall b a y w, NoDup (map fst a) -> NoDup (map fst b) -> (In (y, w) (put_all b a) <-> In (y, w) b \/ (~ In y (map fst b) /\ In (y, w) a)).
Proof.
  induction b as [|[x v] b IH]; intros a y w Ha Hb; [cbn; tauto|]. cbn [map fst] in Hb. inversion Hb as [|? ? N D]; subst. cbn [put_all fold_left fst snd].
  fold (put_all b (put_attr x v a)). rewrite (IH _ y w (put_nodup _ _ _ Ha) D), (put_in x v a y w Ha). cbn [map fst In]. split.
  - intros [I|[I [[-> ->]|[NE J]]]]; auto. right. split; auto. intros [->|Q]; auto.
  - intros [[Q|I]|[I J]]; [injection Q as -> ->; right; split; auto|auto|]. right. split; [tauto|]. right. split; [intros ->; apply I; now left|exact J].
Qed.
Lemma put_all_perm : forall b a, NoDup (map fst a) -> NoDup (map fst b) -> incl (map fst a) (map fst b) -> Permutation b (put_all b a).
Proof.
  intros b a Ha Hb I. apply NoDup_Permutation; [now apply (NoDup_map_inv fst)|apply (NoDup_map_inv fst); now apply put_all_nodup|].
  intros [y w]. rewrite (put_all_in b a y w Ha Hb). split; [auto|]. intros [J|[NJ J]]; auto. elim NJ. apply I. now apply (in_map fst) in J.
Qed.
Definition drop_all (xs : list bytes) (a : list (bytes * bytes)) : list (bytes * bytes) := fold_left (fun a x => drop_attr x a) xs a.
Lemma drop_in : forall x a q, In q (drop_attr x a) <-> In q a /\ fst q <> x.
Proof.
  intros x a q. unfold drop_attr. rewrite filter_In. split; intros [H1 H2]; split; auto.
  - intros Z. rewrite Z in H2. now rewrite (proj2 (bytes_eqb_eq x x) eq_refl) in H2.
  - destruct (bytes_eqb (fst q) x) eqn:Q; auto. apply bytes_eqb_eq in Q. contradiction.
Qed.
Lemma drop_nodup : forall x a, NoDup (map fst a) -> NoDup (map fst (drop_attr x a)).
Proof.
  intros x a. unfold drop_attr. induction a as [|q a IH]; intros H; [exact H|]. cbn [map] in H. inversion H as [|? ? N D]; subst. cbn [filter]. destruct (negb _); auto. cbn [map]. constructor; auto.
  intros I. apply N. apply in_map_iff in I as (z & Z1 & Z2). apply filter_In in Z2 as [Z2 _]. rewrite <- Z1. now apply in_map.
Qed.
Lemma drop_all_in : forall xs a q, In q (drop_all xs a) <-> In q a /\ ~ In (fst q) xs.
Proof. induction xs as [|x xs IH]; intros a q; [cbn; tauto|]. cbn [drop_all fold_left]. fold (drop_all xs (drop_attr x a)). rewrite IH, drop_in. cbn [In]. intuition congruence. Qed.
Lemma drop_all_nodup : forall xs a, NoDup (map fst a) -> NoDup (map fst (drop_all xs a)).
Proof. induction xs as [|x xs IH]; intros a H; [exact H|]. cbn [drop_all fold_left]. apply IH. now apply drop_nodup. Qed.
Lemma unwanted_in : forall a b x, In x (unwanted a b) <-> In x (map fst a) /\ ~ In x (map fst b).
Proof.
  intros a b x. unfold unwanted. rewrite filter_In, negb_true_iff. split; intros [H1 H2]; split; auto.
  - intros I. assert (X : existsb (bytes_eqb x) (map fst b) = true) by (apply existsb_exists; exists x; split; [exact I|now apply bytes_eqb_eq]). congruence.
  - destruct (existsb _ _) eqn:Q; auto. apply existsb_exists in Q as (y & I & Q). apply bytes_eqb_eq in Q. subst. contradiction.
Qed.
Lemma wanted : forall a b, incl (map fst (drop_all (unwanted a b) a)) (map fst b).
Proof.
  intros a b x I. apply in_map_iff in I as ([y w] & Q & J). cbn [fst] in Q. subst y. apply drop_all_in in J as [J1 J2]. cbn [fst] in J2. rewrite unwanted_in in J2.
  destruct (in_dec (list_eq_dec ascii_dec) x (map fst b)) as [I|N]; auto. elim J2. split; auto. now apply (in_map fst) in J1.
Qed.

(** ** The edits *)
Lemma located_same : forall s F A nd B, located s F A nd B -> swapped s F nd [nd] F.
Proof. induction 1 as [n idx F1 nd F2 H1 H2|n idx rest F1 m a kids F2 A nd B H1 H2 H3 IH]; [exact (sw_here n idx F1 nd [nd] F2 H1 H2)|]. constructor; auto. Qed.
(** One edit of the located element. *)
Lemma step_located : forall s F A nd B nd' g miss, located s F A nd B -> Forall good F -> good nd' -> is_elem nd' = true -> name_of nd' = name_of nd -> g nd = Some [nd'] ->
  exists F', change g miss s F = Some F' /\ located s F' A nd' B /\ Forall good F' /\ has_element F'.
Proof.
  intros s F A nd B nd' g miss L G G' EL N Q. destruct (replace_located s F A nd B nd' L G G' EL N) as (F' & SW & TX & GF & L' & TN). exists F'.
  split; [eapply swapped_change; eauto|]. split; auto. split; auto. eapply located_has; eauto.
Qed.
Lemma leads_app : forall l1 l2 F F1 F2, leads l1 F F1 -> leads l2 F1 F2 -> leads (l1 ++ l2) F F2.
Proof. induction 1 as [F|o ops F F0 F1 LG A HE _ IH]; intros H; [exact H|]. cbn [app]. econstructor; eauto. Qed.
Lemma removals : forall s n K A B xs F a, located s F A (Elem n a false K) B -> Forall good F -> Forall legal (map (RemoveAttr s) xs) ->
  exists F', leads (map (RemoveAttr s) xs) F F' /\ located s F' A (Elem n (drop_all xs a) false K) B /\ Forall good F'.
Proof.
  intros s n K A B. induction xs as [|x xs IH]; intros F a L G LG; [exists F; repeat split; auto; constructor|].
  cbn [map] in LG |- *. inversion LG as [|? ? L1 L2]; subst. destruct (located_good _ _ _ _ _ L G) as [GE _]. inversion GE as [? ? ? ? GN GA GS GK| |]; subst.
  destruct (step_located s F A _ B (Elem n (drop_attr x a) false K) (without_attr x) nothing L G) as (F1 & C & L' & G' & HE); auto; [constructor; auto; now apply drop_good|].
  destruct (IH F1 _ L' G' L2) as (F2 & LD & L2' & G2). exists F2. split; auto. econstructor; [exact L1|cbn [apply_edit]; now rewrite C|exact HE|exact LD].
Qed.
Lemma settings : forall s n K A B b F a, located s F A (Elem n a false K) B -> Forall good F -> Forall legal (map (fun q => SetAttr s (fst q) (snd q)) b) ->
  List.length (put_all b a) <= 100 -> (forall b1 b2, b = b1 ++ b2 -> List.length (put_all b1 a) <= 100) ->
  exists F', leads (map (fun q => SetAttr s (fst q) (snd q)) b) F F' /\ located s F' A (Elem n (put_all b a) false K) B /\ Forall good F'.
Proof.
  intros s n K A B. induction b as [|[x v] b IH]; intros F a L G LG CT PF; [exists F; repeat split; auto; constructor|].
  cbn [map fst snd] in LG |- *. inversion LG as [|? ? L1 L2]; subst. destruct (located_good _ _ _ _ _ L G) as [GE _]. inversion GE as [? ? ? ? GN GA GS GK| |]; subst.
  pose proof (PF [(x, v)] b eq_refl) as P1. cbn [put_all fold_left fst snd] in P1. pose proof L1 as (GT & XN & XX & SZ & SM).
  destruct (step_located s F A _ B (Elem n (put_attr x v a) false K) (attr_of x v) (new_attr x v) L G) as (F1 & C & L' & G' & HE); auto; [constructor; auto; now apply put_good|cbn [attr_of]; now rewrite (proj2 (Nat.leb_le _ _) P1)|].
  destruct (IH F1 _ L' G' L2 CT) as (F2 & LD & L2' & G2). { intros b1 b2 ->. exact (PF ((x, v) :: b1) b2 eq_refl). }
  exists F2. split; auto. econstructor; [exact L1|cbn [apply_edit]; exact C|exact HE|exact LD].
Qed.
Lemma put_all_keys : forall b a k, In k (map fst (put_all b a)) <-> In k (map fst b) \/ In k (map fst a).
Proof. induction b as [|[x v] b IH]; intros a k; [cbn; tauto|]. cbn [put_all fold_left fst snd]. fold (put_all b (put_attr x v a)). rewrite IH, put_keys. cbn [map fst In]. intuition. Qed.
Lemma script_leads : forall s F A n a kids B b K, located s F A (Elem n a false kids) B -> Forall good F -> good_attrs b -> Forall good K -> Forall legal (script s a b K) ->
  exists F' b', leads (script s a b K) F F' /\ located s F' A (Elem n b' false K) B /\ Forall good F' /\ Permutation b b'.
Proof.
  intros s F A n a kids B b K L G GB GK LG. unfold script in *. inversion LG as [|? ? L1 L2]; subst. apply Forall_app in L2 as [L2 L3].
  destruct (located_good _ _ _ _ _ L G) as [GE _]. inversion GE as [? ? ? ? GN GA GS GKi| |]; subst.
  destruct (step_located s F A _ B (Elem n a false K) (with_kids K) (new_kids K) L G) as (F1 & C & L' & G1 & HE); auto; [constructor; auto; discriminate|].
  destruct (removals s n K A B _ F1 a L' G1 L2) as (F2 & LD2 & L2' & G2). set (a1 := drop_all (unwanted a b) a) in *.
  assert (D1 : NoDup (map fst a1)) by (apply drop_all_nodup, GA). pose proof (wanted a b) as W. fold a1 in W.
  assert (PF : forall b1 b2, b = b1 ++ b2 -> List.length (put_all b1 a1) <= 100).
  { intros b1 b2 Q. eapply Nat.le_trans; [|apply (ga_count _ GB)]. rewrite <- (map_length fst), <- (map_length fst b). apply NoDup_incl_length; [now apply put_all_nodup|].
    intros k I. apply put_all_keys in I as [I|I]; [rewrite Q, map_app; apply in_or_app; now left|now apply W]. }
  destruct (settings s n K A B b F2 a1 L2' G2 L3) as (F3 & LD3 & L3' & G3); [apply (PF b []); now rewrite app_nil_r|exact PF|].
  exists F3, (put_all b a1). split; [|split; auto; split; auto]; [|apply put_all_perm; auto; apply (ga_distinct _ GB)].
  econstructor; [exact L1|cbn [apply_edit content_nodes]; exact C|exact HE|]. eapply leads_app; eauto.
Qed.
(** Opening a self-closing element. *)
Lemma change_open : forall s F A n a sc kids B, located s F A (Elem n a sc kids) B -> forall g miss t kids', t <> [] -> change g miss t kids = Some kids' ->
  exists F', change g miss (s ++ t) F = Some F' /\ located s F' A (Elem n a false kids') B.
Proof.
  intros s F A n a sc kids B L. remember (Elem n a sc kids) as nd eqn:Q. revert n a sc kids Q.
  induction L as [m idx F1 nd F2 H1 H2|m idx rest F1 m' a' kids0 F2 A nd B H1 H2 L IH]; intros n a sc kids Q g miss t kids' NT C.
  - subst nd. destruct t as [|s t]; [easy|]. exists (F1 ++ Elem n a false kids' :: F2). change ([(m, idx)] ++ s :: t) with ((m, idx) :: s :: t). split.
    + rewrite change_step, <- H2, nth_at, edit_nth_at by auto. cbn [down]. exact (f_equal (fun w => option_map (fun l => F1 ++ l ++ F2) (option_map (fun k => [Elem n a false k]) w)) C).
    + apply loc_here; auto.
  - destruct (IH _ _ _ _ Q g miss t kids' NT C) as (K & C' & L'). destruct rest as [|s rest]; [inversion L|]. exists (F1 ++ Elem m' a' false K :: F2).
    change (((m, idx) :: s :: rest) ++ t) with ((m, idx) :: s :: (rest ++ t)). split.
    + rewrite change_step, <- H2, nth_at, edit_nth_at by auto. cbn [down]. exact (f_equal (fun w => option_map (fun l => F1 ++ l ++ F2) (option_map (fun k => [Elem m' a' false k]) w)) C').
    + apply loc_down; auto.
Qed.
Lemma open_script_leads : forall s F A n a B m b K, located s F A (Elem n a true []) B -> Forall good F -> Forall top_node F -> good_attrs b -> Forall good K -> Forall legal (open_script s m a b K) ->
  exists F' b', leads (open_script s m a b K) F F' /\ located s F' A (Elem n b' false K) B /\ Forall good F' /\ Permutation b b'.
Proof.
  intros s F A n a B m b K L G T GB GK LG. unfold open_script in *. inversion LG as [|? ? L1 L2]; subst.
  destruct (change_open s F A n a true [] B L (with_kids (content_nodes (AsText []))) (new_kids (content_nodes (AsText []))) [(m, None)] _ ltac:(discriminate) eq_refl) as (F1 & C & L').
  assert (AP : apply_edit (SetContent (s ++ [(m, None)]) (AsText [])) F = Some F1) by exact C.
  destruct (apply_good _ _ _ L1 G T AP) as [G1 _].
  destruct (script_leads s F1 A n a _ B b K L' G1 GB GK L2) as (F2 & b' & LD & L2' & G2 & P). exists F2, b'. split; auto.
  econstructor; [exact L1|exact AP|eapply located_has; eauto|exact LD].
Qed.
(** The same forest with the attributes in the given order. *)
Lemma located_order : forall s F A n b b' K B, located s F A (Elem n b' false K) B -> Forall good F -> Permutation b b' ->
  exists F', located s F' A (Elem n b false K) B /\ Forall2 same F' F /\ Forall good F'.
Proof.
  intros s F A n b b' K B L G P. destruct (located_good _ _ _ _ _ L G) as [GE _]. inversion GE as [? ? ? ? GN GA GS GK| |]; subst.
  destruct (replace_located s F A _ B (Elem n b false K) L G) as (F' & SW & _ & GF & L' & _); auto; [constructor; auto; eapply good_attrs_perm; [apply Permutation_sym; exact P|exact GA]|].
  exists F'. split; auto. split; [|exact GF]. eapply swapped_same; [exact G|exact SW|eapply located_same; exact L|]. constructor; [|constructor]. constructor; [exact P|apply same_all_refl].
Qed.
(** The attributes of a document of one element. *)
Lemma settings_root : forall n K b a, good (Elem n a false K) -> Forall legal (map (fun q => SetAttr [(n, None)] (fst q) (snd q)) b) ->
  (forall b1 b2, b = b1 ++ b2 -> List.length (put_all b1 a) <= 100) ->
  leads (map (fun q => SetAttr [(n, None)] (fst q) (snd q)) b) [Elem n a false K] [Elem n (put_all b a) false K].
Proof.
  intros n K. induction b as [|[x v] b IH]; intros a G LG PF; [constructor|].
  cbn [map fst snd] in LG |- *. inversion LG as [|? ? L1 L2]; subst. inversion G as [? ? ? ? GN GA GS GK| |]; subst.
  pose proof (PF [(x, v)] b eq_refl) as P1. cbn [put_all fold_left fst snd] in P1. pose proof L1 as (GT & XN & XX & SZ & SM).
  pose proof (loc_here n None [] (Elem n (put_attr x v a) false K) [] (selects_self n) eq_refl) as LH. pose proof (located_has _ _ _ _ _ LH eq_refl) as HE.
  eapply leads_cons; [exact L1| |exact HE|].
  - cbn [apply_edit]. eapply swapped_change; [exact (sw_here n None [] (Elem n a false K) [Elem n (put_attr x v a) false K] [] (selects_self n) eq_refl)|cbn [attr_of]; now rewrite (proj2 (Nat.leb_le _ _) P1)].
  - cbn [put_all fold_left fst snd]. apply IH; auto; [apply good_elem; auto; now apply put_good|]. intros b1 b2 ->. exact (PF ((x, v) :: b1) b2 eq_refl).
Qed.
Section Nothing.
  Variable E : env.
  Variable fmt_g : f64 -> bytes.
  Hypothesis Hord : forall k l, Permutation l (e_ord E k l).
  (** The first edit of no document. *)
  Lemma create_root : forall m c, good_tpath [(m, None)] TheElement -> good_content c ->
    call E fmt_g (SetContent [(m, None)] c) [] = Ok (forest_text [Elem m [] false (content_nodes c)], None).
  Proof.
    intros m c GT GC. pose proof GT as [GS _ _]. pose proof (segs_parse _ _ GT) as P. cbn [call].
    destruct (content_call E fmt_g c [] (tpath [(m, None)] TheElement) GC) as (v & NV & VX & SV & ->).
    assert (Z0 : (blen ([] ++ forest_text []) <= 10485760)%N) by (vm_compute; discriminate).
    unfold set, set_opts. change (MaxDocumentSize <? blen [])%N with false. cbn iota.
    assert (X : (let* segs := parse_path_opts default_options (tpath [(m, None)] TheElement) in
        match segs with [] => Ok ([], Some ErrInvalidPath) | _ :: _ => edit_of [] (set_element E fmt_g default_options [] segs v) end) =
        Ok (forest_text [Elem m [] false (content_nodes c)], None)); [|destruct v; try exact X; contradiction].
    rewrite (parse_default _ _ P). cbn [bind]. change [(m, None)] with (by_name [m]) at 1 2. rewrite segs_names. cbn [map]. unfold set_element. rewrite VX.
    rewrite (proj2 (N.ltb_ge MaxValueSize _) SV). change (MaxDocumentSize <? blen [])%N with false. cbn iota.
    change (check_intents [elem_seg m]) with IntentsOk. cbn iota. change (segtype_eqb (s_type (last [elem_seg m] (mkSeg SElem [] 0%Z false None false [] []))) SAttr) with false. cbn iota.
    pose proof (find_none E Hord [] [] pro_nil (Forall_nil _) Z0 (by_name [m]) [3] GS ltac:(discriminate)) as R. cbn [app forest_text flat_map] in R. rewrite segs_names in R. cbn [map] in R. rewrite R.
    - cbn [bind]. unfold create_element. cbn [o_indent default_options build_path elem_seg s_type s_value bind edit_of get_result app].
      rewrite forest_one, node_elem. unfold open_tag, close_tag, start_tag, end_tag. cbn [attrs_text flat_map app]. rewrite <- !app_assoc. reflexivity.
    - intros A nd B L. inversion L; match goal with Q : _ ++ _ :: _ = [] |- _ => symmetry in Q; now apply app_cons_not_nil in Q end.
  Qed.
End Nothing.
