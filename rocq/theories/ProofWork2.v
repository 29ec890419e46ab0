(** Lemmas for C80: a bound on the operations of every query. *)
From Coq Require Import List Ascii String NArith ZArith Bool Lia SpecFloat Permutation.
From Verif Require Import GoStr ModelParser ModelPattern ModelPath ModelPretty ModelResult ModelQuery ModelWork SpecText SpecPath SpecTree SpecGrammar SpecScan SpecWork
  ProofBase ProofScan ProofFuel ProofPlain3 ProofGrammar2 ProofSight3 ProofModest ProofWork.
Import ListNotations.

(** ** Brackets *)
Lemma brackets_nil : brackets [] = 0%N.
Proof. reflexivity. Qed.
Lemma brackets_cons : forall c s, brackets (c :: s) = ((if Ascii.eqb "<" c then 1 else 0) + brackets s)%N.
Proof. intros c s. unfold brackets. cbn [filter]. destruct (Ascii.eqb "<" c); cbn [List.length]; lia. Qed.
Lemma brackets_app : forall a b, brackets (a ++ b) = (brackets a + brackets b)%N.
Proof. induction a as [|c a IH]; intros b; [reflexivity|]. cbn [app]. rewrite !brackets_cons, IH. lia. Qed.
Lemma brackets_esc : forall v, brackets (esc v) = 0%N.
Proof.
  induction v as [|c v IH]; [reflexivity|]. cbn [esc flat_map]. fold (esc v). rewrite brackets_app, IH, N.add_0_r.
  destruct c as [[] [] [] [] [] [] [] []]; reflexivity.
Qed.
Lemma brackets_trim : forall s, (brackets (trim_space s) <= brackets s)%N.
Proof. intros s. destruct (trim_space_part s) as (p & q & H). rewrite H at 2. rewrite !brackets_app. lia. Qed.
Lemma cut_brackets : forall P s t r, cut P s t r -> (brackets t + brackets r <= brackets s)%N.
Proof. intros P s t r [t' r' _ _ _|t' _ _|t' r' _ _ _]; rewrite ?brackets_app, ?brackets_nil; lia. Qed.
Lemma rest_brackets : forall s, (brackets (rest_of s) <= brackets s)%N.
Proof. intros [|c s]; cbn [rest_of]; rewrite ?brackets_cons; lia. Qed.
Lemma gap_brackets : forall s r, gap s r -> (brackets r <= brackets s)%N.
Proof. intros s r (w & -> & _). rewrite brackets_app. lia. Qed.
Lemma maybe_brackets : forall c s b r, maybe c s b r -> (brackets r <= brackets s)%N.
Proof. intros c s b r [r'|r' _]; rewrite ?brackets_cons; lia. Qed.
Fixpoint keys_brackets (l : list (bytes * bytes)) : N := match l with [] => 0 | a :: l' => brackets (fst a) + keys_brackets l' end%N.
Lemma attributes_brackets : forall k s l r, attributes k s l r -> (keys_brackets l + brackets r <= brackets s)%N.
Proof.
  induction 1 as [s r G|k s r G O|k s s1 r G N1 N2 C|k s s1 x s2 r G N1 C N2 G2 N3|k s s1 x s2 s3 q s4 v s5 d l r G N1 C N2 G2 G3 Q C2 D A IH
    |k s s1 x s2 s3 s4 v s5 d l r G N1 C N2 G2 G3 Q C2 D A IH]; cbn [keys_brackets fst]; apply gap_brackets in G; try lia.
  - apply cut_brackets in C. rewrite brackets_nil in C. lia.
  - apply cut_brackets in C. apply gap_brackets in G2. lia.
  - apply cut_brackets in C. apply gap_brackets in G2. apply gap_brackets in G3. apply cut_brackets in C2. pose proof (rest_brackets s5). rewrite brackets_cons in *. lia.
  - apply cut_brackets in C. apply gap_brackets in G2. apply gap_brackets in G3. apply cut_brackets in C2. rewrite brackets_cons in *. lia.
Qed.
Lemma keys_app : forall a b, keys_brackets (a ++ b) = (keys_brackets a + keys_brackets b)%N.
Proof. induction a as [|x a IH]; intros b; [reflexivity|]. cbn [app keys_brackets]. rewrite IH. lia. Qed.
Lemma keys_sub : forall m l, NoDup (map fst m) -> (forall a, In a m -> In a l) -> (keys_brackets m <= keys_brackets l)%N.
Proof.
  induction m as [|a m IH]; intros l N H; [cbn; lia|]. inversion N as [|? ? N1 N2]; subst.
  destruct (in_split a l (H a (or_introl eq_refl))) as (l1 & l2 & ->).
  specialize (IH (l1 ++ l2) N2). cbn [keys_brackets]. rewrite keys_app in *. cbn [keys_brackets].
  assert (G : (keys_brackets m <= keys_brackets l1 + keys_brackets l2)%N); [|lia]. apply IH.
  intros b I. assert (B : b <> a) by (intros ->; apply N1; now apply in_map). specialize (H b (or_intror I)). apply in_app_or in H as [H|[H|H]]; [|congruence|]; apply in_or_app; auto.
Qed.
Lemma attrs_brackets : forall m, brackets (attrs_text m) = keys_brackets m.
Proof.
  induction m as [|[x v] m IH]; [reflexivity|]. unfold attrs_text in *. cbn [flat_map keys_brackets fst snd]. rewrite brackets_app, IH. unfold attr_text. cbn [fst snd]. rewrite !brackets_app, ?brackets_esc. cbn. lia.
Qed.
Lemma tag_brackets : forall s n m self gt r, tag s n m self gt r -> (brackets n + brackets (attrs_text m) + brackets r <= brackets s)%N.
Proof.
  intros s n m self gt r [s' n' s1 l s2 m' self' s3 gt' r' C A S M1 M2]. apply cut_brackets in C. apply attributes_brackets in A. apply maybe_brackets in M1. apply maybe_brackets in M2.
  rewrite attrs_brackets. pose proof (keys_sub m' l (proj1 S) (proj2 (settled_modest _ _ S))). lia.
Qed.
Lemma closes_brackets : forall e n, closes e n -> (brackets n <= brackets e)%N.
Proof. intros e n (r & H & _). pose proof (brackets_trim e) as B. rewrite H, brackets_app in B. lia. Qed.
Lemma inner_brackets : forall n d s t r, inner n d s t r -> (brackets t + brackets r <= brackets s)%N.
Proof.
  induction 1 as [d|d c s t r N I IH|d|d s t r I IH|s e r C K|d s e r0 t r C K I IH|d s e x r0 t r C K N I IH|d c s x m self gt r0 t r N T I IH].
  - cbn. lia.
  - rewrite !brackets_cons. lia.
  - cbn. lia.
  - change (bs "<!" ++ s) with ("<"%char :: "!"%char :: s). rewrite (brackets_cons "<" t), (brackets_cons "<" ("!"%char :: s)). lia.
  - apply cut_brackets in C. pose proof (rest_brackets r). rewrite brackets_app, brackets_nil. lia.
  - apply cut_brackets in C. pose proof (rest_brackets r0). apply closes_brackets in K. unfold end_tag. rewrite !brackets_app. change (brackets (bs "</")) with 1%N. change (brackets (bs ">")) with 0%N. lia.
  - apply cut_brackets in C. pose proof (rest_brackets r0). apply closes_brackets in K. unfold end_tag. rewrite !brackets_app. change (brackets (bs "</")) with 1%N. change (brackets (bs ">")) with 0%N. lia.
  - apply tag_brackets in T. rewrite brackets_cons. rewrite !brackets_app.
    assert (X : forall b t, brackets t = 0%N -> brackets (mark b t) = 0%N) by (intros [|] u; auto).
    rewrite (X self (bs "/") eq_refl), (X gt (bs ">") eq_refl). change (brackets (bs "<")) with 1%N. change (Ascii.eqb "<" "<") with true. cbv iota. lia.
Qed.
Lemma doctype_brackets : forall s r, doctype_rest s r -> (brackets r <= brackets s)%N.
Proof. intros s r [u r' _ _|s' _]; rewrite ?brackets_app, ?brackets_cons, ?brackets_nil; lia. Qed.
Lemma comment_brackets : forall s r, comment_rest s r -> (brackets r <= brackets s)%N.
Proof. intros s r [u r' _|u x y _]; rewrite !brackets_app; lia. Qed.
Lemma leads_brackets : forall s o, leads s o -> forall s', o = Some s' -> (brackets s' <= brackets s)%N.
Proof.
  induction 1 as [|c s o N L IH| |c s N|d s r o D R L IH|s r o R L IH|s o N1 N2 L IH|c s t r o I C L IH]; intros s' E; try discriminate.
  - apply IH in E. rewrite brackets_cons. lia.
  - injection E as <-. lia.
  - apply IH in E. apply doctype_brackets in R. rewrite brackets_app. lia.
  - apply IH in E. apply comment_brackets in R. rewrite brackets_app in *. change (brackets (bs "--")) with 0%N in R. lia.
  - apply IH in E. rewrite brackets_app. lia.
  - apply IH in E. apply cut_brackets in C. pose proof (rest_brackets r). lia.
Qed.
Fixpoint weight (l : list elem) : N := match l with [] => 0 | e :: l' => 1 + brackets (e_content e) + weight l' end%N.
Lemma sees_weight : forall s l, sees s l -> (weight l <= brackets s)%N.
Proof.
  induction 1 as [s L|s s1 n m gt r l L T S IH|s s1 n m gt r t r' l L T I S IH]; cbn [weight e_content]; [lia| |].
  - apply leads_brackets with (s' := "<"%char :: s1) in L; auto. apply tag_brackets in T. rewrite brackets_cons in L. change (Ascii.eqb "<" "<") with true in L. cbv iota in L. rewrite brackets_nil. lia.
  - apply leads_brackets with (s' := "<"%char :: s1) in L; auto. apply tag_brackets in T. apply inner_brackets in I. rewrite brackets_cons in L. change (Ascii.eqb "<" "<") with true in L. cbv iota in L. lia.
Qed.
Lemma weight_app : forall a b, weight (a ++ b) = (weight a + weight b)%N.
Proof. induction a as [|x a IH]; intros b; [reflexivity|]. cbn [app weight]. rewrite IH. lia. Qed.
Lemma weight_in : forall e l, In e l -> (1 + brackets (e_content e) <= weight l)%N.
Proof. intros e l H. apply in_split in H as (a & b & ->). rewrite weight_app. cbn [weight]. lia. Qed.
Lemma weight_filter : forall f l, (weight (filter f l) <= weight l)%N.
Proof. intros f l. induction l as [|x l IH]; [cbn; lia|]. cbn [filter]. destruct (f x); cbn [weight]; lia. Qed.
Lemma weight_firstn : forall n l, (weight (firstn n l) <= weight l)%N.
Proof. intros n l. rewrite <- (firstn_skipn n l) at 2. rewrite weight_app. lia. Qed.

(** ** A bound *)
Fixpoint K (d : nat) : N := match d with O => 0 | S d' => 1 + 101 * K d' end%N.
Lemma K_mono : forall d d', d <= d' -> (K d <= K d')%N.
Proof. intros d d' H. induction H as [|d' H IH]; [lia|]. cbn [K]. lia. Qed.
Lemma K_power : forall d, (K d <= 102 ^ N.of_nat d)%N.
Proof.
  induction d as [|d IH]; [cbn; lia|]. rewrite Nnat.Nat2N.inj_succ, N.pow_succ_r'. cbn [K].
  assert (1 <= 102 ^ N.of_nat d)%N by (pose proof (N.pow_nonzero 102 (N.of_nat d)); lia). lia.
Qed.
Definition within {A} (k : N) (m : W A) : Prop := forall x c, m = Ok (x, c) -> (c <= k)%N.
Lemma within_ret : forall A k (x : A), within k (wret x).
Proof. intros A k x y c H. injection H as _ <-. lia. Qed.
Lemma within_lift : forall A k (m : Res A), within k (wlift m).
Proof. intros A k m y c H. apply wlift_ok in H as [_ ->]. lia. Qed.
Lemma within_free : forall A k (m : W A), free m -> within k m.
Proof. intros A k m H x c Q. rewrite (H _ _ Q). lia. Qed.
Lemma within_bind : forall A B k (m : W A) (f : A -> W B), (exists k1 k2, within k1 m /\ (forall x c, m = Ok (x, c) -> within k2 (f x)) /\ (k1 + k2 <= k)%N) -> within k (wbind m f).
Proof. intros A B k m f (k1 & k2 & M & F & L) y c H. apply wbind_ok in H as (x & c1 & c2 & H1 & H2 & ->). pose proof (M _ _ H1). pose proof (F _ _ H1 _ _ H2). lia. Qed.
Lemma within_then : forall A B k (m : W A) (f : A -> W B), within k m -> (forall x, free (f x)) -> within k (wbind m f).
Proof. intros A B k m f M F. apply within_bind. exists k, 0%N. split; auto. split; [|lia]. intros x c _. apply within_free, F. Qed.
Lemma within_after : forall A B k (m : W A) (f : A -> W B), free m -> (forall x c, m = Ok (x, c) -> within k (f x)) -> within k (wbind m f).
Proof. intros A B k m f M F. apply within_bind. exists 0%N, k. split; [now apply within_free|]. split; [auto|lia]. Qed.
Lemma within_le : forall A k k' (m : W A), within k m -> (k <= k')%N -> within k' m.
Proof. intros A k k' m H L x c Q. specialize (H _ _ Q). lia. Qed.
Lemma K_add : forall a b, (K a + K b <= K (a + b))%N.
Proof. induction a as [|a IH]; intros b; [cbn [K Nat.add]; lia|]. cbn [K Nat.add]. specialize (IH b). pose proof (K_mono b (a + b) ltac:(lia)). lia. Qed.
(** At most [d] searches, those of the conditions included. *)
Definition calmed (d : nat) (segs : list seg) : Prop := exists l k, segs = map seg_of l /\ depths l k /\ k <= d.
Lemma calmed_none : forall d, calmed d [].
Proof. intros d. exists [], 0. split; auto. split; [constructor|lia]. Qed.
Lemma calmed_tail : forall d sg segs, calmed d (sg :: segs) -> calmed d segs.
Proof.
  intros d sg segs (l & k & E & C & S). destruct l as [|st l]; [discriminate|]. injection E as -> ->.
  inversion C; subst; eexists _, _; (split; [reflexivity|split; [eassumption|lia]]).
Qed.
Lemma calmed_deep : forall d sg segs, calmed d (sg :: segs) -> s_type sg = SWild -> s_wild sg = true -> exists d', d = S d' /\ calmed d' segs.
Proof.
  intros d sg segs (l & k & E & C & S) T Wd. destruct l as [|[st ms] l]; [discriminate|]. injection E as -> ->. destruct st; try discriminate.
  inversion C; subst; [congruence|]. destruct d as [|d]; [lia|]. exists d. split; auto. eexists _, _. split; [reflexivity|]. split; [eassumption|lia].
Qed.
Lemma calmed_where : forall d sg segs f, calmed d (sg :: segs) -> s_filter sg = Some f -> exists d1 d2, d1 + d2 <= d /\ calmed d2 segs /\
  (forall fs, parse_path (f_path f) = Ok fs -> (forall x, f_path f <> "@"%char :: x) -> calmed d1 fs).
Proof.
  intros d sg segs f (l & k & E & C & S) F. destruct l as [|[st ms] l]; [discriminate|]. injection E as -> ->. destruct st; try discriminate. cbn in F. injection F as <-. cbn [f_path] in *.
  inversion C as [|? ? ? ? D NW|? ? ? ? ? ? k0 H0|? ? ? ? ? ? k0 o M O H0|? ? ? ? ? ? k0 l' k' M A H1 H0|]; subst.
  - exfalso. eapply NW. reflexivity.
  - exists 0, k. split; [lia|]. split; [exists l, k; auto|]. intros fs _ A. exfalso. eapply A. reflexivity.
  - exists 0, k. split; [lia|]. split; [exists l, k; auto|]. intros fs P _. apply path_means_res in M. rewrite P in M. destruct O as [->| ->]; cbn in M; [injection M as ->; apply calmed_none|discriminate].
  - exists k', k0. split; [lia|]. split; [exists l, k0; auto|]. intros fs P _. apply path_means_res in M. rewrite P in M. cbn in M. injection M as ->. exists l', k'. auto.
Qed.

Section Upper.
  Variable E : env.
  Hypothesis Hord : forall k l, Permutation l (e_ord E k l).
  Variable w : wrec.
  Hypothesis WB : forall d key root s segs, calmed d segs -> within (K d * (1 + brackets s)) (w key root s segs).
  Lemma eval_cost : forall d key f e, (forall fs, parse_path (f_path f) = Ok fs -> (forall x, f_path f <> "@"%char :: x) -> calmed d fs) ->
    within (K d * (1 + brackets (e_content e))) (weval_filter_opt E w key (Some f) e).
  Proof.
    intros d key f e H. cbn [weval_filter_opt]. unfold weval_filter. destruct (f_path f) as [|c n] eqn:P.
    - apply within_after; [apply free_lift|]. intros l k L. apply wlift_ok in L as [L _]. apply within_then; [|intros; apply free_ret]. apply WB. apply H; auto. intros x; discriminate.
    - destruct (Ascii.eqb c "@") eqn:A; [destruct (map_get n (e_attrs e)); apply within_ret|].
      apply within_after; [apply free_lift|]. intros l k L. apply wlift_ok in L as [L _]. apply within_then; [|intros; apply free_ret]. apply WB. apply H; auto.
      intros x X. injection X as -> _. discriminate.
  Qed.
  Lemma filter_cost : forall d sg rest, calmed d (sg :: rest) -> exists d1 d2, d1 + d2 <= d /\ calmed d2 rest /\
    forall key l, within (K d1 * weight l) (wfilter_elems E w key (s_filter sg) l) /\ forall k, within (K d1 * weight l) (wfilter_elems_upto k E w key (s_filter sg) l).
  Proof.
    intros d sg rest H. assert (G : exists d1 d2, d1 + d2 <= d /\ calmed d2 rest /\ forall key e, within (K d1 * (1 + brackets (e_content e))) (weval_filter_opt E w key (s_filter sg) e)).
    { destruct (s_filter sg) as [f|] eqn:F.
      - destruct (calmed_where _ _ _ _ H F) as (d1 & d2 & H1 & H2 & H3). exists d1, d2. split; auto. split; auto. intros key e. now apply eval_cost.
      - exists 0, d. split; [lia|]. split; [eapply calmed_tail; eauto|]. intros. apply within_ret. }
    destruct G as (d1 & d2 & H1 & H2 & G). exists d1, d2. split; auto. split; auto. intros key l. split.
    - induction l as [|e l IH]; [apply within_ret|]. cbn [wfilter_elems weight]. apply within_bind. exists (K d1 * (1 + brackets (e_content e)))%N, (K d1 * weight l)%N.
      split; [apply G|]. split; [|lia]. intros b c _. apply within_then; [exact IH|]. intros; apply free_ret.
    - induction l as [|e l IH]; intros k; [apply within_ret|]. cbn [wfilter_elems_upto weight]. apply within_bind. exists (K d1 * (1 + brackets (e_content e)))%N, (K d1 * weight l)%N.
      split; [apply G|]. split; [|lia]. intros b c _. destruct b; [|apply IH]. destruct k as [|[|k]]; try apply within_ret. apply within_then; [apply IH|]. intros; apply free_ret.
  Qed.
  Lemma filter_weight : forall key f l l' c, wfilter_elems E w key f l = Ok (l', c) -> (weight l' <= weight l)%N.
  Proof.
    intros key f l. induction l as [|e l IH]; intros l' c H; cbn [wfilter_elems] in H; [apply wret_ok in H as [-> _]; cbn; lia|].
    apply wbind_ok in H as (b & c1 & c2 & _ & H & _). apply wbind_ok in H as (r & c3 & c4 & H1 & H & _). apply wret_ok in H as [-> _]. apply IH in H1.
    destruct b; cbn [weight]; lia.
  Qed.
  Lemma filter_upto_weight : forall key f l n l' c, wfilter_elems_upto n E w key f l = Ok (l', c) -> (weight l' <= weight l)%N.
  Proof.
    intros key f l. induction l as [|e l IH]; intros n l' c H; cbn [wfilter_elems_upto] in H; [apply wret_ok in H as [-> _]; cbn; lia|].
    apply wbind_ok in H as (b & c1 & c2 & _ & H & _). cbn [weight]. destruct b; [|apply IH in H; lia]. destruct n as [|[|n]]; try (apply wret_ok in H as [-> _]; cbn [weight]; lia).
    apply wbind_ok in H as (r & c3 & c4 & H1 & H & _). apply wret_ok in H as [-> _]. apply IH in H1. cbn [weight]. lia.
  Qed.
  Lemma below_cost : forall d key root e rest, calmed d rest -> within (K d * (1 + brackets (e_content e))) (w key root (e_content e) rest).
  Proof. intros. now apply WB. Qed.
  Lemma first_cost : forall d key e sg rest, calmed d rest -> within (K d * (1 + brackets (e_content e))) (wprocess_first E w key e sg rest).
  Proof.
    intros d key e sg [|nx more] H; [apply within_ret|]. cbn [wprocess_first].
    destruct (s_type nx); try (apply WB; exact H); try apply within_ret; [destruct (map_get _ _); apply within_ret|apply within_lift].
  Qed.
  Lemma each_cost : forall d key l rest, calmed d rest -> within (K d * weight l) (wquery_each w key l rest).
  Proof.
    intros d key l rest H. induction l as [|e l IH]; [apply within_ret|]. cbn [wquery_each weight]. apply within_bind. exists (K d * (1 + brackets (e_content e)))%N, (K d * weight l)%N.
    split; [apply WB, H|]. split; [|lia]. intros x c _. apply within_then; [exact IH|]. intros; apply free_ret.
  Qed.
  Lemma all_cost : forall d key l sg rest, calmed d rest -> within (K d * weight l) (wprocess_all E w key l sg rest).
  Proof.
    intros d key l sg [|nx more] H; [apply within_ret|]. cbn [wprocess_all].
    destruct (s_type nx); try apply within_lift; try (destruct (flat_map _ l); apply within_ret); try (destruct (map _ l); apply within_ret);
      (apply within_then; [apply each_cost, H|]; intros [|x xs]; apply free_ret).
  Qed.
  Lemma route_cost : forall d key l sg rest, calmed d rest -> within (K d * weight l) (wroute_matches E w key l sg rest).
  Proof.
    intros d key [|e l] sg rest H; [apply within_ret|]. cbn [wroute_matches]. destruct (s_all sg); [now apply all_cost|]. eapply within_le; [apply first_cost; exact H|].
    cbn [weight]. apply N.mul_le_mono_l. lia.
  Qed.
  Lemma wild_each_cost : forall d key l rest, calmed d rest -> within (K d * weight l) (wwild_each w key l rest).
  Proof.
    intros d key l rest H. induction l as [|e l IH]; [apply within_ret|]. cbn [wwild_each weight]. apply within_bind. exists (K d * (1 + brackets (e_content e)))%N, (K d * weight l)%N.
    split; [apply WB, H|]. split; [|lia]. intros x c _. apply within_then; [exact IH|]. intros; apply free_ret.
  Qed.
  Lemma wildcard_cost : forall d key l rest, calmed d rest -> within (K d * weight l) (whandle_wildcard E w key l rest).
  Proof.
    intros d key l [|nx more] H; [apply within_ret|]. cbn [whandle_wildcard].
    destruct (s_type nx); try (destruct more; [destruct (flat_map _ l)|]; apply within_ret); try (destruct (map _ l); apply within_ret);
      (apply within_then; [apply wild_each_cost, H|]; intros [[|x xs] b]; apply free_ret).
  Qed.
  Lemma add_cost : forall d key e rest, calmed d rest -> within (K d * (1 + brackets (e_content e))) (wsearch_add E w key e rest).
  Proof.
    intros d key e [|nx more] H; [apply within_ret|]. cbn [wsearch_add].
    destruct (s_type nx); try apply within_ret; (apply within_then; [first [apply WB, H|apply within_lift]|]; intros; apply free_ret).
  Qed.
  Lemma scan_weight : forall key s es, scan_res E key s = Ok es -> (weight es <= brackets s)%N.
  Proof. intros key s es H. apply sees_weight. eapply scan_sees; eauto. Qed.
  Lemma search_cost : forall d n key target rest st s, calmed d rest -> within ((1 + N.of_nat n * K d) * (1 + brackets s)) (wrsearch E w n key target rest st s).
  Proof.
    intros d. induction n as [|n IH]; intros key target rest st s H st' c Q; cbn [wrsearch] in Q; apply wtick_ok in Q as (c' & Q & ->); cbv zeta in Q.
    - apply wret_ok in Q as [-> ->]. lia.
    - destruct (_ || _); [apply wret_ok in Q as [-> ->]; lia|].
      apply wbind_ok in Q as (es & c1 & c2 & Q1 & Q & ->). apply wlift_ok in Q1 as [Q1 ->]. apply scan_weight in Q1.
      assert (G : (c2 <= (1 + N.of_nat (S n) * K d) * weight es)%N).
      { clear Q1. revert Q. generalize ((fst st + 1)%N, snd st). revert c2. induction es as [|e es IHe]; intros c2 s0 Q; [apply wret_ok in Q as [-> ->]; lia|].
        apply wbind_ok in Q as (st1 & ca & cb & Q1 & Q & ->). cbn [weight].
        assert (G : (ca <= (1 + N.of_nat n * K d) * (1 + brackets (e_content e)))%N).
        { destruct (e_content e) as [|b0 l0] eqn:C; [apply wret_ok in Q1 as [-> ->]; lia|]. rewrite <- C in *. eapply IH; eauto. }
        assert (G2 : (cb <= K d * (1 + brackets (e_content e)) + (1 + N.of_nat (S n) * K d) * weight es)%N).
        { destruct (_ <=? _)%N; [apply wret_ok in Q as [-> ->]; lia|]. destruct (seg_matches _ _).
          - destruct (Nat.leb _ _); [apply wret_ok in Q as [-> ->]; lia|]. apply wbind_ok in Q as (add & cc & cd & Q2 & Q & ->).
            apply (add_cost d) in Q2; [|exact H]. apply IHe in Q. lia.
          - apply IHe in Q. lia. }
        assert (X : forall a b z k, (ca <= (1 + a * k) * (1 + b))%N -> (cb <= k * (1 + b) + (1 + N.succ a * k) * z)%N -> (ca + cb <= (1 + N.succ a * k) * (1 + b + z))%N) by (intros; nia).
        rewrite Nnat.Nat2N.inj_succ in *. apply X; assumption. }
      assert (X : forall a b z, (c2 <= (1 + a) * z)%N -> (z <= b)%N -> (1 + (0 + c2) <= (1 + a) * (1 + b))%N) by (intros; nia). eapply X; eassumption.
  Qed.
  Lemma root_cost : forall d key l nx more, calmed d more -> within (K d * weight l) (wroot_array E w key l nx more).
  Proof.
    intros d key l nx more H. assert (G : forall e rest key, In e l -> calmed d rest -> within (K d * weight l) (w key false (e_content e) rest)).
    { intros e rest key' I C. eapply within_le; [apply WB; exact C|]. apply N.mul_le_mono_l. now apply weight_in. }
    destruct l as [|e l]; [apply within_ret|]. cbn [wroot_array]. destruct (s_type nx); try apply within_ret; [|apply within_lift].
    unfold nth_elem. destruct (_ && _)%bool; [|apply within_ret]. destruct (nth_error (e :: l) _) as [e'|] eqn:X; [|apply within_ret]. apply nth_error_In in X.
    destruct more as [|n2 more]; [apply within_ret|]. destruct (s_type n2); try (apply G; assumption); apply within_ret.
  Qed.
  Lemma array_cost : forall d key l nx more, calmed d more -> within (K d * weight l) (warray_op E w key l nx more).
  Proof.
    intros d key l nx more H. assert (G : forall e rest key, In e l -> calmed d rest -> within (K d * weight l) (w key false (e_content e) rest)).
    { intros e rest key' I C. eapply within_le; [apply WB; exact C|]. apply N.mul_le_mono_l. now apply weight_in. }
    destruct l as [|e l]; [apply within_ret|]. cbn [warray_op]. destruct (s_type nx); try apply within_ret.
    unfold nth_elem. destruct (_ && _)%bool; [|apply within_ret]. destruct (nth_error (e :: l) _) as [e'|] eqn:X; [|apply within_ret]. apply nth_error_In in X.
    destruct more as [|n2 more]; [apply within_ret|]. destruct (s_type n2); try (apply G; assumption); apply within_ret.
  Qed.
  Lemma loop_cost : forall d key l sg rest, calmed d rest -> within (K d * weight l) (wfirst_loop E w key l sg rest).
  Proof.
    intros d key l sg rest H. induction l as [|e l IH]; [apply within_ret|]. cbn [wfirst_loop]. destruct rest as [|nx more]; [apply within_ret|].
    destruct (s_type nx); try apply within_ret; try (destruct (map_get _ _); [destruct more|]; apply within_ret);
      (apply within_bind; exists (K d * (1 + brackets (e_content e)))%N, (K d * weight l)%N; split; [apply WB, H|split; [|cbn [weight]; lia]]; intros x c _;
       destruct (is_null x); [exact IH|apply within_ret]).
  Qed.
  Lemma element_cost : forall d key es sg rest, calmed d rest -> within (K d * weight es) (wexec_element E w key es sg rest).
  Proof.
    intros d key es sg rest H. unfold wexec_element. cbv zeta.
    assert (M : (weight (matching sg es) <= weight es)%N) by apply weight_filter.
    assert (C : (weight (firstn MaxWildcardResults (matching sg es)) <= weight es)%N) by (pose proof (weight_firstn MaxWildcardResults (matching sg es)); lia).
    assert (ML : within (K d * weight es) (wfirst_loop E w key (matching sg es) sg rest)) by (eapply within_le; [apply loop_cost; exact H|now apply N.mul_le_mono_l]).
    destruct rest as [|nx more]; [exact ML|]. pose proof (calmed_tail _ _ _ H) as H'.
    destruct (s_type nx); try exact ML; try apply within_lift; try (eapply within_le; [apply array_cost; exact H'|now apply N.mul_le_mono_l]).
    destruct (filter_cost _ _ _ H) as (d1 & d2 & L & H2 & F2). apply within_bind. exists (K d1 * weight es)%N, (K d2 * weight es)%N.
    split; [eapply within_le; [apply F2|now apply N.mul_le_mono_l]|]. split; [|pose proof (K_add d1 d2); pose proof (K_mono _ _ L); nia].
    intros l c F. apply filter_weight in F. eapply within_le; [apply route_cost; exact H2|]. apply N.mul_le_mono_l. lia.
  Qed.
End Upper.
Lemma body_cost : forall E, (forall k l, Permutation l (e_ord E k l)) -> forall w, (forall d key root s segs, calmed d segs -> within (K d * (1 + brackets s)) (w key root s segs)) -> forall d key root s segs, calmed d segs -> within (K d * (1 + brackets s)) (wexec_body E w key root s segs).
  Proof.
    intros E Hord w WB d key root s [|sg rest] H; [apply within_ret|]. cbn [wexec_body]. apply within_after; [apply free_lift|]. intros es c S. apply wlift_ok in S as [S _]. apply (scan_weight E Hord) in S.
    pose proof (calmed_tail _ _ _ H) as H'.
    assert (EC : within (K d * (1 + brackets s)) (wexec_element E w key es sg rest)) by (eapply within_le; [apply (element_cost E w WB); exact H'|apply N.mul_le_mono_l; lia]).
    pose proof (calmed_deep _ _ _ H) as D. destruct (s_type sg) eqn:T; try apply within_ret.
    - destruct root, rest as [|nx more]; try exact EC. pose proof (calmed_tail _ _ _ H') as H''.
      assert (RC : within (K d * (1 + brackets s)) (wroot_array E w key (firstn MaxWildcardResults (filter (fun e => bytes_eqb (e_name e) (s_value sg)) es)) nx more)).
      { eapply within_le; [apply (root_cost E w WB); exact H''|]. apply N.mul_le_mono_l. etransitivity; [apply weight_firstn|]. pose proof (weight_filter (fun e => bytes_eqb (e_name e) (s_value sg)) es). lia. }
      destruct (s_type nx); try exact EC; exact RC.
    - destruct (s_wild sg); [|].
      + destruct (D eq_refl eq_refl) as (d' & Ed & C'). subst d. destruct rest as [|nx more]; [apply within_ret|]. cbn [whandle_recursive]. apply within_then; [|intros z; destruct (snd z); apply free_ret].
        change (Datatypes.S MaxNestingDepth) with 101. apply (search_cost E Hord w WB). eapply calmed_tail; exact C'.
      + destruct (firstn _ es) as [|e0 l0] eqn:F; [apply within_ret|]. apply within_then; [|intros; apply free_ret]. eapply within_le; [apply (wildcard_cost E w WB), H'|].
        rewrite <- F. apply N.mul_le_mono_l. pose proof (weight_firstn MaxWildcardResults es). lia.
    - destruct (filter_cost E w WB _ _ _ H) as (d1 & d2 & L & H2 & F2). apply within_bind. exists (K d1 * weight es)%N, (K d2 * weight es)%N.
      split; [apply F2|]. split; [|pose proof (K_add d1 d2); pose proof (K_mono _ _ L); nia].
      intros l c' F. apply filter_upto_weight in F. eapply within_le; [apply (route_cost E w WB); exact H2|]. apply N.mul_le_mono_l. lia.
Qed.

Lemma cost_exec : forall E, (forall k l, Permutation l (e_ord E k l)) -> forall f d key root s segs, calmed d segs -> within (K d * (1 + brackets s)) (wexec E f key root s segs).
Proof.
  intros E Hord. induction f as [|f IH]; intros d key root s segs H; [intros x c Q; discriminate|]. cbn [wexec]. apply body_cost; auto.
Qed.
