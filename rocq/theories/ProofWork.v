(** Lemmas for C80: erasing the count of operations, and its bounds. *)
From Coq Require Import List Ascii String NArith ZArith Bool Lia SpecFloat Permutation.
From Verif Require Import GoStr ModelParser ModelPattern ModelPath ModelPretty ModelResult ModelQuery ModelWork SpecTree SpecGrammar SpecWork ProofBase ProofTree4 ProofGrammar2.
Import ListNotations.

Definition erase {A} (m : W A) : Res A := bind m (fun p => Ok (fst p)).
Lemma erase_ret : forall A (x : A), erase (wret x) = Ok x.
Proof. reflexivity. Qed.
Lemma erase_lift : forall A (m : Res A), erase (wlift m) = m.
Proof. intros A [x| |]; reflexivity. Qed.
Lemma erase_tick : forall A (m : W A), erase (wtick m) = erase m.
Proof. intros A [x| |]; reflexivity. Qed.
Lemma erase_bind : forall A B (m : W A) (f : A -> W B), erase (wbind m f) = bind (erase m) (fun x => erase (f x)).
Proof. intros A B [[x n]| |] f; try reflexivity. cbn. destruct (f x) as [[y k]| |]; reflexivity. Qed.
Lemma bind_ext : forall A B (m m' : Res A) (f f' : A -> Res B), m = m' -> (forall x, f x = f' x) -> bind m f = bind m' f'.
Proof. intros A B m m' f f' -> H. destruct m'; cbn; auto. Qed.

Section Erase.
  Variable E : env.
  Variable w : wrec.
  Variable r : qrec.
  Hypothesis WR : forall key root s segs, erase (w key root s segs) = r key root s segs.
  Ltac er := repeat first [rewrite erase_ret|rewrite erase_lift|rewrite erase_bind|rewrite WR].
  Lemma erase_eval : forall key f e, erase (weval_filter_opt E w key f e) = eval_filter_opt E r key f e.
  Proof.
    intros key [f|] e; [|reflexivity]. cbn [weval_filter_opt eval_filter_opt]. unfold weval_filter, eval_filter. destruct (f_path f) as [|c n].
    - er. apply bind_ext; auto. intros segs. er. reflexivity.
    - destruct (Ascii.eqb c "@"); [destruct (map_get n (e_attrs e)); reflexivity|]. er. apply bind_ext; auto. intros segs. er. reflexivity.
  Qed.
  Lemma erase_filter : forall key f l, erase (wfilter_elems E w key f l) = filter_elems E r key f l.
  Proof.
    intros key f l. induction l as [|e l IH]; [reflexivity|]. cbn [wfilter_elems filter_elems]. er. rewrite erase_eval. apply bind_ext; auto. intros b. er. rewrite IH.
    apply bind_ext; auto.
  Qed.
  Lemma erase_filter_upto : forall key f l n, erase (wfilter_elems_upto n E w key f l) = filter_elems_upto n E r key f l.
  Proof.
    intros key f l. induction l as [|e l IH]; intros n; [reflexivity|]. cbn [wfilter_elems_upto filter_elems_upto]. er. rewrite erase_eval. apply bind_ext; auto.
    intros [|]; [|apply IH]. destruct n as [|[|n]]; try reflexivity. er. rewrite IH. apply bind_ext; auto.
  Qed.
  Lemma erase_first : forall key e sg rest, erase (wprocess_first E w key e sg rest) = process_first E r key e sg rest.
  Proof.
    intros key e sg [|nx more]; [reflexivity|]. cbn [wprocess_first process_first].
    destruct (s_type nx); try apply WR; try reflexivity; [destruct (map_get _ _); reflexivity|apply erase_lift].
  Qed.
  Lemma erase_each : forall key l rest, erase (wquery_each w key l rest) = query_each r key l rest.
  Proof. intros key l rest. induction l as [|e l IH]; [reflexivity|]. cbn [wquery_each query_each]. er. apply bind_ext; auto. intros x. er. rewrite IH. apply bind_ext; auto. Qed.
  Lemma erase_all : forall key l sg rest, erase (wprocess_all E w key l sg rest) = process_all E r key l sg rest.
  Proof.
    intros key l sg [|nx more]; [reflexivity|]. cbn [wprocess_all process_all].
    destruct (s_type nx); try apply erase_lift; try (destruct (flat_map _ l); reflexivity); try (destruct (map _ l); reflexivity);
      er; rewrite erase_each; apply bind_ext; auto; intros [|x xs]; reflexivity.
  Qed.
  Lemma erase_route : forall key l sg rest, erase (wroute_matches E w key l sg rest) = route_matches E r key l sg rest.
  Proof. intros key [|e l] sg rest; [reflexivity|]. cbn [wroute_matches route_matches]. destruct (s_all sg); [apply erase_all|apply erase_first]. Qed.
  Lemma erase_wild_each : forall key l rest, erase (wwild_each w key l rest) = wild_each r key l rest.
  Proof. intros key l rest. induction l as [|e l IH]; [reflexivity|]. cbn [wwild_each wild_each]. er. apply bind_ext; auto. intros x. er. rewrite IH. apply bind_ext; auto. Qed.
  Lemma erase_wildcard : forall key l rest, erase (whandle_wildcard E w key l rest) = handle_wildcard E r key l rest.
  Proof.
    intros key l [|nx more]; [reflexivity|]. cbn [whandle_wildcard handle_wildcard].
    destruct (s_type nx); try (destruct more; [destruct (flat_map _ l)|]; reflexivity); try (destruct (map _ l); reflexivity);
      er; rewrite erase_wild_each; apply bind_ext; auto; intros [[|x xs] b]; reflexivity.
  Qed.
  Lemma erase_add : forall key e rest, erase (wsearch_add E w key e rest) = search_add E r key e rest.
  Proof.
    intros key e [|nx more]; [reflexivity|]. cbn [wsearch_add search_add]. destruct (s_type nx); try reflexivity; er; apply bind_ext; auto.
  Qed.
  Lemma erase_search : forall n key target rest st s, erase (wrsearch E w n key target rest st s) = rsearch E r n key target rest st s.
  Proof.
    induction n as [|n IH]; intros key target rest st s; cbn [wrsearch rsearch]; rewrite erase_tick; [reflexivity|]. cbv zeta.
    destruct (_ || _); [reflexivity|]. er. apply bind_ext; auto. intros es. generalize ((fst st + 1)%N, snd st). induction es as [|e es IHe]; intros st'; [reflexivity|].
    er. apply bind_ext.
    - destruct (e_content e) as [|c0 l0]; [reflexivity|]. apply IH.
    - intros st1. destruct (_ <=? _)%N; [reflexivity|]. destruct (seg_matches _ _); [|apply IHe]. destruct (Nat.leb _ _); [reflexivity|]. er. rewrite erase_add.
      apply bind_ext; auto.
  Qed.
  Lemma erase_recursive : forall key rest s, erase (whandle_recursive E w key rest s) = handle_recursive E r key rest s.
  Proof. intros key [|t rest] s; [reflexivity|]. cbn [whandle_recursive handle_recursive]. er. rewrite erase_search. apply bind_ext; auto. intros st. destruct (snd st); reflexivity. Qed.
  Lemma erase_root : forall key l nx more, erase (wroot_array E w key l nx more) = root_array E r key l nx more.
  Proof.
    intros key [|e l] nx more; [reflexivity|]. cbn [wroot_array root_array]. destruct (s_type nx); try reflexivity; [|apply erase_lift].
    destruct (nth_elem _ _); [|reflexivity]. destruct more as [|n2 more]; [reflexivity|]. destruct (s_type n2); try apply WR; reflexivity.
  Qed.
  Lemma erase_array : forall key l nx more, erase (warray_op E w key l nx more) = array_op E r key l nx more.
  Proof.
    intros key [|e l] nx more; [reflexivity|]. cbn [warray_op array_op]. destruct (s_type nx); try reflexivity.
    destruct (nth_elem _ _); [|reflexivity]. destruct more as [|n2 more]; [reflexivity|]. destruct (s_type n2); try apply WR; reflexivity.
  Qed.
  Lemma erase_loop : forall key l sg rest, erase (wfirst_loop E w key l sg rest) = first_loop E r key l sg rest.
  Proof.
    intros key l sg rest. induction l as [|e l IH]; [reflexivity|]. cbn [wfirst_loop first_loop]. destruct rest as [|nx more]; [reflexivity|].
    destruct (s_type nx); try reflexivity; try (destruct (map_get _ _); [destruct more|]; reflexivity); er; apply bind_ext; auto; intros x; destruct (is_null x); auto.
  Qed.
  Lemma erase_element : forall key es sg rest, erase (wexec_element E w key es sg rest) = exec_element E r key es sg rest.
  Proof.
    intros key es sg rest. unfold wexec_element, exec_element. cbv zeta. destruct rest as [|nx more]; [apply erase_loop|].
    destruct (s_type nx); try apply erase_loop; try apply erase_array; try apply erase_lift.
    er. rewrite erase_filter. apply bind_ext; auto. intros l. apply erase_route.
  Qed.
  Lemma erase_body : forall key root s segs, erase (wexec_body E w key root s segs) = exec_body E r key root s segs.
  Proof.
    intros key root s [|sg rest]; [reflexivity|]. cbn [wexec_body exec_body]. er. apply bind_ext; auto. intros es. destruct (s_type sg); try reflexivity.
    - destruct root, rest as [|nx more]; try apply erase_element. destruct (s_type nx); try apply erase_element; apply erase_root.
    - destruct (s_wild sg); [apply erase_recursive|]. destruct (firstn _ es); [reflexivity|]. er. rewrite erase_wildcard. apply bind_ext; auto.
    - er. rewrite erase_filter_upto. apply bind_ext; auto. intros l. apply erase_route.
  Qed.
End Erase.
Lemma erase_exec : forall E f key root s segs, erase (wexec E f key root s segs) = exec E f key root s segs.
Proof. induction f as [|f IH]; intros key root s segs; [reflexivity|]. cbn [wexec exec]. apply erase_body. exact IH. Qed.
Lemma erase_get : forall E xml path, erase (wget E xml path) = ModelQuery.get E xml path.
Proof.
  intros E xml path. unfold wget, ModelQuery.get. destruct (_ <? _)%N; [reflexivity|]. rewrite erase_bind, erase_lift. apply bind_ext; auto.
  intros [|sg l]; [reflexivity|]. apply erase_exec.
Qed.

(** ** Many operations *)
Lemma wbind_ok : forall A B (m : W A) (f : A -> W B) y c, wbind m f = Ok (y, c) -> exists x c1 c2, m = Ok (x, c1) /\ f x = Ok (y, c2) /\ c = (c1 + c2)%N.
Proof.
  intros A B m f y c H. unfold wbind in H. destruct m as [[x c1]| |]; try discriminate. cbn in H. destruct (f x) as [[z c2]| |] eqn:F; try discriminate.
  cbn in H. injection H as <- <-. exists x, c1, c2. auto.
Qed.
Lemma wtick_ok : forall A (m : W A) y c, wtick m = Ok (y, c) -> exists c', m = Ok (y, c') /\ c = (1 + c')%N.
Proof. intros A [[x c']| |] y c H; try discriminate. cbn in H. injection H as <- <-. eauto. Qed.
Lemma wret_ok : forall A (x y : A) c, wret x = Ok (y, c) -> y = x /\ c = 0%N.
Proof. intros A x y c H. injection H as <- <-. auto. Qed.
Lemma wlift_ok : forall A (m : Res A) y c, wlift m = Ok (y, c) -> m = Ok y /\ c = 0%N.
Proof. intros A [x| |] y c H; try discriminate. injection H as <- <-. auto. Qed.

Definition seg_deep : seg := seg_of (GDeep, []).
Definition seg_name (n : string) : seg := seg_of (GName (bs n), []).
Fixpoint search_segs (m : nat) : list seg :=
  match m with O => [seg_deep; seg_name "z"] | S m' => seg_deep :: seg_name "a" :: search_segs m' end.
Section Lower.
  Variable E : env.
  Hypothesis Hord : forall k l, Permutation l (e_ord E k l).
  Lemma tower_scan : forall n key s es, reads E s (tower (S n)) -> scan_res E key s = Ok es ->
    exists e, es = [e] /\ e_name e = bs "a" /\ reads E (e_content e) (tower n).
  Proof.
    intros n key s es R H. destruct (R key) as (es' & S & F). unfold scan_res in H. rewrite S in H. injection H as <-. cbn in F.
    inversion F as [|nd e l l' Sh F']; subst. inversion F'; subst. exists e. split; [reflexivity|]. split; [rewrite (sh_name _ _ Sh); reflexivity|].
    exact (shows_reads E Hord _ _ Sh).
  Qed.
  Lemma tower_base : forall key s es, reads E s (tower 0) -> scan_res E key s = Ok es -> es = [].
  Proof. intros key s es R H. destruct (R key) as (es' & S & F). unfold scan_res in H. rewrite S in H. injection H as <-. cbn in F. now inversion F. Qed.
  Lemma tower_content : forall n, reads E [] (tower (S n)) -> False.
  Proof. intros n R. destruct (R []) as (es & S & F). cbn in S. injection S as <-. cbn in F. inversion F. Qed.

  Section Step.
    Variable w : wrec.
    Variable target : seg.
    Variable rest : list seg.
    Variable m : nat.
    (** What one more element adds: nothing to the results, but operations. *)
    Hypothesis Hadd : forall n key e add c, n <= 100 -> e_name e = bs "a" -> reads E (e_content e) (tower n) ->
      if seg_matches target (bs "a") then wsearch_add E w key e rest = Ok (add, c) -> add = [] /\ (choose n m <= c)%N else m = 0.
    Lemma search_lower : forall n k key o s st c, n <= k -> n <= 100 -> (o + N.of_nat n < 5000)%N -> reads E s (tower n) ->
      wrsearch E w (S k) key target rest (o, []) s = Ok (st, c) ->
      snd st = [] /\ (fst st <= o + N.of_nat n + 1)%N /\ (choose n (S m) <= c)%N.
    Proof.
      induction n as [|n IH]; intros k key o s st c Hk Hn Ho R H; cbn [wrsearch] in H; apply wtick_ok in H as (c' & H & ->); cbn [fst snd] in H.
      - cbn [List.length MaxWildcardResults] in H. destruct (MaxRecursiveOperations <=? o + 1)%N eqn:L; [apply N.leb_le in L; unfold MaxRecursiveOperations in L; lia|].
        cbn [Nat.leb orb] in H. apply wbind_ok in H as (es & c1 & c2 & H1 & H & ->). apply wlift_ok in H1 as [H1 ->]. apply tower_base in H1; auto. subst.
        apply wret_ok in H as [-> ->]. cbn [fst snd choose]. split; auto. split; lia.
      - cbn [List.length MaxWildcardResults] in H. destruct (MaxRecursiveOperations <=? o + 1)%N eqn:L; [apply N.leb_le in L; unfold MaxRecursiveOperations in L; lia|].
        cbn [Nat.leb orb] in H. apply wbind_ok in H as (es & c1 & c2 & H1 & H & ->). apply wlift_ok in H1 as [H1 ->]. destruct (tower_scan _ _ _ _ R H1) as (e & -> & En & R'). clear H1.
        apply wbind_ok in H as (st1 & c3 & c4 & H1 & H & ->).
        assert (G : snd st1 = [] /\ (fst st1 <= o + N.of_nat (S n) + 1)%N /\ (choose n (S m) <= c3)%N).
        { destruct (e_content e) as [|b0 s0] eqn:C.
          - apply wret_ok in H1 as [-> ->]. cbn [fst snd]. split; auto. split; [lia|]. destruct n; [cbn; lia|]. exfalso. apply (tower_content n). exact R'.
          - destruct k as [|k]; [lia|]. apply IH in H1; auto; [|lia..]. destruct H1 as (A & B & C'). split; auto. split; auto. lia. }
        destruct G as (G1 & G2 & G3). destruct (MaxRecursiveOperations <=? fst st1)%N eqn:L2; [apply N.leb_le in L2; unfold MaxRecursiveOperations in L2; lia|].
        rewrite En in H. assert (Hn' : n <= 100) by lia. pose proof (Hadd n key e) as A. rewrite En in A. destruct (seg_matches target (bs "a")).
        + rewrite G1 in H. cbn [List.length MaxWildcardResults] in H. cbn [Nat.leb] in H. apply wbind_ok in H as (add & c5 & c6 & H2 & H & ->). apply wret_ok in H as [-> ->].
          destruct (A add c5 Hn' eq_refl R' H2) as [-> A2]. cbn [fst snd choose app]. split; auto. split; auto. lia.
        + apply wret_ok in H as [-> ->]. specialize (A [] 0%N Hn' eq_refl R'). rewrite A in *. split; auto. split; auto. cbn [choose]. destruct n; cbn [choose]; cbn [choose] in G3; lia.
    Qed.
  End Step.
  Lemma work_lower : forall m f key root n s r c, n <= 100 -> reads E s (tower n) -> wexec E f key root s (search_segs m) = Ok (r, c) ->
    r_type r = RNull /\ (choose n (S m) <= c)%N.
  Proof.
    induction m as [|m IH]; intros f key root n s r c Hn R H; (destruct f; [discriminate|]); cbn [wexec search_segs] in H; unfold wexec_body in H;
      apply wbind_ok in H as (es & c1 & c2 & H1 & H & ->); apply wlift_ok in H1 as [_ ->]; cbn [seg_deep seg_of fst snd s_type s_wild whandle_recursive] in H;
      apply wbind_ok in H as (st & c3 & c4 & H1 & H & ->).
    - apply search_lower with (m := 0) (n := n) in H1; auto; [| |lia].
      + destruct H1 as (A & _ & B). rewrite A in H. apply wret_ok in H as [-> ->]. split; [reflexivity|]. lia.
      + intros n' key' e add c' L N R'. cbn. reflexivity.
    - apply search_lower with (m := S m) (n := n) in H1; auto; [| |lia].
      + destruct H1 as (A & _ & B). rewrite A in H. apply wret_ok in H as [-> ->]. split; [reflexivity|]. lia.
      + intros n' key' e add c' L N R'. replace (seg_matches (seg_name "a") (bs "a")) with true by reflexivity. intros H2. unfold wsearch_add in H2.
        assert (Q : exists r0 ca cb, wexec E f (child_key site_query e key') false (e_content e) (search_segs m) = Ok (r0, ca) /\ wret (flatten1 r0) = Ok (add, cb) /\ c' = (ca + cb)%N).
        { destruct m; cbn [search_segs seg_deep seg_of fst snd s_type] in H2; apply wbind_ok in H2 as (r0 & ca & cb & X & Y & Z); exists r0, ca, cb; auto. }
        destruct Q as (r0 & ca & cb & X & Y & ->). apply IH with (n := n') in X; auto. destruct X as [T X]. apply wret_ok in Y as [-> ->].
        unfold flatten1. rewrite T. split; auto. lia.
  Qed.
End Lower.

(** ** No operations *)
Definition free {A} (m : W A) : Prop := forall x c, m = Ok (x, c) -> c = 0%N.
Lemma free_ret : forall A (x : A), free (wret x).
Proof. intros A x y c H. injection H as _ <-. reflexivity. Qed.
Lemma free_lift : forall A (m : Res A), free (wlift m).
Proof. intros A m y c H. apply wlift_ok in H as [_ ->]. reflexivity. Qed.
Lemma free_bind : forall A B (m : W A) (f : A -> W B), free m -> (forall x c, m = Ok (x, c) -> free (f x)) -> free (wbind m f).
Proof. intros A B m f M F y c H. apply wbind_ok in H as (x & c1 & c2 & H1 & H2 & ->). rewrite (M _ _ H1), (F _ _ H1 _ _ H2). reflexivity. Qed.
Definition hushed (segs : list seg) : Prop := exists l, segs = map seg_of l /\ quiet l.
Lemma quiet_tail : forall st l, quiet (st :: l) -> quiet l.
Proof. intros st l H. inversion H as [? N C]; subst. constructor; [intros ms I; apply (N ms); now right|]. intros all p op v ms l' I. apply (C all p op v ms l'). now right. Qed.
Lemma hushed_tail : forall sg segs, hushed (sg :: segs) -> hushed segs.
Proof. intros sg segs (l & E & Q). destruct l as [|st l]; [discriminate|]. injection E as -> ->. exists l. split; auto. eapply quiet_tail; eauto. Qed.
Lemma hushed_deep : forall sg segs, hushed (sg :: segs) -> s_type sg = SWild -> s_wild sg = false.
Proof.
  intros sg segs (l & E & Q) T. destruct l as [|[st ms] l]; [discriminate|]. injection E as -> ->. destruct st; try discriminate; try reflexivity.
  exfalso. inversion Q as [? N _]; subst. apply (N ms). now left.
Qed.
Lemma hushed_where : forall sg segs f segs', hushed (sg :: segs) -> s_filter sg = Some f -> parse_path (f_path f) = Ok segs' -> (forall x, f_path f <> "@"%char :: x) -> hushed segs'.
Proof.
  intros sg segs f segs' (l & E & Q) F P A. destruct l as [|[st ms] l]; [discriminate|]. injection E as -> ->. destruct st; try discriminate. cbn in F. injection F as <-. cbn [f_path] in *.
  destruct (path_means_ex path) as [mm M]. pose proof (path_means_res _ _ M) as R. rewrite P in R. destruct mm as [l'| |]; cbn [meaning_res] in R; try discriminate; injection R as ->.
  - exists l'. split; auto. inversion Q as [? N C]; subst. eapply C; [now left|exact M|exact A].
  - exists []. split; auto. constructor; [intros ms0 []|intros all0 p0 op0 v0 ms0 l0 []].
Qed.

Section Free.
  Variable E : env.
  Variable w : wrec.
  Hypothesis WF : forall key root s segs, hushed segs -> free (w key root s segs).
  Lemma free_eval : forall key sg segs e, hushed (sg :: segs) -> free (weval_filter_opt E w key (s_filter sg) e).
  Proof.
    intros key sg segs e H. destruct (s_filter sg) as [f|] eqn:F; [|apply free_ret]. cbn [weval_filter_opt]. unfold weval_filter. destruct (f_path f) as [|c n] eqn:P.
    - apply free_bind; [apply free_lift|]. intros l k L. apply wlift_ok in L as [L _]. apply free_bind; [|intros; apply free_ret]. apply WF.
      eapply hushed_where; [exact H|exact F|rewrite P; exact L|]. intros x. rewrite P. discriminate.
    - destruct (Ascii.eqb c "@") eqn:A; [destruct (map_get n (e_attrs e)); apply free_ret|].
      apply free_bind; [apply free_lift|]. intros l k L. apply wlift_ok in L as [L _]. apply free_bind; [|intros; apply free_ret]. apply WF.
      eapply hushed_where; [exact H|exact F|rewrite P; exact L|]. intros x X. rewrite P in X. injection X as -> _. discriminate.
  Qed.
  Lemma free_filter : forall key sg segs l, hushed (sg :: segs) -> free (wfilter_elems E w key (s_filter sg) l).
  Proof.
    intros key sg segs l H. induction l as [|e l IH]; [apply free_ret|]. cbn [wfilter_elems]. apply free_bind; [eapply free_eval; eauto|]. intros b c _.
    apply free_bind; [exact IH|]. intros; apply free_ret.
  Qed.
  Lemma free_filter_upto : forall key sg segs l n, hushed (sg :: segs) -> free (wfilter_elems_upto n E w key (s_filter sg) l).
  Proof.
    intros key sg segs l n H. revert n. induction l as [|e l IH]; intros n; [apply free_ret|]. cbn [wfilter_elems_upto]. apply free_bind; [eapply free_eval; eauto|]. intros b c _.
    destruct b; [|apply IH]. destruct n as [|[|n]]; try apply free_ret. apply free_bind; [apply IH|]. intros; apply free_ret.
  Qed.
  Lemma free_first : forall key e sg rest, hushed rest -> free (wprocess_first E w key e sg rest).
  Proof.
    intros key e sg [|nx more] H; [apply free_ret|]. cbn [wprocess_first].
    destruct (s_type nx); try (apply WF; exact H); try apply free_ret; [destruct (map_get _ _); apply free_ret|apply free_lift].
  Qed.
  Lemma free_each : forall key l rest, hushed rest -> free (wquery_each w key l rest).
  Proof.
    intros key l rest H. induction l as [|e l IH]; [apply free_ret|]. cbn [wquery_each]. apply free_bind; [apply WF, H|]. intros x c _. apply free_bind; [exact IH|]. intros; apply free_ret.
  Qed.
  Lemma free_all : forall key l sg rest, hushed rest -> free (wprocess_all E w key l sg rest).
  Proof.
    intros key l sg [|nx more] H; [apply free_ret|]. cbn [wprocess_all].
    destruct (s_type nx); try apply free_lift; try (destruct (flat_map _ l); apply free_ret); try (destruct (map _ l); apply free_ret);
      (apply free_bind; [apply free_each, H|]; intros [|x xs] c _; apply free_ret).
  Qed.
  Lemma free_route : forall key l sg rest, hushed rest -> free (wroute_matches E w key l sg rest).
  Proof. intros key [|e l] sg rest H; [apply free_ret|]. cbn [wroute_matches]. destruct (s_all sg); [now apply free_all|now apply free_first]. Qed.
  Lemma free_wild_each : forall key l rest, hushed rest -> free (wwild_each w key l rest).
  Proof.
    intros key l rest H. induction l as [|e l IH]; [apply free_ret|]. cbn [wwild_each]. apply free_bind; [apply WF, H|]. intros x c _. apply free_bind; [exact IH|]. intros; apply free_ret.
  Qed.
  Lemma free_wildcard : forall key l rest, hushed rest -> free (whandle_wildcard E w key l rest).
  Proof.
    intros key l [|nx more] H; [apply free_ret|]. cbn [whandle_wildcard].
    destruct (s_type nx); try (destruct more; [destruct (flat_map _ l)|]; apply free_ret); try (destruct (map _ l); apply free_ret);
      (apply free_bind; [apply free_wild_each, H|]; intros [[|x xs] b] c _; apply free_ret).
  Qed.
  Lemma free_add : forall key e rest, hushed rest -> free (wsearch_add E w key e rest).
  Proof.
    intros key e [|nx more] H; [apply free_ret|]. cbn [wsearch_add].
    destruct (s_type nx); try apply free_ret; (apply free_bind; [first [apply WF, H|apply free_lift]|]; intros; apply free_ret).
  Qed.
  Lemma free_root : forall key l nx more, hushed more -> free (wroot_array E w key l nx more).
  Proof.
    intros key [|e l] nx more H; [apply free_ret|]. cbn [wroot_array]. destruct (s_type nx); try apply free_ret; [|apply free_lift].
    destruct (nth_elem _ _); [|apply free_ret]. destruct more as [|n2 more]; [apply free_ret|]. destruct (s_type n2); try (apply WF; exact H); apply free_ret.
  Qed.
  Lemma free_array : forall key l nx more, hushed more -> free (warray_op E w key l nx more).
  Proof.
    intros key [|e l] nx more H; [apply free_ret|]. cbn [warray_op]. destruct (s_type nx); try apply free_ret.
    destruct (nth_elem _ _); [|apply free_ret]. destruct more as [|n2 more]; [apply free_ret|]. destruct (s_type n2); try (apply WF; exact H); apply free_ret.
  Qed.
  Lemma free_loop : forall key l sg rest, hushed rest -> free (wfirst_loop E w key l sg rest).
  Proof.
    intros key l sg rest H. induction l as [|e l IH]; [apply free_ret|]. cbn [wfirst_loop]. destruct rest as [|nx more]; [apply free_ret|].
    destruct (s_type nx); try apply free_ret; try (destruct (map_get _ _); [destruct more|]; apply free_ret);
      (apply free_bind; [apply WF, H|]; intros x c _; destruct (is_null x); [exact IH|apply free_ret]).
  Qed.
  Lemma free_element : forall key es sg rest, hushed rest -> free (wexec_element E w key es sg rest).
  Proof.
    intros key es sg rest H. unfold wexec_element. cbv zeta. destruct rest as [|nx more]; [now apply free_loop|]. pose proof (hushed_tail _ _ H) as H'.
    destruct (s_type nx); try (apply free_loop; exact H); try (apply free_array; exact H'); try apply free_lift.
    apply free_bind; [eapply free_filter; exact H|]. intros l c _. apply free_route. exact H'.
  Qed.
  Lemma free_body : forall key root s segs, hushed segs -> free (wexec_body E w key root s segs).
  Proof.
    intros key root s [|sg rest] H; [apply free_ret|]. cbn [wexec_body]. apply free_bind; [apply free_lift|]. intros es c _. pose proof (hushed_tail _ _ H) as H'.
    pose proof (hushed_deep _ _ H) as D. destruct (s_type sg) eqn:T; try apply free_ret.
    - destruct root, rest as [|nx more]; try (apply free_element; exact H'). pose proof (hushed_tail _ _ H') as H''.
      destruct (s_type nx); try (apply free_element; exact H'); apply free_root; exact H''.
    - rewrite (D eq_refl). destruct (firstn _ es); [apply free_ret|]. apply free_bind; [apply free_wildcard, H'|]. intros; apply free_ret.
    - apply free_bind; [eapply free_filter_upto; exact H|]. intros l c' _. apply free_route. exact H'.
  Qed.
  (** ** One search *)
  Lemma search_upper : forall n key target rest st s st' c, hushed rest -> (fst st < 10000)%N -> wrsearch E w n key target rest st s = Ok (st', c) ->
    fst st' = (fst st + c)%N /\ (fst st' <= 10000)%N.
  Proof.
    induction n as [|n IH]; intros key target rest st s st' c H L Q; cbn [wrsearch] in Q; apply wtick_ok in Q as (c' & Q & ->); cbv zeta in Q.
    - apply wret_ok in Q as [-> ->]. cbn [fst]. split; lia.
    - destruct (Nat.leb MaxWildcardResults (List.length (snd st)) || (MaxRecursiveOperations <=? fst st + 1)%N) eqn:B; [apply wret_ok in Q as [-> ->]; cbn [fst]; split; lia|].
      apply orb_false_iff in B as [_ B]. apply N.leb_gt in B. unfold MaxRecursiveOperations in B.
      apply wbind_ok in Q as (es & c1 & c2 & Q1 & Q & ->). apply wlift_ok in Q1 as [_ ->].
      assert (G : forall es s0 c2, (fst s0 < 10000)%N ->
        (fix go (es : list elem) (st : N * list result) : W (N * list result) :=
             match es with
             | [] => wret st
             | e :: es' =>
                 let! st1 :=
                   (match e_content e with
                    | [] => wret st
                    | _ :: _ => wrsearch E w n (child_key site_search e key) target rest st (e_content e)
                    end) in
                 if (MaxRecursiveOperations <=? fst st1)%N then wret st1
                 else if seg_matches target (e_name e) then
                   if Nat.leb MaxWildcardResults (List.length (snd st1)) then wret st1
                   else
                     let! add := wsearch_add E w key e rest in
                     go es' (fst st1, snd st1 ++ add)
                 else go es' st1
             end) es s0 = Ok (st', c2) -> fst st' = (fst s0 + c2)%N /\ (fst st' <= 10000)%N).
      { clear Q. induction es0 as [|e es0 IHe]; intros s0 c3 L0 Q; [apply wret_ok in Q as [-> ->]; split; lia|].
        apply wbind_ok in Q as (st1 & ca & cb & Q1 & Q & ->).
        assert (G : fst st1 = (fst s0 + ca)%N /\ (fst st1 <= 10000)%N).
        { destruct (e_content e); [apply wret_ok in Q1 as [-> ->]; split; lia|]. eapply IH; eauto. }
        destruct G as [G1 G2]. destruct (MaxRecursiveOperations <=? fst st1)%N eqn:B1; [apply wret_ok in Q as [-> ->]; split; lia|].
        apply N.leb_gt in B1. unfold MaxRecursiveOperations in B1. destruct (seg_matches _ _).
        - destruct (Nat.leb _ _); [apply wret_ok in Q as [-> ->]; split; lia|]. apply wbind_ok in Q as (add & cc & cd & Q2 & Q & ->).
          rewrite (free_add _ _ _ H _ _ Q2). apply IHe in Q; [|cbn [fst]; lia]. cbn [fst] in Q. destruct Q as [X Y]. split; [rewrite X, G1; lia|exact Y].
        - apply IHe in Q; [|lia]. destruct Q as [X Y]. split; [rewrite X, G1; lia|exact Y]. }
      apply G in Q; [|cbn [fst]; lia]. cbn [fst] in Q. destruct Q as [X Y]. split; [rewrite X; lia|exact Y].
  Qed.
End Free.
Lemma free_exec : forall E f key root s segs, hushed segs -> free (wexec E f key root s segs).
Proof. induction f as [|f IH]; intros key root s segs H; [intros x c Q; discriminate|]. cbn [wexec]. apply free_body; auto. Qed.
Lemma single_exec : forall E f key root s ms l r c, quiet l -> wexec E f key root s (map seg_of ((GDeep, ms) :: l)) = Ok (r, c) -> (c <= 10000)%N.
Proof.
  intros E f key root s ms l r c Q H. destruct f; [discriminate|]. cbn [wexec map] in H. unfold wexec_body in H. apply wbind_ok in H as (es & c1 & c2 & H1 & H & ->).
  apply wlift_ok in H1 as [_ ->]. cbn [seg_of fst snd s_type s_wild] in H. destruct l as [|st l]; cbn [map whandle_recursive] in H; [apply wret_ok in H as [_ ->]; lia|].
  apply wbind_ok in H as (z & c3 & c4 & H1 & H & ->). apply search_upper in H1.
  - cbn [fst] in H1. destruct H1 as [H1 H2]. destruct (snd z); apply wret_ok in H as [_ ->]; lia.
  - intros. now apply free_exec.
  - exists l. split; auto. eapply quiet_tail; eauto.
  - cbn. lia.
Qed.
