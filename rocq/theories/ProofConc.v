(** The path cache and the modifier registry under arbitrary schedules. *)
From Coq Require Import List Ascii String NArith ZArith Bool Lia.
From Verif Require Import GoStr ModelParser ModelPath ModelResult ModelConc ProofBase ProofFuel ProofFuel2.
Import ListNotations.

(** ** Maps *)
Lemma map_get_set : forall A (k k' : bytes) (v : A) m,
  map_get k (map_set k' v m) = if bytes_eqb k k' then Some v else map_get k m.
Proof.
  induction m as [|[k1 v1] m IH]; cbn [map_set map_get].
  - reflexivity.
  - destruct (bytes_eqb k' k1) eqn:E1; cbn [map_get].
    + apply bytes_eqb_eq in E1. subst. destruct (bytes_eqb k k1); auto.
    + rewrite IH. destruct (bytes_eqb k k1) eqn:E2; auto.
      apply bytes_eqb_eq in E2. subst. rewrite bytes_eqb_sym, E1. auto.
Qed.
Lemma map_get_In : forall A (k : bytes) (v : A) m, map_get k m = Some v -> In (k, v) m.
Proof.
  induction m as [|[k1 v1] m IH]; cbn [map_get]; intros H; [discriminate|].
  destruct (bytes_eqb k k1) eqn:E; [|right; auto].
  apply bytes_eqb_eq in E. injection H as ->. subst. now left.
Qed.
Lemma map_get_None : forall A (k : bytes) (m : smap A), map_get k m = None <-> ~ In k (map fst m).
Proof.
  induction m as [|[k1 v1] m IH]; cbn [map_get map fst]; [intuition|].
  destruct (bytes_eqb k k1) eqn:E.
  - apply bytes_eqb_eq in E. subst. split; [discriminate|]. intros H. elim H. now left.
  - apply bytes_eqb_neq in E. rewrite IH. simpl. intuition.
Qed.
Lemma map_set_keys : forall A (k : bytes) (v : A) m x,
  In x (map fst (map_set k v m)) <-> x = k \/ In x (map fst m).
Proof.
  induction m as [|[k1 v1] m IH]; intros x; cbn [map_set map fst].
  - simpl. intuition.
  - destruct (bytes_eqb k k1) eqn:E; cbn [map fst]; simpl.
    + apply bytes_eqb_eq in E. subst. intuition.
    + rewrite IH. intuition.
Qed.
Lemma map_set_nodup : forall A (k : bytes) (v : A) m, NoDup (map fst m) -> NoDup (map fst (map_set k v m)).
Proof.
  induction m as [|[k1 v1] m IH]; intros H; cbn [map_set map fst].
  - constructor; auto.
  - inversion H; subst. destruct (bytes_eqb k k1) eqn:E; cbn [map fst]; constructor; auto.
    rewrite map_set_keys. apply bytes_eqb_neq in E. intros [K|K]; auto.
Qed.
Lemma map_del_keys : forall A (k : bytes) (m : smap A) x, In x (map fst (map_del k m)) -> In x (map fst m).
Proof.
  induction m as [|[k1 v1] m IH]; intros x; cbn [map_del map fst]; auto.
  destruct (bytes_eqb k k1); cbn [map fst]; simpl; intuition.
Qed.
Lemma map_del_nodup : forall A (k : bytes) (m : smap A), NoDup (map fst m) -> NoDup (map fst (map_del k m)).
Proof.
  induction m as [|[k1 v1] m IH]; intros H; cbn [map_del map fst]; auto.
  inversion H; subst. destruct (bytes_eqb k k1); auto. cbn [map fst]. constructor; auto.
  intros K. apply map_del_keys in K. auto.
Qed.
Lemma map_get_del : forall A (k k' : bytes) (m : smap A), NoDup (map fst m) ->
  map_get k (map_del k' m) = if bytes_eqb k k' then None else map_get k m.
Proof.
  induction m as [|[k1 v1] m IH]; intros H; cbn [map_del map_get].
  - now destruct (bytes_eqb k k').
  - inversion H; subst. destruct (bytes_eqb k' k1) eqn:E1; cbn [map_get].
    + apply bytes_eqb_eq in E1. subst. destruct (bytes_eqb k k1) eqn:E; auto.
      apply bytes_eqb_eq in E. subst. now apply map_get_None.
    + rewrite IH; auto. destruct (bytes_eqb k k1) eqn:E2; auto.
      apply bytes_eqb_eq in E2. subst. rewrite bytes_eqb_sym, E1. auto.
Qed.
Lemma map_set_length : forall A (k : bytes) (v : A) m, List.length (map_set k v m) <= S (List.length m).
Proof.
  induction m as [|[k1 v1] m IH]; cbn [map_set List.length]; auto.
  destruct (bytes_eqb k k1); cbn [List.length]; lia.
Qed.
Lemma map_set_In : forall A (k : bytes) (v : A) m k' v', In (k', v') (map_set k v m) ->
  (k' = k /\ v' = v) \/ In (k', v') m.
Proof.
  induction m as [|[k1 v1] m IH]; intros k' v'; cbn [map_set].
  - intros [H|[]]. injection H as <- <-. auto.
  - destruct (bytes_eqb k k1) eqn:E; simpl.
    + apply bytes_eqb_eq in E. subst. intros [H|H]; auto. injection H as <- <-. auto.
    + intros [H|H]; auto. apply IH in H. intuition.
Qed.

(** ** Positions *)
Lemma set_nth_length : forall A i (x : A) l, List.length (set_nth i x l) = List.length l.
Proof. induction i; destruct l; simpl; auto. Qed.
Lemma nth_error_set_nth : forall A i j (x : A) l,
  nth_error (set_nth i x l) j =
  if Nat.eqb i j then (match nth_error l j with Some _ => Some x | None => None end) else nth_error l j.
Proof.
  induction i as [|i IH]; intros j x l; destruct l as [|y l]; destruct j as [|j]; simpl; auto;
    destruct (Nat.eqb i j); auto.
Qed.
Lemma deref_set_nth : forall h i a j, j <> i -> deref (set_nth i a h) j = deref h j.
Proof.
  unfold deref. induction h as [|y h IH]; intros i a j H; destruct i; simpl; auto; destruct j; auto; try lia.
Qed.
Lemma deref_alloc_old : forall h a j, j < List.length h -> deref (h ++ [a]) j = deref h j.
Proof. intros. unfold deref. now rewrite app_nth1. Qed.
Lemma deref_alloc_new : forall h a, deref (h ++ [a]) (List.length h) = a.
Proof. intros. unfold deref. now rewrite nth_middle. Qed.

(** ** The cache invariant *)
Definition fresh_parse (path : bytes) (segs : list seg) : Prop := parse_path_internal path = Ok (Some segs).
Record inv (sys : csys) : Prop := {
  i_cache : forall path id, In (path, id) (c_cache sys) ->
    path <> [] /\ id < List.length (c_heap sys) /\ fresh_parse path (deref (c_heap sys) id) /\ ~ In id (c_out sys);
  i_store : forall i path id, nth_error (c_procs sys) i = Some (PStore path id) ->
    path <> [] /\ id < List.length (c_heap sys) /\ fresh_parse path (deref (c_heap sys) id) /\ ~ In id (c_out sys) /\
    (forall p', ~ In (p', id) (c_cache sys)) /\
    (forall j p', j <> i -> nth_error (c_procs sys) j <> Some (PStore p' id));
  i_out : forall id, In id (c_out sys) -> id < List.length (c_heap sys);
  i_run : forall i path, nth_error (c_procs sys) i = Some (PStart path) \/ nth_error (c_procs sys) i = Some (PParse path) ->
    path <> [];
  i_done : forall i path r, nth_error (c_procs sys) i = Some (PDone path r) -> parse_path path = Ok r;
  i_panic : forall i path, nth_error (c_procs sys) i = Some (PPanic path) -> parse_path path = Panic;
  i_bound : List.length (c_cache sys) <= pathCacheLimit
}.

Lemma fresh_parse_path : forall path segs, path <> [] -> fresh_parse path segs -> parse_path path = Ok segs.
Proof. intros path segs Hne H. unfold parse_path. destruct path; [easy|]. now rewrite H. Qed.

Lemma proc_set : forall (l : list pstate) i j x st, nth_error (set_nth i x l) j = Some st ->
  (i = j /\ st = x) \/ (i <> j /\ nth_error l j = Some st).
Proof.
  intros l i j x st H. rewrite nth_error_set_nth in H. destruct (Nat.eqb_spec i j); [|auto].
  destruct (nth_error l j); [|discriminate]. injection H as <-. auto.
Qed.

Lemma inv_init : forall n, inv (p_init n).
Proof.
  assert (R : forall n i st, nth_error (repeat PIdle n) i = Some st -> st = PIdle).
  { intros n i st H. apply nth_error_In in H. now apply repeat_spec in H. }
  intros n. split; simpl; try (intros; contradiction).
  - intros i path id H. apply R in H. discriminate.
  - intros i path [H|H]; apply R in H; discriminate.
  - intros i path r H. apply R in H. discriminate.
  - intros i path H. apply R in H. discriminate.
  - unfold pathCacheLimit. lia.
Qed.

(** Steps that only change a program point. *)
Lemma inv_put : forall sys i st, inv sys ->
  match st with
  | PStore _ _ => False
  | PStart p | PParse p => p <> []
  | PDone p r => parse_path p = Ok r
  | PPanic p => parse_path p = Panic
  | PIdle => True
  end -> inv (mkSys (c_heap sys) (c_cache sys) (set_nth i st (c_procs sys)) (c_out sys)).
Proof.
  intros sys i st [I1 I2 I3 I4 I5 I6 I7] H. split; simpl; auto.
  - intros j path id K. apply proc_set in K. destruct K as [[-> <-]|[N K]]; [destruct H|].
    destruct (I2 _ _ _ K) as [A1 [A2 [A3 [A4 [A5 A6]]]]]. repeat split; auto.
    intros k p' Nk Q. apply proc_set in Q. destruct Q as [[-> <-]|[N2 Q]]; [destruct H|]. eapply A6; eauto.
  - intros j path [K|K]; apply proc_set in K; destruct K as [[-> K]|[N K]]; try (rewrite <- K in H; exact H);
      eapply I4; eauto.
  - intros j path r K. apply proc_set in K. destruct K as [[-> K]|[N K]]; [rewrite <- K in H; exact H|eauto].
  - intros j path K. apply proc_set in K. destruct K as [[-> K]|[N K]]; [rewrite <- K in H; exact H|eauto].
Qed.

Lemma cache_store_in : forall path id c p' id', In (p', id') (cache_store path id c) ->
  (p' = path /\ id' = id) \/ In (p', id') c.
Proof.
  intros path id c p' id' H. unfold cache_store in H. apply map_set_In in H. destruct H as [H|H]; auto.
  destruct (Nat.leb pathCacheLimit (List.length c)); auto. destruct H.
Qed.
Lemma cache_store_bound : forall path id c, List.length c <= pathCacheLimit ->
  List.length (cache_store path id c) <= pathCacheLimit.
Proof.
  intros path id c H. unfold cache_store.
  pose proof (map_set_length _ path id (if Nat.leb pathCacheLimit (List.length c) then [] else c)) as K.
  destruct (Nat.leb_spec pathCacheLimit (List.length c)).
  - cbn [List.length] in K. unfold pathCacheLimit in *. lia.
  - lia.
Qed.

Lemma inv_act : forall sys a, inv sys -> inv (p_act sys a).
Proof.
  intros sys a I. destruct a as [i path|i|id k sg]; cbn [p_act].
  - destruct (nth_error (c_procs sys) i) as [[| | | | |]|] eqn:N; auto; apply inv_put; auto;
      destruct path; cbn [p_call]; auto; discriminate.
  - destruct (nth_error (c_procs sys) i) as [st|] eqn:N; auto.
    destruct st as [|path|path|path id|path r|path]; cbn [p_step]; auto.
    + (* lookup *)
      pose proof I as [I1 I2 I3 I4 I5 I6 I7].
      assert (Hp : path <> []) by eauto.
      destruct (map_get path (c_cache sys)) as [cid|] eqn:G; [|apply inv_put; auto].
      apply map_get_In in G. destruct (I1 _ _ G) as [_ [C2 [C3 C4]]].
      cbn [alloc]. set (h := c_heap sys) in *. split; simpl.
      * intros p id K. destruct (I1 _ _ K) as [A1 [A2 [A3 A4]]]. fold h in A2, A3.
        rewrite app_length. simpl. rewrite deref_alloc_old; auto. repeat split; auto; [lia|].
        intros [E|E]; auto. subst id. lia.
      * intros j p id K. apply proc_set in K. destruct K as [[_ K]|[Nj K]]; [discriminate|].
        destruct (I2 _ _ _ K) as [A1 [A2 [A3 [A4 [A5 A6]]]]]. fold h in A2, A3.
        rewrite app_length. simpl. rewrite deref_alloc_old; auto. repeat split; auto; [lia| |].
        -- intros [E|E]; auto. subst id. lia.
        -- intros j2 p2 N2 Q. apply proc_set in Q. destruct Q as [[_ Q]|[_ Q]]; [discriminate|]. eapply A6; eauto.
      * rewrite app_length. simpl. intros id [<-|K]; [lia|]. apply I3 in K. fold h in K. lia.
      * intros j p [K|K]; apply proc_set in K; destruct K as [[_ K]|[_ K]]; try discriminate; eauto.
      * intros j p r K. apply proc_set in K. destruct K as [[_ K]|[_ K]]; eauto.
        injection K as -> ->. rewrite deref_alloc_new. now apply fresh_parse_path.
      * intros j p K. apply proc_set in K. destruct K as [[_ K]|[_ K]]; [discriminate|eauto].
      * exact I7.
    + (* parse *)
      pose proof I as [I1 I2 I3 I4 I5 I6 I7].
      assert (Hp : path <> []) by eauto.
      assert (PP : parse_path path = let* r := parse_path_internal path in match r with None => Ok [] | Some ss => Ok ss end).
      { destruct path; [easy|reflexivity]. }
      destruct (parse_path_internal path) as [[segs|]| |] eqn:P.
      * cbn [alloc]. set (h := c_heap sys) in *. split; simpl.
        -- intros p id K. destruct (I1 _ _ K) as [A1 [A2 [A3 A4]]]. fold h in A2, A3.
           rewrite app_length. simpl. rewrite deref_alloc_old; auto. repeat split; auto; lia.
        -- intros j p id K. rewrite app_length. simpl. apply proc_set in K. destruct K as [[<- K]|[Nj K]].
           ++ injection K as -> ->. rewrite deref_alloc_new. repeat split; auto; [lia| | |].
              ** intros K. apply I3 in K. fold h in K. lia.
              ** intros p' K. apply I1 in K. fold h in K. lia.
              ** intros j p' Nj K. apply proc_set in K. destruct K as [[K _]|[_ K]]; [congruence|].
                 apply I2 in K. fold h in K. lia.
           ++ destruct (I2 _ _ _ K) as [A1 [A2 [A3 [A4 [A5 A6]]]]]. fold h in A2, A3.
              rewrite deref_alloc_old; auto. repeat split; auto; [lia|].
              intros j2 p2 N2 Q. apply proc_set in Q. destruct Q as [[_ Q]|[_ Q]]; [|eapply A6; eauto].
              injection Q as -> ->. lia.
        -- intros id K. rewrite app_length. simpl. apply I3 in K. fold h in K. lia.
        -- intros j p [K|K]; apply proc_set in K; destruct K as [[_ K]|[_ K]]; try discriminate; eauto.
        -- intros j p r K. apply proc_set in K. destruct K as [[_ K]|[_ K]]; [discriminate|eauto].
        -- intros j p K. apply proc_set in K. destruct K as [[_ K]|[_ K]]; [discriminate|eauto].
        -- exact I7.
      * apply inv_put; auto.
      * apply inv_put; auto.
      * exfalso. cbn [bind] in PP. exact (parse_path_fin path PP).
    + (* store *)
      pose proof I as [I1 I2 I3 I4 I5 I6 I7].
      destruct (I2 _ _ _ N) as [S1 [S2 [S3 [S4 [S5 S6]]]]].
      cbn [alloc]. set (h := c_heap sys) in *. split; simpl.
      * intros p cid K. rewrite app_length. simpl. apply cache_store_in in K. destruct K as [[-> ->]|K].
        -- rewrite deref_alloc_new. repeat split; auto; [lia|].
           intros [E|E]; [lia|]. apply I3 in E. fold h in E. lia.
        -- destruct (I1 _ _ K) as [A1 [A2 [A3 A4]]]. fold h in A2, A3. rewrite deref_alloc_old; auto.
           repeat split; auto; [lia|]. intros [E|E]; auto. subst cid. exact (S5 _ K).
      * intros j p id' K. rewrite app_length. simpl. apply proc_set in K. destruct K as [[_ K]|[Nj K]]; [discriminate|].
        destruct (I2 _ _ _ K) as [A1 [A2 [A3 [A4 [A5 A6]]]]]. fold h in A2, A3.
        rewrite deref_alloc_old; auto. repeat split; auto; [lia| | |].
        -- intros [E|E]; auto. subst id'. apply (S6 j p); auto.
        -- intros p' Q. apply cache_store_in in Q. destruct Q as [[_ Q]|Q]; [lia|]. eapply A5; eauto.
        -- intros j2 p2 N2 Q. apply proc_set in Q. destruct Q as [[_ Q]|[_ Q]]; [discriminate|]. eapply A6; eauto.
      * intros id' K. rewrite app_length. simpl. destruct K as [<-|K]; [lia|]. apply I3 in K. fold h in K. lia.
      * intros j p [K|K]; apply proc_set in K; destruct K as [[_ K]|[_ K]]; try discriminate; eauto.
      * intros j p r K. apply proc_set in K. destruct K as [[_ K]|[_ K]]; eauto.
        injection K as -> ->. rewrite deref_alloc_old; auto. now apply fresh_parse_path.
      * intros j p K. apply proc_set in K. destruct K as [[_ K]|[_ K]]; [discriminate|eauto].
      * now apply cache_store_bound.
  - destruct (existsb (Nat.eqb id) (c_out sys)) eqn:X; auto.
    apply existsb_exists in X. destruct X as [id' [X1 X2]]. apply Nat.eqb_eq in X2. subst id'.
    destruct I as [I1 I2 I3 I4 I5 I6 I7]. split; simpl; auto.
    + intros p cid K. destruct (I1 _ _ K) as [A1 [A2 [A3 A4]]]. rewrite set_nth_length.
      rewrite deref_set_nth by (intros ->; auto). auto.
    + intros j p id' K. destruct (I2 _ _ _ K) as [A1 [A2 [A3 [A4 [A5 A6]]]]]. rewrite set_nth_length.
      rewrite deref_set_nth by (intros ->; auto). repeat split; auto.
    + intros id' K. rewrite set_nth_length. auto.
Qed.
Lemma inv_run : forall l sys, inv sys -> inv (p_run sys l).
Proof. induction l as [|a l IH]; intros sys I; cbn [p_run fold_left]; auto. apply IH. now apply inv_act. Qed.

Lemma run_length : forall l sys, List.length (c_procs (p_run sys l)) = List.length (c_procs sys).
Proof.
  induction l as [|a l IH]; intros sys; cbn [p_run fold_left]; auto.
  unfold p_run in IH. rewrite IH. destruct a; cbn [p_act]; auto.
  - destruct (nth_error (c_procs sys) i) as [[]|]; auto; apply set_nth_length.
  - destruct (nth_error (c_procs sys) i) as [[]|]; auto; cbn [p_step].
    + destruct (map_get path (c_cache sys)); cbn [alloc c_procs]; apply set_nth_length.
    + destruct (parse_path_internal path) as [[]| |]; cbn [alloc c_procs]; apply set_nth_length.
    + apply set_nth_length.
  - destruct (existsb (Nat.eqb id) (c_out sys)); auto.
Qed.

(** A goroutine inside parsePath leaves it after at most three steps of its own,
    whatever the others do in between. *)
Definition stage (st : pstate) : nat :=
  match st with PStart _ => 3 | PParse _ => 2 | PStore _ _ => 1 | _ => 0 end.
Lemma step_stage : forall sys i st, nth_error (c_procs sys) i = Some st ->
  exists st', nth_error (c_procs (p_step sys i st)) i = Some st' /\ (stage st' < stage st \/ stage st' = 0).
Proof.
  intros sys i st N. destruct st as [|path|path|path id|path r|path]; cbn [p_step]; try (exists (PIdle); auto; fail);
    try (eexists; split; [eassumption|right; reflexivity]).
  - destruct (map_get path (c_cache sys)); cbn [alloc c_procs]; rewrite nth_error_set_nth, Nat.eqb_refl, N;
      eexists; (split; [reflexivity|]); cbn; auto.
  - destruct (parse_path_internal path) as [[]| |]; cbn [alloc c_procs]; rewrite nth_error_set_nth, Nat.eqb_refl, N;
      eexists; (split; [reflexivity|]); cbn; auto.
  - cbn [alloc c_procs]; rewrite nth_error_set_nth, Nat.eqb_refl, N; eexists; (split; [reflexivity|]); cbn; auto.
Qed.
Lemma other_stage : forall sys i j st, i <> j -> nth_error (c_procs sys) i = Some st ->
  nth_error (c_procs (p_act sys (PAStep j))) i = Some st.
Proof.
  intros sys i j st Hij N. cbn [p_act]. destruct (nth_error (c_procs sys) j) as [sj|]; auto.
  assert (P : forall h c x o, nth_error (c_procs (mkSys h c (set_nth j x (c_procs sys)) o)) i = Some st).
  { intros. cbn [c_procs]. rewrite nth_error_set_nth. destruct (Nat.eqb_spec j i); [congruence|auto]. }
  destruct sj; cbn [p_step]; auto.
  - destruct (map_get path (c_cache sys)); cbn [alloc]; apply P.
  - destruct (parse_path_internal path) as [[]| |]; cbn [alloc]; apply P.
  - cbn [alloc]. apply P.
Qed.
Definition is_step_of (i : nat) (a : paction) : bool := match a with PAStep j => Nat.eqb j i | _ => false end.
Lemma stage_run : forall l sys i st,
  nth_error (c_procs sys) i = Some st -> (forall p, ~ In (PACall i p) l) ->
  exists st', nth_error (c_procs (p_run sys l)) i = Some st' /\
    (stage st' + List.length (filter (is_step_of i) l) <= stage st \/ stage st' = 0).
Proof.
  induction l as [|a l IH]; intros sys i st N H.
  - exists st. simpl. split; auto. left. lia.
  - assert (Hl : forall p, ~ In (PACall i p) l) by (intros p K; apply (H p); now right).
    cbn [p_run fold_left filter].
    assert (Zero : forall l sys st, nth_error (c_procs sys) i = Some st -> stage st = 0 -> (forall p, ~ In (PACall i p) l) ->
       exists st', nth_error (c_procs (p_run sys l)) i = Some st' /\ stage st' = 0).
    { clear. induction l as [|a l IH]; intros sys st N S H; [exists st; auto|].
      assert (Hl : forall p, ~ In (PACall i p) l) by (intros p K; apply (H p); now right).
      cbn [p_run fold_left].
      assert (N' : exists st', nth_error (c_procs (p_act sys a)) i = Some st' /\ stage st' = 0).
      { destruct a as [j p|j|id k sg].
        - destruct (Nat.eq_dec j i) as [->|Nj]; [exfalso; apply (H p); now left|].
          exists st. split; auto. cbn [p_act]. destruct (nth_error (c_procs sys) j) as [[]|]; auto; cbn [c_procs];
            rewrite nth_error_set_nth; destruct (Nat.eqb_spec j i); auto; congruence.
        - destruct (Nat.eq_dec j i) as [->|Nj].
          + cbn [p_act]. rewrite N. destruct st; try discriminate; cbn [p_step]; eexists; (split; [exact N|reflexivity]).
          + exists st. split; auto. apply other_stage; auto.
        - exists st. split; auto. cbn [p_act]. destruct (existsb (Nat.eqb id) (c_out sys)); auto. }
      destruct N' as [st' [N' S']]. apply (IH _ _ N' S' Hl). }
    destruct a as [j p|j|id k sg].
    + destruct (Nat.eq_dec j i) as [->|Nj]; [exfalso; apply (H p); now left|].
      assert (N' : nth_error (c_procs (p_act sys (PACall j p))) i = Some st).
      { cbn [p_act]. destruct (nth_error (c_procs sys) j) as [[]|]; auto; cbn [c_procs];
          rewrite nth_error_set_nth; destruct (Nat.eqb_spec j i); auto; congruence. }
      cbn [is_step_of]. apply (IH _ _ _ N' Hl).
    + cbn [is_step_of]. destruct (Nat.eqb_spec j i) as [->|Nj].
      * cbn [p_act]. rewrite N. destruct (step_stage sys i st N) as [st1 [N1 [S1|S1]]].
        -- destruct (IH _ _ _ N1 Hl) as [st2 [N2 S2]]. exists st2. split; auto. cbn [List.length]. destruct S2; [left|right]; lia.
        -- destruct (Zero l _ _ N1 S1 Hl) as [st2 [N2 S2]]. exists st2. auto.
      * apply (IH _ _ _ (other_stage _ _ _ _ (not_eq_sym Nj) N) Hl).
    + assert (N' : nth_error (c_procs (p_act sys (PAWrite id k sg))) i = Some st).
      { cbn [p_act]. destruct (existsb (Nat.eqb id) (c_out sys)); auto. }
      cbn [is_step_of]. apply (IH _ _ _ N' Hl).
Qed.

(** ** The registry *)
Section Reg.
  Variable M : Type.
  Variable builtin_of : bytes -> M.

  Lemma r_run_app : forall (reg : registry M) a b, r_run M reg (a ++ b) = r_run M (r_run M reg a) b.
  Proof. intros. unfold r_run. apply fold_left_app. Qed.
  Lemma r_call_nodup : forall (reg : registry M) c, NoDup (map fst reg) -> NoDup (map fst (fst (r_call M reg c))).
  Proof.
    intros reg c H. destruct c as [name m|name|name]; cbn [r_call]; auto.
    - destruct name; auto. destruct (map_get (a :: name) reg); auto. now apply map_set_nodup.
    - destruct (is_builtin_name name); auto. now apply map_del_nodup.
  Qed.
  Lemma r_run_nodup : forall l (reg : registry M), NoDup (map fst reg) -> NoDup (map fst (r_run M reg l)).
  Proof.
    induction l as [|c l IH]; intros reg H; auto. cbn [r_run fold_left]. apply IH. now apply r_call_nodup.
  Qed.
  (** What one call does to the binding of one name. *)
  Definition rebind (n : bytes) (b : option (option M)) (c : rcall M) : option (option M) :=
    match c with
    | RRegister _ name m =>
        if bytes_eqb n name then match b with None => if bytes_eqb name [] then None else Some m | Some _ => b end else b
    | RGet _ _ => b
    | RUnregister _ name => if bytes_eqb n name && negb (is_builtin_name name) then None else b
    end.
  Lemma r_call_rebind : forall n reg c, NoDup (map fst reg) ->
    map_get n (fst (r_call M reg c)) = rebind n (map_get n reg) c.
  Proof.
    intros n reg c H. destruct c as [name m|name|name]; cbn [r_call rebind]; auto.
    - destruct name as [|x name]; cbn [fst].
      + destruct (bytes_eqb n []) eqn:E; auto. destruct (map_get n reg); auto.
      + destruct (bytes_eqb n (x :: name)) eqn:E.
        * apply bytes_eqb_eq in E. subst n. destruct (map_get (x :: name) reg) eqn:G; cbn [fst]; [auto|].
          rewrite map_get_set, bytes_eqb_refl. reflexivity.
        * destruct (map_get (x :: name) reg) eqn:G; cbn [fst]; auto. now rewrite map_get_set, E.
    - destruct (is_builtin_name name); cbn [fst negb]; [now rewrite andb_false_r|].
      rewrite map_get_del, andb_true_r; auto.
  Qed.
  Lemma r_run_rebind : forall n l reg, NoDup (map fst reg) ->
    map_get n (r_run M reg l) = fold_left (rebind n) l (map_get n reg).
  Proof.
    induction l as [|c l IH]; intros reg H; auto. cbn [r_run fold_left]. fold (r_run M (fst (r_call M reg c)) l).
    rewrite IH by now apply r_call_nodup. now rewrite r_call_rebind.
  Qed.
  Lemma r_init_nodup : NoDup (map fst (r_init M builtin_of)).
  Proof. apply r_run_nodup. constructor. Qed.
  Lemma r_init_get : forall n, map_get n (r_init M builtin_of) =
    if is_builtin_name n then Some (Some (builtin_of n)) else None.
  Proof.
    intros n. unfold r_init. unfold is_builtin_name, builtin_names. cbn [map].
    unfold r_run, bs. cbn [fold_left r_call list_ascii_of_string map_get map_set bytes_eqb fst Ascii.eqb Bool.eqb].
    cbn. 
    repeat match goal with |- context [bytes_eqb n ?k] =>
      let E := fresh in destruct (bytes_eqb n k) eqn:E;
        [apply bytes_eqb_eq in E; subst n; try reflexivity|] end; reflexivity.
  Qed.
  Lemma rebind_some_builtin : forall n l v, is_builtin_name n = true ->
    fold_left (rebind n) l (Some v) = Some v.
  Proof.
    intros n l v Hb. induction l as [|c l IH]; auto. cbn [fold_left].
    replace (rebind n (Some v) c) with (Some v); auto.
    destruct c as [name m|name|name]; cbn [rebind]; auto.
    - destruct (bytes_eqb n name); auto.
    - destruct (bytes_eqb n name) eqn:E; auto. apply bytes_eqb_eq in E. subst. rewrite Hb. auto.
  Qed.
  Lemma registry_builtin : forall n l, is_builtin_name n = true ->
    map_get n (r_run M (r_init M builtin_of) l) = Some (Some (builtin_of n)).
  Proof.
    intros n l Hb. rewrite r_run_rebind by apply r_init_nodup. rewrite r_init_get, Hb. now apply rebind_some_builtin.
  Qed.
  (** The binding of a custom name after a history: the registration that found the
      name free and was not undone since. *)
  Definition touches_un (n : bytes) (c : rcall M) : Prop := c = RUnregister M n.
  Definition registers (n : bytes) (c : rcall M) : Prop := exists m, c = RRegister M n m.
  Lemma rebind_keep : forall n l v, (forall c, In c l -> ~ touches_un n c) ->
    fold_left (rebind n) l (Some v) = Some v.
  Proof.
    intros n l v. induction l as [|c l IH]; intros H; auto. cbn [fold_left].
    replace (rebind n (Some v) c) with (Some v); [apply IH; intros; apply H; now right|].
    destruct c as [name m|name|name]; cbn [rebind]; auto.
    - destruct (bytes_eqb n name); auto.
    - destruct (bytes_eqb n name) eqn:E; auto. apply bytes_eqb_eq in E. subst.
      exfalso. apply (H (RUnregister M name)); [now left|reflexivity].
  Qed.
  Lemma rebind_none : forall n l, (forall c, In c l -> ~ registers n c) -> fold_left (rebind n) l None = None.
  Proof.
    intros n l. induction l as [|c l IH]; intros H; auto. cbn [fold_left].
    replace (rebind n None c) with (@None (option M)); [apply IH; intros; apply H; now right|].
    destruct c as [name m|name|name]; cbn [rebind]; auto.
    - destruct (bytes_eqb n name) eqn:E; auto. apply bytes_eqb_eq in E. subst.
      exfalso. apply (H (RRegister M name m)); [now left|now exists m].
    - destruct (bytes_eqb n name && negb (is_builtin_name name)); auto.
  Qed.
  (** Bound to [m] iff some registration of [m] happened while the name was free and
      there was no removal since. *)
  Lemma registry_custom : forall n l m, is_builtin_name n = false ->
    (map_get n (r_run M (r_init M builtin_of) l) = Some m <->
     n <> [] /\ exists a b, l = a ++ RRegister M n m :: b /\ (forall c, In c b -> ~ touches_un n c) /\
       map_get n (r_run M (r_init M builtin_of) a) = None).
  Proof.
    intros n l m Hb. split.
    - revert m. induction l as [|c l IH] using rev_ind; intros m H.
      + change (r_run M (r_init M builtin_of) []) with (r_init M builtin_of) in H. rewrite r_init_get, Hb in H. discriminate.
      + rewrite r_run_app in H. cbn [r_run fold_left] in H. fold (r_run M (r_init M builtin_of) l) in H.
        rewrite r_call_rebind in H by (apply r_run_nodup, r_init_nodup).
        assert (Keep : map_get n (r_run M (r_init M builtin_of) l) = Some m -> ~ touches_un n c ->
          n <> [] /\ exists a b, l ++ [c] = a ++ RRegister M n m :: b /\ (forall c, In c b -> ~ touches_un n c) /\
            map_get n (r_run M (r_init M builtin_of) a) = None).
        { intros G T. destruct (IH _ G) as [Hn [a [b [-> [Hb1 Ha]]]]]. split; auto. exists a, (b ++ [c]).
          split; [now rewrite <- app_assoc|]. split; auto. intros x Hx. apply in_app_or in Hx.
          destruct Hx as [Hx|[<-|[]]]; auto. }
        destruct c as [name m'|name|name]; cbn [rebind] in H.
        * destruct (bytes_eqb n name) eqn:E.
          -- apply bytes_eqb_eq in E. subst name.
             destruct (map_get n (r_run M (r_init M builtin_of) l)) eqn:G.
             ++ injection H as ->. apply Keep; auto. discriminate.
             ++ destruct (bytes_eqb n []) eqn:E0; [discriminate|]. injection H as ->. apply bytes_eqb_neq in E0.
                split; auto. exists l, []. split; auto.
          -- apply Keep; auto. discriminate.
        * apply Keep; auto. discriminate.
        * destruct (bytes_eqb n name) eqn:E.
          -- apply bytes_eqb_eq in E. subst name. rewrite Hb in H. discriminate.
          -- cbn [andb] in H. apply Keep; auto. intros K. unfold touches_un in K. injection K as ->. rewrite bytes_eqb_refl in E. discriminate.
    - intros [Hn [a [b [-> [Hun Ha]]]]]. rewrite r_run_app. cbn [r_run fold_left].
      fold (r_run M (r_init M builtin_of) a). 
      match goal with |- map_get n (fold_left ?f b ?r) = _ => change (fold_left f b r) with (r_run M r b) end.
      rewrite r_run_rebind by (apply r_call_nodup, r_run_nodup, r_init_nodup).
      rewrite r_call_rebind by (apply r_run_nodup, r_init_nodup). rewrite Ha. cbn [rebind].
      rewrite bytes_eqb_refl. rewrite (proj2 (bytes_eqb_neq _ _) Hn). now apply rebind_keep.
  Qed.
End Reg.
