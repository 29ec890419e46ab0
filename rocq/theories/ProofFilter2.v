(** Filters: all matches below the document. *)
From Coq Require Import List Ascii String NArith ZArith Bool Lia SpecFloat.
From Verif Require Import GoStr ModelParser ModelPath ModelResult ModelQuery SpecPath SpecGlob SpecFilter
  ProofBase ProofPath ProofFuel ProofSyntax ProofFilter ProofMono ProofApi2.
Import ListNotations.

Lemma eval_filter_get : forall E n key f e, one_order (e_ord E) -> filt_fits n (Some f) ->
  (blen (e_content e) <= 10485760)%N ->
  exists b, eval_filter_opt E (exec E n) key (Some f) e = Ok b /\ (b = true <-> satisfies E f e).
Proof.
  intros E n key f e Ho Hf Hs. unfold satisfies.
  assert (G : (forall a, f_path f <> "@"%char :: a) -> exists r,
    (let* segs := parse_path (f_path f) in
     let* r := exec E n (child_key site_filter e key) true (e_content e) segs in
     Ok (filter_decide E (f_op f) (r_exists r) (r_string r) (f_value f))) =
    Ok (filter_decide E (f_op f) (r_exists r) (r_string r) (f_value f)) /\ get E (e_content e) (f_path f) = Ok r).
  { intros Hp. pose proof (eval_filter_ok E n (exec E n) key (Some f) e (exec_ok E n) Hf) as [b Hb].
    assert (Hb' : (let* segs := parse_path (f_path f) in
                   let* r := exec E n (child_key site_filter e key) true (e_content e) segs in
                   Ok (filter_decide E (f_op f) (r_exists r) (r_string r) (f_value f))) = Ok b).
    { rewrite <- Hb. unfold eval_filter_opt, eval_filter. destruct (f_path f) as [|c a]; auto.
      destruct (Ascii.eqb c "@") eqn:C; auto. apply Ascii.eqb_eq in C. subst. now destruct (Hp a). }
    clear Hb. apply bind_ok in Hb'. destruct Hb' as [segs [P1 P2]]. apply bind_ok in P2. destruct P2 as [r [P2 P3]].
    exists r. rewrite P1. cbn [bind]. rewrite P2. split; auto.
    apply (exec_key E n _ [] _ _ _ _ Ho) in P2. destruct segs as [|s0 segs].
    - unfold get. change 10485760%N with MaxDocumentSize in Hs. rewrite (proj2 (N.ltb_ge _ _) Hs), P1. cbn [bind].
      destruct n as [|n]; [discriminate|]. exact P2.
    - destruct (parse_path_cost _ _ P1) as [C S]. destruct Hf as [Hf _].
      rewrite (get_exec E _ _ _ n Hs P1); auto; [discriminate|]. lia. }
  unfold eval_filter_opt, eval_filter, condition_value. destruct (f_path f) as [|c a] eqn:Ep.
  - destruct G as [r [G1 G2]]; [discriminate|]. rewrite G1. eexists. split; eauto.
    rewrite filter_decide_spec. split.
    + intros H. eexists. split; [|exact H]. eauto.
    + intros [o [[r' [H1 ->]] H2]]. rewrite H1 in G2. injection G2 as ->. exact H2.
  - destruct (Ascii.eqb c "@") eqn:C.
    + apply Ascii.eqb_eq in C. subst c. destruct (map_get a (e_attrs e)) as [v|].
      * eexists. split; eauto. rewrite filter_decide_spec. split; [eauto|]. intros [o [-> H]]. exact H.
      * eexists. split; eauto. rewrite filter_decide_spec. split; [eauto|]. intros [o [-> H]]. exact H.
    + destruct G as [r [G1 G2]]. { intros a' K. injection K as -> _. discriminate. } rewrite G1. eexists. split; eauto.
      rewrite filter_decide_spec.
      assert (Q : forall o, match c with
         | "@"%char => o = map_get a (e_attrs e)
         | _ => exists r0, get E (e_content e) (c :: a) = Ok r0 /\ o = (if r_exists r0 then Some (r_string r0) else None)
         end = (exists r0, get E (e_content e) (c :: a) = Ok r0 /\ o = (if r_exists r0 then Some (r_string r0) else None))).
      { intros o. clear - C. destruct c as [[] [] [] [] [] [] [] []]; try reflexivity. discriminate. }
      split.
      * intros H. eexists. rewrite Q. split; [|exact H]. eauto.
      * intros [o [K H2]]. rewrite Q in K. destruct K as [r' [H1 ->]]. rewrite H1 in G2. injection G2 as ->. exact H2.
Qed.
Lemma filter_elems_sat : forall E n key f (keep : elem -> bool), one_order (e_ord E) -> filt_fits n (Some f) -> forall l,
  Forall (fun e => (blen (e_content e) <= 10485760)%N) l ->
  (forall e, In e l -> (keep e = true <-> satisfies E f e)) ->
  filter_elems E (exec E n) key (Some f) l = Ok (filter keep l).
Proof.
  intros E n key f keep Ho Hf l Hs Hk. induction l as [|e l IH]; auto. cbn [filter_elems filter].
  destruct (eval_filter_get E n key f e Ho Hf (Forall_inv Hs)) as [b [H1 H2]]. rewrite H1. cbn [bind].
  rewrite IH; [|now inversion Hs|intros; apply Hk; now right]. cbn [bind].
  specialize (Hk e (or_introl eq_refl)). rewrite <- Hk in H2.
  destruct b, (keep e); auto; [symmetry|]; intuition discriminate.
Qed.
Lemma Forall_firstn : forall A (P : A -> Prop) n l, Forall P l -> Forall P (firstn n l).
Proof. intros A P n l H. revert n. induction H; intros [|n]; cbn [firstn]; auto. Qed.
Lemma In_firstn : forall A n (l : list A) x, In x (firstn n l) -> In x l.
Proof. intros A n l x H. rewrite <- (firstn_skipn n l). apply in_or_app. now left. Qed.
Lemma all_matches : forall E xml n cond f es (named keep : elem -> bool),
  (forall k k' l, e_ord E k l = e_ord E k' l) ->
  (blen xml <= 10485760)%N -> plain_name n -> (forall p l, good_prefix p -> n <> qualified p l) ->
  ~ In "|"%char cond -> parse_filter_condition cond = Ok (Some f) ->
  scan (e_ord E) [] xml = Some es ->
  Forall (fun e => (blen (e_content e) <= 10485760)%N) es ->
  (forall e, named e = true <-> e_name e = n \/ exists p, good_prefix p /\ e_name e = qualified p n) ->
  (forall e, In e es -> (keep e = true <-> satisfies E f e)) ->
  get E xml (path_text [n; bs "#(" ++ cond ++ bs ")#"]) =
  Ok (match filter keep (firstn 1000 (filter named es)) with
      | [] => r_null
      | l => r_array (map (fun e => r_element (e_content e)) l)
      end).
Proof.
  intros E xml n cond f es named keep Ho Hx Hn Hq Hb Hc Hs Hsz Hnm Hk.
  assert (Hne : cond <> []) by (intros ->; discriminate).
  assert (P : parse_path (path_text [n; cond_step cond true]) = Ok ([elem_seg n] ++ [filter_seg f true])).
  { apply (parse_names_filter [n] cond true f); auto. cbn; lia. }
  change (get E xml (path_text [n; bs "#(" ++ cond ++ bs ")#"])) with (get E xml (path_text [n; cond_step cond true])).
  destruct (parse_path_cost _ _ P) as [C Sf].
  assert (exists k, k = S (cost ([elem_seg n] ++ [filter_seg f true]))) as [k Kk] by eauto.
  rewrite (get_exec E xml _ _ (S k) Hx P); [|discriminate|lia].
  cbn [app exec]. unfold exec_body, scan_res. rewrite Hs. cbn [bind s_type elem_seg].
  unfold exec_element. cbn [s_type filter_seg s_filter].
  assert (M : matching (elem_seg n) es = filter named es).
  { unfold matching. apply filter_ext. intros e. pose proof (ns_match_unprefixed _ (e_name e) Hq) as Q. rewrite <- Hnm in Q.
    destruct (named e), (seg_matches (elem_seg n) (e_name e)); auto; [symmetry|]; intuition discriminate. }
  change (mkSeg SElem n 0 false None false [] []) with (elem_seg n). rewrite M.
  unfold MaxWildcardResults. rewrite (filter_elems_sat E _ [] f keep Ho).
  - cbn [bind]. unfold route_matches. destruct (filter keep (firstn 1000 (filter named es))); auto.
  - cbn [filt_fits]. split; [|inversion Sf as [|? ? _ S2]; exact (Forall_inv S2)].
    rewrite Kk. cbn [cost app seg_cost filter_seg elem_seg s_filter]. lia.
  - apply Forall_firstn. apply Forall_forall. intros e He. apply filter_In in He. rewrite Forall_forall in Hsz. now apply Hsz.
  - intros e He. apply Hk. apply In_firstn in He. now apply filter_In in He.
Qed.

Lemma decide_laws : forall E v lit op,
  filter_decide E op false v lit = false /\
  (filter_decide E OpEq true v lit = true <-> v = lit) /\
  (filter_decide E OpNe true v lit = true <-> v <> lit) /\
  (In op [OpLt; OpGt; OpLe; OpGe] -> filter_decide E op true v lit = true ->
    exists x y, number (e_parse_float E) v x /\ number (e_parse_float E) lit y) /\
  (forall x y, number (e_parse_float E) v x -> number (e_parse_float E) lit y ->
    (filter_decide E OpLt true v lit = true <-> num_lt x y) /\
    (filter_decide E OpGt true v lit = true <-> num_lt y x) /\
    (filter_decide E OpLe true v lit = true <-> num_lt x y \/ num_eq x y) /\
    (filter_decide E OpGe true v lit = true <-> num_lt y x \/ num_eq y x)) /\
  ((is_glob lit -> within_budget v lit) ->
    filter_decide E OpNotMatch true v lit = negb (filter_decide E OpMatch true v lit)) /\
  ((is_glob lit /\ ~ within_budget v lit) ->
    filter_decide E OpNotMatch true v lit = false /\ filter_decide E OpMatch true v lit = false).
Proof.
  intros E v lit op.
  assert (F : forall o b x, ~ holds (e_parse_float E) o (if b : bool then Some x else None) lit -> filter_decide E o b x lit = false).
  { intros o b x H. destruct (filter_decide E o b x lit) eqn:D; auto. apply filter_decide_spec in D. contradiction. }
  split; [apply F; inversion 1|].
  split; [rewrite filter_decide_spec; split; [now inversion 1|intros ->; constructor]|].
  split; [rewrite filter_decide_spec; split; [now inversion 1|intros; now constructor]|].
  split.
  { intros Ho H. apply filter_decide_spec in H.
    destruct Ho as [<-|[<-|[<-|[<-|[]]]]]; inversion H; subst; eauto. }
  split.
  { intros x y Hx Hy. pose proof Hx as [_ [Hx1 _]]. pose proof Hy as [_ [Hy1 _]].
    assert (U : forall x', number (e_parse_float E) v x' -> x' = x) by (intros x' [_ [K _]]; congruence).
    assert (W : forall x', number (e_parse_float E) lit x' -> x' = y) by (intros x' [_ [K _]]; congruence).
    rewrite !filter_decide_spec. cbn iota.
    repeat split; intros H; try (inversion H as [| | |? ? x' y' A B C|? ? x' y' A B C|? ? x' y' A B C|? ? x' y' A B C| |]; subst;
      apply U in A; apply W in B; subst; assumption); econstructor; eauto. }
  split.
  { intros H. destruct (filter_decide E OpMatch true v lit) eqn:D; cbn [negb].
    - apply F. apply filter_decide_spec in D. intros K. inversion D; inversion K; subst; auto.
    - apply filter_decide_spec. constructor; auto. intros K.
      assert (X : filter_decide E OpMatch true v lit = true) by (apply filter_decide_spec; constructor; auto). congruence. }
  intros [H1 H2]. split; apply F; inversion 1; subst; auto.
Qed.
