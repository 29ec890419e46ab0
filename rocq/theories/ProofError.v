(** Which error an edit reports. *)
From Coq Require Import List Ascii String NArith ZArith Bool Lia.
From Verif Require Import GoStr ModelParser ModelPath ModelResult ModelQuery ModelValidate ModelBuilder ModelQueryOpts
  SpecPath SpecValid SpecGrammar SpecError ProofBase ProofSyntax ProofGrammar ProofGrammar2 PropValid.
Import ListNotations.

Definition lowered (o : options) (l : list (gstep * list bytes)) : list seg :=
  if o_case o then map seg_of l else map lower_seg (map seg_of l).
Lemma parse_lowered : forall o path l, path_means path (Steps l) -> parse_path_opts o path = Ok (lowered o l).
Proof. intros o path l H. unfold parse_path_opts. now rewrite (path_means_res _ _ H). Qed.
Lemma parse_pathless : forall o path, pathless path -> parse_path_opts o path = Ok [].
Proof. intros o path H. apply path_means_none in H. unfold parse_path_opts. rewrite H. cbn [bind]. now destruct (o_case o). Qed.
Lemma lowered_length : forall o l, List.length (lowered o l) = List.length l.
Proof. intros o l. unfold lowered. destruct (o_case o); rewrite ?map_length; auto. Qed.
Lemma lower_type : forall sg, s_type (lower_seg sg) = s_type sg.
Proof. intros sg. unfold lower_seg. destruct (s_type sg) eqn:T; auto. Qed.
Lemma lower_index : forall sg, s_index (lower_seg sg) = s_index sg.
Proof. intros sg. unfold lower_seg. destruct (s_type sg) eqn:T; auto. Qed.
Definition low (o : options) (x : gstep * list bytes) : seg := if o_case o then seg_of x else lower_seg (seg_of x).
Lemma lowered_map : forall o l, lowered o l = map (low o) l.
Proof. intros o l. unfold lowered, low. destruct (o_case o); auto. now rewrite map_map. Qed.
Lemma low_type : forall o x, s_type (low o x) = s_type (seg_of x).
Proof. intros o x. unfold low. destruct (o_case o); auto. apply lower_type. Qed.
Lemma low_index : forall o x, s_index (low o x) = s_index (seg_of x).
Proof. intros o x. unfold low. destruct (o_case o); auto. apply lower_index. Qed.
Lemma map_split : forall A B (f : A -> B) l a b, map f l = a ++ b -> exists x y, l = x ++ y /\ map f x = a /\ map f y = b.
Proof.
  intros A B f l a. revert l. induction a as [|h a IH]; intros l b H; [exists [], l; auto|].
  destruct l as [|x l]; [discriminate|]. cbn [map app] in H. injection H as <- H. destruct (IH _ _ H) as (p & q & -> & <- & <-).
  exists (x :: p), q. auto.
Qed.
Lemma misplaced_bad : forall o l, misplaced l <-> bad_index (lowered o l).
Proof.
  intros o l. rewrite lowered_map. split.
  - intros (pre & i & ms & post & -> & H). exists (map (low o) pre), (low o (GNth i, ms)), (map (low o) post).
    rewrite map_app. split; auto. unfold is_index. rewrite low_type, low_index. split; [reflexivity|]. cbn [seg_of fst snd s_index].
    destruct H as [H|[H1 H2]]; auto. right. split; auto. destruct post; [easy|discriminate].
  - intros (pre & sg & post & E & T & H). apply map_split in E. destruct E as (x & y & -> & <- & E).
    destruct y as [|[st ms] y]; [discriminate|]. cbn [map] in E. injection E as <- <-. unfold is_index in T. rewrite low_type in T.
    destruct st as [| i | | | | | | |]; try discriminate. rewrite low_index in H. cbn [seg_of fst snd s_index] in H.
    exists x, i, ms, y. split; auto. destruct H as [H|[H1 H2]]; auto. right. split; auto. intros ->. now apply H2.
Qed.
Lemma appends_append : forall o l, ~ misplaced l -> (appends l <-> append_index (lowered o l)).
Proof.
  intros o l NM. rewrite lowered_map. split.
  - intros (pre & ms & ->). exists (map (low o) pre), (low o (GNth (-1), ms)). rewrite map_app. split; auto.
    unfold is_index. rewrite low_type, low_index. split; [reflexivity|]. split; [reflexivity|].
    apply Forall_forall. intros sg I T. apply in_map_iff in I. destruct I as ([st ms1] & <- & I). unfold is_index in T.
    rewrite low_type in T. destruct st as [| i | | | | | | |]; try discriminate. rewrite low_index. cbn [seg_of fst snd s_index].
    destruct (Z.leb_spec 0 i) as [|L]; auto. exfalso. apply NM. apply in_split in I. destruct I as (a & b & ->).
    exists a, i, ms1, (b ++ [(GNth (-1), ms)]). split; [now rewrite <- app_assoc|].
    destruct (Z.eq_dec i (-1)) as [->|]; [right; split; auto; destruct b; discriminate|left; lia].
  - intros (pre & sg & E & T & H & _). apply map_split in E. destruct E as (x & y & -> & <- & E).
    destruct y as [|[st ms] [|z y]]; try discriminate. cbn [map] in E. injection E as <-. unfold is_index in T. rewrite low_type in T.
    destruct st as [| i | | | | | | |]; try discriminate. rewrite low_index in H. cbn [seg_of fst snd s_index] in H. subst i. exists x, ms. auto.
Qed.

(** ** Delete *)
Lemma valid_dec : forall xml, {accepted_document xml} + {~ accepted_document xml}.
Proof. intros xml. destruct (valid xml) eqn:V; [left|right]; rewrite <- C16_grammar; congruence. Qed.
Lemma accepted_size : forall xml, accepted_document xml -> (MaxDocumentSize <? blen xml)%N = false.
Proof. intros xml [_ L]. apply N.ltb_ge. exact L. Qed.
Lemma delete_refused_document : forall E o xml path, ~ accepted_document xml ->
  delete_opts E o xml path = Ok (xml, Some ErrMalformedXML).
Proof.
  intros E o xml path H. unfold delete_opts. destruct (MaxDocumentSize <? blen xml)%N; auto.
  destruct (valid xml) eqn:V; auto. now apply C16_grammar in V.
Qed.
Lemma delete_pathless : forall E o xml path, accepted_document xml -> pathless path ->
  delete_opts E o xml path = Ok (xml, Some ErrInvalidPath).
Proof.
  intros E o xml path A P. unfold delete_opts. rewrite (accepted_size _ A), (proj2 (C16_grammar _) A). cbn [negb].
  now rewrite (parse_pathless o _ P).
Qed.
Lemma last_map : forall o l d x, l <> [] -> last (map (low o) l) d = low o (last l x).
Proof.
  intros o l d x. induction l as [|a l IH]; intros N; [easy|]. destruct l as [|b l]; [reflexivity|].
  cbn [map last] in *. now apply IH.
Qed.
Lemma delete_bare : forall E o xml path, accepted_document xml -> bare_attribute path ->
  delete_opts E o xml path = Ok (xml, Some ErrInvalidPath).
Proof.
  intros E o xml path A (n & ms & P). unfold delete_opts. rewrite (accepted_size _ A) at 1. rewrite (proj2 (C16_grammar _) A). cbn [negb].
  rewrite (parse_lowered o _ _ P), lowered_map. cbn [bind map]. unfold edit_of, delete_element. rewrite (accepted_size _ A).
  cbn [last removelast]. rewrite low_type. reflexivity.
Qed.
Lemma delete_fine : forall E o xml path l new e, accepted_document xml -> path_means path (Steps l) -> l <> [] ->
  (forall n ms, l <> [(GAttr n, ms)]) -> delete_opts E o xml path = Ok (new, e) -> e = None.
Proof.
  intros E o xml path l new e A P NE NB. unfold delete_opts. rewrite (accepted_size _ A) at 1. rewrite (proj2 (C16_grammar _) A). cbn [negb].
  rewrite (parse_lowered o _ _ P), lowered_map. cbn [bind]. destruct l as [|x l]; [easy|]. cbn [map]. unfold edit_of, delete_element.
  rewrite (accepted_size _ A). change (low o x :: map (low o) l) with (map (low o) (x :: l)). rewrite (last_map o (x :: l) _ x) by discriminate.
  rewrite low_type. destruct (segtype_eqb (s_type (seg_of (last (x :: l) x))) SAttr) eqn:T.
  - destruct (removelast (map (low o) (x :: l))) as [|y ys] eqn:R.
    + exfalso. destruct l as [|z l]; [|discriminate]. cbn [last] in T. destruct x as [[] ms]; try discriminate. exact (NB _ _ eq_refl).
    + intros H. apply bind_ok in H. destruct H as (r & H1 & H2). apply bind_ok in H1. destruct H1 as (loc & H0 & H1).
      destruct loc as [loc|]; [|injection H1 as <-; injection H2 as <- <-; auto].
      unfold lift in H1. apply bind_ok in H1. destruct H1 as (d & _ & H1). injection H1 as <-. injection H2 as <- <-. auto.
  - intros H. apply bind_ok in H. destruct H as (r & H1 & H2). apply bind_ok in H1. destruct H1 as (loc & H0 & H1).
    destruct loc as [loc|]; [|injection H1 as <-; injection H2 as <- <-; auto].
    apply bind_ok in H1. destruct H1 as (a & _ & H1). apply bind_ok in H1. destruct H1 as (b & _ & H1). injection H1 as <-. injection H2 as <- <-. auto.
Qed.

(** ** Set *)
Lemma set_nil : forall E g o xml path, set_opts E g o xml path VNil = delete_opts E o xml path.
Proof.
  intros E g o xml path. unfold set_opts, delete_opts. destruct (MaxDocumentSize <? blen xml)%N; auto.
  destruct xml as [|c xml]; auto. destruct (valid (c :: xml)) eqn:V; auto.
Qed.
Lemma set_refused_document : forall E g o xml path v, ~ editable xml ->
  set_opts E g o xml path v = Ok (xml, Some ErrMalformedXML).
Proof.
  intros E g o xml path v H. unfold set_opts. destruct (MaxDocumentSize <? blen xml)%N; auto.
  destruct xml as [|c xml]; [elim H; now left|]. destruct (valid (c :: xml)) eqn:V; auto. elim H. right. now apply C16_grammar.
Qed.
Lemma editable_open : forall E g o xml path v, editable xml -> v <> VNil ->
  set_opts E g o xml path v =
  let* segs := parse_path_opts o path in
  match segs with [] => Ok (xml, Some ErrInvalidPath) | _ :: _ => edit_of xml (set_element E g o xml segs v) end.
Proof.
  intros E g o xml path v H N. unfold set_opts.
  assert (L : (MaxDocumentSize <? blen xml)%N = false) by (destruct H as [->|H]; [reflexivity|now apply accepted_size]). rewrite L.
  assert (V : match xml with [] => false | _ :: _ => negb (valid xml) end = false).
  { destruct H as [->|H]; auto. rewrite (proj2 (C16_grammar _) H). now destruct xml. }
  rewrite V. destruct v; auto. now elim N.
Qed.
Lemma editable_size : forall xml, editable xml -> (MaxDocumentSize <? blen xml)%N = false.
Proof. intros xml [->|H]; [reflexivity|now apply accepted_size]. Qed.
Lemma set_pathless : forall E g o xml path v, editable xml -> v <> VNil -> pathless path ->
  set_opts E g o xml path v = Ok (xml, Some ErrInvalidPath).
Proof. intros. rewrite editable_open; auto. now rewrite (parse_pathless o _ H1). Qed.
Lemma set_unfit : forall E g o xml path v l, editable xml -> v <> VNil -> path_means path (Steps l) -> l <> [] -> unfit g v ->
  set_opts E g o xml path v = Ok (xml, Some ErrInvalidValue).
Proof.
  intros E g o xml path v l A N P NE U. rewrite editable_open; auto. rewrite (parse_lowered o _ _ P), lowered_map. cbn [bind].
  destruct l as [|x l]; [easy|]. cbn [map]. unfold edit_of, set_element. destruct U as [->|(t & V & L)]; [reflexivity|].
  rewrite V. rewrite (proj2 (N.ltb_lt _ _)); [reflexivity|]. exact L.
Qed.
Lemma unfit_not : forall g v, ~ unfit g v -> exists t, value_to_xml g v = inr t /\ (MaxValueSize <? blen t)%N = false.
Proof.
  intros g v H. destruct (value_to_xml g v) as [e|t] eqn:V.
  - destruct v; try discriminate. elim H. now left.
  - exists t. split; auto. apply N.ltb_ge. destruct (N.leb_spec (blen t) MaxValueSize) as [|L]; auto. elim H. right. exists t. split; auto.
Qed.
Lemma unfit_dec : forall g v, unfit g v \/ ~ unfit g v.
Proof.
  intros g v. destruct (value_to_xml g v) as [e|t] eqn:V.
  - left. left. destruct v; try discriminate. auto.
  - destruct (N.ltb_spec MaxValueSize (blen t)) as [L|L].
    + left. right. exists t. auto.
    + right. intros [->|(t' & V' & L')]; [discriminate|]. rewrite V in V'. injection V' as ->. unfold blen, MaxValueSize in L. lia.
Qed.
Lemma set_misplaced : forall E g o xml path v l, editable xml -> v <> VNil -> path_means path (Steps l) -> ~ unfit g v -> misplaced l ->
  set_opts E g o xml path v = Ok (xml, Some ErrInvalidPath).
Proof.
  intros E g o xml path v l A N P U M. rewrite editable_open; auto. rewrite (parse_lowered o _ _ P). cbn [bind].
  destruct (unfit_not _ _ U) as (t & V & L). pose proof (proj1 (misplaced_bad o l) M) as B.
  unfold edit_of, set_element. destruct (lowered o l) as [|s0 segs] eqn:E0; [destruct B as [[] [? [? [K _]]]]; discriminate|].
  rewrite V, L, (editable_size _ A), (proj2 (check_intents_err _) B). reflexivity.
Qed.
Lemma scan_none : forall E k xml, scan_res E k xml = Ok [] -> unreadable xml.
Proof.
  intros E k xml H E'. unfold scan_res, scan in H. cbn [scan_loop] in H.
  destruct (skip_to_next xml) as [[s1|]|] eqn:S; [| |discriminate].
  - exfalso. destruct (parse_element_name (next s1)) as [[[name attrs] self] s2]. destruct self.
    + destruct (scan_loop (e_ord E) k (List.length xml) s2); discriminate.
    + destruct (parse_content (e_ord E) k name s2) as [[content s3]|]; [|discriminate].
      destruct (scan_loop (e_ord E) k (List.length xml) s3); discriminate.
  - unfold get. destruct (MaxDocumentSize <? blen xml)%N; auto.
    change (parse_path (bs "*")) with (Ok [mkSeg SWild [] 0 false None false [] []]). cbn [bind].
    change (query_fuel (bs "*")) with 4%nat. cbn [exec]. unfold exec_body at 1. unfold scan_res, scan. cbn [scan_loop]. rewrite S. reflexivity.
Qed.
Lemma create_root_err : forall E o key d path v e, create_in_root E o key d path v = Ok (inl e) -> e = ErrMalformedXML /\ unreadable d.
Proof.
  intros E o key d path v e H. unfold create_in_root in H. apply bind_ok in H. destruct H as (es & S & H).
  destruct (match path with [] => false | sg :: _ => _ end); [discriminate|].
  destruct es as [|e0 es]; [injection H as <-; split; auto; eapply scan_none; eauto|].
  cbv zeta in H. destruct (match path with [] => _ | _ :: _ => _ end); [discriminate|].
  destruct (e_self e0); apply bind_ok in H; destruct H as (a & _ & H); apply bind_ok in H; destruct H as (b & _ & H); discriminate.
Qed.
Lemma create_err : forall E o key d path v e, create_element E o key d path v = Ok (inl e) -> e = ErrMalformedXML /\ unreadable d.
Proof.
  intros E o key d path v e H. unfold create_element in H. destruct d as [|c d]; [discriminate|].
  apply bind_ok in H. destruct H as ([[l i]|] & _ & H).
  - apply bind_ok in H. destruct H as (r & _ & H). discriminate.
  - eapply create_root_err; eauto.
Qed.
Lemma set_elsewhere : forall E g o xml path v l new e, editable xml -> v <> VNil -> path_means path (Steps l) -> l <> [] ->
  ~ unfit g v -> ~ misplaced l -> ~ appends l -> ~ at_attribute l ->
  set_opts E g o xml path v = Ok (new, e) -> e = None \/ e = Some ErrMalformedXML /\ unreadable xml.
Proof.
  intros E g o xml path v l new e A N P NE U M NA NT. rewrite editable_open; auto. rewrite (parse_lowered o _ _ P). cbn [bind].
  destruct (unfit_not _ _ U) as (t & V & L). unfold edit_of, set_element.
  pose proof (check_intents_spec (lowered o l)) as K.
  destruct (lowered o l) as [|s0 segs] eqn:E0; [rewrite lowered_map in E0; destruct l; [easy|discriminate]|]. rewrite <- E0 in *.
  rewrite V, L, (editable_size _ A). destruct (check_intents (lowered o l)).
  - cbv zeta. rewrite lowered_map. destruct l as [|x l]; [easy|]. rewrite (last_map o (x :: l) _ x) by discriminate. rewrite low_type.
    destruct (segtype_eqb (s_type (seg_of (last (x :: l) x))) SAttr) eqn:T.
    + exfalso. apply NT. assert (LX : exists pre, x :: l = pre ++ [last (x :: l) x]).
      { exists (removelast (x :: l)). apply app_removelast_last. discriminate. }
      destruct LX as [pre LX]. destruct (last (x :: l) x) as [[] ms]; try discriminate. exists pre, n, ms. exact LX.
    + intros H. apply bind_ok in H. destruct H as (r & H1 & H2). apply bind_ok in H1. destruct H1 as (loc & H0 & H1).
      destruct loc as [loc|].
      * apply bind_ok in H1. destruct H1 as (q & H3 & H4). unfold lift in H3. apply bind_ok in H3. destruct H3 as (d & _ & H3). injection H3 as <-.
        injection H4 as <-. injection H2 as <- <-. auto.
      * apply bind_ok in H1. destruct H1 as (q & H3 & H4). destruct q as [e1|q].
        -- injection H4 as <-. injection H2 as <- <-. apply create_err in H3. destruct H3 as [-> H3]. auto.
        -- injection H4 as <-. injection H2 as <- <-. auto.
  - exfalso. apply NA. now apply (appends_append o).
  - exfalso. apply M. now apply (misplaced_bad o).
Qed.
(** ** Appending *)
Lemma slices_length : forall d p a b, slice_to d p = Ok a -> slice_from d p = Ok b -> (List.length a + List.length b = List.length d)%nat.
Proof.
  intros d p a b H1 H2. unfold slice_to, slice_from in *. destruct ((0 <=? p)%Z && (p <=? Z.of_nat (List.length d))%Z)%bool; [|discriminate].
  injection H1 as <-. injection H2 as <-. rewrite <- (firstn_skipn (Z.to_nat p) d) at 3. now rewrite app_length.
Qed.
Lemma low_value_length : forall o n ms, List.length (s_value (low o (GName n, ms))) = List.length n.
Proof. intros o n ms. unfold low. destruct (o_case o); auto. unfold lower_seg. cbn [seg_of fst snd s_type s_value]. unfold to_lower_ascii. now rewrite map_length. Qed.
Lemma repeat_length : forall n s, List.length (repeat_bytes n s) = (n * List.length s)%nat.
Proof. induction n as [|n IH]; intros s; cbn [repeat_bytes]; auto. rewrite app_length, IH. reflexivity. Qed.
Lemma new_elem_length : forall n v, List.length (new_elem n v) = (2 * List.length n + 5 + List.length v)%nat.
Proof. intros n v. unfold new_elem, open_tag, close_tag. rewrite !app_length. cbn [bs list_ascii_of_string List.length]. lia. Qed.
Lemma append_err : forall E o key d pre n ms0 ms v e,
  append_element E o key d (map (low o) (pre ++ [(GName n, ms0); (GNth (-1), ms)])) v = Ok (inl e) ->
  e = ErrInvalidValue /\ (10485760 < room o (pre ++ [(GName n, ms0); (GNth (-1), ms)]) n v d)%N \/
  e = ErrMalformedXML /\ unreadable d.
Proof.
  intros E o key d pre n ms0 ms v e H. unfold append_element in H. rewrite map_app, rev_app_distr in H. cbn [map rev app] in H.
  rewrite !low_type, low_index in H. cbn [seg_of fst snd s_type s_index segtype_eqb negb orb] in H. change (-1 =? -1)%Z with true in H. cbn [negb orb] in H.
  rewrite <- map_rev, <- map_rev, rev_involutive in H. destruct (map (low o) pre) as [|p0 ps] eqn:EP.
  - destruct pre; [|discriminate]. clear EP. unfold append_root in H. destruct d as [|c d]; [discriminate|].
    apply bind_ok in H. destruct H as (es & _ & H). cbv zeta in H. apply bind_ok in H. destruct H as (a & S1 & H). apply bind_ok in H. destruct H as (b & S2 & H).
    destruct (N.ltb_spec MaxDocumentSize (blen (a ++ new_elem (s_value (low o (GName n, ms0))) v ++ b))) as [L|L]; [|discriminate].
    injection H as <-. left. split; auto. pose proof (slices_length _ _ _ _ S1 S2) as SL.
    unfold blen in L. rewrite !app_length, new_elem_length, low_value_length in L. unfold room. unfold MaxDocumentSize in L.
    cbn [app List.length Nat.sub Nat.mul] in *. destruct (o_indent o); lia.
  - apply bind_ok in H. destruct H as (loc & _ & H). destruct loc as [loc|].
    + destruct (l_self loc).
      * apply bind_ok in H. destruct H as (a & _ & H). apply bind_ok in H. destruct H as (b & _ & H). discriminate.
      * apply bind_ok in H. destruct H as (p & _ & H). apply bind_ok in H. destruct H as (a & S1 & H). cbv zeta in H. apply bind_ok in H. destruct H as (b & S2 & H).
        match type of H with (if (MaxDocumentSize <? blen ?r)%N then _ else _) = _ => destruct (N.ltb_spec MaxDocumentSize (blen r)) as [L|L]; [|discriminate] end.
        injection H as <-. left. split; auto. pose proof (slices_length _ _ _ _ S1 S2) as SL.
        unfold blen in L. rewrite !app_length, new_elem_length, low_value_length in L. unfold room. unfold MaxDocumentSize in L.
        rewrite <- EP, map_length in L. rewrite app_length. cbn [List.length]. replace (List.length pre + 2 - 2)%nat with (List.length pre) by lia.
        destruct (o_indent o) as [|i0 ind] eqn:EI; [cbn [List.length] in L; lia|]. rewrite <- EI in *.
        destruct (l_content_start loc <? p)%Z; cbn [List.length] in L; rewrite ?repeat_length in L; lia.
    + right. eapply create_err; eauto.
Qed.
Lemma append_unnamed : forall E o key d l v, appends l -> (forall n, ~ appends_named l n) ->
  append_element E o key d (map (low o) l) v = Ok (inl ErrInvalidPath).
Proof.
  intros E o key d l v (pre & ms & ->) NN. unfold append_element. rewrite map_app, rev_app_distr. cbn [map rev app].
  destruct pre as [|[st ms0] pre] using rev_ind; [reflexivity|]. clear IHpre. rewrite map_app, rev_app_distr. cbn [map rev app].
  rewrite !low_type, low_index. cbn [seg_of fst snd s_type s_index segtype_eqb negb orb]. change (-1 =? -1)%Z with true. cbn [negb orb].
  destruct st; try reflexivity. exfalso. apply (NN n). exists pre, ms0, ms. now rewrite <- app_assoc.
Qed.
Lemma set_appending : forall E g o xml path v l t, editable xml -> v <> VNil -> path_means path (Steps l) ->
  value_to_xml g v = inr t -> (MaxValueSize <? blen t)%N = false -> ~ misplaced l -> appends l ->
  set_opts E g o xml path v = edit_of xml (let* r := append_element E o [0%nat] xml (map (low o) l) t in
    match r with inl e => Ok (inl e) | inr r => Ok (inr (get_result xml r)) end).
Proof.
  intros E g o xml path v l t A N P V L M AP. rewrite editable_open; auto. rewrite (parse_lowered o _ _ P). cbn [bind].
  pose proof (proj1 (appends_append o l M) AP) as K. apply check_intents_append in K. rewrite lowered_map in *.
  destruct (map (low o) l) as [|s0 segs] eqn:E0; [destruct AP as (pre & ms & ->); rewrite map_app in E0; destruct pre; discriminate|]. rewrite <- E0 in *.
  unfold set_element. rewrite E0 at 1. rewrite V, L, (editable_size _ A), K. reflexivity.
Qed.
Lemma set_append_unnamed : forall E g o xml path v l, editable xml -> v <> VNil -> path_means path (Steps l) ->
  ~ unfit g v -> ~ misplaced l -> appends l -> (forall n, ~ appends_named l n) ->
  set_opts E g o xml path v = Ok (xml, Some ErrInvalidPath).
Proof.
  intros E g o xml path v l A N P U M AP NN. destruct (unfit_not _ _ U) as (t & V & L).
  rewrite (set_appending E g o xml path v l t); auto. now rewrite append_unnamed.
Qed.
Lemma set_append_named : forall E g o xml path v l n new e t, editable xml -> v <> VNil -> path_means path (Steps l) ->
  ~ unfit g v -> ~ misplaced l -> appends_named l n -> value_to_xml g v = inr t ->
  set_opts E g o xml path v = Ok (new, e) ->
  e = None \/ e = Some ErrInvalidValue /\ (10485760 < room o l n t xml)%N \/ e = Some ErrMalformedXML /\ unreadable xml.
Proof.
  intros E g o xml path v l n new e t A N P U M (pre & ms0 & ms & EL) V H. destruct (unfit_not _ _ U) as (t' & V' & L). rewrite V in V'. injection V' as <-.
  rewrite (set_appending E g o xml path v l t) in H; auto.
  2:{ exists (pre ++ [(GName n, ms0)]), ms. now rewrite <- app_assoc. }
  unfold edit_of in H. apply bind_ok in H. destruct H as (r & H1 & H2). apply bind_ok in H1. destruct H1 as (q & H3 & H1).
  destruct q as [e1|q]; injection H1 as <-; injection H2 as <- <-; auto.
  subst l. apply append_err in H3. destruct H3 as [[-> H3]|[-> H3]]; auto.
Qed.
(** ** Attributes *)
Lemma create_nothing : forall E o key d v q, create_element E o key d [] v = Ok (inr q) -> q = [].
Proof.
  intros E o key d v q H. unfold create_element in H. destruct d as [|c d]; [injection H as <-; reflexivity|].
  cbn [List.length Nat.sub find_parent bind] in H. unfold create_in_root in H. apply bind_ok in H. destruct H as (es & _ & H).
  destruct es as [|e es]; [discriminate|]. injection H as <-. reflexivity.
Qed.
Lemma set_attribute : forall E g o xml path v l new e, editable xml -> v <> VNil -> path_means path (Steps l) ->
  ~ unfit g v -> ~ misplaced l -> at_attribute l -> set_opts E g o xml path v = Ok (new, e) ->
  e <> Some ErrInvalidValue /\
  (bare_attribute path -> e = Some ErrInvalidPath \/ e = Some ErrMalformedXML /\ unreadable xml).
Proof.
  intros E g o xml path v l new e A N P U M (pre & n & ms & EL). rewrite editable_open; auto. rewrite (parse_lowered o _ _ P). cbn [bind].
  destruct (unfit_not _ _ U) as (t & V & L). unfold edit_of, set_element.
  pose proof (check_intents_spec (lowered o l)) as K.
  destruct (lowered o l) as [|s0 segs] eqn:E0; [rewrite lowered_map in E0; subst l; rewrite map_app in E0; destruct pre; discriminate|]. rewrite <- E0 in *.
  rewrite V, L, (editable_size _ A). destruct (check_intents (lowered o l)).
  - cbv zeta. rewrite lowered_map. subst l. rewrite map_app. cbn [map]. rewrite last_last, removelast_last, low_type. cbn [seg_of fst snd s_type segtype_eqb].
    intros H. apply bind_ok in H. destruct H as (r & H1 & H2). apply bind_ok in H1. destruct H1 as (loc & H0 & H1). destruct loc as [loc|].
    + apply bind_ok in H1. destruct H1 as (q & H3 & H4). unfold lift in H3. apply bind_ok in H3. destruct H3 as (d & _ & H3). injection H3 as <-.
      injection H4 as <-. injection H2 as <- <-. split; [discriminate|].
      intros (n' & ms' & P'). pose proof (path_means_unique _ _ _ P P') as X. injection X as X. destruct pre as [|x pre]; [discriminate H0|]. destruct pre; discriminate.
    + unfold create_element_for_attr in H1. apply bind_ok in H1. destruct H1 as (q & H3 & H4). destruct q as [e1|q].
      * apply create_err in H3 as H3'. destruct H3' as [-> UR]. injection H4 as <-. injection H2 as <- <-. split; [discriminate|].
        intros _. auto.
      * cbv zeta in H4. destruct (MaxDocumentSize <? blen (get_result xml q))%N eqn:SZ.
        -- injection H4 as <-. injection H2 as <- <-. split; [discriminate|].
           intros (n' & ms' & P'). pose proof (path_means_unique _ _ _ P P') as X. injection X as X. destruct pre as [|x pre]; [|destruct pre; discriminate].
           exfalso. cbn [map] in H3. apply create_nothing in H3. subst q. cbn [get_result] in SZ. rewrite (editable_size _ A) in SZ. discriminate.
        -- apply bind_ok in H4. destruct H4 as (loc & H5 & H4). destruct loc as [loc|].
           ++ apply bind_ok in H4. destruct H4 as (d & _ & H4). injection H4 as <-. injection H2 as <- <-. split; [discriminate|].
              intros (n' & ms' & P'). pose proof (path_means_unique _ _ _ P P') as X. injection X as X. destruct pre as [|x pre]; [discriminate H5|]. destruct pre; discriminate.
           ++ injection H4 as <-. injection H2 as <- <-. split; [discriminate|auto].
  - exfalso. destruct K as (p & sg & E1 & T & _). rewrite lowered_map in E1. subst l. rewrite map_app in E1. cbn [map] in E1. apply app_inj_tail in E1.
    destruct E1 as [_ <-]. unfold is_index in T. rewrite low_type in T. discriminate.
  - exfalso. apply M. now apply (misplaced_bad o).
Qed.
