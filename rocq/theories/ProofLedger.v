(** Numbers kept in a document: proofs. *)
From Coq Require Import List Ascii String NArith ZArith Bool Lia Permutation.
From Verif Require Import GoStr ModelParser ModelPath ModelResult ModelQuery ModelValidate ModelBuilder SpecText SpecPath SpecTree SpecQuery SpecEdit SpecContent SpecValid SpecMod SpecHistory SpecTable SpecStore SpecBudget SpecLedger
  ProofBase ProofTree ProofEdit ProofEdit2 ProofEdit8 ProofEdit11 ProofRaw2 ProofRaw3 ProofTable ProofStore ProofBudget ProofUndo PropMod PropRaw PropStore.
Import ListNotations.
Open Scope nat_scope.

(** ** Decimal notation *)
Lemma digits_count : forall m f n, (n < 10 ^ N.of_nat (S m))%N -> List.length (digits_of f n) <= S m.
Proof.
  induction m as [|m IH]; intros f n H; destruct f as [|f]; cbn [digits_of]; try (cbn [List.length]; lia); rewrite app_length; cbn [List.length].
  - change (10 ^ N.of_nat 1)%N with 10%N in H. apply N.ltb_lt in H. rewrite H. cbn [List.length]. lia.
  - destruct (n <? 10)%N; cbn [List.length]; [lia|]. assert (L : List.length (digits_of f (n / 10)) <= S m); [|lia]. apply IH. apply N.div_lt_upper_bound; [discriminate|].
    rewrite (Nat2N.inj_succ (S m)), N.pow_succ_r' in H. exact H.
Qed.
Lemma decimal_short : forall z, in_range z -> List.length (decimal z) <= 20.
Proof.
  intros z H. unfold decimal, in_range in *. rewrite app_length. pose proof (digits_count 18 (S (N.size_nat (Z.abs_N z))) (Z.abs_N z)) as L. change (10 ^ N.of_nat 19)%N with 10000000000000000000%N in L.
  change (2 ^ 63)%Z with 9223372036854775808%Z in H. specialize (L ltac:(lia)). destruct (z <? 0)%Z; cbn [List.length bs app]; [change (List.length (bs "-")) with 1|]; lia.
Qed.

(** ** The size of a document *)
Lemma sole_full : forall k F nd, sole k F nd -> forall g miss F' l, change g miss (by_name k) F = Some F' -> g nd = Some l -> full F' + full [nd] = full F + full l.
Proof.
  induction 1 as [n F nd C|n rest F m a kids nd C SO IH]; intros g miss F' l CH G.
  - cbn [by_name map change index_of] in CH. rewrite C in CH. cbn [nth_error] in CH. apply edit_nth_split in CH. destruct CH as (F1 & y & F2 & l' & -> & N & L & GY & ->).
    rewrite ProofEdit7.called_app, ProofEdit2.called_cons, N in C. destruct (called (selects n) F1); [|discriminate L]. cbn [app] in C. injection C as -> _. rewrite G in GY. injection GY as <-.
    rewrite !full_app, (full_cons nd F2). lia.
  - destruct rest as [|r0 rs]; [inversion SO|]. rewrite by_name_cons, change_more in CH. cbn [index_of] in CH. rewrite C in CH. cbn [nth_error] in CH. apply edit_nth_split in CH. destruct CH as (F1 & y & F2 & l' & -> & N & L & GY & ->).
    rewrite ProofEdit7.called_app, ProofEdit2.called_cons, N in C. destruct (called (selects n) F1); [|discriminate L]. cbn [app] in C. injection C as -> _.
    change ((r0, None) :: by_name rs) with (by_name (r0 :: rs)) in GY. destruct (change g miss (by_name (r0 :: rs)) kids) as [k'|] eqn:Z; [|discriminate]. cbn [option_map] in GY. injection GY as <-.
    specialize (IH g miss k' l Z G). rewrite !full_app, (full_cons _ F2), !full_elem. lia.
Qed.
Lemma sum_other : forall (g h : list bytes -> nat) k Ks, ~ In k Ks -> (forall j, j <> k -> g j = h j) -> list_sum (map g Ks) = list_sum (map h Ks).
Proof.
  intros g h k. induction Ks as [|j Ks IH]; intros NI EQ; [reflexivity|]. cbn [map list_sum fold_right]. fold (list_sum (map g Ks)) (list_sum (map h Ks)). rewrite IH, (EQ j); auto; intros X; apply NI; [left; auto|right; exact X].
Qed.
Lemma sum_one : forall (g h : list bytes -> nat) k Ks, NoDup Ks -> In k Ks -> (forall j, j <> k -> g j = h j) -> list_sum (map g Ks) + h k = list_sum (map h Ks) + g k.
Proof.
  intros g h k. induction Ks as [|j Ks IH]; intros ND I EQ; [destruct I|]. inversion ND as [|? ? N1 N2]; subst. cbn [map list_sum fold_right]. fold (list_sum (map g Ks)) (list_sum (map h Ks)).
  destruct I as [->|I]; [rewrite (sum_other g h k Ks N1 EQ); lia|]. assert (NJ : j <> k) by (intros ->; contradiction). rewrite (EQ j NJ). specialize (IH N2 I EQ). lia.
Qed.
(** What an account may still add. *)
Definition left_for (D : store) (k : list bytes) : nat :=
  match D k with None => tags k + 20 | Some e => 20 - List.length (esc (content_of e)) end.
Definition reserve (Ks : list (list bytes)) (D : store) : nat := list_sum (map (left_for D) Ks).
Lemma reserve_room : forall Ks D, reserve Ks D <= accounts_room Ks.
Proof.
  intros Ks D. unfold reserve, accounts_room. induction Ks as [|k Ks IH]; [apply le_n|]. cbn [map list_sum fold_right]. fold (list_sum (map (left_for D) Ks)) (list_sum (map (fun k => tags k + 20) Ks)).
  assert (left_for D k <= tags k + 20) by (unfold left_for; destruct (D k); lia). lia.
Qed.
Lemma tags_by_name : forall k, map fst (by_name k) = k.
Proof. intros k. unfold by_name. rewrite map_map. apply map_id. Qed.
Lemma give_size : forall K Ks F F' D k v, keys K -> stores K F D -> K k -> NoDup Ks -> In k Ks -> List.length (esc v) <= 20 -> apply_edit (store_edit (Give k v)) F = Some F' ->
  full F' + reserve Ks (do_store (Give k v) D) <= full F + reserve Ks D.
Proof.
  intros K Ks F F' D k v HK ST Kk ND I LV AP. set (D' := do_store (Give k v) D).
  assert (OT : forall j, j <> k -> left_for D' j = left_for D j).
  { intros j NJ. unfold left_for, D', do_store. cbn [key_of]. destruct (same_key j k) eqn:Q; [apply same_key_spec in Q; contradiction|reflexivity]. }
  pose proof (sum_one (left_for D') (left_for D) k Ks ND I OT) as SU. fold (reserve Ks D') (reserve Ks D) in SU.
  assert (ME : left_for D' k = 20 - List.length (esc v)).
  { unfold left_for, D', do_store. cbn [key_of]. rewrite (proj2 (same_key_spec k k) eq_refl). cbn [in_entry]. destruct (D k); reflexivity. }
  pose proof (ST k Kk) as SK. unfold left_for in SU at 2. destruct (D k) as [e|] eqn:QD.
  - destruct SK as (m & a & kids & SO & HO & _). pose proof (sole_full k F _ SO (with_kids [Text (esc v)]) (new_kids [Text (esc v)]) F' [Elem m a false [Text (esc v)]] AP eq_refl) as Z.
    rewrite !full_elem, full_text in Z. assert (FK : full kids = List.length (esc (content_of e))) by (destruct HO as [->|[-> Q]]; [apply full_text|rewrite Q; reflexivity]). rewrite FK in Z. unfold left_for in SU at 1. rewrite QD in SU. fold (left_for D' k) in SU. lia.
  - pose proof (apply_full _ _ _ AP) as Z. cbn [store_edit spend content_nodes] in Z. rewrite tags_by_name, full_text in Z. unfold left_for in SU at 1. rewrite QD in SU. fold (left_for D' k) in SU. lia.
Qed.

(** ** Postings as edits *)
Fixpoint writings (ops : list posting) (f : list bytes -> Z) : list store_op :=
  match ops with
  | [] => []
  | o :: ops' => Give (fst o) (decimal (f (fst o) + snd o)) :: writings ops' (posted o f)
  end.
Lemma writings_snoc : forall ops o f, writings (ops ++ [o]) f = writings ops f ++ [Give (fst o) (decimal (all_posted ops f (fst o) + snd o))].
Proof. induction ops as [|o' ops IH]; intros o f; cbn [app writings]; [reflexivity|]. now rewrite IH. Qed.
Lemma range_app : forall ops o f, all_in_range (ops ++ [o]) f -> all_in_range ops f /\ in_range (all_posted ops f (fst o) + snd o).
Proof. induction ops as [|o' ops IH]; intros o f H; cbn [app all_in_range] in *; [split; [exact I|apply H]|]. destruct H as [H1 H2]. destruct (IH _ _ H2) as [X Y]. auto. Qed.
Lemma posted_same : forall k z f, posted (k, z) f k = (f k + z)%Z.
Proof. intros k z f. unfold posted. cbn [fst snd]. now rewrite (proj2 (same_key_spec k k) eq_refl). Qed.
Lemma posted_other : forall o f k, k <> fst o -> posted o f k = f k.
Proof. intros o f k NE. unfold posted. destruct (same_key k (fst o)) eqn:Q; [apply same_key_spec in Q; contradiction|reflexivity]. Qed.
Lemma posted_worth : forall D f (Q : list bytes -> Prop) o, (forall k, Q k -> worth D k (f k)) -> in_range (f (fst o) + snd o) ->
  forall k, Q k -> worth (do_store (Give (fst o) (decimal (f (fst o) + snd o))) D) k (posted o f k).
Proof.
  intros D f Q [k0 z] W R k QK. cbn [fst snd] in *. unfold worth, do_store. cbn [key_of]. destruct (same_key k k0) eqn:QS.
  - apply same_key_spec in QS. subst k0. rewrite posted_same. cbn [in_entry]. destruct (D k); cbn [content_of]; (split; [exact R|left; rewrite trim_decimal; apply decimal_numeral]).
  - assert (NE : k <> k0) by (intros ->; rewrite (proj2 (same_key_spec k0 k0) eq_refl) in QS; discriminate). rewrite posted_other by exact NE. apply W. exact QK.
Qed.
Lemma writings_worth : forall ops D f (Q : list bytes -> Prop), (forall k, Q k -> worth D k (f k)) -> all_in_range ops f -> forall k, Q k -> worth (do_all (writings ops f) D) k (all_posted ops f k).
Proof.
  induction ops as [|o ops IH]; intros D f Q W R k QK; cbn [writings do_all all_posted fold_left all_in_range] in *; [now apply W|]. destruct R as [R1 R2].
  change (worth (do_all (writings ops (posted o f)) (do_store (Give (fst o) (decimal (f (fst o) + snd o))) D)) k (all_posted ops (posted o f) k)). eapply IH; eauto. now apply posted_worth.
Qed.
Lemma give_legal : forall k z, account_path k -> in_range z -> legal (store_edit (Give k (decimal z))).
Proof.
  intros k z (G & X & L) R. cbn [store_edit legal]. split; [exact G|]. split; [rewrite tags_by_name; exact X|]. cbn [content_nodes]. split.
  - split; [exact I|]. cbn [content_nodes forest_text flat_map node_text]. rewrite app_nil_r, esc_decimal. exact (decimal_len z R).
  - unfold by_name. rewrite map_length. cbn [height fold_right levels]. lia.
Qed.
Lemma writings_history : forall K Ks p B ops F D f, keys K -> stores K F D -> has_element F -> NoDup Ks -> Forall K Ks -> Forall account_path Ks -> Forall (fun o => In (fst o) Ks) ops -> all_in_range ops f ->
  full F + reserve Ks D <= B -> (N.of_nat (List.length p + B) <= 10485760)%N -> exists F', history p (map store_edit (writings ops f)) F F' /\ full F' <= B.
Proof.
  intros K Ks p B. induction ops as [|o ops IH]; intros F D f HK ST HE ND FK FP FO R Z ZB; cbn [writings map all_in_range] in *; [exists F; split; [constructor|lia]|].
  inversion FO as [|? ? O1 O2]; subst. destruct R as [R1 R2]. pose proof FK as FK'. rewrite Forall_forall in FK'. pose proof (FK' _ O1) as Kk. pose proof FP as FP'. rewrite Forall_forall in FP'. pose proof (FP' _ O1) as PK.
  set (g := Give (fst o) (decimal (f (fst o) + snd o))) in *. assert (NM : forall k x v, g = Mark k x v -> forall m a s kids, sole k F (Elem m a s kids) -> List.length a < 100) by (intros k x v Q; discriminate Q).
  destruct (op_defined K F D g HK ST Kk NM) as [F1 AP]. pose proof (op_stores K F F1 D g HK ST Kk AP) as ST1.
  assert (ZL : List.length (esc (decimal (f (fst o) + snd o))) <= 20) by (rewrite esc_decimal; now apply decimal_short).
  pose proof (give_size K Ks F F1 D _ _ HK ST Kk ND O1 ZL AP) as Z1. fold g in Z1. assert (HE1 : has_element F1) by (eapply apply_has; [|exact AP|exact HE]; reflexivity).
  destruct (IH F1 (do_store g D) (posted o f) HK ST1 HE1 ND FK FP O2 R2 ltac:(lia) ZB) as (F' & H & ZF). exists F'. split; [|exact ZF].
  econstructor; [now apply give_legal|exact AP| |exact H]. split; [exact HE1|]. pose proof (full_ge F1). rewrite app_length. lia.
Qed.
Lemma history_app : forall p a b F F', history p (a ++ b) F F' -> exists F1, history p a F F1 /\ history p b F1 F'.
Proof.
  intros p. induction a as [|o a IH]; intros b F F' H; [exists F; split; [constructor|exact H]|]. cbn [app] in H. inversion H as [|? ? ? F1 ? L1 L2 L3 L4]; subst.
  destruct (IH _ _ _ L4) as (F2 & H1 & H2). exists F2. split; [econstructor; eauto|exact H2].
Qed.

Section Calls.
  Variable E : env.
  Variable fmt_g : f64 -> bytes.
  Hypothesis Hord : forall k l, Permutation l (e_ord E k l).
  Variable p : bytes.
  Hypothesis Hp : prolog p.
  Hypothesis SP : strict_prolog p.
  Variable F : list node.
  Hypothesis HG : Forall good F.
  Hypothesis HT : Forall top_node F.
  Hypothesis HS : shallow F.
  Hypothesis HR : room p F.
  Variable K : list bytes -> Prop.
  Hypothesis HK : keys K.
  Variable D : store.
  Hypothesis ST : stores K F D.
  Variable f : list bytes -> Z.
  Variable Q : list bytes -> Prop.
  Hypothesis QK : forall k, Q k -> K k.
  Hypothesis QP : forall k, Q k -> account_path k.
  Hypothesis WO : forall k, Q k -> worth D k (f k).

  Lemma int_read : forall d D' k z, reads_store E d K D' -> Q k -> worth D' k z -> exists r, get E d (tpath (by_name k) TheElement) = Ok r /\ r_int r = z.
  Proof.
    intros d D' k z RS Qk W. destruct (rs_content _ _ _ _ RS k (QK k Qk) (proj1 (QP k Qk))) as (r & G & A). exists r. split; [exact G|]. unfold worth in W. destruct (D' k) as [e|].
    - destruct A as [T S]. destruct W as [R W]. assert (QS : r_str r = trim_space (content_of e)) by (rewrite <- S; destruct r as [t nm s0 num rs]; cbn [r_type] in T; subst t; reflexivity).
      destruct W as [W|[W ->]]; [apply C39_int; [right; left; exact T|rewrite QS; exact W|exact R]|]. unfold r_int. rewrite T, QS, W. reflexivity.
    - subst z. now apply C39_int_other; right; left.
  Qed.
  Lemma post_snoc : forall ops o d d', post_all E fmt_g ops d = Ok (d', None) -> post_all E fmt_g (ops ++ [o]) d = post E fmt_g o d'.
  Proof.
    induction ops as [|o' ops IH]; intros o d d' H; cbn [post_all app] in *.
    - injection H as <-. destruct (post E fmt_g o d) as [[d1 [e|]]| |]; reflexivity.
    - destruct (post E fmt_g o' d) as [[d1 [e|]]| |]; cbn [bind] in *; try discriminate. now apply IH.
  Qed.
  Lemma posts_ok : forall ops F', Forall (fun o => Q (fst o)) ops -> all_in_range ops f -> history p (map store_edit (writings ops f)) F F' ->
    post_all E fmt_g ops (p ++ forest_text F) = calls E fmt_g (map store_edit (writings ops f)) (p ++ forest_text F).
  Proof.
    induction ops as [|o ops IH] using rev_ind; intros F' FO R H; [reflexivity|]. apply Forall_app in FO as [FO O1]. inversion O1 as [|? ? Qo _]; subst. destruct (range_app _ _ _ R) as [R1 R2].
    rewrite writings_snoc, map_app in *. cbn [map] in *. destruct (history_app _ _ _ _ _ H) as (F1 & H1 & H2). specialize (IH F1 FO R1 H1).
    assert (KO : Forall (fun o => K (key_of o)) (writings ops f)).
    { clear - FO QK. revert f. induction FO as [|o ops Ho _ IH]; intros f; cbn [writings]; constructor; auto. }
    destruct (C93_store E fmt_g p F K D (writings ops f) F1 Hord Hp SP HG HT HS HR HK ST KO H1) as (d & C & _ & RS).
    rewrite (post_snoc ops o _ d) by (rewrite IH; exact C). rewrite (calls_then E fmt_g _ _ _ _ C). unfold post.
    destruct (int_read d _ (fst o) (all_posted ops f (fst o)) RS Qo (writings_worth ops D f Q WO R1 _ Qo)) as (r & G & RI). rewrite G. cbn [bind]. rewrite RI.
    cbn [calls store_edit call set_content]. rewrite (proj1 (C53_as_text E fmt_g d _)). now destruct (set E fmt_g d _ _) as [[? [?|]]| |].
  Qed.
End Calls.
