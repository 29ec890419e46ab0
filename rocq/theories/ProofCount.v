(** Numbers kept in contents and attributes: proofs. *)
From Coq Require Import List Ascii String NArith ZArith Bool Lia Permutation.
From Verif Require Import GoStr ModelParser ModelPath ModelResult ModelQuery ModelValidate ModelBuilder SpecText SpecPath SpecTree SpecQuery SpecEdit SpecContent SpecValid SpecMod SpecHistory SpecTable SpecStore SpecBudget SpecFill SpecLayer SpecLedger SpecCount
  ProofBase ProofTree ProofEdit ProofEdit2 ProofEdit8 ProofEdit11 ProofRaw2 ProofRaw3 ProofTable ProofStore ProofBudget ProofUndo ProofLedger ProofLayer PropMod PropRaw PropStore PropBudget.
Import ListNotations.
Open Scope nat_scope.

Fixpoint countings (ops : list counting) (f : place -> Z) : list store_op :=
  match ops with
  | [] => []
  | o :: ops' => writing (fst o) (decimal (f (fst o) + snd o)) :: countings ops' (moved o f)
  end.
Lemma countings_snoc : forall ops o f, countings (ops ++ [o]) f = countings ops f ++ [writing (fst o) (decimal (all_moved ops f (fst o) + snd o))].
Proof. induction ops as [|o' ops IH]; intros o f; cbn [app countings]; [reflexivity|]. now rewrite IH. Qed.
Lemma stays_app : forall ops o f, stays_in_range (ops ++ [o]) f -> stays_in_range ops f /\ in_range (all_moved ops f (fst o) + snd o).
Proof. induction ops as [|o' ops IH]; intros o f H; cbn [app stays_in_range] in *; [split; [exact I|apply H]|]. destruct H as [H1 H2]. destruct (IH _ _ H2) as [X Y]. auto. Qed.
Lemma same_place_spec : forall q q', same_place q q' = true <-> q = q'.
Proof.
  intros [k|k x] [k'|k' x']; cbn [same_place]; try (split; discriminate).
  - rewrite same_key_spec. split; congruence.
  - rewrite andb_true_iff, same_key_spec, bytes_eqb_eq. split; [intros [-> ->]; reflexivity|intros Q; injection Q; auto].
Qed.
Lemma place_key_writing : forall q v, key_of (writing q v) = place_key q.
Proof. now intros [k|k x] v. Qed.
(** Writing at a place changes what stands there, and may make an empty content. *)
Lemma writing_value : forall q v D q', value_at (do_store (writing q v) D) q' =
  if same_place q' q then Some (match q with Content _ => trim_space v | Named _ _ => v end)
  else match value_at D q' with
       | Some w => Some w
       | None => match q, q' with Named k _, Content k' => if same_key k' k then Some [] else None | _, _ => None end
       end.
Proof.
  intros q v D q'. unfold value_at, do_store. rewrite place_key_writing. destruct q as [k|k x], q' as [k'|k' x']; cbn [place_key same_place writing]; destruct (same_key k' k) eqn:Q; cbn [andb]; destruct (D k') as [e|]; cbn [in_entry attribute content_of]; unfold put_mark; try destruct (bytes_eqb x' x); try reflexivity; now destruct (attribute e x').
Qed.
Lemma counting_stands : forall D f (Q : place -> Prop) o, (forall q, Q q -> stands_for D q (f q)) -> in_range (f (fst o) + snd o) ->
  forall q, Q q -> stands_for (do_store (writing (fst o) (decimal (f (fst o) + snd o))) D) q (moved o f q).
Proof.
  intros D f Q [q0 z] W R q QQ. cbn [fst snd] in *. specialize (W q QQ). unfold stands_for in *. rewrite writing_value. unfold moved. cbn [fst snd]. destruct (same_place q q0) eqn:S.
  - apply same_place_spec in S. subst q0. split; [exact R|]. left. destruct q; [rewrite trim_decimal|]; apply decimal_numeral.
  - destruct (value_at D q); [exact W|]. destruct q0 as [k|k x], q as [k'|k' x']; try exact W. destruct (same_key k' k); [|exact W]. rewrite W. split; [unfold in_range; change (2 ^ 63)%Z with 9223372036854775808%Z; lia|]. right. now split.
Qed.
Lemma countings_stand : forall ops D f (Q : place -> Prop), (forall q, Q q -> stands_for D q (f q)) -> stays_in_range ops f -> forall q, Q q -> stands_for (do_all (countings ops f) D) q (all_moved ops f q).
Proof.
  induction ops as [|o ops IH]; intros D f Q W R q QQ; cbn [countings do_all all_moved fold_left stays_in_range] in *; [now apply W|]. destruct R as [R1 R2].
  change (stands_for (do_all (countings ops (moved o f)) (do_store (writing (fst o) (decimal (f (fst o) + snd o))) D)) q (all_moved ops (moved o f) q)). eapply IH; eauto. now apply counting_stands.
Qed.
Lemma counting_legal : forall q z, counter q -> in_range z -> legal (store_edit (writing q (decimal z))).
Proof.
  intros [k|k x] z (G & X & XA & L) R; cbn [place_key good_place] in *; [apply give_legal; [split; auto|exact R]|].
  cbn [writing store_edit legal]. rewrite tags_by_name, esc_decimal. pose proof (decimal_short z R). unfold small. split; [exact G|]. split; [exact X|]. split; [exact XA|]. split; lia.
Qed.
(** ** The size of a document *)
Lemma sum_others : forall (g h : place -> nat) q Qs, ~ In q Qs -> (forall j, j <> q -> g j <= h j) -> list_sum (map g Qs) <= list_sum (map h Qs).
Proof.
  intros g h q. induction Qs as [|j Qs IH]; intros NI LE; [apply le_n|]. cbn [map list_sum fold_right]. fold (list_sum (map g Qs)) (list_sum (map h Qs)). cbn [In] in NI. specialize (LE j) as L. specialize (IH ltac:(tauto) LE). specialize (L ltac:(intros ->; tauto)). lia.
Qed.
Lemma sum_at : forall (g h : place -> nat) q Qs, NoDup Qs -> In q Qs -> (forall j, j <> q -> g j <= h j) -> list_sum (map g Qs) + h q <= list_sum (map h Qs) + g q.
Proof.
  intros g h q. induction Qs as [|j Qs IH]; intros ND I LE; [destruct I|]. inversion ND as [|? ? N1 N2]; subst. cbn [map list_sum fold_right]. fold (list_sum (map g Qs)) (list_sum (map h Qs)).
  destruct I as [->|I]; [pose proof (sum_others g h q Qs N1 LE); lia|]. assert (NJ : j <> q) by (intros ->; contradiction). specialize (LE j NJ) as L. specialize (IH N2 I LE). lia.
Qed.
(** What a counter may still add. *)
Definition left_at (D : store) (q : place) : nat :=
  match D (place_key q) with
  | None => price q
  | Some e => match q with
              | Content _ => 20 - List.length (esc (content_of e))
              | Named _ x => match attribute e x with None => List.length x + 24 | Some w => 20 - List.length (esc w) end
              end
  end.
Definition reserve_at (Qs : list place) (D : store) : nat := list_sum (map (left_at D) Qs).
Lemma reserve_counters : forall Qs D, reserve_at Qs D <= counters_room Qs.
Proof.
  intros Qs D. unfold reserve_at, counters_room. induction Qs as [|q Qs IH]; [apply le_n|]. cbn [map list_sum fold_right]. fold (list_sum (map (left_at D) Qs)) (list_sum (map price Qs)).
  assert (left_at D q <= price q); [|lia]. unfold left_at. destruct (D (place_key q)) as [e|]; [|lia]. destruct q as [k|k x]; cbn [price]; [lia|]. destruct (attribute e x); lia.
Qed.
Lemma put_exact : forall x v a, List.length (attrs_text (put_attr x v a)) + match attr_value x a with Some w => List.length (esc w) | None => 0 end =
  List.length (attrs_text a) + List.length (esc v) + match attr_value x a with Some _ => 0 | None => List.length x + 4 end.
Proof.
  intros x v. unfold attrs_text. induction a as [|[n w] a IH]; cbn [put_attr flat_map attr_value].
  - rewrite app_nil_r, attr_length. cbn [List.length]. lia.
  - destruct (bytes_eqb x n) eqn:Q; cbn [flat_map]; rewrite !app_length, !attr_length; [|lia]. apply bytes_eqb_eq in Q. subst n. lia.
Qed.
Lemma counting_size : forall K Qs F F' D q v, keys K -> stores K F D -> K (place_key q) -> NoDup Qs -> In q Qs -> List.length (esc v) <= 20 -> apply_edit (store_edit (writing q v)) F = Some F' ->
  full F' + reserve_at Qs (do_store (writing q v) D) <= full F + reserve_at Qs D.
Proof.
  intros K Qs F F' D q v HK ST Kk ND I LV AP. set (D' := do_store (writing q v) D).
  assert (OT : forall j, j <> q -> left_at D' j <= left_at D j).
  { intros j NJ. unfold left_at, D', do_store. rewrite place_key_writing. destruct (same_key (place_key j) (place_key q)) eqn:S; [|apply le_n]. apply same_key_spec in S.
    destruct q as [k|k x], j as [k'|k' x']; cbn [place_key writing in_entry] in *; subst k'; destruct (D k) as [e|]; cbn [content_of attribute price].
    - now elim NJ.
    - now elim NJ.
    - apply le_n.
    - lia.
    - apply le_n.
    - lia.
    - unfold put_mark. destruct (bytes_eqb x' x) eqn:Y; [apply bytes_eqb_eq in Y; subst x'; now elim NJ|]. apply le_n.
    - unfold put_mark. destruct (bytes_eqb x' x) eqn:Y; [apply bytes_eqb_eq in Y; subst x'; now elim NJ|]. lia. }
  pose proof (sum_at (left_at D') (left_at D) q Qs ND I OT) as SU. fold (reserve_at Qs D') (reserve_at Qs D) in SU.
  assert (ME : left_at D' q = 20 - List.length (esc v)).
  { unfold left_at, D', do_store. rewrite place_key_writing, (proj2 (same_key_spec _ _) eq_refl). destruct q as [k|k x]; cbn [place_key writing in_entry]; destruct (D k); cbn [content_of attribute]; try reflexivity; unfold put_mark; now rewrite bytes_eqb_refl. }
  rewrite ME in SU. pose proof (ST _ Kk) as SK. unfold left_at in SU. destruct (D (place_key q)) as [e|] eqn:QD.
  - destruct SK as (m & a & kids & SO & HO & AT). destruct q as [k|k x]; cbn [place_key writing store_edit apply_edit] in *.
    + pose proof (sole_full k F _ SO (with_kids [Text (esc v)]) (new_kids [Text (esc v)]) F' [Elem m a false [Text (esc v)]] AP eq_refl) as Y. rewrite !full_elem, full_text in Y.
      assert (FK : full kids = List.length (esc (content_of e))) by (destruct HO as [->|[-> Q]]; [apply full_text|rewrite Q; reflexivity]). lia.
    + destruct (attr_of x v (Elem m a false kids)) as [l|] eqn:GA.
      * pose proof (sole_full k F _ SO (attr_of x v) (new_attr x v) F' l AP GA) as Y. cbn [attr_of] in GA. destruct (_ <=? _) in GA; [|discriminate]. injection GA as <-. rewrite !full_elem in Y. unfold start_tag in Y. rewrite !app_length in Y.
        pose proof (put_exact x v a) as PE. rewrite AT in PE. destruct (attribute e x); lia.
      * exfalso. clear - SO AP GA. revert F' AP. generalize (new_attr x v) as miss. induction SO as [n F nd C|n rest F m' a' kids' nd C SO IH]; intros miss F' AP.
        -- cbn [by_name map change index_of] in AP. rewrite C in AP. cbn [nth_error] in AP. apply edit_nth_split in AP. destruct AP as (F1 & y & F2 & l' & -> & N & L & GY & ->).
           rewrite ProofEdit7.called_app, ProofEdit2.called_cons, N in C. destruct (called (selects n) F1); [|discriminate L]. cbn [app] in C. injection C as -> _. congruence.
        -- destruct rest as [|r0 rs]; [inversion SO|]. rewrite by_name_cons, change_more in AP. cbn [index_of] in AP. rewrite C in AP. cbn [nth_error] in AP. apply edit_nth_split in AP. destruct AP as (F1 & y & F2 & l' & -> & N & L & GY & ->).
           rewrite ProofEdit7.called_app, ProofEdit2.called_cons, N in C. destruct (called (selects n) F1); [|discriminate L]. cbn [app] in C. injection C as -> _.
           change ((r0, None) :: by_name rs) with (by_name (r0 :: rs)) in GY. destruct (change (attr_of x v) miss (by_name (r0 :: rs)) kids') as [k'|] eqn:Z; [|discriminate]. eapply IH; eauto.
  - pose proof (apply_full _ _ _ AP) as Y. destruct q as [k|k x]; cbn [writing store_edit spend content_nodes price] in *; rewrite tags_by_name, ?full_text in Y; lia.
Qed.
Lemma countings_history : forall X K Qs p B ops F D f, keys K -> stores K F D -> Forall good F -> Forall top_node F -> has_element F -> NoDup Qs -> Forall (fun q => K (place_key q) /\ counter q) Qs ->
  Forall (fun o => In (fst o) Qs) ops -> stays_in_range ops f -> incl (counter_names Qs) X -> mosts X F + List.length X <= 100 ->
  full F + reserve_at Qs D <= B -> (N.of_nat (List.length p + B) <= 10485760)%N -> exists F', history p (map store_edit (countings ops f)) F F' /\ full F' <= B.
Proof.
  intros X K Qs p B. induction ops as [|o ops IH]; intros F D f HK ST GF TF HE ND FQ FO R IN MO Z ZB; cbn [countings map stays_in_range] in *; [exists F; split; [constructor|lia]|].
  inversion FO as [|? ? O1 O2]; subst. destruct R as [R1 R2]. pose proof FQ as FQ'. rewrite Forall_forall in FQ'. destruct (FQ' _ O1) as [Kk CO].
  set (v := decimal (f (fst o) + snd o)) in *. assert (LG : legal (store_edit (writing (fst o) v))) by (now apply counting_legal).
  assert (IO : forall k x w, writing (fst o) v = Mark k x w -> In x X).
  { intros k x w E. apply IN. unfold counter_names. apply in_flat_map. exists (fst o). split; [exact O1|]. destruct (fst o); [discriminate|]. injection E as _ -> _. now left. }
  assert (A : exists F1, apply_edit (store_edit (writing (fst o) v)) F = Some F1).
  { clear - HK ST Kk GF MO IO. destruct (fst o) as [k|k x]; cbn [writing place_key] in *; [apply (op_defined K F D (Give k v) HK ST Kk); discriminate|].
    apply (mark_defined K F D k x v HK ST Kk). intros m a s kids SO. pose proof (sole_good _ _ _ SO GF) as G. inversion G as [? ? ? ? _ GA _ _| |]; subst. specialize (IO k x v eq_refl).
    pose proof (beside_count X (put_attr x v a) (ProofEdit3.put_nodup x v a (ga_distinct _ GA))) as BC. rewrite (beside_put X x v a IO) in BC. apply (sole_mosts X) in SO. rewrite mosts_elem in SO. lia. }
  destruct A as [F1 AP]. assert (KW : K (key_of (writing (fst o) v))) by (now rewrite place_key_writing). pose proof (op_stores K F F1 D _ HK ST KW AP) as ST1.
  assert (ZL : List.length (esc v) <= 20) by (unfold v; rewrite esc_decimal; now apply decimal_short).
  pose proof (counting_size K Qs F F1 D _ _ HK ST Kk ND O1 ZL AP) as Z1. assert (HE1 : has_element F1) by (eapply apply_has; [|exact AP|exact HE]; now destruct (fst o)).
  destruct (apply_good _ F F1 LG GF TF AP) as [GF1 TF1]. pose proof (store_mosts X _ F F1 AP IO).
  destruct (IH F1 _ (moved o f) HK ST1 GF1 TF1 HE1 ND FQ O2 R2 IN ltac:(lia) ltac:(lia) ZB) as (F' & H' & ZF). exists F'. split; [|exact ZF].
  econstructor; [exact LG|exact AP| |exact H']. split; [exact HE1|]. pose proof (full_ge F1). rewrite app_length. lia.
Qed.
Lemma int_stands : forall E d K D q z, reads_store E d K D -> K (place_key q) -> good_place q -> stands_for D q z -> exists r, get E d (place_path q) = Ok r /\ r_int r = z.
Proof.
  intros E d K D q z RS Kq G W. unfold stands_for, value_at in W.
  assert (X : forall r v, r_type r = RElement \/ r_type r = RAttribute -> r_string r = v -> in_range z /\ (numeral v z \/ (v = [] /\ z = 0%Z)) -> r_int r = z).
  { intros r v T Q [RZ N]. assert (QS : r_str r = v) by (rewrite <- Q; destruct r as [t nm s0 num rs]; cbn [r_type] in T; destruct T as [->| ->]; reflexivity).
    destruct N as [N|[-> ->]]; [apply C39_int; [right; exact T|rewrite QS; exact N|exact RZ]|]. unfold r_int. destruct T as [->| ->]; rewrite QS; reflexivity. }
  destruct q as [k|k x]; cbn [place_key good_place place_path] in *.
  - destruct (rs_content _ _ _ _ RS k Kq G) as (r & H & A). exists r. split; [exact H|]. destruct (D k); [destruct A as [T A]; eapply X; eauto|]. subst z. now apply C39_int_other; right; left.
  - destruct (rs_attribute _ _ _ _ RS k x Kq G) as (r & H & A). exists r. split; [exact H|]. destruct (D k) as [e|]; [|subst z; now apply C39_int_other; right; left].
    destruct (attribute e x); [destruct A as [T A]; eapply X; eauto|]. subst z. now apply C39_int_other; right; left.
Qed.
Lemma count_snoc : forall E fmt_g ops o d d', count_all E fmt_g ops d = Ok (d', None) -> count_all E fmt_g (ops ++ [o]) d = count E fmt_g o d'.
Proof.
  intros E g. induction ops as [|o' ops IH]; intros o d d' H; cbn [count_all app] in *.
  - injection H as <-. destruct (count E g o d) as [[d1 [e|]]| |]; reflexivity.
  - destruct (count E g o' d) as [[d1 [e|]]| |]; cbn [bind] in *; try discriminate. now apply IH.
Qed.
Lemma all_moved_sum : forall ops f q, all_moved ops f q = (f q + fold_right (fun o z => (if same_place q (fst o) then snd o else 0) + z) 0 ops)%Z.
Proof.
  induction ops as [|o ops IH]; intros f q; cbn [all_moved fold_left fold_right]; [lia|]. change (all_moved ops (moved o f) q = (f q + ((if same_place q (fst o) then snd o else 0) + fold_right (fun o z => (if same_place q (fst o) then snd o else 0) + z) 0 ops))%Z).
  rewrite IH. unfold moved. destruct (same_place q (fst o)); lia.
Qed.
