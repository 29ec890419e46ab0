(** C95: the work of batches of edits. *)
From Coq Require Import List Ascii String NArith ZArith Bool Lia Permutation.
From Verif Require Import GoStr ModelParser ModelPath ModelResult ModelQuery ModelValidate ModelBuilder ModelWork ModelLoad ModelToil ModelBatch SpecText SpecPath SpecTree SpecQuery SpecEdit SpecContent SpecValid SpecHistory SpecGrammar SpecWork SpecList SpecApi SpecBatch
  ProofBase ProofScan ProofFuel ProofGrammar2 ProofWork ProofWork2 ProofToil ProofTree ProofTree5 ProofTree8 ProofEdit ProofEdit2 ProofEdit5 ProofEdit7 ProofEdit9 ProofList ProofApi ProofApi3 ProofBatch PropTree PropApi PropToil PropList.
Import ListNotations.
Open Scope nat_scope.
Notation brackets := SpecWork.brackets.

(** ** C95. [tset_many] and [tdelete_many] do what SetMany and DeleteMany do, and count as in C83. *)
Theorem C95_count : forall E fmt_g xml paths values r,
  (set_many E fmt_g xml paths values = Ok r <-> exists c, tset_many E fmt_g xml paths values = Ok (r, c)) /\
  (delete_many E xml paths = Ok r <-> exists c, tdelete_many E xml paths = Ok (r, c)).
Proof.
  assert (X : forall A (m : W A) r, erase m = Ok r <-> exists c, m = Ok (r, c)).
  { intros A m r. unfold erase. rewrite bind_ok. split.
    - intros ([r' c] & H & Q). cbn [fst] in Q. injection Q as ->. eauto.
    - intros [c H]. exists (r, c). auto. }
  intros E g xml paths vs r. rewrite <- erase_set_many, <- erase_delete_many. split; apply X.
Qed.
Print Assumptions C95_count.
(** A batch costs what its single calls cost, each on the document the previous one left. *)
Theorem C95_sum : forall E fmt_g xml paths values d c,
  tset_many E fmt_g xml paths values = Ok ((d, None), c) <->
  (blen xml <= 10485760)%N /\ List.length paths = List.length values /\
  sums (fun x op k y => tset_opts E fmt_g default_options x (fst op) (snd op) = Ok ((y, None), k)) xml (combine paths values) c d.
Proof.
  intros E g xml paths vs d c. unfold tset_many. destruct (N.ltb_spec MaxDocumentSize (blen xml)) as [L|L].
  - split; [intros H; apply wret_ok in H as [H _]; discriminate|]. intros [H _]. exfalso. change 10485760%N with MaxDocumentSize in H. lia.
  - destruct (Nat.eqb_spec (List.length paths) (List.length vs)) as [Q|Q]; cbn [negb].
    + rewrite set_each_sums. split; [intros H; repeat split; auto|intros (_ & _ & H); exact H].
    + split; [intros H; apply wret_ok in H as [H _]; discriminate|]. tauto.
Qed.
Print Assumptions C95_sum.
Theorem C95_sum_delete : forall E xml paths d c,
  tdelete_many E xml paths = Ok ((d, None), c) <->
  (blen xml <= 10485760)%N /\ exists ps, firsts paths ps /\ sums (fun x p k y => tdelete_opts E default_options x p = Ok ((y, None), k)) xml ps c d.
Proof.
  intros E xml paths d c. unfold tdelete_many. destruct (N.ltb_spec MaxDocumentSize (blen xml)) as [L|L].
  - split; [intros H; apply wret_ok in H as [H _]; discriminate|]. intros [H _]. exfalso. change 10485760%N with MaxDocumentSize in H. lia.
  - rewrite delete_each_sums. split.
    + intros H. split; auto. exists (dedupe [] paths). split; [apply dedupe_firsts|exact H].
    + intros [_ [ps [H1 H2]]]. rewrite (firsts_fun _ _ _ (dedupe_firsts paths) H1). exact H2.
Qed.
Print Assumptions C95_sum_delete.

(** Removing elements: at most the number of paths times the `<` in the document and 100. *)
Theorem C95_delete : forall E xml paths d, (forall k m, Permutation m (e_ord E k m)) ->
  (forall path, In path paths -> exists l x, path_means path (Steps (l ++ [x])) /\ forall n, fst x <> GAttr n) ->
  delete_many E xml paths = Ok (d, None) ->
  exists c, tdelete_many E xml paths = Ok ((d, None), c) /\ (c <= N.of_nat (List.length paths) * (100 + brackets xml))%N /\ (brackets d <= brackets xml)%N.
Proof.
  intros E xml paths d P T H. apply (proj2 (C95_count E (fun _ => []) xml paths [] (d, None))) in H as [c H]. exists c. split; [exact H|]. apply C95_sum_delete in H as (_ & ps & FP & S).
  destruct (C11_distinct_paths paths) as (ps' & FP' & ND & IN & UN). assert (ps = ps') by auto. subst ps'.
  destruct (delete_sum_bound E P _ _ _ _ S) as [B1 B2]; [apply Forall_forall; intros q I; apply T, IN, I|]. split; [|exact B2].
  assert (LE : List.length ps <= List.length paths) by (apply NoDup_incl_length; [exact ND|intros q I; now apply IN]). eapply N.le_trans; [exact B1|]. apply N.mul_le_mono_r. lia.
Qed.
Print Assumptions C95_delete.

(** Appending: every call looks at all the children again. *)
Fixpoint triangle (n k : nat) : N := match n with O => 0 | S n' => N.of_nat k + 1 + triangle n' (S k) end.
Lemma triangle_value : forall n k, (2 * triangle n k = N.of_nat n * (2 * N.of_nat k + N.of_nat n + 1))%N.
Proof. induction n as [|n IH]; intros k; [reflexivity|]. cbn [triangle]. rewrite N.mul_add_distr_l, IH. rewrite !Nnat.Nat2N.inj_succ. nia. Qed.
Theorem C95_append : forall E fmt_g p F s A n a kids B m vs K1 K2,
  (forall k l, Permutation l (e_ord E k l)) -> prolog p -> strict_prolog p ->
  Forall good F -> Forall top_node F -> shallow F -> room p F ->
  located s F A (Elem n a false kids) B -> (forall v, In v vs -> legal (Append s m (AsText v))) -> up_to_last m kids K1 K2 ->
  let new := p ++ A ++ node_text (Elem n a false (K1 ++ entries m (map AsText vs) ++ K2)) ++ B in
  (blen new <= 10485760)%N ->
  let k := N.of_nat (child_elements kids) in let j := N.of_nat (List.length vs) in
  exists c, tset_many E fmt_g (p ++ forest_text F) (repeat (tpath (s ++ [(m, None)]) TheElement ++ bs ".-1") (List.length vs)) (map VStr vs) = Ok ((new, None), c) /\
    (j * (2 * k + j + 1) <= 2 * c)%N.
Proof.
  intros E fmt_g p F s A n a kids B m vs K1 K2 Ho Hp SP HG HT HS HR L LG U new SZ k j.
  pose proof (C87_set_many E fmt_g p F s A n a kids B m vs K1 K2 Ho Hp SP HG HT HS HR L LG U SZ) as SM. fold new in SM.
  apply (proj1 (C95_count E fmt_g _ _ _ _)) in SM as [c H]. exists c. split; [exact H|]. apply C95_sum in H as (_ & _ & S).
  subst k j. rewrite <- triangle_value. apply N.mul_le_mono_l. revert SZ S. unfold new. clear new. destruct HR as [HE HZ]. assert (ST : state p F) by (repeat split; auto). clear HG HT HS HE HZ.
  generalize (p ++ A ++ node_text (Elem n a false (K1 ++ entries m (map AsText vs) ++ K2)) ++ B) at 2 as d.
  revert F kids K1 K2 c L U ST. induction vs as [|v vs IH]; intros F kids K1 K2 c L U ST d SZ S; [apply N.le_0_l|].
  cbn [List.length repeat map combine] in S. inversion S as [|? d1 ? ? ? c1 c2 S1 S2]; subst. cbn [fst snd] in S1.
  assert (LV : legal (Append s m (AsText v))) by (apply LG; now left). destruct ST as (SG & STt & SF). pose proof (state_valid p F SP SG STt SF) as V. pose proof LV as (GS & LN & XN & GC & HTt).
  change (entries m (map AsText (v :: vs))) with ([Elem m [] false (content_nodes (AsText v))] ++ entries m (map AsText vs)) in SZ. rewrite <- app_assoc in SZ.
  destruct (append_one E fmt_g Ho p Hp SP F s A n a kids B m (AsText v) K1 K2) as (F1 & C1 & ST1 & L1 & _); auto; [split; auto| |].
  { pose proof (longer_kids n a K1 [Elem m [] false (content_nodes (AsText v))] (entries m (map AsText vs)) K2) as LE. cbn [app] in LE, SZ. unfold blen in *. rewrite !app_length in *. lia. }
  cbn [call set_content] in C1. assert (D1 : d1 = p ++ forest_text F1).
  { assert (Q : set_opts E fmt_g default_options (p ++ forest_text F) (tpath (s ++ [(m, None)]) TheElement ++ bs ".-1") (VStr v) = Ok (d1, None)) by (apply (proj1 (C83_count E fmt_g default_options _ _ (VStr v) (d1, None))); eauto). unfold set in C1. congruence. }
  subst d1. assert (X : (N.of_nat (child_elements kids) + 1 <= c1)%N).
  { destruct GC as [_ GV]. eapply (append_cost E fmt_g Ho p Hp F s A n a kids B m (VStr v)); [exact SG|exact V|exact GS|exact LN|exact L|discriminate|reflexivity| |exact S1].
    cbn [content_nodes forest_text flat_map node_text] in GV. rewrite app_nil_r in GV. rewrite <- esc_escape. exact GV. }
  pose proof (up_more m kids K1 K2 (content_nodes (AsText v)) U) as U1.
  assert (Y : (triangle (List.length vs) (child_elements (K1 ++ Elem m [] false (content_nodes (AsText v)) :: K2)) <= c2)%N).
  { eapply (IH (fun v' I => LG v' (or_intror I)) F1 _ _ _ c2 L1 U1 ST1); [|exact S2]. rewrite <- app_assoc. exact SZ. }
  assert (CE : child_elements (K1 ++ Elem m [] false (content_nodes (AsText v)) :: K2) = Datatypes.S (child_elements kids)).
  { destruct U as (-> & _). unfold child_elements. rewrite !filter_app, !app_length. cbn [filter is_elem List.length]. lia. }
  rewrite CE in Y. cbn [List.length triangle]. lia.
Qed.
Print Assumptions C95_append.

(** docs/performance.md:138 says that batches parse the document once. Appending 20000 entries to `<r></r>` looks at
    more than 1000 elements for every path and every byte of the result. *)
Lemma entries_repeat : forall n, List.length (forest_text (entries (bs "a") (map AsText (repeat [] n)))) = 7 * n.
Proof.
  induction n as [|n IH]; [reflexivity|].
  change (forest_text (entries (bs "a") (map AsText (repeat [] (S n))))) with (bs "<a></a>" ++ forest_text (entries (bs "a") (map AsText (repeat [] n)))).
  rewrite app_length, IH. change (List.length (bs "<a></a>")) with 7. lia.
Qed.
Theorem C95_once_refuted : exists xml paths values d c,
  tset_many env0 (fun _ => []) xml paths values = Ok ((d, None), c) /\
  (blen xml <= 7)%N /\ (1000 * (N.of_nat (List.length paths) + blen d) < c)%N.
Proof.
  set (n := N.to_nat 20000). assert (NN : N.of_nat n = 20000%N) by (apply Nnat.N2Nat.id).
  set (F := [Elem (bs "r") [] false []]).
  destruct (C95_append env0 (fun _ => []) [] F [(bs "r", None)] [] (bs "r") [] [] [] (bs "a") (repeat [] n) [] []) as [c [H1 H2]].
  - intros k l. apply Permutation_refl.
  - apply pro_nil.
  - apply sp_nil.
  - constructor; [apply good_b_ok; vm_compute; reflexivity|constructor].
  - repeat constructor.
  - repeat constructor.
  - split; [eexists _, _, _, _; left; reflexivity|vm_compute; discriminate].
  - apply (loc_here (bs "r") None []); reflexivity.
  - intros v I. apply repeat_spec in I. subst v. cbn [legal].
    repeat match goal with
    | |- _ /\ _ => split
    | |- xml_name _ => apply xml_name_b_ok; vm_compute; reflexivity
    | |- Forall good_tstep _ => eapply (fun l H => gt_steps l TheElement H); apply tpath_b_ok; vm_compute; reflexivity
    | |- good_content _ => split; cbn [content_nodes]
    | |- (_ <= _)%N => vm_compute; discriminate
    | |- (_ <= _)%nat => vm_compute; lia
    | |- _ < _ => vm_compute; lia
    | |- True => exact I
    end.
  - repeat split; auto. intros X; now destruct X.
  - cbn [app]. rewrite app_nil_r. rewrite app_nil_r. change (node_text (Elem (bs "r") [] false (entries (bs "a") (map AsText (repeat [] n))))) with (bs "<r>" ++ forest_text (entries (bs "a") (map AsText (repeat [] n))) ++ bs "</r>").
    unfold blen. rewrite !app_length, entries_repeat. change (List.length (bs "<r>")) with 3. change (List.length (bs "</r>")) with 4. lia.
  - rewrite repeat_length in *. cbn [child_elements filter List.length N.of_nat] in H2. eexists _, _, _, _, c. split; [exact H1|]. split; [vm_compute; discriminate|].
    rewrite repeat_length, NN in *. cbn [app]. rewrite app_nil_r. rewrite app_nil_r. change (node_text (Elem (bs "r") [] false (entries (bs "a") (map AsText (repeat [] n))))) with (bs "<r>" ++ forest_text (entries (bs "a") (map AsText (repeat [] n))) ++ bs "</r>").
    unfold blen. rewrite !app_length, entries_repeat. change (List.length (bs "<r>")) with 3. change (List.length (bs "</r>")) with 4. change (child_elements []) with 0 in H2. lia.
Qed.
Print Assumptions C95_once_refuted.

Example C95_example :
  let x := bs "<r><i>0</i><j/><i>1</i></r>" in
  (forall path, In path [bs "r.j"; bs "r.i"; bs "r.j"] -> exists l y, path_means path (Steps (l ++ [y])) /\ forall n, fst y <> GAttr n) /\
  delete_many env0 x [bs "r.j"; bs "r.i"; bs "r.j"] = Ok (bs "<r><i>1</i></r>", None) /\
  tdelete_many env0 x [bs "r.j"; bs "r.i"; bs "r.j"] = Ok ((bs "<r><i>1</i></r>", None), 11%N) /\
  tset_many env0 (fun _ => []) x [bs "r.i.-1"; bs "r.i.-1"] [VStr (bs "2"); VStr (bs "3")] =
    Ok ((bs "<r><i>0</i><j/><i>1</i><i>2</i><i>3</i></r>", None), 13%N).
Proof.
  cbv zeta. split; [|repeat split; vm_compute; reflexivity].
  assert (X : forall m, (m = bs "r.i" \/ m = bs "r.j") -> exists l y, path_means m (Steps (l ++ [y])) /\ forall n, fst y <> GAttr n).
  { intros m [->| ->].
    - exists [(GName (bs "r"), [])], (GName (bs "i"), []). split; [apply path_means_stored; [discriminate|vm_compute; reflexivity]|discriminate].
    - exists [(GName (bs "r"), [])], (GName (bs "j"), []). split; [apply path_means_stored; [discriminate|vm_compute; reflexivity]|discriminate]. }
  intros path [<-|[<-|[<-|[]]]]; apply X; auto.
Qed.
