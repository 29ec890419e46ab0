(** C87: lists kept in a document. *)
From Coq Require Import List Ascii String NArith ZArith Bool Lia Permutation.
From Verif Require Import GoStr ModelParser ModelPath ModelResult ModelQuery ModelValidate ModelBuilder ModelApi SpecText SpecPath SpecTree SpecQuery SpecEdit SpecContent SpecValid SpecHistory SpecApi SpecList
  ProofBase ProofTree ProofTree5 ProofTree8 ProofEdit ProofEdit2 ProofEdit5 ProofEdit7 ProofEdit9 ProofList PropTree PropApi.
Import ListNotations.

(** ** C87. Appending contents one after the other to a path puts them, in the order of the
    calls, behind the last element the path names; nothing else changes. *)
Theorem C87_build : forall E fmt_g p F s A n a kids B m cs K1 K2,
  (forall k l, Permutation l (e_ord E k l)) -> prolog p -> strict_prolog p ->
  Forall good F -> Forall top_node F -> shallow F -> room p F ->
  located s F A (Elem n a false kids) B -> (forall c, In c cs -> legal (Append s m c)) -> up_to_last m kids K1 K2 ->
  let new := p ++ A ++ node_text (Elem n a false (K1 ++ entries m cs ++ K2)) ++ B in
  (blen new <= 10485760)%N ->
  calls E fmt_g (map (Append s m) cs) (p ++ forest_text F) = Ok (new, None) /\ valid new = true.
Proof.
  intros E fmt_g p F s A n a kids B m cs K1 K2 Ho Hp SP HG HT HS [HE HZ] L LG U new SZ.
  destruct (append_each E fmt_g Ho p Hp SP cs F s A n a kids B m K1 K2) as (F' & C & (G & T & FT) & L' & _); auto.
  { repeat split; auto. }
  rewrite (located_text _ _ _ _ _ L') in C. split; [exact C|]. unfold new. rewrite <- (located_text _ _ _ _ _ L'). now apply state_valid.
Qed.
Print Assumptions C87_build.

(** The entries are read back by their numbers, the old ones before the new ones, and
    counted. *)
Theorem C87_read : forall E fmt_g p F s A n a kids B m cs,
  (forall k l, Permutation l (e_ord E k l)) -> prolog p -> strict_prolog p ->
  Forall good F -> Forall top_node F -> shallow F -> room p F -> readable s F ->
  located s F A (Elem n a false kids) B -> (forall c, In c cs -> legal (Append s m c)) ->
  (blen (p ++ A ++ node_text (Elem n a false (kids ++ entries m cs)) ++ B) <= 10485760)%N ->
  exists new, calls E fmt_g (map (Append s m) cs) (p ++ forest_text F) = Ok (new, None) /\
    let all := called (selects m) kids ++ entries m cs in
    (forall i nd ds fin, nth_error all i = Some nd -> i < 1000 -> decimal_value ds = N.of_nat i ->
      good_tpath (s ++ [(m, Some ds)]) fin -> final_answer fin nd <> Nothing ->
      exists r, get E new (tpath (s ++ [(m, Some ds)]) fin) = Ok r /\ describes r (final_answer fin nd)) /\
    (all <> [] -> good_tpath (s ++ [(m, None)]) TheCount ->
      exists r, get E new (tpath (s ++ [(m, None)]) TheCount) = Ok r /\ describes r (Count (Nat.min 1000 (List.length all)))).
Proof.
  intros E fmt_g p F s A n a kids B m cs Ho Hp SP HG HT HS [HE HZ] RD L LG SZ. destruct (up_exists m kids) as (K1 & K2 & U).
  destruct (append_each E fmt_g Ho p Hp SP cs F s A n a kids B m K1 K2) as (F' & C & ST & L' & TN); auto.
  { repeat split; auto. }
  { unfold blen in *. rewrite !app_length, !node_elem, !forest_app, !app_length in *. destruct U as (-> & _). rewrite forest_app, app_length in SZ. lia. }
  exists (p ++ forest_text F'). split; [exact C|]. cbv zeta.
  destruct (list_read E Ho p Hp F' s A n a _ B m ST L' (readable_names _ _ _ RD TN)) as [R1 R2].
  assert (Q : called (selects m) (K1 ++ entries m cs ++ K2) = called (selects m) kids ++ entries m cs).
  { rewrite !called_app, entries_called, (up_called m kids K1 K2 U). destruct U as (_ & U2 & _). now rewrite U2, app_nil_r. }
  rewrite Q in R1, R2. split; assumption.
Qed.
Print Assumptions C87_read.

(** SetMany with the same path for every value does the same. *)
Theorem C87_set_many : forall E fmt_g p F s A n a kids B m vs K1 K2,
  (forall k l, Permutation l (e_ord E k l)) -> prolog p -> strict_prolog p ->
  Forall good F -> Forall top_node F -> shallow F -> room p F ->
  located s F A (Elem n a false kids) B -> (forall v, In v vs -> legal (Append s m (AsText v))) -> up_to_last m kids K1 K2 ->
  let new := p ++ A ++ node_text (Elem n a false (K1 ++ entries m (map AsText vs) ++ K2)) ++ B in
  (blen new <= 10485760)%N ->
  set_many E fmt_g (p ++ forest_text F) (repeat (tpath (s ++ [(m, None)]) TheElement ++ bs ".-1") (List.length vs)) (map VStr vs) = Ok (new, None).
Proof.
  intros E fmt_g p F s A n a kids B m vs K1 K2 Ho Hp SP HG HT HS HR L LG U new SZ.
  destruct (C87_build E fmt_g p F s A n a kids B m (map AsText vs) K1 K2 Ho Hp SP HG HT HS HR L) as [C _]; auto.
  { intros c I. apply in_map_iff in I. destruct I as (v & <- & I). auto. }
  apply C10_set_many_success. split; [apply HR|]. split; [now rewrite repeat_length, map_length|]. fold new in C. clear - C.
  generalize dependent (p ++ forest_text F). generalize new. clear new. induction vs as [|v vs IH]; intros new d C; cbn [List.length repeat map combine calls] in *.
  - injection C as <-. constructor.
  - cbn [call set_content] in C. destruct (set E fmt_g d (tpath (s ++ [(m, None)]) TheElement ++ bs ".-1") (VStr v)) as [[d1 [e|]]| |] eqn:Q; try discriminate.
    econstructor; [exact Q|]. now apply IH.
Qed.
Print Assumptions C87_set_many.

(** Deleting a path again and again removes the elements it names one after the other, from
    the first to the last, and nothing else; then it has no effect. *)
Theorem C87_drain : forall E fmt_g p F s A n a kids B m j,
  (forall k l, Permutation l (e_ord E k l)) -> prolog p -> strict_prolog p ->
  Forall good F -> Forall top_node F -> shallow F -> room p F ->
  located s F A (Elem n a false kids) B -> good_tpath (s ++ [(m, None)]) TheElement ->
  let new := p ++ A ++ node_text (Elem n a false (without_first m j kids)) ++ B in
  calls E fmt_g (repeat (Remove (s ++ [(m, None)])) j) (p ++ forest_text F) = Ok (new, None) /\ valid new = true.
Proof.
  intros E fmt_g p F s A n a kids B m j Ho Hp SP HG HT HS [HE HZ] L GT new.
  destruct (remove_each E fmt_g Ho p Hp SP j F s A n a kids B m) as (F' & C & (G & T & FT) & L' & _); auto.
  { repeat split; auto. }
  rewrite (located_text _ _ _ _ _ L') in C. split; [exact C|]. unfold new. rewrite <- (located_text _ _ _ _ _ L'). now apply state_valid.
Qed.
Print Assumptions C87_drain.
(** What [without_first] leaves: the others, and the elements of the name from number [j]. *)
Theorem C87_left : forall m j kids,
  called (selects m) (without_first m j kids) = skipn j (called (selects m) kids) /\
  filter (fun x => negb (named (selects m) x)) (without_first m j kids) = filter (fun x => negb (named (selects m) x)) kids.
Proof.
  intros m j kids. revert j. induction kids as [|x kids IH]; intros j; [now rewrite skipn_nil|]. cbn [without_first filter]. rewrite called_cons.
  destruct (named (selects m) x) eqn:N; cbn [negb].
  - destruct j as [|j]; [cbn [skipn filter]; now rewrite called_cons, N|]. apply IH.
  - rewrite called_cons, N. cbn [filter]. rewrite N. cbn [negb]. destruct (IH j) as [-> ->]. auto.
Qed.
Print Assumptions C87_left.

Definition bag : list node :=
  [Elem (bs "r") [] false [Elem (bs "i") [] false [Text (bs "0")]; Elem (bs "j") [] true []; Text (bs " ")]].
Example C87_example :
  let cs := [AsText (bs "a<b"); AsInt (-7); AsForest [Elem (bs "k") [] true []]] in
  located [(bs "r", None)] bag [] (Elem (bs "r") [] false [Elem (bs "i") [] false [Text (bs "0")]; Elem (bs "j") [] true []; Text (bs " ")]) [] /\
  Forall good bag /\ Forall top_node bag /\ shallow bag /\ room [] bag /\ readable [(bs "r", None)] bag /\
  (forall c, In c cs -> legal (Append [(bs "r", None)] (bs "i") c)) /\
  good_tpath ([(bs "r", None)] ++ [(bs "i", None)]) TheElement /\
  calls env0 (fun _ => []) (map (Append [(bs "r", None)] (bs "i")) cs) (forest_text bag) =
    Ok (bs "<r><i>0</i><i>a&lt;b</i><i>-7</i><i><k/></i><j/> </r>", None) /\
  set_many env0 (fun _ => []) (forest_text bag) [bs "r.i.-1"; bs "r.i.-1"] [VStr (bs "x"); VStr (bs "y")] =
    Ok (bs "<r><i>0</i><i>x</i><i>y</i><j/> </r>", None) /\
  calls env0 (fun _ => []) (repeat (Remove [(bs "r", None); (bs "i", None)]) 2) (bs "<r><i>0</i><i>x</i><i>y</i><j/> </r>") =
    Ok (bs "<r><i>y</i><j/> </r>", None).
Proof.
  cbv zeta. split; [apply (loc_here (bs "r") None []); reflexivity|].
  split; [constructor; [apply good_b_ok; vm_compute; reflexivity|constructor]|]. split; [repeat constructor|]. split; [repeat constructor|].
  split; [split; [eexists _, _, _, _; left; reflexivity|vm_compute; discriminate]|]. split; [split; [repeat constructor|exact I]|].
  split.
  { intros c [<-|[<-|[<-|[]]]]; cbn [legal];
    repeat match goal with
    | |- _ /\ _ => split
    | |- xml_name _ => apply xml_name_b_ok; vm_compute; reflexivity
    | |- Forall good_tstep _ => eapply (fun l H => gt_steps l TheElement H); apply tpath_b_ok; vm_compute; reflexivity
    | |- good_content _ => split; cbn [content_nodes]
    | |- Forall good _ => constructor
    | |- good _ => apply good_b_ok; vm_compute; reflexivity
    | |- (_ <= _)%N => vm_compute; discriminate
    | |- (_ <= _)%nat => vm_compute; lia
    | |- _ < _ => vm_compute; lia
    | |- True => exact I
    end. }
  split; [apply tpath_b_ok; vm_compute; reflexivity|]. repeat split; vm_compute; reflexivity.
Qed.
