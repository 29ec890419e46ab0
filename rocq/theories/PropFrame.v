(** C73: edits change what they say and nothing else; edits at different places do not
    depend on each other, and of two edits of one place the last one counts. *)
From Coq Require Import List Ascii String NArith ZArith Bool Lia Permutation.
From Verif Require Import GoStr ModelParser ModelPath ModelResult ModelQuery ModelValidate ModelBuilder SpecText SpecPath SpecTree SpecQuery SpecEdit SpecContent SpecValid SpecFilter SpecLang SpecHistory SpecFrame
  ProofBase ProofTree ProofTree5 ProofTree8 ProofEdit ProofEdit2 ProofEdit3 ProofEdit4 ProofEdit5 ProofEdit7 ProofEdit8 ProofEdit9 ProofEdit11 ProofLang3 ProofLang5 ProofFrame ProofFrame2 ProofFrame3 ProofFrame4 PropTree PropValid PropEdit PropHistory PropLang.
Import ListNotations.

(** A query whose path leaves the paths of all edits of a sequence gets the same answer
    after the sequence. *)
Theorem C73_frame : forall E fmt_g p F ops F' q e,
  (forall k l, Permutation l (e_ord E k l)) -> prolog p -> strict_prolog p ->
  Forall good F -> Forall top_node F -> shallow F -> room p F -> (elements F < 9999)%N ->
  history p ops F F' -> (elements F' < 9999)%N -> good_query q e -> spares_all ops F q e ->
  exists d' r r', calls E fmt_g ops (p ++ forest_text F) = Ok (d', None) /\
    get E (p ++ forest_text F) (query_text q e) = Ok r /\ get E d' (query_text q e) = Ok r' /\ same_reading r r'.
Proof. intros. eapply frame_calls; eauto. Qed.
Print Assumptions C73_frame.
(** When no element answers to two names. *)
Theorem C73_separate : forall n m, separate n m <-> selects n m = false /\ selects m n = false.
Proof.
  intros n m. split.
  - intros S. split; [destruct (selects n m) eqn:Q; auto; elim (S m Q (select_self m))|destruct (selects m n) eqn:Q; auto; elim (S n (select_self n) Q)].
  - intros [A B] x H1 H2. unfold selects in H1, H2. apply orb_true_iff in H1, H2. destruct H1 as [H1|H1].
    { apply bytes_eqb_eq in H1. subst x. unfold selects in B. apply orb_true_iff in H2. rewrite H2 in B. discriminate. }
    destruct H2 as [H2|H2].
    { apply bytes_eqb_eq in H2. subst x. unfold selects in A. rewrite H1, orb_true_r in A. discriminate. }
    destruct (split_colon n); [discriminate|]. destruct (split_colon m); [discriminate|]. destruct (split_colon x) as [[p l]|]; [|discriminate].
    apply andb_true_iff in H1, H2. destruct H1 as [_ H1], H2 as [_ H2]. apply bytes_eqb_eq in H1, H2. subst. now rewrite select_self in A.
Qed.
Print Assumptions C73_separate.

(** Edits at different places that find what they change can be made in either order: the
    documents are those of one tree, up to the order of attributes, and have the same
    answers. *)
Theorem C73_commute : forall E fmt_g p F o1 o2 F12 F21,
  (forall k l, Permutation l (e_ord E k l)) -> prolog p -> strict_prolog p ->
  Forall good F -> Forall top_node F -> shallow F -> room p F ->
  exclusive o1 o2 -> finds o1 F -> finds o2 F -> history p [o1; o2] F F12 -> history p [o2; o1] F F21 ->
  exists G1 G2, calls E fmt_g [o1; o2] (p ++ forest_text F) = Ok (p ++ forest_text G1, None) /\
    calls E fmt_g [o2; o1] (p ++ forest_text F) = Ok (p ++ forest_text G2, None) /\
    Forall2 same F12 G1 /\ Forall2 same F12 G2 /\
    ((elements F12 < 9999)%N -> same_answers E (p ++ forest_text G1) (p ++ forest_text G2)).
Proof.
  intros E fmt_g p F o1 o2 F12 F21 Ho Hp SP HG HT HS HR X D1 D2 H1 H2.
  assert (Q : F21 = F12).
  { inversion H1 as [|? ? ? F1 ? _ A1 _ T1]; subst. inversion T1 as [|? ? ? ? ? _ A12 _ T2]; subst. inversion T2; subst.
    inversion H2 as [|? ? ? F2 ? _ A2 _ U1]; subst. inversion U1 as [|? ? ? ? ? _ A21 _ U2]; subst. inversion U2; subst.
    destruct (apply_commute o1 o2 F F1 F2 X D1 D2 A1 A2) as (F0 & E1 & E2). congruence. }
  subst F21. apply (equal_calls E fmt_g Ho p Hp SP F HG HT HS HR); auto.
Qed.
Print Assumptions C73_commute.
(** An edit that leaves nothing of an earlier one: the earlier one might as well not have
    been made. *)
Theorem C73_last : forall E fmt_g p F o1 o2 F12 F2,
  (forall k l, Permutation l (e_ord E k l)) -> prolog p -> strict_prolog p ->
  Forall good F -> Forall top_node F -> shallow F -> room p F ->
  overrides o1 o2 F -> history p [o1; o2] F F12 -> history p [o2] F F2 ->
  exists G1 G2, calls E fmt_g [o1; o2] (p ++ forest_text F) = Ok (p ++ forest_text G1, None) /\
    calls E fmt_g [o2] (p ++ forest_text F) = Ok (p ++ forest_text G2, None) /\
    Forall2 same F2 G1 /\ Forall2 same F2 G2 /\
    ((elements F2 < 9999)%N -> same_answers E (p ++ forest_text G1) (p ++ forest_text G2)).
Proof.
  intros E fmt_g p F o1 o2 F12 F2 Ho Hp SP HG HT HS HR X H1 H2.
  assert (Q : F12 = F2).
  { inversion H1 as [|? ? ? F1 ? _ A1 _ T1]; subst. inversion T1 as [|? ? ? ? ? _ A12 _ T2]; subst. inversion T2; subst.
    inversion H2 as [|? ? ? ? ? _ A2 _ U1]; subst. inversion U1; subst. rewrite (apply_override _ _ _ _ X A1) in A12. congruence. }
  subst F12. apply (equal_calls E fmt_g Ho p Hp SP F HG HT HS HR); auto.
Qed.
Print Assumptions C73_last.
(** Going back: a change followed by the edit that asks for what was there before gives a
    document of the old tree, with the old answers. *)
Theorem C73_undo : forall E fmt_g p F o1 o2 F12,
  (forall k l, Permutation l (e_ord E k l)) -> prolog p -> strict_prolog p ->
  Forall good F -> Forall top_node F -> shallow F -> room p F ->
  overrides o1 o2 F -> already o2 F -> history p [o1; o2] F F12 ->
  exists G, calls E fmt_g [o1; o2] (p ++ forest_text F) = Ok (p ++ forest_text G, None) /\ Forall2 same F G /\
    ((elements F < 9999)%N -> same_answers E (p ++ forest_text F) (p ++ forest_text G)).
Proof.
  intros E fmt_g p F o1 o2 F12 Ho Hp SP HG HT HS HR X AL H1.
  assert (Q : F12 = F).
  { inversion H1 as [|? ? ? F1 ? _ A1 _ T1]; subst. inversion T1 as [|? ? ? ? ? _ A12 _ T2]; subst. inversion T2; subst.
    rewrite (apply_override _ _ _ _ X A1), (apply_already _ _ AL) in A12. congruence. }
  subst F12. destruct (equal_calls E fmt_g Ho p Hp SP F HG HT HS HR [] [o1; o2] F (his_nil p F) H1) as (G1 & G & C1 & C2 & S1 & S2 & A).
  exists G. split; [exact C2|]. split; [exact S2|]. cbn [calls] in C1. injection C1 as C1. apply app_inv_head in C1. rewrite <- C1 in A. exact A.
Qed.
Print Assumptions C73_undo.
(** For content of located elements this holds to the byte. *)
Theorem C73_set_again : forall E fmt_g p F s A n a kids B c1 c2 d1,
  (forall k l, Permutation l (e_ord E k l)) -> prolog p -> strict_prolog p ->
  Forall good F -> Forall top_node F -> shallow F -> room p F -> located s F A (Elem n a false kids) B ->
  legal (SetContent s c1) -> legal (SetContent s c2) ->
  set_content E fmt_g (p ++ forest_text F) (tpath s TheElement) c1 = Ok (d1, None) -> (N.of_nat (List.length d1) <= 10485760)%N ->
  set_content E fmt_g d1 (tpath s TheElement) c2 = set_content E fmt_g (p ++ forest_text F) (tpath s TheElement) c2 /\
  (kids = content_nodes c2 -> set_content E fmt_g d1 (tpath s TheElement) c2 = Ok (p ++ forest_text F, None)).
Proof.
  intros E fmt_g p F s A n a kids B c1 c2 d1 Ho Hp SP HG HT HS HR L L1 L2 C1 SZ.
  assert (M : set_content E fmt_g d1 (tpath s TheElement) c2 = set_content E fmt_g (p ++ forest_text F) (tpath s TheElement) c2).
  { rewrite (content_exact E fmt_g Ho p Hp SP F HG HT HS HR s A n a kids B c1 L) in C1 by apply L1.
    assert (D : d1 = p ++ A ++ node_text (Elem n a false (content_nodes c1)) ++ B) by congruence. clear C1. subst d1.
    destruct (change_at _ _ _ _ _ L (with_kids (content_nodes c1)) (new_kids (content_nodes c1)) (Elem n a false (content_nodes c1)) eq_refl (conj eq_refl eq_refl)) as (F1 & AP & L').
    pose proof (located_text _ _ _ _ _ L') as T. rewrite <- T in SZ |- *.
    destruct (apply_good (SetContent s c1) F F1 L1 HG HT AP) as [G' T'].
    assert (R1 : room p F1) by (split; [apply (C21_edit_keeps_element (SetContent s c1) F F1); [discriminate|exact AP|apply HR]|exact SZ]).
    assert (S1 : shallow F1) by (eapply (C21_edit_keeps_shallow (SetContent s c1)); eauto).
    rewrite (content_exact E fmt_g Ho p Hp SP F1 G' T' S1 R1 s A n a _ B c2 L') by apply L2.
    now rewrite (content_exact E fmt_g Ho p Hp SP F HG HT HS HR s A n a kids B c2 L) by apply L2. }
  split; [exact M|]. intros ->. rewrite M, (content_exact E fmt_g Ho p Hp SP F HG HT HS HR s A n a _ B c2 L) by apply L2. now rewrite (located_text _ _ _ _ _ L).
Qed.
Print Assumptions C73_set_again.
(** Removing the element with a number moves the later ones up by one: number [j] now leads
    where [renumbered i j] led before. *)
Theorem C73_renumber : forall E p F s A n a kids B m ds,
  (forall k l, Permutation l (e_ord E k l)) -> prolog p -> strict_prolog p ->
  Forall good F -> Forall top_node F -> shallow F -> room p F ->
  located s F A (Elem n a false kids) B -> readable s F -> good_tpath (s ++ [(m, Some ds)]) TheElement ->
  N.to_nat (decimal_value ds) < List.length (called (selects m) kids) ->
  exists d', delete E (p ++ forest_text F) (tpath (s ++ [(m, Some ds)]) TheElement) = Ok (d', None) /\
    (forall js fin nd, good_tpath (s ++ [(m, Some js)]) fin -> (decimal_value js < 1000)%N ->
      nth_error (called (selects m) kids) (renumbered (N.to_nat (decimal_value ds)) (N.to_nat (decimal_value js))) = Some nd ->
      final_answer fin nd <> Nothing ->
      exists r, get E d' (tpath (s ++ [(m, Some js)]) fin) = Ok r /\ describes r (final_answer fin nd)) /\
    (1 < List.length (called (selects m) kids) ->
      exists r, get E d' (tpath (s ++ [(m, None)]) TheCount) = Ok r /\ describes r (Count (Nat.min 1000 (pred (List.length (called (selects m) kids)))))).
Proof. intros E p F s A n a kids B m ds Ho Hp SP HG HT HS HR. exact (remove_calls E (fun _ => []) Ho p Hp SP F HG HT HS HR s A n a kids B m ds). Qed.
Print Assumptions C73_renumber.

(** ** Cases *)
Lemma sample_state : Forall good sample /\ Forall top_node sample /\ shallow sample /\ room sample_prolog sample /\ (elements sample < 9999)%N /\
  prolog sample_prolog /\ strict_prolog sample_prolog /\ (forall k l, Permutation l (e_ord env0 k l)) /\ (forall k l, Permutation l (e_ord env_rev k l)).
Proof.
  split; [apply sample_good|]. split; [repeat constructor|]. split; [repeat constructor; vm_compute; lia|]. split.
  { split; [|vm_compute; discriminate]. eexists. eexists. eexists. eexists. now left. }
  split; [vm_compute; reflexivity|]. split; [apply sample_prolog_ok|]. split; [apply sample_strict|]. split; [intros; apply Permutation_refl|intros; apply Permutation_rev].
Qed.
Definition at_r : list tstep := [(bs "r", None)].
Definition at_a1 : list tstep := [(bs "r", None); (bs "a", Some (bs "1"))].
Definition at_d : list tstep := [(bs "r", None); (bs "d", None)].
Ltac legal_tac :=
  repeat match goal with
    | |- True => exact I
    | |- context [apply_edit ?o ?F] => let x := eval vm_compute in (apply_edit o F) in change (apply_edit o F) with x; cbv iota
    | |- legal _ /\ _ => split
    | |- _ = true /\ _ => split; [vm_compute; reflexivity|]
    | |- legal _ => cbn [legal]
    | |- _ /\ _ => split
    | |- good_tpath _ _ => apply tpath_b_ok; vm_compute; reflexivity
    | |- xml_name _ => apply xml_name_b_ok; vm_compute; reflexivity
    | |- Forall good_tstep _ => eapply (fun l H => gt_steps l TheElement H); apply tpath_b_ok; vm_compute; reflexivity
    | |- Forall _ (_ :: _) => apply Forall_cons
    | |- Forall _ [] => apply Forall_nil
    | |- Forall xml_name _ => cbn [map fst by_name at_ab1 at_d at_r at_a1 app]
    | |- _ < _ => vm_compute; lia
    | |- (_ <= _)%nat => vm_compute; lia
    | |- good_content _ => split; cbn [content_nodes]
    | |- good _ => apply good_b_ok; vm_compute; reflexivity
    | |- (_ <= _)%N => vm_compute; discriminate
    | |- small _ => vm_compute; discriminate
    end.
Lemma separate_ok : forall n m, selects n m = false -> selects m n = false -> separate n m.
Proof. intros. apply C73_separate. auto. Qed.
(** The number of elements [a], and the attribute of the second one, while others change. *)
Example C73_frame_example :
  let q1 := [Child (bs "r") Leading; Child (bs "a") Leading] in
  let q2 := [Child (bs "r") Leading; Child (bs "a") (Number (bs "0")); Child (bs "k") Leading] in
  let ops := [Append at_r (bs "e") (AsInt 5); SetAttr at_d (bs "id") (bs "7"); SetText [(bs "r", None); (bs "f", None); (bs "g", None)] (bs "new")] in
  let ops2 := [SetText (at_a1 ++ [(bs "b", None)]) (bs "uno"); Remove (at_a1 ++ [(bs "b", Some (bs "1"))])] in
  good_query q1 ECount /\ query_text q1 ECount = bs "r.a.#" /\ spares_all ops sample q1 ECount /\
  (exists F', run ops sample = Some F' /\ history sample_prolog ops sample F') /\
  good_query q2 EElement /\ spares_all ops2 sample q2 EElement /\
  (exists F', run ops2 sample = Some F' /\ history sample_prolog ops2 sample F') /\
  get env0 (sample_prolog ++ forest_text sample) (bs "r.a.#") <> Ok r_null.
Proof.
  cbv zeta. split; [apply query_b_ok; try discriminate; vm_compute; reflexivity|]. split; [reflexivity|]. split.
  { cbn [spares_all]. split; [split; [|left; intros f; discriminate]|intros F1 A1; split; [split; [|left; intros f; discriminate]|intros F2 A2; split; [split; [|left; intros f; discriminate]|auto]]];
      cbn [place app at_r at_d keeps_number]; apply aside_first; apply aside_name; apply separate_ok; reflexivity. }
  split; [eexists; split; [vm_compute; reflexivity|]; apply run_history; [vm_compute; reflexivity|]; unfold legal_all; legal_tac|].
  split; [apply query_b_ok; try discriminate; vm_compute; reflexivity|]. split.
  { cbn [spares_all]. split; [split; [|left; intros f; discriminate]|intros F1 A1; split; [split; [|left; intros f; discriminate]|auto]];
      cbn [place app at_a1 keeps_number]; apply aside_first; (apply aside_number; [left; discriminate|vm_compute; discriminate]). }
  split; [eexists; split; [vm_compute; reflexivity|]; apply run_history; [vm_compute; reflexivity|]; unfold legal_all; legal_tac|].
  vm_compute. discriminate.
Qed.
Definition set_b : edit := SetText (at_a1 ++ [(bs "b", None)]) (bs "uno").
Definition more_e : edit := Append at_r (bs "e") (AsInt 5).
Definition d_id : edit := SetAttr at_d (bs "id") (bs "7").
Definition no_b1 : edit := Remove (at_a1 ++ [(bs "b", Some (bs "1"))]).
Ltac found_tac := eexists; eexists; eexists; apply locate_ok; vm_compute; reflexivity.
Example C73_commute_example :
  exclusive d_id set_b /\ finds d_id sample /\ finds set_b sample /\
  (exists F', run [d_id; set_b] sample = Some F' /\ history sample_prolog [d_id; set_b] sample F' /\ history sample_prolog [set_b; d_id] sample F') /\
  exclusive no_b1 (RemoveAttr (at_a1 ++ [(bs "c", None)]) (bs "z")) /\
  match calls env0 (fun _ => []) [d_id; set_b] (forest_text sample), calls env0 (fun _ => []) [set_b; d_id] (forest_text sample) with
  | Ok (d1, None), Ok (d2, None) => bytes_eqb d1 d2 && negb (bytes_eqb d1 (forest_text sample))
  | _, _ => false
  end = true.
Proof.
  split; [apply apart_later; apply apart_name; apply separate_ok; reflexivity|]. split; [found_tac|]. split; [found_tac|].
  split; [eexists; split; [vm_compute; reflexivity|]; split; (apply run_history; [vm_compute; reflexivity|]; unfold legal_all, d_id, set_b; legal_tac)|].
  split; [|vm_compute; reflexivity]. apply apart_later. apply apart_later. apply apart_name. apply separate_ok; reflexivity.
Qed.
(** Removing the element after edits inside it, and setting back what was there. *)
Example C73_last_example :
  overrides set_b (Remove at_a1) sample /\ overrides set_b (SetText at_a1 (bs "x")) sample /\
  (exists F', run [set_b; Remove at_a1] sample = Some F' /\ history sample_prolog [set_b; Remove at_a1] sample F' /\ history sample_prolog [Remove at_a1] sample F') /\
  overrides (SetText at_d (bs "head")) (SetText at_d (bs "tail")) sample /\ already (SetText at_d (bs "tail")) sample /\
  history sample_prolog [SetText at_d (bs "head"); SetText at_d (bs "tail")] sample sample /\
  overrides (SetAttr at_d (bs "id") (bs "7")) (RemoveAttr at_d (bs "id")) sample /\ already (RemoveAttr at_d (bs "id")) sample.
Proof.
  split; [eapply over_remove; [apply locate_ok; vm_compute; reflexivity|reflexivity|right; discriminate]|].
  split; [eapply over_within; [apply locate_ok; vm_compute; reflexivity|]; eexists; split; [reflexivity|left; discriminate]|].
  split; [eexists; split; [vm_compute; reflexivity|]; split; (apply run_history; [vm_compute; reflexivity|]; unfold legal_all, set_b; legal_tac)|].
  split; [apply over_content|]. split; [eapply already_content; apply locate_ok; vm_compute; reflexivity|].
  split; [apply run_history; [vm_compute; reflexivity|]; unfold legal_all; legal_tac|].
  split; [eapply over_drop; apply locate_ok; vm_compute; reflexivity|]. eapply already_gone; [apply locate_ok; vm_compute; reflexivity|intros []].
Qed.
Example C73_set_again_example :
  let d1 := sample_prolog ++ bs "<r> <a/><!--note--><a k=""1&lt;2"" x:y=""z""><b> one </b><p:b m=""u"" n=""v"">t&amp;u<c/></p:b></a><d>12</d></r>" in
  (exists A B, located at_d sample A (Elem (bs "d") [] false (content_nodes (AsText (bs "tail")))) B) /\
  legal (SetContent at_d (AsInt 12)) /\ legal (SetText at_d (bs "tail")) /\
  set_content env0 (fun _ => []) (sample_prolog ++ forest_text sample) (tpath at_d TheElement) (AsInt 12) = Ok (d1, None) /\
  set_content env0 (fun _ => []) d1 (tpath at_d TheElement) (AsText (bs "tail")) = Ok (sample_prolog ++ forest_text sample, None).
Proof.
  cbv zeta. split; [eexists; eexists; apply locate_ok; vm_compute; reflexivity|]. split; [legal_tac|]. split; [legal_tac|]. split; vm_compute; reflexivity.
Qed.
Example C73_renumber_example :
  let kids := kids_of (nth 0 sample (Text [])) in
  (exists A B, located at_r sample A (Elem (bs "r") [] false kids) B) /\ readable at_r sample /\ good_tpath (at_r ++ [(bs "a", Some (bs "0"))]) TheElement /\
  List.length (called (selects (bs "a")) kids) = 2 /\ good_tpath (at_r ++ [(bs "a", Some (bs "0"))]) (TheAttribute (bs "k")) /\
  (exists nd, nth_error (called (selects (bs "a")) kids) (renumbered 0 0) = Some nd /\ final_answer (TheAttribute (bs "k")) nd = Attribute (bs "1<2")) /\
  tpath (at_r ++ [(bs "a", Some (bs "0"))]) (TheAttribute (bs "k")) = bs "r.a.0.@k".
Proof.
  cbv zeta. split; [eexists; eexists; apply locate_ok; vm_compute; reflexivity|]. split; [repeat constructor|]. split; [apply tpath_b_ok; vm_compute; reflexivity|].
  split; [reflexivity|]. split; [apply tpath_b_ok; vm_compute; reflexivity|]. split; [|reflexivity]. eexists. split; vm_compute; reflexivity.
Qed.
(** ** What does not hold *)
(** Lists of fields: where the parent is created, Null becomes an empty list, although the
    query asks for another name than the edit. *)
Theorem C73_fields_refuted : exists d o q f, aside (keeps_number o) true (place o) q /\ good_query q (EField f) /\
  exists d', call env0 (fun _ => []) o d = Ok (d', None) /\ get env0 d (query_text q (EField f)) = Ok r_null /\
  exists r, get env0 d' (query_text q (EField f)) = Ok r /\ r_type r = RArray.
Proof.
  exists (bs "<r></r>"), (SetText (by_name [bs "r"; bs "c"; bs "d"]) (bs "1")), [Child (bs "r") Leading; Child (bs "c") Leading; Child (bs "m") Leading], (FieldName (bs "f")).
  split; [apply aside_first; apply aside_first; apply aside_name; apply separate_ok; reflexivity|]. split; [apply query_b_ok; try discriminate; vm_compute; reflexivity|].
  exists (bs "<r><c><d>1</d></c></r>"). split; [vm_compute; reflexivity|]. split; [vm_compute; reflexivity|]. eexists. split; vm_compute; reflexivity.
Qed.
Print Assumptions C73_fields_refuted.
(** Two elements created in one parent stand in the order of the calls. *)
Theorem C73_creation_order_refuted : exists d o1 o2 d12 d21, exclusive o1 o2 /\
  calls env0 (fun _ => []) [o1; o2] d = Ok (d12, None) /\ calls env0 (fun _ => []) [o2; o1] d = Ok (d21, None) /\
  match get env0 d12 (bs "r.*"), get env0 d21 (bs "r.*") with
  | Ok r1, Ok r2 => map r_string (r_results r1) = [bs "1"; bs "2"] /\ map r_string (r_results r2) = [bs "2"; bs "1"]
  | _, _ => False
  end.
Proof.
  exists (bs "<r></r>"), (SetText (by_name [bs "r"; bs "c"]) (bs "1")), (SetText (by_name [bs "r"; bs "d"]) (bs "2")), (bs "<r><c>1</c><d>2</d></r>"), (bs "<r><d>2</d><c>1</c></r>").
  split; [apply apart_later; apply apart_name; apply separate_ok; reflexivity|]. split; [vm_compute; reflexivity|]. split; [vm_compute; reflexivity|]. vm_compute. split; reflexivity.
Qed.
Print Assumptions C73_creation_order_refuted.
(** Removing elements by number: the second removal hits another element. *)
Theorem C73_removal_order_refuted : exists d o1 o2 d12 d21, spot o1 <> spot o2 /\
  calls env0 (fun _ => []) [o1; o2] d = Ok (d12, None) /\ calls env0 (fun _ => []) [o2; o1] d = Ok (d21, None) /\
  get env0 d12 (bs "r.a") <> get env0 d21 (bs "r.a").
Proof.
  exists (bs "<r><a>0</a><a>1</a><a>2</a></r>"), (Remove [(bs "r", None); (bs "a", Some (bs "0"))]), (Remove [(bs "r", None); (bs "a", Some (bs "1"))]), (bs "<r><a>1</a></r>"), (bs "<r><a>2</a></r>").
  split; [discriminate|]. split; [vm_compute; reflexivity|]. split; [vm_compute; reflexivity|]. vm_compute. discriminate.
Qed.
Print Assumptions C73_removal_order_refuted.
