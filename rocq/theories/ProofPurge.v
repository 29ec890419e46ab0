(** Deleting elements takes a stretch out of the text. *)
From Coq Require Import List Ascii String NArith ZArith Bool Lia Permutation.
From Verif Require Import GoStr ModelParser ModelPath ModelResult ModelQuery ModelValidate ModelBuilder SpecText SpecPath SpecTree SpecQuery SpecEdit SpecContent SpecValid SpecHistory SpecPurge
  ProofBase ProofPath ProofScan ProofFuel ProofTree ProofEdit ProofEdit2 ProofEdit3 ProofEdit5 ProofEdit7 ProofEdit8 ProofEdit9 ProofEdit10 ProofWhich ProofValid2 ProofBatch PropTotal PropValid PropEdit PropHistory.
Import ListNotations.
Open Scope nat_scope.

Lemma scan_strict : forall ord key fuel s l, scan_loop ord key fuel s = Some l -> Forall (fun e => len (e_body e) < len (e_start e) /\ len (e_after e) <= len (e_body e)) l.
Proof.
  intros ord key. induction fuel as [|f IH]; intros s l H; [discriminate|]. cbn [scan_loop] in H. destruct (skip_to_next_total s) as (o & SN & K). rewrite SN in H. destruct o as [s1|]; [|injection H as <-; constructor].
  destruct K as (_ & n & s0 & -> & _).
  destruct (parse_element_name (next ("<"%char :: n :: s0))) as [[[name attrs] self] s2] eqn:PE. pose proof (parse_element_name_le _ _ _ _ _ PE) as L1. cbn [next tl List.length] in L1. destruct self.
  - destruct (scan_loop ord key f s2) as [l'|] eqn:Q; [|discriminate]. injection H as <-. constructor; [cbn [e_body e_start e_after List.length]; lia|]. eapply IH; eauto.
  - destruct (parse_content_total ord key name s2) as (t & r & PC & L3). rewrite PC in H. destruct (scan_loop ord key f r) as [l'|] eqn:Q; [|discriminate]. injection H as <-. constructor; [cbn [e_body e_start e_after List.length]; lia|]. eapply IH; eauto.
Qed.
Definition spanned (l : location) : Prop := (l_start l < (if l_self l then l_content_start l else l_end_tag l + Z.of_nat (len (l_name l)) + 3))%Z.
Lemma loc_strict : forall E o n segs key d base l, len segs <= n -> find_loc E o key d segs base = Ok (Some l) -> spanned l.
Proof.
  intros E o. induction n as [|n IH]; intros segs key d base l L H; destruct segs as [|sg rest]; cbn [List.length] in L; try lia; cbn [find_loc] in H; destruct (MaxPositionOffset <? base)%Z; try discriminate.
  apply bind_ok in H as (es & H1 & H). cbv zeta in H.
  assert (P : Forall (fun e => len (e_body e) < len (e_start e) /\ len (e_after e) <= len (e_body e)) es).
  { unfold scan_res, scan in H1. destruct (scan_loop (e_ord E) key (S (len d)) d) as [l'|] eqn:Q; [|discriminate]. injection H1 as <-. eapply scan_strict; eauto. }
  rewrite Forall_forall in P. set (ms := filter (fun e => seg_matches_opts (o_case o) sg (e_name e)) es) in *. assert (MI : forall e, In e ms -> In e es) by (intros e I; apply filter_In in I; tauto).
  assert (A : forall e, In e ms -> Ok (Some (elem_location d base e)) = Ok (Some l) -> spanned l).
  { intros e I Q. assert (elem_location d base e = l) as <- by congruence. unfold spanned. cbn [l_start l_self l_content_start l_end_tag l_name elem_location]. destruct (P e (MI e I)) as [P1 P2]. unfold pos_of. destruct (e_self e); lia. }
  assert (G : forall e rest' key' b, In e ms -> len rest' <= len rest -> find_loc E o key' (e_content e) rest' b = Ok (Some l) -> spanned l).
  { intros e rest' key' b I L' Q. eapply IH; [|exact Q]. lia. }
  destruct rest as [|nx rest2].
  - destruct ms as [|e l0]; [discriminate|]. eapply A; [now left|exact H].
  - assert (Y : match ms with [] => Ok None | e :: _ => if (MaxPositionOffset <? base + pos_of d (e_body e))%Z then Ok None else find_loc E o (child_key site_query e key) (e_content e) (nx :: rest2) (base + pos_of d (e_body e))%Z end = Ok (Some l) -> spanned l).
    { destruct ms as [|e l0]; [discriminate|]. destruct (_ <? _)%Z; [discriminate|]. intros Q. eapply G; [now left|apply le_n|exact Q]. }
    destruct (s_type nx); try (apply Y; exact H).
    destruct (nth_elem ms (s_index nx)) as [e|] eqn:NE; [|discriminate]. apply nth_elem_in in NE.
    destruct rest2 as [|y r2]; [eapply A; eauto|]. destruct (_ <? _)%Z; [discriminate|]. eapply G; [exact NE| |exact H]. cbn [List.length]. lia.
Qed.
Lemma cut_stretch : forall d i j a b, slice_to d i = Ok a -> slice_from d j = Ok b -> (i < j)%Z -> exists c, d = a ++ c ++ b /\ c <> [].
Proof.
  intros d i j a b Ha Hb L. unfold slice_to, slice_from in *. destruct (_ && _)%bool eqn:Q; [|discriminate]. destruct (_ && _)%bool eqn:Q2 in Hb; [|discriminate]. injection Ha as <-. injection Hb as <-.
  apply andb_true_iff in Q, Q2. destruct Q as [Q R], Q2 as [Q2 R2]. apply Z.leb_le in Q, Q2, R, R2. exists (firstn (Z.to_nat j - Z.to_nat i) (skipn (Z.to_nat i) d)). split.
  - rewrite <- (firstn_skipn (Z.to_nat i) d) at 1. f_equal. rewrite <- (firstn_skipn (Z.to_nat j - Z.to_nat i) (skipn (Z.to_nat i) d)) at 1. f_equal.
    rewrite <- skip_more. f_equal. lia.
  - intros K. apply (f_equal (@List.length ascii)) in K. rewrite firstn_length, skipn_length in K. cbn [List.length] in K. lia.
Qed.
Lemma delete_cut : forall E o xml path d, ~ In "@"%char path -> delete_opts E o xml path = Ok (d, None) ->
  d = xml \/ exists a c b, xml = a ++ c ++ b /\ d = a ++ b /\ c <> [].
Proof.
  intros E o xml path d NA H. unfold delete_opts in H. destruct (_ <? _)%N; [discriminate|]. destruct (negb _); [discriminate|]. apply bind_ok in H as (segs & P & H).
  pose proof (path_no_attr o path segs NA P) as F. destruct segs as [|sg segs]; [discriminate|]. unfold edit_of in H. apply bind_ok in H as ([e|r] & D & H); [discriminate|]. injection H as <-.
  unfold delete_element in D. destruct (_ <? _)%N; [discriminate|]. cbv zeta in D.
  assert (Q : segtype_eqb (s_type (last (sg :: segs) (mkSeg SElem [] 0%Z false None false [] []))) SAttr = false).
  { assert (I : In (last (sg :: segs) (mkSeg SElem [] 0%Z false None false [] [])) (sg :: segs)) by (destruct (@exists_last _ (sg :: segs)) as (l & x & ->); [discriminate|rewrite last_last; apply in_or_app; right; now left]).
    rewrite Forall_forall in F. apply F in I. destruct (s_type (last (sg :: segs) _)); try reflexivity. now elim I. }
  rewrite Q in D. apply bind_ok in D as (l & H1 & D). destruct l as [l|]; [|injection D as <-; now left].
  apply bind_ok in D as (a & Ha & D). apply bind_ok in D as (b & Hb & D). injection D as <-.
  destruct (cut_stretch _ _ _ _ _ Ha Hb (loc_strict E o _ _ _ _ _ _ (le_n _) H1)) as (c & C & NC).
  destruct (a ++ b) as [|y r] eqn:AB; cbn [get_result]; [now left|]. right. exists a, c, b. auto.
Qed.
Lemma cut_shorter : forall (a c b : bytes), c <> [] -> len (a ++ b) < len (a ++ c ++ b).
Proof. intros a c b N. rewrite !app_length. destruct c; [easy|]. cbn [List.length]. lia. Qed.
Lemma left_trans : forall t u v, left_of t u -> left_of u v -> left_of t v.
Proof. intros t u v H. induction 1; [exact H|]. eapply lo_cut. eauto. Qed.
Lemma delete_left : forall E o xml path d, ~ In "@"%char path -> delete_opts E o xml path = Ok (d, None) -> left_of xml d /\ (d = xml \/ len d < len xml).
Proof.
  intros E o xml path d NA H. destruct (delete_cut _ _ _ _ _ NA H) as [->|(a & c & b & -> & -> & N)]; [split; [constructor|now left]|].
  split; [apply (lo_cut _ a c b); constructor|right; now apply cut_shorter].
Qed.
Lemma each_left : forall E xml0 l xml d, Forall (fun p => ~ In "@"%char p) l -> delete_each E xml0 xml l = Ok (d, None) -> left_of xml d /\ (d = xml \/ len d < len xml).
Proof.
  intros E xml0. induction l as [|p l IH]; intros xml d F H; cbn [delete_each] in H; [injection H as <-; split; [constructor|now left]|].
  inversion F as [|? ? F1 F2]; subst. apply bind_ok in H as ([d1 [e|]] & D & H); cbn [fst snd] in H; [discriminate|].
  destruct (delete_left E _ _ _ _ F1 D) as [L1 S1]. destruct (IH _ _ F2 H) as [L2 S2]. split; [eapply left_trans; eauto|]. destruct S1 as [->|S1], S2 as [->|S2]; auto; right; lia.
Qed.
Lemma dedupe_in : forall l seen p, In p (dedupe seen l) -> In p l.
Proof. induction l as [|x l IH]; intros seen p H; cbn [dedupe] in H; [exact H|]. destruct (existsb _ _); [right; eauto|]. destruct H as [->|H]; [now left|right; eauto]. Qed.
Lemma purge_ends : forall E o path, ~ In "@"%char path -> forall n xml, len xml < n ->
  purge E o n path xml = Panic \/
  exists d e, purge E o n path xml = Ok (d, e) /\ left_of xml d /\ delete_opts E o d path = Ok (d, e).
Proof.
  intros E o path NA. induction n as [|n IH]; intros xml L; [lia|]. cbn [purge].
  destruct (delete_opts E o xml path) as [[d e]| |] eqn:D; [|now left|now elim (C15_delete_terminates E o xml path)]. cbn [bind fst snd].
  destruct e as [e|].
  - right. exists xml, (Some e). split; [reflexivity|]. split; [constructor|]. rewrite D. f_equal. f_equal.
    unfold delete_opts in D. destruct (_ <? _)%N; [congruence|]. destruct (negb _); [congruence|]. apply bind_ok in D as (segs & _ & D). destruct segs; [congruence|]. unfold edit_of in D. apply bind_ok in D as ([e'|r] & _ & D); congruence.
  - destruct (bytes_eqb d xml) eqn:Q.
    + apply bytes_eqb_eq in Q as ->. right. exists xml, None. split; [reflexivity|]. split; [constructor|exact D].
    + destruct (delete_left _ _ _ _ _ NA D) as [LO [->|LS]]; [assert (X : bytes_eqb xml xml = true) by (now apply bytes_eqb_eq); congruence|].
      assert (LD : len d < n) by lia. destruct (IH d LD) as [P|(d' & e' & P & L' & F)]; [now left|right]. exists d', e'. split; [exact P|]. split; [eapply left_trans; eauto|exact F].
Qed.
Lemma deletions_few : forall E l xml d, deletions E l xml d -> Forall (fun x => ~ In "@"%char (snd x)) l -> len l + len d <= len xml /\ left_of xml d.
Proof.
  induction 1 as [xml|o path l xml d d' D NE H IH]; intros F; [split; [cbn [List.length]; lia|constructor]|]. inversion F as [|? ? F1 F2]; subst. cbn [snd] in F1.
  destruct (delete_left _ _ _ _ _ F1 D) as [LO [->|LS]]; [now elim NE|]. destruct (IH F2) as [L1 L2]. split; [cbn [List.length]; lia|eapply left_trans; eauto].
Qed.

(** ** On documents *)
Lemma removed_text : forall steps F F1, Forall good F -> change (fun _ => Some []) nothing steps F = Some F1 ->
  exists A nd B, located steps F A nd B /\ forest_text F = A ++ node_text nd ++ B /\ forest_text F1 = A ++ B.
Proof.
  intros steps F F1 G Q. destruct (change_inv _ _ _ _ _ G Q) as [[A [nd [B [l [L [SW GN]]]]]]|[[? [? [? [? [? [? [? [? [? [_ [_ [_ [_ K]]]]]]]]]]]]]|[? [_ [_ K]]]]]; try discriminate.
  injection GN as <-. exists A, nd, B. split; [exact L|]. split; [now apply located_text with (steps := steps)|]. exact (swapped_text _ _ _ _ _ SW A B L).
Qed.
Lemma located_long : forall steps F A nd B, located steps F A nd B -> 0 < len (node_text nd).
Proof. induction 1 as [n idx F1 nd F2 N _|]; auto. destruct nd as [n0 a [|] kids| |]; try discriminate; cbn [node_text List.length app]; unfold start_tag; rewrite ?app_length; cbn [List.length app bs list_ascii_of_string]; lia. Qed.
Lemma purge_document : forall E, (forall k l, Permutation l (e_ord E k l)) -> forall p, prolog p -> strict_prolog p -> forall steps, good_tpath steps TheElement -> (forall s, steps <> [s]) ->
  forall n F, Forall good F -> Forall top_node F -> SpecHistory.fits p F -> len (forest_text F) < n ->
  exists G, purge E default_options n (tpath steps TheElement) (p ++ forest_text F) = Ok (p ++ forest_text G, None) /\
    Forall good G /\ Forall top_node G /\ SpecHistory.fits p G /\ left_of (forest_text F) (forest_text G) /\ forall A nd B, ~ located steps G A nd B.
Proof.
  intros E Ho p Hp SP steps GT NS. induction n as [|n IH]; intros F HG HT HF L; [lia|]. cbn [purge].
  destruct HF as [HE [HS HZ]]. pose proof (state_valid p F SP HG HT (conj HE (conj HS HZ))) as V.
  destruct (change (fun _ => Some []) nothing steps F) as [F1|] eqn:Q.
  - assert (AE : apply_edit (Remove steps) F = Some F1) by (cbn [apply_edit]; now rewrite Q).
    destruct (removed_text _ _ _ HG Q) as (A & nd & B & LO & T & T1). pose proof (located_long _ _ _ _ _ LO) as LN.
    assert (S1 : len (forest_text F1) < len (forest_text F)) by (rewrite T, T1, !app_length; lia).
    assert (HF1 : SpecHistory.fits p F1).
    { split; [eapply C21_edit_keeps_element; [|exact AE|exact HE]; intros s K; injection K as K; now apply (NS s)|]. split; [eapply C21_edit_keeps_shallow; [|exact AE|exact HS]; exact GT|]. rewrite app_length in *. lia. }
    destruct (apply_good (Remove steps) F F1 GT HG HT AE) as [G1 T2].
    assert (D : delete_opts E default_options (p ++ forest_text F) (tpath steps TheElement) = Ok (p ++ forest_text F1, None)).
    { destruct (C06_delete_element E p F steps A nd B Ho Hp HG V GT LO) as [_ D]. rewrite T1. apply D. rewrite <- T1. intros K. apply app_eq_nil in K as [_ K]. destruct HF1 as [HE1 _]. now apply (forest_nonempty F1 HE1). }
    rewrite D. cbn [bind fst snd]. destruct (bytes_eqb (p ++ forest_text F1) (p ++ forest_text F)) eqn:BE.
    + apply bytes_eqb_eq in BE. apply app_inv_head in BE. rewrite BE in S1. lia.
    + destruct (IH F1) as (G & P & GG & TG & FG & LG & NL); auto; [lia|]. exists G. repeat (split; [solve [auto]|]). split; [|exact NL].
      eapply left_trans; [|exact LG]. rewrite T, T1. apply (lo_cut _ A (node_text nd) B). constructor.
  - assert (D : delete_opts E default_options (p ++ forest_text F) (tpath steps TheElement) = Ok (p ++ forest_text F, None)).
    { apply (delete_missing E Ho p F Hp HG (valid_size _ V) V steps TheElement GT); auto. intros A nd B LO. eapply located_change; eauto. discriminate. }
    rewrite D. cbn [bind fst snd]. assert (X : bytes_eqb (p ++ forest_text F) (p ++ forest_text F) = true) by (now apply bytes_eqb_eq). rewrite X.
    exists F. split; [reflexivity|]. split; [exact HG|]. split; [exact HT|]. split; [repeat split; auto|]. split; [constructor|]. intros A nd B LO. eapply located_change; eauto. discriminate.
Qed.
