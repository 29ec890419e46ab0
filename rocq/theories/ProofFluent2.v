(** Map with options. *)
From Coq Require Import List Ascii String NArith ZArith Bool Lia Permutation.
From Verif Require Import GoStr ModelParser ModelPath ModelResult ModelQuery ModelBuilder ModelQueryOpts ModelApi SpecText SpecPath SpecTree SpecQuery SpecValid SpecEdit SpecContent SpecFilter SpecLang SpecCase SpecFluent
  ProofBase ProofEscape ProofPath ProofSyntax ProofTree ProofTree2 ProofTree3 ProofTree4 ProofTree5 ProofTree6 ProofTree7 ProofTree8 ProofMono ProofScan ProofLang ProofLang2 ProofLang3 ProofLang4 ProofLang5 ProofFluent.
Import ListNotations.

Lemma add_children_key : forall keyf n es m ls, map_get n m = grouped ls -> Forall (fun x => r_type x = RElement) ls ->
  map_get n (add_children keyf m es) =
  grouped (ls ++ map (fun e => r_element (e_content e)) (filter (fun e => bytes_eqb (keyf (e_name e)) n) es)).
Proof.
  intros keyf n. induction es as [|e es IH]; intros m ls H HE; cbn [add_children filter].
  - cbn [map]. now rewrite app_nil_r.
  - destruct (bytes_eqb (keyf (e_name e)) n) eqn:Q.
    + apply bytes_eqb_eq in Q. cbn [map]. rewrite (IH _ (ls ++ [r_element (e_content e)])).
      * now rewrite <- app_assoc.
      * unfold add_child. rewrite Q, H. destruct ls as [|x [|y ls]]; cbn [grouped app].
        -- apply map_get_set_same.
        -- rewrite map_get_set_same. inversion HE as [|? ? T _]; subst. unfold r_is_array. rewrite T. reflexivity.
        -- rewrite map_get_set_same. cbn [r_is_array r_array r_type rtype_eqb r_results app]. reflexivity.
      * apply Forall_app. split; auto.
    + apply IH; auto. unfold add_child. apply bytes_eqb_neq in Q.
      destruct (map_get (keyf (e_name e)) m); rewrite map_get_set_other by congruence; exact H.
Qed.
Section MapKeys.
  Variable E : env.
  Hypothesis Hord : forall k l, Permutation l (e_ord E k l).
  Variables keyf key : bytes -> bytes.
  Hypothesis Hk : forall n, xml_name n -> keyf n = key n.
  Hypothesis Hp : forall n, xml_name n -> key n <> bs "%".
  Definition under (n : bytes) (kids : list node) : list node := called (fun m => bytes_eqb n (key m)) (firstn 1000 (elems kids)).
  Lemma map_keys : forall kids raw, (exists kids', Forall2 same kids kids' /\ raw = forest_text kids') -> Forall good kids ->
    (blen raw <= 10485760)%N ->
    exists m, map_children E keyf raw = Ok m /\
      (forall n, n <> bs "%" ->
         match map_get n m with
         | Some x => under n kids <> [] /\ describes x (list_answer (under n kids))
         | None => under n kids = []
         end) /\
      match map_get (bs "%") m with
      | Some x => trim_space (own_text kids) <> [] /\ r_type x = RString /\ Decodes (trim_space (own_text kids)) (r_string x)
      | None => trim_space (own_text kids) = []
      end.
  Proof.
    intros kids raw [kids' [S ->]] G HL.
    rewrite map_children_eq by auto. cbv zeta. unfold scan_res.
    destruct (reads_text E Hord [] kids kids' skippable_nil S G []) as [es [R1 R2]]. cbn [app] in R1. rewrite R1. cbn [bind].
    eexists. split; [reflexivity|].
    assert (G' : Forall good kids') by (eapply same_good_all; eauto).
    rewrite extract_direct_forest by auto. rewrite <- (same_own_text _ _ S).
    apply (shows_firstn MaxWildcardResults) in R2. rewrite wild_max in *. unfold under.
    set (t := trim_space (own_text kids)). set (m0 := match t with [] => [] | _ => _ end).
    set (es1 := firstn 1000 es) in *. set (l := firstn 1000 (elems kids)) in *.
    assert (El : elems l = l).
    { unfold l. clear. revert kids. generalize 1000. intros k kids. unfold elems.
      assert (K : Forall (fun nd => is_elem nd = true) (filter is_elem kids)).
      { apply Forall_forall. intros x Hx. apply filter_In in Hx. tauto. }
      revert K. generalize (filter is_elem kids). intros fl K. revert k. induction K; intros [|k]; cbn [firstn filter]; auto.
      rewrite H. now rewrite IHK. }
    split.
    - intros n Hn. assert (M0 : map_get n m0 = grouped []).
      { unfold m0. destruct t; [reflexivity|]. apply map_get_None. cbn. intros [K|[]]. now apply Hn. }
      rewrite (add_children_key keyf n es1 m0 [] M0 (Forall_nil _)). cbn [app].
      pose proof (shows_grouped (filter (fun nd => bytes_eqb n (key (name_of nd))) l) (filter (fun e => bytes_eqb (keyf (e_name e)) n) es1)) as SG.
      rewrite called_elems, El.
      assert (SH : Forall2 shows (filter (fun nd => bytes_eqb n (key (name_of nd))) l) (filter (fun e => bytes_eqb (keyf (e_name e)) n) es1)).
      { apply (shows_filter (fun m => bytes_eqb n (key m)) (fun m => bytes_eqb (keyf m) n)); auto. intros m N. rewrite (Hk m N). apply bytes_eqb_sym. }
      specialize (SG SH). destruct (grouped (map (fun e => r_element (e_content e)) (filter (fun e => bytes_eqb (keyf (e_name e)) n) es1))) as [x|]; [|exact SG]. destruct SG as [SG1 SG2]. split; auto. apply denotes_describes; auto.
      assert (K : Forall good (filter (fun nd => bytes_eqb n (key (name_of nd))) l)).
      { apply Forall_forall. intros y Hy. apply filter_In in Hy. destruct Hy as [Hy _]. unfold l in Hy. apply firstn_in in Hy.
        apply filter_In in Hy. rewrite Forall_forall in G. apply G. tauto. }
      revert K. generalize (filter (fun nd => bytes_eqb n (key (name_of nd))) l). intros l1 K. destruct K as [|a l1 K1 K2]; [exact I|].
      destruct K2 as [|b l2 K2 K3]; cbn [list_answer good_answer map]; auto using good_kids.
      constructor; auto using good_kids. constructor; auto using good_kids. apply Forall_map. eapply Forall_impl; [|exact K3]. auto using good_kids.
    - assert (M0 : map_get (bs "%") (add_children keyf m0 es1) = map_get (bs "%") m0).
      { assert (NP : forall e, In e es1 -> keyf (e_name e) <> bs "%").
        { intros e He K. clear - Hk Hp R2 He K. induction R2 as [|nd e' l es1 H1 H2 IH]; [easy|]. destruct He as [->|He]; auto.
          destruct H1 as [K1 K2 K3 _ _]. inversion K2 as [? ? ? ? N _ _ _| |]; subst; try discriminate. cbn [name_of] in K3.
          rewrite K3 in K. rewrite Hk in K by auto. eapply Hp; eauto. }
        clear - NP. clearbody m0 es1. revert m0 NP. rename es1 into es0. induction es0 as [|e es0 IH]; intros m NP; auto. cbn [add_children].
        rewrite IH by (intros e' He'; apply NP; now right). unfold add_child.
        destruct (map_get (keyf (e_name e)) m); rewrite map_get_set_other; auto; intros K; symmetry in K; revert K; apply NP; now left. }
      rewrite M0. unfold m0. clearbody t. clear. destruct t as [|c t']; [reflexivity|].
      cbn [map_get]. rewrite bytes_eqb_refl. split; [discriminate|]. split; [reflexivity|]. cbn [r_string]. apply unescape_decodes.
  Qed.
End MapKeys.
Lemma name_ascii : forall n, xml_name n -> forall c, In c n -> (N_of_ascii c < 128)%N.
Proof.
  intros n [_ [H _]] c Hc. destruct (H c Hc) as [K|[K|K]]; [unfold letter in K; lia|unfold digit in K; lia|].
  cbn in K. repeat (destruct K as [<-|K]; [vm_compute; reflexivity|]). destruct K.
Qed.
Lemma name_not_percent : forall n, xml_name n -> n <> bs "%" /\ folded n <> bs "%".
Proof.
  intros n [[c [r [-> H]]] _]. split; intros K.
  - injection K as -> _. destruct H as [H|H]; [unfold letter in H; cbn in H; lia|]. cbn in H. intuition discriminate.
  - unfold folded in K. cbn [map] in K. injection K as K _. destruct H as [H|H].
    + assert (Q : ascii_lower c <> "%"%char); [|contradiction]. clear - H. unfold letter in H.
      destruct c as [[] [] [] [] [] [] [] []]; vm_compute; intros; try discriminate; vm_compute in H; intuition congruence.
    + cbn in H. destruct H as [<-|[<-|[]]]; discriminate.
Qed.
