(** Edits under options: what is read at the designated element. *)
From Coq Require Import List Ascii String NArith ZArith Bool Lia Permutation.
From Verif Require Import GoStr ModelParser ModelPath ModelResult ModelQuery ModelValidate ModelBuilder ModelQueryOpts SpecText SpecPath SpecTree SpecQuery SpecEdit SpecValid SpecContent SpecFilter SpecLang SpecCase SpecOptions
  ProofBase ProofEscape ProofPath ProofScan ProofSyntax ProofTree ProofTree2 ProofTree3 ProofTree4 ProofTree5 ProofApi2 ProofTree7 ProofEdit ProofEdit2 ProofEdit3 ProofEdit4 ProofEdit5 ProofEdit6 ProofMod3 ProofLang ProofLang2 ProofLang3 ProofLang4 ProofLang5 ProofCase ProofCase2 ProofCase3 ProofCase4 ProofOpt ProofOpt2 ProofOpt3 ProofOpt4.
Import ListNotations.

Definition qsteps (steps : list tstep) : list qstep := map (fun s : tstep => Child (fst s) (match snd s with Some ds => Number ds | None => Leading end)) steps.
Definition qend_of (fin : final) : qend := match fin with TheAttribute x => EAttr x | TheText => EText | TheCount => ECount | _ => EElement end.
Lemma tpath_query : forall steps fin, fin <> TheChildren -> tpath steps fin = query_text (qsteps steps) (qend_of fin).
Proof.
  intros steps fin NC. unfold tpath, query_text, steps_text, query_parts, tpath_steps. f_equal. rewrite !map_app. f_equal.
  - induction steps as [|[n [ds|]] l IH]; [reflexivity| |]; cbn [flat_map tstep_steps app map qsteps fst snd qstep_parts step_text mods_text] in *; rewrite ?app_nil_r; f_equal; try f_equal; exact IH.
  - destruct fin; try contradiction; cbn [final_steps map qend_of qend_parts fst snd step_text mods_text flat_map]; rewrite ?app_nil_r; reflexivity.
Qed.
Lemma qparts_length : forall steps, List.length (flat_map qstep_parts (qsteps steps)) = List.length (flat_map tstep_steps steps).
Proof. induction steps as [|[n [ds|]] l IH]; [reflexivity| |]; cbn [qsteps map flat_map fst snd qstep_parts tstep_steps app List.length] in *; unfold qsteps in IH; now rewrite IH. Qed.
Lemma good_tpath_query : forall steps fin, good_tpath steps fin -> fin = TheElement \/ (exists x, fin = TheAttribute x) -> good_query (qsteps steps) (qend_of fin).
Proof.
  intros steps fin [G1 G2 G3] HF. constructor.
  - destruct HF as [->|[y ->]]; cbn [good_final] in G2; destruct steps; try (now discriminate); try contradiction; tauto.
  - unfold qsteps. apply Forall_map. eapply Forall_impl; [|exact G1]. intros [n [ds|]] [H1 H2]; cbn [fst snd good_qstep good_which] in *; auto.
  - clear. induction steps as [|[n [ds|]] l IH]; [exact I| |]; cbn [qsteps map well_split fst snd] in *; auto. destruct l as [|[m j] l]; [exact I|exact IH].
  - destruct HF as [->|[y ->]]; cbn [qend_of good_qend good_final] in *; tauto.
  - unfold query_parts. rewrite app_length, qparts_length. unfold tpath_steps in G3. rewrite app_length in G3. destruct HF as [->|[y ->]]; exact G3.
Qed.
(** The element designated by an edit is the one a query reads. *)
Lemma ask_designated : forall sat e steps F A nd B, designated false steps F A nd B -> e <> ECount -> (forall f, e <> EField f) -> Forall index_small steps ->
  leaf_ci e nd <> NoReply -> ask_ci sat e (qsteps steps) F = leaf_ci e nd.
Proof.
  intros sat e steps F A nd B L NC NF. induction L as [n idx F1 nd F2 H1 H2|n idx rest F1 m a kids F2 A nd B H1 H2 H3 IH]; intros SM NN;
    inversion SM as [|? ? SM1 SM2]; subst; unfold index_small in SM1; cbn [snd] in SM1; cbn [qsteps map fst snd ask_ci].
  - change (alike n) with (finds false n). pose proof (called_nth (finds false n) F1 nd F2 H1) as CN. rewrite H2 in CN. destruct idx as [ds|]; cbn [index_of] in CN.
    + rewrite nth_firstn, CN; [reflexivity|lia].
    + destruct (called (finds false n) (F1 ++ nd :: F2)) as [|z l]; [discriminate|]. injection CN as ->. destruct e; try reflexivity; [now destruct NC|now destruct (NF f)].
  - change (alike n) with (finds false n). pose proof (called_nth (finds false n) F1 (Elem m a false kids) F2 H1) as CN. rewrite H2 in CN. specialize (IH SM2 NN). fold (qsteps rest).
    assert (R : forall T (x y : T), match qsteps rest with [] => x | _ :: _ => y end = y) by (intros; destruct rest; [inversion H3|reflexivity]).
    destruct idx as [ds|]; cbn [index_of] in CN.
    + rewrite nth_firstn, CN; [|lia]. rewrite R. exact IH.
    + rewrite R. destruct (called (finds false n) (F1 ++ Elem m a false kids :: F2)) as [|z l]; [discriminate|]. injection CN as ->. cbn [first_reply]. rewrite R. cbn [kids_of].
      rewrite IH. destruct (leaf_ci e nd); [now destruct NN|reflexivity|reflexivity].
Qed.
(** The spelling of the path does not matter. *)
Lemma alike_same : forall n n' m, folded n = folded n' -> alike n m = alike n' m.
Proof. intros n n' m H. unfold alike. now rewrite H. Qed.
Lemma designated_respelled : forall steps F A nd B, designated false steps F A nd B -> forall steps', Forall2 respelled steps steps' -> designated false steps' F A nd B.
Proof.
  assert (CE : forall n n' F, folded n = folded n' -> called (finds false n) F = called (finds false n') F).
  { intros n n' F H. unfold called. apply filter_ext. intros []; auto. cbn [finds]. now apply alike_same. }
  induction 1 as [n idx F1 nd F2 H1 H2|n idx rest F1 m a kids F2 A nd B H1 H2 H3 IH]; intros steps' R; inversion R as [|? [n' idx'] ? r' [R1 R2] R3]; subst; cbn [fst snd] in *; subst idx'.
  - inversion R3; subst. constructor; [|rewrite <- H2; f_equal; symmetry; now apply CE]. destruct nd; try discriminate. cbn [named finds] in *. now rewrite <- (alike_same n n').
  - constructor; auto; [|rewrite <- H2; f_equal; symmetry; now apply CE]. cbn [finds] in *. now rewrite <- (alike_same n n').
Qed.
Lemma respelled_small : forall steps steps', Forall2 respelled steps steps' -> Forall index_small steps -> Forall index_small steps'.
Proof. induction 1 as [|s s' l l' [H1 H2] H IH]; intros G; inversion G; subst; constructor; auto. unfold index_small in *. now rewrite <- H2. Qed.

(** ** Trees after a replacement *)
Lemma apart_app : forall F1 F2, apart (F1 ++ F2) <-> apart F1 /\ apart F2.
Proof.
  intros F1 F2. unfold apart. split.
  - intros H. split; intros nd I; apply H; apply post_inside; apply post_inside in I; unfold post in *; rewrite flat_map_app; apply in_app_iff; auto.
  - intros [H1 H2] nd I. apply post_inside in I. unfold post in I. rewrite flat_map_app in I. apply in_app_iff in I. destruct I as [I|I]; [apply H1|apply H2]; now apply post_inside.
Qed.
Lemma apart_cons : forall nd F, apart (nd :: F) <-> (is_elem nd = true -> NoDup (map (fun a => folded (fst a)) (attrs_of nd))) /\ apart (kids_of nd) /\ apart F.
Proof.
  intros nd F. unfold apart. split.
  - intros H. repeat split.
    + intros E. apply H. constructor; auto. now left.
    + intros z I. apply H. eapply inside_below; [left; reflexivity|exact I].
    + intros z I. apply H. apply post_inside. apply post_inside in I. unfold post in *. cbn [flat_map]. apply in_app_iff. auto.
  - intros [H1 [H2 H3]] z I. inversion I as [? I1 I2|? k I1 I2]; subst.
    + destruct I1 as [->|I1]; [auto|]. apply H3. now constructor.
    + destruct I1 as [->|I1]; [auto|]. apply H3. eapply inside_below; eauto.
Qed.
Lemma shallow_max : forall F F', Forall2 (fun a b => levels a <= levels b) F F' -> fold_right (fun k m => Nat.max (levels k) m) 0 F <= fold_right (fun k m => Nat.max (levels k) m) 0 F'.
Proof. induction 1; cbn [fold_right]; lia. Qed.
Lemma forall2_same : forall F : list node, Forall2 (fun a b => levels a <= levels b) F F.
Proof. induction F; constructor; auto. Qed.
Definition keeps (F F' : list node) : Prop :=
  (apart F -> apart F') /\ Forall2 (fun a b => levels a <= levels b) F' F /\ len (post F') <= len (post F).
Lemma designated_kept : forall x steps F A nd B, designated x steps F A nd B -> forall nd', name_of nd' = name_of nd -> is_elem nd' = true -> good nd' -> Forall good F ->
  (apart [nd] -> apart [nd']) -> levels nd' <= levels nd -> len (post_node nd') <= len (post_node nd) ->
  exists F', forest_text F' = A ++ node_text nd' ++ B /\ Forall good F' /\ designated x steps F' A nd' B /\ keeps F F'.
Proof.
  induction 1 as [n idx F1 nd F2 H1 H2|n idx rest F1 m a kids F2 A nd B H1 H2 H3 IH]; intros nd' NM EL GN GF AP LV PS.
  - exists (F1 ++ nd' :: F2). apply Forall_app in GF. destruct GF as [G1 G2]. inversion G2; subst. split; [now rewrite forest_app, forest_cons|]. split; [apply Forall_app; auto|]. split.
    + constructor; auto. destruct nd; try discriminate. destruct nd'; try discriminate. cbn [name_of] in NM. cbn [named] in *. now rewrite NM.
    + split; [|split].
      * rewrite !apart_app. change (nd :: F2) with ([nd] ++ F2). change (nd' :: F2) with ([nd'] ++ F2). rewrite !apart_app. tauto.
      * apply Forall2_app; [apply forall2_same|]. constructor; auto. apply forall2_same.
      * unfold post. rewrite !flat_map_app, !app_length. cbn [flat_map]. rewrite !app_length. lia.
  - apply Forall_app in GF. destruct GF as [G1 G2]. inversion G2 as [|? ? G3 G4]; subst. inversion G3 as [? ? ? ? X1 X2 X3 X4| |]; subst.
    destruct (IH nd' NM EL GN X4 AP LV PS) as [K' [T [GK [D [KA [KL KP]]]]]]. exists (F1 ++ Elem m a false K' :: F2). split; [|split; [|split]].
    + rewrite forest_app, forest_cons, node_elem, T, <- !app_assoc. reflexivity.
    + apply Forall_app. split; auto. constructor; auto. constructor; auto. discriminate.
    + constructor; auto.
    + split; [|split].
      * rewrite !apart_app, !apart_cons. cbn [attrs_of kids_of]. tauto.
      * apply Forall2_app; [apply forall2_same|]. constructor; [|apply forall2_same]. cbn [levels]. apply le_n_S. now apply shallow_max.
      * unfold post in *. rewrite !flat_map_app, !app_length. cbn [flat_map post_node]. rewrite !app_length. cbn [List.length]. lia.
Qed.
Lemma keeps_shallow : forall F F', keeps F F' -> shallow F -> shallow F'.
Proof.
  intros F F' [_ [H _]]. unfold shallow. revert F H. induction F' as [|x F' IH]; intros F H S; inversion H; subst; constructor; inversion S; subst; [lia|eauto].
Qed.
Lemma keeps_elements : forall F F', keeps F F' -> (elements F < 9999)%N -> (elements F' < 9999)%N.
Proof. intros F F' [_ [_ H]]. unfold elements. lia. Qed.
Lemma alone_apart : forall n a self kids, apart [Elem n a self kids] <-> NoDup (map (fun a => folded (fst a)) a) /\ apart kids.
Proof.
  intros n a self kids. rewrite apart_cons. cbn [is_elem attrs_of kids_of]. split; [intros [H1 [H2 _]]; auto|]. intros [H1 H2]. repeat split; auto. intros z I.
  apply post_inside in I. destruct I.
Qed.
Lemma attrs_fold_put : forall x v a, NoDup (map (fun p : bytes * bytes => folded (fst p)) a) -> NoDup (map (fun p : bytes * bytes => folded (fst p)) (put_attrs false x v a)).
Proof.
  intros x v a H. unfold put_attrs. destruct (existsb (fun p => attr_is false x (fst p)) a) eqn:Q.
  - rewrite map_map. erewrite map_ext; [exact H|]. intros [n w]. cbn [fst]. now destruct (attr_is false x n).
  - rewrite map_app. cbn [map fst spelled]. rewrite folded_idem. apply (Permutation_NoDup (l := folded x :: map (fun p : bytes * bytes => folded (fst p)) a)); [apply Permutation_cons_append|].
    constructor; auto. intros I. apply in_map_iff in I. destruct I as [[n w] [I1 I2]]. cbn [fst] in I1.
    assert (T : existsb (fun p => attr_is false x (fst p)) a = true) by (apply existsb_exists; exists (n, w); split; auto; unfold attr_is; cbn [fst]; rewrite I1; apply bytes_eqb_refl). congruence.
Qed.
Lemma put_read : forall x v a, attribute_ci x (Elem [] (put_attrs false x v a) false []) = [AnAttribute v].
Proof.
  intros x v a. unfold attribute_ci, put_attrs. cbn [attrs_of]. destruct (existsb (fun p => attr_is false x (fst p)) a) eqn:Q.
  - assert (W : forall l, existsb (fun p => attr_is false x (fst p)) l = true -> exists n r, filter (fun a0 => bytes_eqb (folded (fst a0)) (folded x)) (map (fun p => if attr_is false x (fst p) then (fst p, v) else p) l) = (n, v) :: r).
    { induction l as [|[n w] l IH]; intros K; [discriminate|]. cbn [existsb map fst filter] in *. unfold attr_is in *. destruct (bytes_eqb (folded n) (folded x)) eqn:D; cbn [fst]; rewrite D; eauto. }
    destruct (W a Q) as [n [r ->]]. reflexivity.
  - assert (W : filter (fun a0 : bytes * bytes => bytes_eqb (folded (fst a0)) (folded x)) a = []).
    { clear - Q. induction a as [|[n w] l IH]; [reflexivity|]. cbn [existsb fst filter] in *. unfold attr_is in *. destruct (bytes_eqb (folded n) (folded x)); [discriminate|auto]. }
    rewrite filter_app, W. cbn [app filter fst spelled]. rewrite folded_idem, bytes_eqb_refl. reflexivity.
Qed.

Section Read.
  Variable E : env.
  Variable fmt_g : f64 -> bytes.
  Hypothesis Hord : forall k l, Permutation l (e_ord E k l).
  Variable o : options.
  Hypothesis Ho : o_case o = false.

  Lemma designated_read : forall p F steps steps' A nd B fin, prolog p -> Forall good F -> apart F -> shallow F -> (elements F < 9999)%N -> (blen (p ++ forest_text F) <= 10485760)%N ->
    designated false steps F A nd B -> Forall2 respelled steps steps' -> Forall index_small steps -> good_tpath steps' fin -> fin = TheElement \/ (exists x, fin = TheAttribute x) ->
    leaf_ci (qend_of fin) nd <> NoReply -> exists r, get_opts E o (p ++ forest_text F) (tpath steps' fin) = Ok r /\ says r (leaf_ci (qend_of fin) nd).
  Proof.
    intros p F steps steps' A nd B fin Hp HG HA H1 H2 HL L RS SM GT HF NN.
    assert (L' := designated_respelled _ _ _ _ _ L _ RS). assert (SM' := respelled_small _ _ RS SM).
    assert (NC : qend_of fin <> ECount) by (destruct HF as [->|[y ->]]; discriminate). assert (NF : forall f, qend_of fin <> EField f) by (intros f; destruct HF as [->|[y ->]]; discriminate).
    rewrite <- (ask_designated (decide_sat E) (qend_of fin) steps' F A nd B L' NC NF SM' NN). rewrite tpath_query by (destruct HF as [->|[y ->]]; discriminate).
    apply get_ask_ci; auto.
    - intros c z _. apply decide_sat_ok.
    - intros f K. now destruct (NF f).
    - split; auto. split; [|split; auto]. apply reads_text; auto using skippable_prolog, same_all_refl.
    - now apply good_tpath_query.
  Qed.
  Section Doc.
  Variable p : bytes.
  Variable F : list node.
  Hypothesis Hp : prolog p.
  Hypothesis Hg : Forall good F.
  Let d := p ++ forest_text F.
  Hypothesis Hv : valid d = true.
  Let Hd : (blen d <= 10485760)%N := valid_size d Hv.
  Hypothesis Ha : apart F.
  Hypothesis Hs : shallow F.
  Hypothesis He : (elements F < 9999)%N.

  Lemma set_read_opt : forall steps steps' A n a kids B v, good_tpath steps TheElement -> designated false steps F A (Elem n a false kids) B -> (blen (esc v) <= 5242880)%N ->
    Forall2 respelled steps steps' -> Forall index_small steps -> good_tpath steps' TheElement ->
    let new := p ++ A ++ start_tag n a false ++ esc v ++ end_tag n ++ B in (blen new <= 10485760)%N ->
    set_opts E fmt_g o d (tpath steps TheElement) (VStr v) = Ok (new, None) /\
    exists r, get_opts E o new (tpath steps' TheElement) = Ok r /\ r_type r = RElement /\ r_string r = trim_space v.
  Proof.
    intros steps steps' A n a kids B v GT L SZ RS SM GT' new SN. split.
    - unfold d, new. rewrite (set_found_opt E fmt_g Hord o p F Hp Hg Hd Hv steps A n a false kids B (VStr v) (esc v)); auto; try discriminate; [now rewrite Ho|]. cbn [value_to_xml]. now rewrite esc_escape.
    - set (nd' := Elem n a false [Text (esc v)]).
      destruct (designated_good _ _ _ _ _ _ L Hg) as [GE _]. inversion GE as [? ? ? ? GN GA GSf GK| |]; subst n0 a0 self kids0.
      assert (T : new = p ++ A ++ node_text nd' ++ B). { unfold new, nd'. rewrite node_elem, forest_one. cbn [node_text]. now rewrite <- !app_assoc. }
      destruct (designated_kept _ _ _ _ _ _ L nd' eq_refl eq_refl) as [F' [TF [GF [L' KP]]]]; auto.
      + constructor; auto; [discriminate|]. constructor; [apply text_good|constructor].
      + unfold nd'. rewrite !alone_apart. intros [K _]. split; auto. intros z I. apply post_inside in I. destruct I.
      + cbn [levels nd' fold_right]. lia.
      + cbn [nd' post_node flat_map]. rewrite !app_length. cbn [List.length]. lia.
      + rewrite T, <- TF in *. destruct (designated_read p F' steps steps' A nd' B TheElement) as [r [R1 R2]]; auto.
        * now apply (proj1 KP).
        * eapply keeps_shallow; eauto.
        * eapply keeps_elements; eauto.
        * discriminate.
        * exists r. split; auto. apply element_string. exact R2.
  Qed.
  Lemma set_attr_read_opt : forall steps steps' A n a self kids B y y' v, good_tpath steps (TheAttribute y) -> designated false steps F A (Elem n a self kids) B -> (blen (esc v) <= 5242880)%N ->
    Forall2 respelled steps steps' -> folded y = folded y' -> Forall index_small steps -> good_tpath steps' (TheAttribute y') -> good_attrs (put_attrs false y v a) ->
    exists a', Permutation a' (put_attrs false y v a) /\ sorted_by_name a' /\
    let new := p ++ A ++ start_tag n a' self ++ (if self then [] else forest_text kids ++ end_tag n) ++ B in
    set_opts E fmt_g o d (tpath steps (TheAttribute y)) (VStr v) = Ok (new, None) /\
    ((blen new <= 10485760)%N -> exists r, get_opts E o new (tpath steps' (TheAttribute y')) = Ok r /\ r_type r = RAttribute /\ r_string r = v).
  Proof.
    intros steps steps' A n a self kids B y y' v GT L SZ RS FY SM GT' GP.
    assert (L0 : designated (o_case o) steps F A (Elem n a self kids) B) by now rewrite Ho.
    destruct (set_attr_found_opt E fmt_g Hord o p F Hp Hg Hd Hv steps A n a self kids B y v GT L0 SZ) as [a' [PA [OA S]]]. rewrite Ho in PA.
    exists a'. split; auto. split; auto. intros new. split; [exact S|]. intros SN. set (nd' := Elem n a' self kids).
    destruct (designated_good _ _ _ _ _ _ L Hg) as [GE _]. inversion GE as [? ? ? ? GN GA GSf GK| |]; subst n0 a0 self0 kids0.
    assert (T : new = p ++ A ++ node_text nd' ++ B). { unfold new, nd'. rewrite node_parts. now rewrite <- !app_assoc. }
    assert (ND : NoDup (map (fun q : bytes * bytes => folded (fst q)) a) -> NoDup (map (fun q : bytes * bytes => folded (fst q)) a')).
    { intros K. eapply Permutation_NoDup; [apply Permutation_map; symmetry; exact PA|]. now apply attrs_fold_put. }
    destruct (designated_kept _ _ _ _ _ _ L nd' eq_refl eq_refl) as [F' [TF [GF [L' KP]]]]; auto.
    - constructor; auto. eapply good_attrs_perm; [symmetry; exact PA|exact GP].
    - unfold nd'. rewrite !alone_apart. intros [K1 K2]. split; auto.
    - cbn [nd' post_node]. rewrite !app_length. cbn [List.length]. lia.
    - assert (AP : apart F') by now apply (proj1 KP).
      assert (RD : attribute_ci y' nd' = [AnAttribute v]).
      { assert (K : NoDup (map (fun q : bytes * bytes => folded (fst q)) a')).
        { assert (KI : inside nd' F') by (clear - L'; induction L' as [n0 idx F1 nd F2 H1 H2|n0 idx rest F1 m0 a0 kids0 F2 A nd B H1 H2 H3 IH];
            [constructor; [apply in_app_iff; right; now left|destruct nd; [reflexivity|discriminate|discriminate]]|eapply inside_below; [apply in_app_iff; right; left; reflexivity|exact IH]]).
          apply (AP _ KI). }
        unfold attribute_ci. cbn [nd' attrs_of]. rewrite <- FY.
        assert (PF : Permutation (filter (fun q => bytes_eqb (folded (fst q)) (folded y)) a') (filter (fun q => bytes_eqb (folded (fst q)) (folded y)) (put_attrs false y v a))).
        { clear - PA. induction PA; cbn [filter]; try reflexivity.
          - destruct (bytes_eqb (folded (fst x)) (folded y)); auto.
          - destruct (bytes_eqb (folded (fst x)) (folded y)), (bytes_eqb (folded (fst y0)) (folded y)); try reflexivity. constructor.
          - etransitivity; eauto. }
        pose proof (distinct_one y a' K) as L1. pose proof (put_read y v a) as PR. unfold attribute_ci in PR. cbn [attrs_of] in PR. unfold fits_name in L1.
        destruct (filter (fun q => bytes_eqb (folded (fst q)) (folded y)) (put_attrs false y v a)) as [|q l] eqn:Q; [discriminate|].
        assert (LP := Permutation_length PF). assert (L2 : len (filter (fun q => bytes_eqb (folded (fst q)) (folded y)) a') <= 1) by exact L1. rewrite LP in L2. destruct l as [|? ?]; [|cbn [List.length] in L2; lia].
        apply Permutation_sym, Permutation_length_1_inv in PF. rewrite PF. exact PR. }
      rewrite T, <- TF in *. destruct (designated_read p F' steps steps' A nd' B (TheAttribute y')) as [r [R1 R2]]; eauto.
      + eapply keeps_shallow; eauto.
      + eapply keeps_elements; eauto.
      + cbn [qend_of leaf_ci]. rewrite RD. discriminate.
      + exists r. split; auto. cbn [qend_of leaf_ci] in R2. rewrite RD in R2. cbn [pack says item_is] in R2. exact R2.
  Qed.
  End Doc.
End Read.
