(** Lemmas for C77: every query without conditions is answered on some document. *)
From Coq Require Import List Ascii String NArith ZArith Bool Lia Permutation.
From Verif Require Import GoStr ModelParser ModelPath ModelResult SpecText SpecPath SpecTree SpecQuery SpecEdit SpecValid SpecLang SpecShape ProofBase.
Import ListNotations.

Definition the_node (e : qend) (rest : list qstep) (n : bytes) : node :=
  match rest with
  | [] => Elem n (end_attrs e) false (end_kids e)
  | _ => Elem n [] false (specimen e rest)
  end.
Lemma selects_refl : forall n, selects n n = true.
Proof. intros n. unfold selects. now rewrite bytes_eqb_refl. Qed.
Lemma the_node_is : forall e rest n, exists a k, the_node e rest n = Elem n a false k.
Proof. intros e rest n. destruct rest; cbn; eauto. Qed.
Lemma the_node_kids : forall e s rest n, kids_of (the_node e (s :: rest) n) = specimen e (s :: rest).
Proof. reflexivity. Qed.

Section Live.
  Variable sat : condition -> node -> bool.
  Variable e : qend.

  Lemma leaf_live : forall n, e <> ECount -> items (leaf e (the_node e [] n)) <> [].
  Proof.
    intros n NC. destruct e as [|x| | |f]; cbn [leaf the_node]; try discriminate; try congruence.
    - unfold attribute. cbn. rewrite bytes_eqb_refl. discriminate.
    - unfold fields. cbn [flat_map]. rewrite app_nil_r. destruct f as [m|x|]; cbn.
      + rewrite bytes_eqb_refl. discriminate.
      + unfold attribute. cbn. rewrite bytes_eqb_refl. discriminate.
      + discriminate.
  Qed.
  Lemma pack_live : forall l, l <> [] -> items (pack l) <> [].
  Proof. intros [|x [|y l]] H; [congruence| |]; discriminate. Qed.
  Lemma gather_keeps : forall l acc, acc <> [] -> fold_left (fun acc c => if Nat.leb 1000 (List.length acc) then acc else acc ++ c) l acc <> ([] : list item).
  Proof.
    induction l as [|c l IH]; intros acc H; cbn [fold_left]; auto. apply IH. destruct (Nat.leb _ _); auto.
    intros K. apply app_eq_nil in K. tauto.
  Qed.
  Lemma gather_live : forall l, (exists c, In c l /\ c <> []) -> gather l <> [].
  Proof.
    unfold gather. assert (G : forall l acc, acc <> [] \/ (exists c, In c l /\ c <> []) ->
      fold_left (fun acc c => if Nat.leb 1000 (List.length acc) then acc else acc ++ c) l acc <> ([] : list item)).
    { induction l as [|c l IH]; intros acc H; cbn [fold_left].
      - destruct H as [H|(c & [] & _)]; exact H.
      - destruct acc as [|y acc].
        + destruct H as [H|(d & [<-|I] & N)]; [congruence| |].
          * apply gather_keeps. cbn [List.length Nat.leb]. exact N.
          * apply IH. right. eauto.
        + apply gather_keeps. destruct (Nat.leb _ _); [discriminate|]. discriminate. }
    intros l H. apply G. auto.
  Qed.
  Lemma called_one : forall f n a s k, f n = true -> called f [Elem n a s k] = [Elem n a s k].
  Proof. intros f n a s k H. unfold called. cbn. rewrite H. reflexivity. Qed.
  Lemma called_repeat : forall f n i l, f n = true -> called f (repeat (Elem n [] false []) i ++ l) = repeat (Elem n [] false []) i ++ called f l.
  Proof. intros f n i l H. unfold called. induction i as [|i IH]; cbn; auto. rewrite H. f_equal. exact IH. Qed.
  Lemma nth_listed : forall (nd x : node) i l, (i < 1000)%nat -> nth_error (firstn 1000 (repeat nd i ++ x :: l)) i = Some x.
  Proof.
    intros nd x i l L. enough (G : forall m, i < m -> nth_error (firstn m (repeat nd i ++ x :: l)) i = Some x) by (apply G; exact L).
    clear L. induction i as [|i IH]; intros [|m] L; try lia; [reflexivity|]. cbn. apply IH. lia.
  Qed.
  Lemma in_post : forall nd, is_elem nd = true -> In nd (post [nd]).
  Proof. intros [n a s k| |] H; try discriminate. unfold post. cbn. rewrite app_nil_r. apply in_or_app. right. left. reflexivity. Qed.
  Lemma ask_live : forall steps top, steps <> [] -> Forall unconditional steps -> Forall feasible steps ->
    (e = ECount -> exists a n, steps = a ++ [Child n Leading]) -> items (ask sat e top steps (specimen e steps)) <> [].
  Proof.
    induction steps as [|s rest IH]; intros top NE U V C; [congruence|].
    inversion U as [|? ? U1 U2]; inversion V as [|? ? V1 V2]; subst.
    assert (G : forall n, (rest = [] -> e <> ECount) -> items ((fun nd => match rest with [] => leaf e nd | _ => ask sat e false rest (kids_of nd) end) (the_node e rest n)) <> []).
    { intros n NC. destruct rest as [|s2 rest2]; [apply leaf_live; auto|]. rewrite the_node_kids. apply IH; auto; [discriminate|].
      intros Q. destruct (C Q) as (a & m & A). destruct a as [|x a]; [discriminate|]. injection A as _ A. eauto. }
    clear IH.
    assert (NC : (forall n, s <> Child n Leading) -> rest = [] -> e <> ECount).
    { intros Q -> ->. destruct (C eq_refl) as (a & m & A). destruct a as [|x a]; [injection A as ->; eapply Q; eauto|]. destruct a; discriminate. }
    destruct s as [n w| |c all|o].
    - destruct w as [|ds|c all]; [| |cbn in U1; contradiction].
      + (* the first that leads on *)
        change (specimen e (Child n Leading :: rest)) with [the_node e rest n].
        destruct (the_node_is e rest n) as (a & k & T).
        assert (N1 : called (selects n) [the_node e rest n] = [the_node e rest n]) by (rewrite T; apply called_one, selects_refl).
        assert (N2 : called (if top then bytes_eqb n else selects n) [the_node e rest n] = [the_node e rest n]).
        { rewrite T. apply called_one. destruct top; [apply bytes_eqb_refl|apply selects_refl]. }
        cbn [ask]. cbv zeta. rewrite N1, N2. cbn [firstn].
        destruct rest as [|s2 rest2].
        * destruct e eqn:Q; try (apply (G n); intros _; discriminate); try discriminate.
        * specialize (G n ltac:(discriminate)). cbv beta iota in G. cbn [first_reply].
          destruct (ask sat e false (s2 :: rest2) (kids_of (the_node e (s2 :: rest2) n))) eqn:Q; [cbn in G; congruence| |]; exact G.
      + (* by number *)
        change (specimen e (Child n (Number ds) :: rest)) with (repeat (Elem n [] false []) (N.to_nat (decimal_value ds)) ++ [the_node e rest n]).
        destruct (the_node_is e rest n) as (a & k & T). cbn [ask]. cbv zeta.
        rewrite called_repeat by (destruct top; [apply bytes_eqb_refl|apply selects_refl]).
        rewrite T, called_one by (destruct top; [apply bytes_eqb_refl|apply selects_refl]). rewrite <- T.
        rewrite nth_listed by (cbn in V1; lia). apply (G n). apply NC. discriminate.
    - change (specimen e (AnyKid :: rest)) with [the_node e rest (bs "a")].
      destruct (the_node_is e rest (bs "a")) as (a & k & T). cbn [ask]. cbv zeta.
      assert (L : elems [the_node e rest (bs "a")] = [the_node e rest (bs "a")]) by (rewrite T; reflexivity).
      rewrite L. cbn [firstn map flat_map]. rewrite app_nil_r.
      specialize (G (bs "a") (NC ltac:(discriminate))). cbv beta in G.
      destruct (items _) as [|x l]; [congruence|]. apply pack_live. discriminate.
    - cbn in U1. contradiction.
    - assert (Q : exists n, specimen e (Descendant o :: rest) = [the_node e rest n] /\ match o with Some n => selects n | None => fun _ => true end n = true).
      { destruct o as [n|]; [exists n; split; [reflexivity|apply selects_refl]|exists (bs "a"); split; reflexivity]. }
      destruct Q as (n & -> & Q). cbn [ask]. cbv zeta. apply pack_live, gather_live.
      destruct (the_node_is e rest n) as (a & k & T).
      eexists. split; [|apply (G n (NC ltac:(discriminate)))]. cbv beta.
      apply (in_map (fun nd => items (match rest with [] => leaf e nd | _ => ask sat e false rest (kids_of nd) end))).
      unfold called. apply filter_In. split; [apply in_post; rewrite T; reflexivity|]. rewrite T. destruct o; exact Q.
  Qed.
End Live.

Lemma specimen_good : forall e steps, Forall feasible steps -> Forall unconditional steps -> feasible_end e -> Forall good (specimen e steps).
Proof.
  intros e steps V U W. induction steps as [|s rest IH]; [constructor|].
  inversion V as [|? ? V1 V2]; inversion U as [|? ? U1 U2]; subst. specialize (IH V2 U2).
  assert (NA : good_attrs []) by (constructor; cbn; [lia|constructor|constructor|constructor]).
  assert (ND : forall n, xml_name n -> good (the_node e rest n)).
  { intros n X. destruct rest as [|s2 rest2]; [|constructor; auto; discriminate].
    assert (Y : good_attrs (end_attrs e)).
    { assert (Z : forall x, xml_name x -> good_attrs [(x, bs "v")]).
      { intros x Hx. constructor; cbn.
        - lia.
        - repeat constructor. intros [].
        - constructor; auto.
        - constructor; [|constructor]. vm_compute. discriminate. }
      destruct e as [|x| | |[]]; cbn in W |- *; auto. }
    constructor; auto; try discriminate.
    destruct e as [| | | |[]]; cbn in W |- *; auto.
    - constructor; [|constructor]. constructor; auto.
    - constructor; [|constructor]. constructor. split; intros [A|[]]; discriminate. }
  assert (XA : xml_name (bs "a")).
  { split; [|split].
    - exists "a"%char, []. split; auto. left. right. vm_compute. split; discriminate.
    - intros c [<-|[]]. left. right. vm_compute. split; discriminate.
    - vm_compute. discriminate. }
  destruct s as [n [|ds|c all]| |c all|[n|]]; cbn in V1, U1; try contradiction; cbn [specimen]; fold (the_node e rest).
  - constructor; [|constructor]. exact (ND n V1).
  - destruct V1 as [V1 _]. apply Forall_app. split.
    + generalize (N.to_nat (decimal_value ds)). intros i. induction i; cbn; constructor; auto. constructor; auto; discriminate.
    + constructor; [|constructor]. exact (ND n V1).
  - constructor; [|constructor]. exact (ND _ XA).
  - constructor; [|constructor]. exact (ND n V1).
  - constructor; [|constructor]. exact (ND _ XA).
Qed.
Lemma specimen_levels : forall e steps, fold_right (fun k m => Nat.max (levels k) m) 0%nat (specimen e steps) <= List.length (query_parts steps e).
Proof.
  intros e. assert (Q : forall steps, fold_right (fun k m => Nat.max (levels k) m) 0%nat (specimen e steps) <= List.length (flat_map qstep_parts steps) +
    match e with EField _ => 1 | _ => 0 end).
  { induction steps as [|s rest IH]; [cbn; lia|].
    assert (P : 1 <= List.length (qstep_parts s)) by (destruct s as [n [| |]| | |[]]; cbn; lia).
    assert (T : forall n, levels (the_node e rest n) <= S (List.length (flat_map qstep_parts rest) + match e with EField _ => 1 | _ => 0 end)).
    { intros n. destruct rest as [|s2 rest2]; [|cbn [the_node levels]; apply le_n_S; exact IH].
      destruct e as [| | | |[]]; cbn; lia. }
    cbn [flat_map]. rewrite app_length.
    assert (O : forall n, fold_right (fun k m => Nat.max (levels k) m) 0%nat [the_node e rest n] <= List.length (qstep_parts s) + List.length (flat_map qstep_parts rest) +
      match e with EField _ => 1 | _ => 0 end) by (intros n; specialize (T n); cbn [fold_right]; lia).
    destruct s as [n [|ds|c all]| |c all|[n|]]; try exact (O _).
    change (specimen e (Child n (Number ds) :: rest)) with (repeat (Elem n [] false []) (N.to_nat (decimal_value ds)) ++ [the_node e rest n]).
    generalize (N.to_nat (decimal_value ds)). intros i. induction i as [|i IHi]; [exact (O n)|].
    cbn [repeat app fold_right]. cbn [levels fold_right]. lia. }
  intros steps. unfold query_parts. rewrite app_length. specialize (Q steps). destruct e; cbn [qend_parts List.length]; lia.
Qed.
Lemma specimen_shallow : forall e steps, (List.length (query_parts steps e) <= 100)%nat -> shallow (specimen e steps).
Proof.
  intros e steps L. pose proof (specimen_levels e steps) as Q. apply Forall_forall. intros nd I.
  assert (G : forall l, In nd l -> levels nd <= fold_right (fun k m => Nat.max (levels k) m) 0%nat l).
  { induction l as [|x l IH]; intros []; cbn; [subst; lia|]. specialize (IH H). lia. }
  specialize (G _ I). unfold bytes in *. lia.
Qed.
