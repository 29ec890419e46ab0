(** What edits leave alone, on trees. *)
From Coq Require Import List Ascii String NArith ZArith Bool Lia Permutation.
From Verif Require Import GoStr SpecText SpecPath SpecTree SpecQuery SpecEdit SpecContent SpecFilter SpecLang SpecHistory SpecFrame ProofBase ProofScan ProofEdit5.
Import ListNotations.

Lemma called_app : forall f F G, called f (F ++ G) = called f F ++ called f G.
Proof. intros. apply filter_app. Qed.
Lemma edit_nth_split : forall f g F i F', edit_nth f i g F = Some F' ->
  exists F1 nd F2 l, F = F1 ++ nd :: F2 /\ F' = F1 ++ l ++ F2 /\ named f nd = true /\ List.length (called f F1) = i /\ g nd = Some l.
Proof.
  induction F as [|x F IH]; intros i F'; cbn [edit_nth]; [discriminate|]. destruct (named f x) eqn:N.
  - destruct i as [|i].
    + destruct (g x) as [l|] eqn:G; [|discriminate]. intros H. injection H as <-. exists [], x, F, l. repeat split; auto.
    + destruct (edit_nth f i g F) as [F0|] eqn:Q; [|discriminate]. intros H. injection H as <-. destruct (IH _ _ Q) as (F1 & nd & F2 & l & -> & -> & A & B & C).
      exists (x :: F1), nd, F2, l. repeat split; auto. unfold called in *. cbn [filter]. unfold named in N. destruct x; try discriminate. rewrite N. cbn [List.length]. now rewrite B.
  - destruct (edit_nth f i g F) as [F0|] eqn:Q; [|discriminate]. intros H. injection H as <-. destruct (IH _ _ Q) as (F1 & nd & F2 & l & -> & -> & A & B & C).
    exists (x :: F1), nd, F2, l. repeat split; auto. unfold called in *. cbn [filter]. unfold named in N. destruct x; auto. now rewrite N.
Qed.
(** Elements with the same name. *)
Definition namesake (x y : node) : Prop :=
  match x, y with Elem n _ _ _, Elem m _ _ _ => n = m | _, _ => False end.

Section Frame.
  Variable sat : condition -> node -> bool.
  Variable e : qend.
  Variable keep : bool.
  Notation ask := (ask sat e).
  Definition goes (q : list qstep) (nd : node) : reply := match q with [] => leaf e nd | _ => ask false q (kids_of nd) end.

  Lemma ask_called : forall top m w q F F', called (selects m) F' = called (selects m) F -> called (bytes_eqb m) F' = called (bytes_eqb m) F ->
    ask top (Child m w :: q) F' = ask top (Child m w :: q) F.
  Proof.
    intros top m w q F F' A B. cbn [SpecLang.ask]. rewrite A. assert (C : called (if top then bytes_eqb m else selects m) F' = called (if top then bytes_eqb m else selects m) F) by (destruct top; auto).
    now rewrite C.
  Qed.
  Lemma first_reply_map : forall (f : node -> reply) l l', map f l = map f l' -> first_reply f l = first_reply f l'.
  Proof.
    intros f. induction l as [|x l IH]; intros [|y l'] H; try discriminate; auto. cbn [map] in H. injection H as A B. cbn [first_reply]. rewrite A, (IH _ B). reflexivity.
  Qed.
  Lemma first_reply_silent : forall (f : node -> reply) l x, f x = NoReply -> first_reply f (l ++ [x]) = first_reply f l.
  Proof. intros f l x H. induction l as [|y l IH]; cbn [first_reply app]; [now rewrite H|]. now rewrite IH. Qed.
  Lemma aside_some : forall top s q, aside keep top s q -> s <> [] /\ q <> [].
  Proof. intros top s q H. inversion H; split; discriminate. Qed.
  Lemma ask_leading : forall top m q F, q <> [] -> ask top (Child m Leading :: q) F = first_reply (goes q) (called (selects m) F).
  Proof. intros top m [|s q] F N; [easy|]. reflexivity. Qed.
  Lemma ask_number : forall top m ds q F, ask top (Child m (Number ds) :: q) F =
    match nth_error (firstn 1000 (called (if top then bytes_eqb m else selects m) F)) (N.to_nat (decimal_value ds)) with Some nd => goes q nd | None => NoReply end.
  Proof. reflexivity. Qed.
  Lemma ask_any : forall top q F, ask top (AnyKid :: q) F =
    let replies := map (goes q) (firstn 1000 (elems F)) in
    match flat_map items replies with [] => if existsb is_empty_list replies then Many [] else NoReply | l => pack l end.
  Proof. reflexivity. Qed.

  (** One element is replaced by one with the same name. *)
  Lemma called_swap : forall f F1 x y F2, namesake x y ->
    exists L M, called f (F1 ++ x :: F2) = L ++ (if named f x then [x] else []) ++ M /\ called f (F1 ++ y :: F2) = L ++ (if named f x then [y] else []) ++ M /\ L = called f F1.
  Proof.
    intros f F1 x y F2 H. exists (called f F1), (called f F2). rewrite !called_app. destruct x as [n a s k| |], y as [m b sf j| |]; try contradiction. cbn [namesake] in H. subst m.
    unfold called, named. cbn [filter]. destruct (f n); auto.
  Qed.
  Lemma elems_called : forall F, elems F = called (fun _ => true) F.
  Proof. intros F. unfold elems, called. apply filter_ext. now intros []. Qed.
  Lemma swap_map : forall f q F1 x y F2, namesake x y -> goes q y = goes q x -> map (goes q) (called f (F1 ++ y :: F2)) = map (goes q) (called f (F1 ++ x :: F2)).
  Proof.
    intros f q F1 x y F2 H G. destruct (called_swap f F1 x y F2 H) as (L & M & -> & -> & _). rewrite !map_app. destruct (named f x); cbn [map]; [now rewrite G|reflexivity].
  Qed.
  Lemma nth_map : forall (q : list qstep) l n, match nth_error l n with Some nd => goes q nd | None => NoReply end = match nth_error (map (goes q) l) n with Some r => r | None => NoReply end.
  Proof. intros q l n. rewrite nth_error_map. now destruct (nth_error l n). Qed.
  Lemma goes_ask : forall q x y, q <> [] -> ask false q (kids_of y) = ask false q (kids_of x) -> goes q y = goes q x.
  Proof. intros [|s q] x y N H; [easy|exact H]. Qed.
  Lemma swap_ask : forall top q F1 x y F2, namesake x y -> ask false q (kids_of y) = ask false q (kids_of x) -> q <> [] -> forall st, (exists m, st = Child m Leading) \/ (exists m ds, st = Child m (Number ds)) \/ st = AnyKid ->
    ask top (st :: q) (F1 ++ y :: F2) = ask top (st :: q) (F1 ++ x :: F2).
  Proof.
    intros top q F1 x y F2 H A NE st K. pose proof (goes_ask q x y NE A) as G.
    destruct K as [[m ->]|[(m & ds & ->)| ->]].
    - rewrite !ask_leading by auto. apply first_reply_map. now apply swap_map.
    - rewrite !ask_number, !nth_map, <- !firstn_map. now rewrite (swap_map _ q F1 x y F2 H G).
    - rewrite !ask_any. rewrite !elems_called, <- !firstn_map. now rewrite (swap_map _ q F1 x y F2 H G).
  Qed.

  (** New elements along a path. *)
  Inductive grown : list tstep -> list node -> Prop :=
  | grown_last : forall n a K, grown [(n, None)] [Elem n a false K]
  | grown_more : forall n s l, grown s l -> grown ((n, None) :: s) [Elem n [] false l].
  Lemma grown_shape : forall s l, grown s l -> exists n s' a K, s = (n, None) :: s' /\ l = [Elem n a false K] /\ (s' = [] \/ a = [] /\ grown s' K).
  Proof. intros s l H. inversion H; subst; [exists n, [], a, K|exists n, s0, [], l0]; auto. Qed.
  Lemma select_self : forall n, selects n n = true.
  Proof. intros n. unfold selects. now rewrite bytes_eqb_refl. Qed.
  Lemma separate_not : forall n m x, separate n m -> selects n x = true -> selects m x = false /\ bytes_eqb m x = false.
  Proof.
    intros n m x S H. assert (A : selects m x = false) by (destruct (selects m x) eqn:Q; auto; elim (S x H Q)). split; auto.
    destruct (bytes_eqb m x) eqn:Q; auto. apply bytes_eqb_eq in Q. subst x. rewrite select_self in A. discriminate.
  Qed.
  Lemma ask_none : forall top m w q F, plain_end e -> called (selects m) F = [] -> ask top (Child m w :: q) F = NoReply.
  Proof.
    intros top m w q F PE H.
    assert (X : called (if top then bytes_eqb m else selects m) F = []).
    { destruct top; auto. destruct (called (bytes_eqb m) F) as [|x l] eqn:Q; auto. assert (I : In x (called (bytes_eqb m) F)) by (rewrite Q; now left). apply filter_In in I.
      destruct I as [I K]. destruct x as [n a s k| |]; try discriminate. apply bytes_eqb_eq in K. subst n. assert (I' : In (Elem m a s k) (called (selects m) F)) by (apply filter_In; split; auto; apply select_self).
      rewrite H in I'. destruct I'. }
    cbn [SpecLang.ask]. rewrite H, X. cbn [firstn nth_error filter]. destruct w as [|ds|c all]; auto.
    - destruct q as [|s q]; [|reflexivity]. destruct e; auto. elim (PE f). reflexivity.
    - now destruct (N.to_nat (decimal_value ds)).
  Qed.
  Lemma grown_silent : forall s l, grown s l -> plain_end e -> forall q, aside keep false s q -> ask false q l = NoReply.
  Proof.
    induction 1 as [n a K|n s l G IH]; intros PE q A.
    - inversion A as [top n0 i s0 m w q0 S|n0 i s0 ds q0 _ D|top n0 i s0 m q0 B|top n0 i s0 m ds q0 B|top n0 i s0 q0 B]; subst; try (apply aside_some in B; now destruct B).
      + apply ask_none; auto. unfold called. cbn [filter]. now rewrite (proj1 (separate_not _ _ _ S (select_self n))).
      + rewrite ask_number. unfold called. cbn [filter]. rewrite select_self. cbn [index_of] in D. destruct (N.to_nat (decimal_value ds)) as [|[|k]]; [lia|reflexivity|reflexivity].
    - inversion A as [top n0 i s0 m w q0 S|n0 i s0 ds q0 _ D|top n0 i s0 m q0 B|top n0 i s0 m ds q0 B|top n0 i s0 q0 B]; subst.
      + apply ask_none; auto. unfold called. cbn [filter]. now rewrite (proj1 (separate_not _ _ _ S (select_self n))).
      + rewrite ask_number. unfold called. cbn [filter]. rewrite select_self. cbn [index_of] in D. destruct (N.to_nat (decimal_value ds)) as [|[|k]]; [lia|reflexivity|reflexivity].
      + destruct (aside_some _ _ _ B) as [_ N]. rewrite ask_leading by auto. unfold called. cbn [filter]. destruct (selects m n); auto. cbn [first_reply]. destruct q0; [easy|]. cbn [goes kids_of]. now rewrite IH.
      + destruct (aside_some _ _ _ B) as [_ N]. rewrite ask_number. unfold called. cbn [filter]. destruct (selects m n); [|now destruct (N.to_nat (decimal_value ds))].
        destruct (N.to_nat (decimal_value ds)) as [|[|k]]; [|reflexivity|reflexivity]. cbn [nth_error firstn]. destruct q0; [easy|]. cbn [goes kids_of]. now rewrite IH.
      + destruct (aside_some _ _ _ B) as [_ N]. rewrite ask_any. cbn [elems filter is_elem]. cbn [firstn map]. destruct q0; [easy|]. cbn [goes kids_of]. rewrite IH by auto. reflexivity.
  Qed.
  (** They are added at the end. *)
  Lemma called_more : forall f F n a K, called f (F ++ [Elem n a false K]) = called f F ++ (if f n then [Elem n a false K] else []).
  Proof. intros. rewrite called_app. unfold called at 2. cbn [filter]. now destruct (f n). Qed.
  Lemma nth_firstn_more : forall (l : list node) x k i q, goes q x = NoReply ->
    match nth_error (firstn k (l ++ [x])) i with Some nd => goes q nd | None => NoReply end = match nth_error (firstn k l) i with Some nd => goes q nd | None => NoReply end.
  Proof.
    induction l as [|y l IH]; intros x k i q H.
    - cbn [app]. rewrite firstn_nil. destruct k; [reflexivity|]. cbn [firstn]. rewrite firstn_nil. destruct i as [|i]; cbn [nth_error]; [exact H|]. now destruct i.
    - destruct k; [reflexivity|]. cbn [firstn app]. destruct i as [|i]; cbn [nth_error]; auto.
  Qed.
  Lemma any_more : forall q (l : list node) x k, goes q x = NoReply ->
    let g m := (let replies := map (goes q) (firstn k m) in match flat_map items replies with [] => if existsb is_empty_list replies then Many [] else NoReply | l => pack l end) in g (l ++ [x]) = g l.
  Proof.
    intros q l x k H g. assert (X : firstn k (l ++ [x]) = firstn k l \/ firstn k (l ++ [x]) = l ++ [x] /\ firstn k l = l).
    { destruct (Nat.le_gt_cases k (len l)); [left; rewrite firstn_app; replace (k - len l) with 0 by lia; cbn [firstn]; apply app_nil_r|right].
      split; apply firstn_all2; [rewrite app_length; cbn; lia|lia]. }
    unfold g. cbv zeta. destruct X as [-> | [-> ->]]; auto. rewrite map_app, flat_map_app, existsb_app. cbn [map flat_map existsb]. rewrite H. cbn [items is_empty_list app]. rewrite app_nil_r, !orb_false_r. reflexivity.
  Qed.
  Lemma grown_frame : forall s l, grown s l -> plain_end e -> forall top q F, aside keep top s q ->
    nth_error (called (selects (match s with (n, _) :: _ => n | [] => [] end)) F) 0 = None -> ask top q (F ++ l) = ask top q F.
  Proof.
    intros s l G PE top q F A M. destruct (grown_shape _ _ G) as (n & s' & a & K & -> & -> & R).
    assert (SI : forall q', aside keep false s' q' -> goes q' (Elem n a false K) = NoReply).
    { intros q' B. destruct (aside_some _ _ _ B) as [B1 B2]. destruct R as [->|[_ R]]; [easy|]. destruct q'; [easy|]. cbn [goes kids_of]. eapply grown_silent; eauto. }
    inversion A as [top' n0 i s0 m w q0 S|n0 i s0 ds q0 _ D|top' n0 i s0 m q0 B|top' n0 i s0 m ds q0 B|top' n0 i s0 q0 B]; subst.
    - destruct (separate_not _ _ _ S (select_self n)) as [S1 S2]. apply ask_called; rewrite called_more; [rewrite S1|rewrite S2]; apply app_nil_r.
    - rewrite !ask_number, called_more, select_self. cbv iota. destruct (called (selects n) F); [|discriminate]. cbn [app index_of] in *. destruct (N.to_nat (decimal_value ds)) as [|[|k]]; [lia|reflexivity|reflexivity].
    - destruct (aside_some _ _ _ B) as [_ N]. rewrite !ask_leading, called_more by auto. destruct (selects m n); [|now rewrite app_nil_r]. apply first_reply_silent. now apply SI.
    - rewrite !ask_number, called_more. match goal with |- context [if ?b then [_] else []] => destruct b end; [|now rewrite app_nil_r]. apply nth_firstn_more. now apply SI.
    - rewrite !ask_any, !elems_called, called_more. apply any_more. now apply SI.
  Qed.

  (** ** Changes *)
  Section Change.
    Variable g : node -> option (list node).
    Variable miss : list tstep -> option (list node).
    Variable tail : list tstep.
    Hypothesis Hg : forall nd l, g nd = Some l -> l = [] \/ exists nd', l = [nd'] /\ namesake nd nd'.
    Hypothesis Hk : keep = true \/ tail <> [] -> forall nd l, g nd = Some l -> l <> [].
    Hypothesis Ht : forall nd nd' q, g nd = Some [nd'] -> aside keep false tail q -> ask false q (kids_of nd') = ask false q (kids_of nd).
    Hypothesis Hm : forall s l, s <> [] -> miss s = Some l -> tail = [] /\ grown s l.
    Lemma called_gone : forall f F1 x F2, named f x = false -> called f (F1 ++ x :: F2) = called f (F1 ++ F2).
    Proof. intros f F1 x F2 H. rewrite !called_app. unfold called at 2. cbn [filter]. unfold named in H. destruct x; auto. now rewrite H. Qed.
    Lemma change_frame : (forall s l, miss s = Some l -> plain_end e) -> forall steps top q F F', change g miss steps F = Some F' -> aside keep top (steps ++ tail) q ->
      ask top q F' = ask top q F.
    Proof.
      intros PE. induction steps as [|[n i] rest IH]; intros top q F F' C A; [discriminate|]. cbn [change] in C. destruct (nth_error (called (selects n) F) (index_of i)) as [nd0|] eqn:N0.
      - clear N0 nd0. apply edit_nth_split in C. destruct C as (F1 & nd & F2 & l & -> & -> & Nm & Len & G). cbn [app] in A.
        assert (G1 : l = [] /\ rest = [] /\ tail = [] /\ keep = false \/ exists nd', l = [nd'] /\ namesake nd nd' /\
          forall q', aside keep false (rest ++ tail) q' -> ask false q' (kids_of nd') = ask false q' (kids_of nd)).
        { destruct rest as [|s rest].
          - destruct (Hg _ _ G) as [->|(nd' & -> & NS)]; [left|right].
            + assert (X : ~ (keep = true \/ tail <> [])) by (intros X; now elim (Hk X _ _ G)). repeat split; auto; [|destruct keep; auto; elim X; auto]. destruct tail; auto. elim X. right. discriminate.
            + exists nd'. split; [reflexivity|]. split; [exact NS|]. intros q' B. cbn [app] in B. exact (Ht _ _ _ G B).
          - right. destruct nd as [m a sf kids| |]; try discriminate. destruct (change g miss (s :: rest) kids) as [kids'|] eqn:C; [|discriminate]. cbn [option_map] in G. injection G as <-.
            exists (Elem m a false kids'). split; auto. split; [reflexivity|]. intros q' B. cbn [kids_of]. eapply IH; eauto. }
        assert (NS : forall f, (forall x, f x = true -> selects n x = false) -> called f (F1 ++ l ++ F2) = called f (F1 ++ nd :: F2)).
        { intros f Hf. assert (X : forall y, namesake nd y \/ y = nd -> named f y = false).
          { intros y Y. destruct nd as [x a sf kids| |]; try discriminate. cbn [named] in Nm. assert (f x = false) by (destruct (f x) eqn:Q; auto; rewrite (Hf _ Q) in Nm; discriminate).
            destruct y as [y b sf' j| |]; auto. cbn [named]. destruct Y as [Y|Y]; [cbn [namesake] in Y; now subst y|injection Y as -> _ _ _; auto]. }
          rewrite (called_gone f F1 nd F2) by (apply X; auto). destruct G1 as [[-> _]|(nd' & -> & Y & _)]; [reflexivity|]. cbn [app]. rewrite called_gone; auto. }
        inversion A as [top' n0 i0 s0 m w q0 S|n0 i0 s0 ds q0 Kp D|top' n0 i0 s0 m q0 B|top' n0 i0 s0 m ds q0 B|top' n0 i0 s0 q0 B]; subst.
        + apply ask_called; apply NS; intros x Q.
          * destruct (selects n x) eqn:R; auto. destruct (separate_not _ _ _ S R). congruence.
          * destruct (selects n x) eqn:R; auto. destruct (separate_not _ _ _ S R). congruence.
        + rewrite !ask_number. destruct G1 as [(-> & -> & -> & KF)|(nd' & -> & Y & _)]; [destruct Kp; [now cbn in *|congruence]|]. cbn [app].
          destruct (called_swap (selects n) F1 nd nd' F2 Y) as (L & M & -> & -> & EL). rewrite Nm, <- Len, <- EL in *. cbv iota. cbn [app].
          assert (X : forall k (z : nat) (L M : list node), z <> len L -> nth_error (firstn k (L ++ nd' :: M)) z = nth_error (firstn k (L ++ nd :: M)) z).
          { clear. induction k as [|k IHk]; intros z L M D; [reflexivity|]. destruct L as [|y L]; cbn [app firstn].
            - destruct z; [cbn in D; lia|reflexivity].
            - destruct z; [reflexivity|]. cbn [nth_error]. apply IHk. cbn [List.length] in D. lia. }
          now rewrite X.
        + destruct (aside_some _ _ _ B) as [B1 B2]. destruct G1 as [(_ & -> & -> & _)|(nd' & -> & Y & W)]; [now elim B1|]. cbn [app]. apply swap_ask; eauto 6.
        + destruct (aside_some _ _ _ B) as [B1 B2]. destruct G1 as [(_ & -> & -> & _)|(nd' & -> & Y & W)]; [now elim B1|]. cbn [app]. apply swap_ask; eauto 6.
        + destruct (aside_some _ _ _ B) as [B1 B2]. destruct G1 as [(_ & -> & -> & _)|(nd' & -> & Y & W)]; [now elim B1|]. cbn [app]. apply swap_ask; eauto 6.
      - match type of C with option_map _ ?x = _ => destruct x as [l|] eqn:M end; cbn [option_map] in C; [|discriminate C]. injection C as <-. pose proof (PE _ _ M) as P. assert (NN : (n, i) :: rest <> []) by discriminate. destruct (Hm _ _ NN M) as [T G]. rewrite T, app_nil_r in A.
        eapply grown_frame; eauto. inversion G; subst; exact N0.
    Qed.
  End Change.
End Frame.

(** ** The edits *)
Lemma nest_grown : forall steps names, names_only steps = Some names -> steps <> [] -> forall K, grown steps (nest names K).
Proof.
  induction steps as [|[n [ds|]] steps IH]; intros names H N K; [easy|discriminate|]. cbn [names_only] in H. destruct (names_only steps) as [names'|] eqn:Q; [|discriminate]. injection H as <-. cbn [nest].
  destruct steps as [|s steps]; [injection Q as <-; apply grown_last|]. apply grown_more. apply IH; [reflexivity|discriminate].
Qed.
Lemma nest_attr_grown : forall steps names, names_only steps = Some names -> steps <> [] -> forall a K, grown steps (nest (removelast names) [Elem (last names []) a false K]).
Proof.
  induction steps as [|[n [ds|]] steps IH]; intros names H N a K; [easy|discriminate|]. cbn [names_only] in H. destruct (names_only steps) as [names'|] eqn:Q; [|discriminate]. injection H as <-.
  destruct steps as [|s steps].
  - injection Q as <-. apply grown_last.
  - destruct names' as [|n' names']; [destruct s as [? [?|]]; cbn [names_only] in Q; [|destruct (names_only steps)]; discriminate|].
    change (removelast (n :: n' :: names')) with (n :: removelast (n' :: names')). change (last (n :: n' :: names') []) with (last (n' :: names') []). cbn [nest]. apply grown_more. apply IH; [reflexivity|discriminate].
Qed.
Lemma edit_nth_at : forall f g nd F2 F1, named f nd = true -> edit_nth f (len (called f F1)) g (F1 ++ nd :: F2) = option_map (fun l => F1 ++ l ++ F2) (g nd).
Proof.
  intros f g nd F2 F1 H. induction F1 as [|x F1 IH]; cbn [app edit_nth].
  - rewrite H. cbn [called filter List.length]. now destruct (g nd).
  - assert (X : option_map (cons x) (edit_nth f (len (called f F1)) g (F1 ++ nd :: F2)) = option_map (fun l => x :: F1 ++ l ++ F2) (g nd)) by (rewrite IH; now destruct (g nd)).
    unfold called in *. cbn [filter]. destruct x as [xn xa xs xk| |]; cbn [named]; auto. destruct (f xn); cbn [List.length]; auto.
Qed.
Lemma nth_at : forall f nd F2 F1, named f nd = true -> nth_error (called f (F1 ++ nd :: F2)) (len (called f F1)) = Some nd.
Proof.
  intros f nd F2 F1 H. rewrite called_app, nth_error_app2, Nat.sub_diag by lia. unfold called. cbn [filter]. unfold named in H. destruct nd; try discriminate. now rewrite H.
Qed.
Lemma located_change : forall steps F A nd B, located steps F A nd B -> forall g miss, change g miss steps F = change g nothing steps F.
Proof.
  induction 1 as [n idx F1 nd F2 H1 H2|n idx rest F1 m a kids F2 A nd B H1 H2 L IH]; intros g miss; cbn [change].
  - rewrite <- H2, nth_at by auto. reflexivity.
  - rewrite <- H2, nth_at by auto. rewrite !edit_nth_at by auto. destruct rest as [|s rest]; [inversion L|]. now rewrite (IH g miss).
Qed.
Lemma insert_called : forall f h c F, named h c = false -> called h (insert_last f c F) = called h F.
Proof. intros f h c F H. destruct (insert_split f F) as (F1 & F2 & -> & I & _). rewrite I. now apply called_gone. Qed.
Lemma insert_frame : forall sat e top m K q F, aside false top [(m, None)] q ->
  ask sat e top q (insert_last (selects m) (Elem m [] false K) F) = ask sat e top q F.
Proof.
  intros sat e top m K q F A. inversion A as [top' n0 i s0 m' w q0 S|n0 i s0 ds q0 [X|X] D|top' n0 i s0 m' q0 B|top' n0 i s0 m' ds q0 B|top' n0 i s0 q0 B]; subst; try (now elim X); try discriminate; try (apply aside_some in B; now destruct B).
  destruct (separate_not _ _ _ S (select_self m)). apply ask_called; apply insert_called; auto.
Qed.
Lemma edit_nth_ext : forall f g h, (forall nd, g nd = h nd) -> forall F i, edit_nth f i g F = edit_nth f i h F.
Proof. intros f g h H. induction F as [|x F IH]; intros i; [reflexivity|]. cbn [edit_nth]. rewrite H. destruct (named f x); [destruct i|]; auto; now rewrite IH. Qed.
Lemma change_miss : forall g miss miss', (forall s, s <> [] -> miss s = miss' s) -> forall steps F, change g miss steps F = change g miss' steps F.
Proof.
  intros g miss miss' H. induction steps as [|[n i] rest IH]; intros F; [reflexivity|]. cbn [change]. destruct (nth_error (called (selects n) F) (index_of i)).
  - apply edit_nth_ext. intros nd. destruct rest; auto. destruct nd; auto. now rewrite IH.
  - rewrite H; [reflexivity|discriminate].
Qed.
Lemma set_frame : forall sat e g miss steps F F' q, (forall nd l, g nd = Some l -> exists nd', l = [nd'] /\ namesake nd nd') -> (forall s l, s <> [] -> miss s = Some l -> grown s l) ->
  change g miss steps F = Some F' -> aside true true steps q -> plain_end e \/ (exists A nd B, located steps F A nd B) \/ (forall s, miss s = None) -> ask sat e true q F' = ask sat e true q F.
Proof.
  intros sat e g miss steps F F' q Hg Hm C A P.
  assert (X : forall miss, (forall s l, s <> [] -> miss s = Some l -> grown s l /\ plain_end e) -> change g miss steps F = Some F' -> ask sat e true q F' = ask sat e true q F).
  { intros miss' M C'. assert (NE : steps <> []) by (intros ->; discriminate).
    eapply (change_frame sat e true g (fun s => match s with [] => None | _ => miss' s end) []).
    - intros nd l Q. right. auto.
    - intros _ nd l Q. destruct (Hg _ _ Q) as (nd' & -> & _). discriminate.
    - intros nd nd' q' _ B. inversion B.
    - intros [|s0 s] l N Q; [easy|]. split; auto. now apply M.
    - intros [|s0 s] l Q; [discriminate|]. now apply (M (s0 :: s) l).
    - rewrite <- C'. apply change_miss. now intros [|s0 s] N.
    - rewrite app_nil_r. exact A. }
  destruct P as [P|[(A0 & nd & B0 & L)|P]]; [apply (X miss); auto| |apply (X miss); auto; intros s l _ Q; rewrite P in Q; discriminate]. rewrite (located_change _ _ _ _ _ L g miss) in C. apply (X nothing); auto. discriminate.
Qed.
Theorem apply_frame : forall sat e o F F' q, apply_edit o F = Some F' -> spares o F q e -> ask sat e true q F' = ask sat e true q F.
Proof.
  intros sat e o F F' q H [A P]. destruct o as [steps c|steps x v|steps|steps x|steps m c]; cbn [apply_edit place keeps_number finds] in *.
  - eapply set_frame; eauto; [| |destruct P; auto].
    + intros nd l Q. destruct nd as [n a [|] k| |]; try discriminate. injection Q as <-. eexists. split; reflexivity.
    + intros s l N Q. unfold new_kids in Q. destruct (names_only s) as [names|] eqn:NN; [|discriminate]. injection Q as <-. now apply nest_grown.
  - eapply set_frame; eauto; [| |destruct P; auto].
    + intros nd l Q. destruct nd as [n a sf k| |]; try discriminate. cbn [attr_of] in Q. destruct (_ <=? _); [|discriminate]. injection Q as <-. eexists. split; reflexivity.
    + intros s l N Q. unfold new_attr in Q. destruct (names_only s) as [names|] eqn:NN; [|discriminate]. injection Q as <-. now apply nest_attr_grown.
  - destruct (change (fun _ => Some []) nothing steps F) as [F1|] eqn:C; injection H as <-; [|reflexivity].
    eapply (change_frame sat e false (fun _ => Some []) nothing []); eauto; try (intros; discriminate).
    + intros nd l Q. injection Q as <-. now left.
    + intros [X|X]; [discriminate|now elim X].
    + rewrite app_nil_r. exact A.
  - destruct (change (without_attr x) nothing steps F) as [F1|] eqn:C; injection H as <-; [|reflexivity].
    eapply (set_frame sat e (without_attr x) nothing); eauto; try (intros; discriminate).
    + intros nd l Q. destruct nd as [n a sf k| |]; try discriminate. injection Q as <-. eexists. split; reflexivity.
  - destruct steps as [|s steps]; [injection H as <-; now apply insert_frame|].
    eapply (change_frame sat e false (more_kids m (content_nodes c)) nothing [(m, None)]); eauto; try (intros; discriminate).
    + intros nd l Q. right. destruct nd as [n a sf k| |]; try discriminate. injection Q as <-. eexists. split; reflexivity.
    + intros _ nd l Q. destruct nd as [n a sf k| |]; try discriminate. injection Q as <-. discriminate.
    + intros nd nd' q' Q B. destruct nd as [n a sf k| |]; try discriminate. injection Q as <-. cbn [kids_of]. now apply insert_frame.
Qed.
