(** Stores kept in a document. *)
From Coq Require Import List Ascii String NArith ZArith Bool Lia Permutation.
From Verif Require Import GoStr ModelParser ModelPath ModelResult ModelQuery ModelValidate ModelBuilder SpecText SpecPath SpecTree SpecQuery SpecEdit SpecContent SpecValid SpecHistory SpecTable SpecStore
  ProofBase ProofEscape ProofScan ProofTree ProofTree2 ProofTree4 ProofTree5 ProofTree7 ProofEdit ProofEdit2 ProofEdit4 ProofEdit6 ProofEdit7 ProofEdit8 ProofEdit9 ProofTable.
Import ListNotations.
Notation called_cons := ProofEdit2.called_cons.
Notation plain n := (split_colon n = None).

(** ** Names *)
Lemma selects_other : forall n n' m, plain n -> plain n' -> n <> n' -> selects n m = true -> selects n' m = false.
Proof.
  intros n n' m P P' D H. unfold selects in *. rewrite P in H. rewrite P'. apply orb_true_iff in H. destruct H as [H|H].
  - apply bytes_eqb_eq in H. subst m. rewrite P, orb_false_r. apply bytes_eqb_neq. congruence.
  - destruct (split_colon m) as [[p l]|] eqn:Q; [|discriminate]. apply andb_true_iff in H. destruct H as [_ H]. apply bytes_eqb_eq in H. subst l.
    replace (bytes_eqb n n') with false by (symmetry; now apply bytes_eqb_neq). rewrite andb_false_r, orb_false_r. apply bytes_eqb_neq. intros ->. congruence.
Qed.
Lemma named_other : forall n n' y, plain n -> plain n' -> n <> n' -> named (selects n) y = true -> named (selects n') y = false.
Proof. intros n n' [m a s k| |] P P' D H; try discriminate. cbn [named] in *. exact (selects_other n n' m P P' D H). Qed.

(** ** New elements *)
Definition made (a0 : list (bytes * bytes)) (K0 : list node) (names : list bytes) : list node := nest (removelast names) [Elem (last names []) a0 false K0].
Lemma made_one : forall a0 K0 n, made a0 K0 [n] = [Elem n a0 false K0].
Proof. reflexivity. Qed.
Lemma made_more : forall a0 K0 n m rest, made a0 K0 (n :: m :: rest) = [Elem n [] false (made a0 K0 (m :: rest))].
Proof. reflexivity. Qed.
Lemma made_nest : forall K0 names, names <> [] -> nest names K0 = made [] K0 names.
Proof. intros K0. induction names as [|n [|m rest] IH]; intros N; [easy|reflexivity|]. rewrite made_more. cbn [nest]. rewrite <- IH by discriminate. reflexivity. Qed.
Lemma self_one : forall n a s k, called (selects n) [Elem n a s k] = [Elem n a s k].
Proof. intros. rewrite called_cons. cbn [named]. now rewrite selects_self. Qed.
Lemma made_sole : forall a0 K0 names, names <> [] -> sole names (made a0 K0 names) (Elem (last names []) a0 false K0).
Proof.
  intros a0 K0. induction names as [|n [|m rest] IH]; intros N; [easy| |].
  - constructor. apply self_one.
  - rewrite made_more. eapply sole_down; [apply self_one|]. apply IH. discriminate.
Qed.
Lemma made_absent : forall a0 K0 k k', Forall (fun n => plain n) k -> Forall (fun n => plain n) k' -> k <> [] -> k' <> [] -> (forall z, k' <> k ++ z) -> (forall z, k <> k' ++ z) -> absent k' (made a0 K0 k).
Proof.
  intros a0 K0. induction k as [|n rest IH]; intros k' P P' N N' D D'; [easy|]. destruct k' as [|n' rest']; [easy|]. inversion P as [|? ? P1 P2]; inversion P' as [|? ? P1' P2']; subst.
  destruct (list_eq_dec ascii_dec n n') as [<-|NN].
  - destruct rest as [|m rest]; [exfalso; now apply (D rest')|]. destruct rest' as [|m' rest']; [exfalso; now apply (D' (m :: rest))|]. rewrite made_more. eapply missing_below; [apply self_one|].
    apply IH; auto; try discriminate.
    + intros z E. apply (D z). cbn [app] in *. now rewrite E.
    + intros z E. apply (D' z). cbn [app] in *. now rewrite E.
  - apply missing_here. assert (X : exists a K, made a0 K0 (n :: rest) = [Elem n a false K]) by (destruct rest; [rewrite made_one|rewrite made_more]; eauto).
    destruct X as (a & K & ->). rewrite called_cons, (named_other n n' _ P1 P1' NN); [reflexivity|]. cbn [named]. apply selects_self.
Qed.

(** ** The element of the key *)
Lemma by_name_cons : forall n m rest, by_name (n :: m :: rest) = @cons tstep (n, None) (@cons tstep (m, None) (by_name rest)).
Proof. reflexivity. Qed.
Lemma made_head : forall a0 K0 n rest, exists a K, made a0 K0 (n :: rest) = [Elem n a false K].
Proof. intros. destruct rest; [rewrite made_one|rewrite made_more]; eauto. Qed.
Lemma only_edit : forall n F x g l, called (selects n) F = [x] -> g x = Some l -> exists F', edit_nth (selects n) 0 g F = Some F'.
Proof.
  intros n F x g l C G. assert (X : exists F1 F2, F = F1 ++ x :: F2 /\ called (selects n) F1 = []).
  { clear - C. induction F as [|y F IH]; [discriminate|]. rewrite called_cons in C. destruct (named (selects n) y) eqn:N.
    - injection C as -> C. exists [], F. auto.
    - destruct (IH C) as (F1 & F2 & -> & Q). exists (y :: F1), F2. split; auto. rewrite called_cons, N. exact Q. }
  destruct X as (F1 & F2 & -> & Q1). exists (F1 ++ l ++ F2). apply edit_nth_split. exists F1, x, F2, l. repeat split; auto; [apply called_named in C; exact C|now rewrite Q1].
Qed.
Lemma absent_made : forall a0 K0 g miss, (forall names, names <> [] -> miss (by_name names) = Some (made a0 K0 names)) ->
  forall k F, absent k F -> exists F', change g miss (by_name k) F = Some F' /\ sole k F' (Elem (last k []) a0 false K0).
Proof.
  intros a0 K0 g miss M k F H. induction H as [n rest F C|n rest F m a self kids C A IH].
  - exists (F ++ made a0 K0 (n :: rest)). split.
    + assert (X : change g miss (by_name (n :: rest)) F = option_map (fun l => F ++ l) (miss (by_name (n :: rest)))) by (cbn [by_name map change index_of]; rewrite C; reflexivity).
      rewrite X, M by discriminate. reflexivity.
    + pose proof (made_sole a0 K0 (n :: rest) ltac:(discriminate)) as S. inversion S as [n0 F0 nd C0|n0 rest0 F0 m a kids nd C0 S0]; subst.
      * constructor. rewrite called_app, C. exact C0.
      * eapply sole_down; [|exact S0]. rewrite called_app, C. exact C0.
  - destruct rest as [|n2 rest]; [inversion A|]. destruct IH as (kids' & CH & SO). rewrite by_name_cons, change_more. cbn [index_of]. rewrite C. cbn [nth_error].
    match goal with |- exists F', edit_nth _ _ ?g _ = _ /\ _ => destruct (only_edit n F _ g [Elem m a false kids'] C) as (F' & ED) end.
    { cbn beta iota. change ((n2, None) :: by_name rest) with (by_name (n2 :: rest)). now rewrite CH. }
    exists F'. split; [exact ED|]. apply (sole_edit _ _ _ _ _ C) in ED. destruct ED as (l & GX & Q). change ((n2, None) :: by_name rest) with (by_name (n2 :: rest)) in GX. rewrite CH in GX. cbn [option_map] in GX. injection GX as <-.
    change (last (n :: n2 :: rest) []) with (last (n2 :: rest) ([] : bytes)). eapply sole_down; [|exact SO]. apply Q; auto. apply called_named in C. exact C.
Qed.
Lemma absent_nothing : forall g k F, absent k F -> change g nothing (by_name k) F = None.
Proof.
  intros g k F H. induction H as [n rest F C|n rest F m a self kids C A IH].
  - cbn [by_name map change index_of]. rewrite C. reflexivity.
  - destruct rest as [|n2 rest]; [inversion A|]. rewrite by_name_cons, change_more. cbn [index_of]. rewrite C. cbn [nth_error].
    match goal with |- ?x = None => destruct x as [F'|] eqn:ED; auto end. apply (sole_edit _ _ _ _ _ C) in ED. destruct ED as (l & GX & _).
    change ((n2, None) :: by_name rest) with (by_name (n2 :: rest)) in GX. rewrite IH in GX. discriminate.
Qed.
Lemma sole_gone : forall k F nd, sole k F nd -> forall g miss F', g nd = Some [] -> change g miss (by_name k) F = Some F' -> absent k F'.
Proof.
  induction 1 as [n F nd C|n rest F m a kids nd C SO IH]; intros g miss F' G CH.
  - cbn [by_name map change index_of] in CH. rewrite C in CH. cbn [nth_error] in CH. apply edit_nth_split in CH. destruct CH as (F1 & y & F2 & l & -> & N & L & GY & ->). rewrite called_app, called_cons, N in C.
    destruct (called (selects n) F1) as [|z Z] eqn:Q1; [|discriminate]. cbn [app] in C. injection C as -> Q2. rewrite G in GY. injection GY as <-. apply missing_here. now rewrite called_app, Q1.
  - destruct rest as [|n2 rest]; [inversion SO|]. rewrite by_name_cons, change_more in CH. cbn [index_of] in CH. rewrite C in CH. cbn [nth_error] in CH. apply (sole_edit _ _ _ _ _ C) in CH. destruct CH as (l & GX & Q).
    change ((n2, None) :: by_name rest) with (by_name (n2 :: rest)) in GX. destruct (change g miss (by_name (n2 :: rest)) kids) as [kids'|] eqn:CK; [|discriminate]. cbn [option_map] in GX. injection GX as <-.
    eapply missing_below; [apply Q; auto; apply called_named in C; exact C|]. eauto.
Qed.

(** ** Other keys *)
Definition sits (k : list bytes) (F : list node) (x : option node) : Prop := match x with Some nd => sole k F nd | None => absent k F end.
Lemma sits_called : forall n rest F F' x, called (selects n) F = called (selects n) F' -> sits (n :: rest) F x -> sits (n :: rest) F' x.
Proof.
  intros n rest F F' [nd|] E H; cbn [sits] in *; inversion H; subst.
  - constructor. congruence.
  - eapply sole_down; [rewrite <- E; eassumption|eassumption].
  - apply missing_here. congruence.
  - eapply missing_below; [rewrite <- E; eassumption|eassumption].
Qed.
Lemma called_alone : forall (f : bytes -> bool) F1 x F2 l, named f x = false -> (forall y, In y l -> named f y = false) -> called f (F1 ++ l ++ F2) = called f (F1 ++ x :: F2).
Proof.
  intros f F1 x F2 l N L. rewrite !called_app, called_cons, N. f_equal. rewrite <- (app_nil_l (called f F2)) at 2. f_equal.
  induction l as [|y l IH]; [reflexivity|]. rewrite called_cons, (L y (or_introl eq_refl)). apply IH. intros z I. apply L. now right.
Qed.
Definition keeps_name (g : node -> option (list node)) : Prop := forall nd l y, g nd = Some l -> In y l -> exists n a s k a' s' k', nd = Elem n a s k /\ y = Elem n a' s' k'.
Lemma others : forall a0 K0 g miss, keeps_name g -> (forall names, names <> [] -> miss (by_name names) = Some (made a0 K0 names) \/ miss (by_name names) = None) ->
  forall k k' F F' x, Forall (fun n => plain n) k -> Forall (fun n => plain n) k' -> (forall z, k' <> k ++ z) -> (forall z, k <> k' ++ z) ->
  change g miss (by_name k) F = Some F' -> sits k' F x -> sits k' F' x.
Proof.
  intros a0 K0 g miss KN M. induction k as [|n rest IH]; intros k' F F' x P P' D D' CH S; [discriminate|].
  destruct k' as [|n' rest']; [destruct x; inversion S|]. inversion P as [|? ? P1 P2]; inversion P' as [|? ? P1' P2']; subst.
  destruct (nth_error (called (selects n) F) 0) as [nd0|] eqn:Q.
  - assert (X : exists F1 nd F2 l, F = F1 ++ nd :: F2 /\ named (selects n) nd = true /\ called (selects n) F1 = [] /\ F' = F1 ++ l ++ F2 /\
       (rest = [] -> g nd = Some l) /\ (rest <> [] -> exists m a s kids kids', nd = Elem m a s kids /\ change g miss (by_name rest) kids = Some kids' /\ l = [Elem m a false kids'])).
    { destruct rest as [|n2 rest].
      - cbn [by_name map change index_of] in CH. rewrite Q in CH. apply edit_nth_split in CH. destruct CH as (F1 & y & F2 & l & -> & N & L & GY & ->). exists F1, y, F2, l. repeat split; auto; [|now intros []].
        destruct (called (selects n) F1); [reflexivity|discriminate].
      - rewrite by_name_cons, change_more in CH. cbn [index_of] in CH. rewrite Q in CH. apply edit_nth_split in CH. destruct CH as (F1 & y & F2 & l & -> & N & L & GY & ->). exists F1, y, F2, l. repeat split; auto; [|discriminate|].
        + destruct (called (selects n) F1); [reflexivity|discriminate].
        + intros _. destruct y as [m a s kids| |]; try discriminate. change ((n2, None) :: by_name rest) with (by_name (n2 :: rest)) in GY. destruct (change g miss (by_name (n2 :: rest)) kids) as [kids'|] eqn:CK; [|discriminate].
          cbn [option_map] in GY. injection GY as <-. exists m, a, s, kids, kids'. auto. }
    clear CH. destruct X as (F1 & nd & F2 & l & -> & N & C1 & -> & X1 & X2). destruct (list_eq_dec ascii_dec n n') as [<-|NN].
    + destruct rest as [|n2 rest]; [exfalso; now apply (D rest')|]. destruct rest' as [|n2' rest']; [exfalso; now apply (D' (n2 :: rest))|]. destruct (X2 ltac:(discriminate)) as (m & a & s & kids & kids' & -> & CK & ->). clear X1 X2.
      assert (IHk : forall y, sits (n2' :: rest') kids y -> sits (n2' :: rest') kids' y).
      { intros y Y. eapply (IH (n2' :: rest')); [exact P2|exact P2'| | |exact CK|exact Y].
        - intros z E. apply (D z). cbn [app] in *. now rewrite E.
        - intros z E. apply (D' z). cbn [app] in *. now rewrite E. }
      assert (CA : called (selects n) (F1 ++ [Elem m a false kids'] ++ F2) = Elem m a false kids' :: called (selects n) F2).
      { rewrite called_app, C1. cbn [app]. rewrite called_cons. cbn [named] in N |- *. now rewrite N. }
      assert (CB : called (selects n) (F1 ++ Elem m a s kids :: F2) = Elem m a s kids :: called (selects n) F2) by (rewrite called_app, C1, called_cons, N; reflexivity).
      destruct x as [nd|]; cbn [sits] in *.
      * inversion S as [|? ? ? ? ? ? ? C SS]; subst. rewrite CB in C. injection C as -> -> -> -> C. eapply sole_down; [rewrite CA, C; reflexivity|]. apply (IHk (Some nd)). exact SS.
      * inversion S as [? ? ? C|? ? ? ? ? ? ? C SS]; subst; rewrite CB in C; [discriminate|]. injection C as -> -> -> -> C. eapply missing_below; [rewrite CA, C; reflexivity|]. apply (IHk None). exact SS.
    + pose proof (named_other n n' nd P1 P1' NN N) as NO. eapply sits_called; [|exact S]. symmetry. apply called_alone; auto. intros y I. destruct rest as [|n2 rest].
      * destruct (KN nd l y (X1 eq_refl) I) as (m & a & s & k & a' & s' & k' & -> & ->). exact NO.
      * destruct (X2 ltac:(discriminate)) as (m & a & s & kids & kids' & -> & CK & ->). destruct I as [<-|[]]. exact NO.
  - assert (C : called (selects n) F = []) by (destruct (called (selects n) F); [reflexivity|discriminate]).
    assert (X : change g miss (by_name (n :: rest)) F = option_map (fun l => F ++ l) (miss (by_name (n :: rest)))) by (cbn [by_name map change index_of]; rewrite C; reflexivity).
    rewrite X in CH. destruct (M (n :: rest) ltac:(discriminate)) as [MM|MM]; rewrite MM in CH; [|discriminate]. cbn [option_map] in CH. injection CH as <-.
    destruct (made_head a0 K0 n rest) as (am & Km & EM). destruct (list_eq_dec ascii_dec n n') as [<-|NN].
    + destruct x as [nd|]; cbn [sits] in *; [inversion S; congruence|].
      pose proof (made_absent a0 K0 (n :: rest) (n :: rest') P P' ltac:(discriminate) ltac:(discriminate) D D') as AB. inversion AB as [? ? ? C2|? ? ? m a s kids C2 A2]; subst.
      * apply missing_here. now rewrite called_app, C, C2.
      * eapply missing_below; [|exact A2]. rewrite called_app, C. exact C2.
    + eapply sits_called; [|exact S]. rewrite called_app, EM, called_cons, (named_other n n' _ P1 P1' NN); [cbn [called filter]; now rewrite app_nil_r|]. cbn [named]. apply selects_self.
Qed.

(** ** One operation *)
Lemma names_by_name : forall names, names_only (by_name names) = Some names.
Proof. induction names as [|n names IH]; [reflexivity|]. cbn [by_name map names_only]. change (map (fun m => (m, None)) names) with (by_name names). now rewrite IH. Qed.
Lemma edit_defined : forall k F nd, sole k F nd -> forall g miss l, g nd = Some l -> exists F', change g miss (by_name k) F = Some F'.
Proof.
  induction 1 as [n F nd C|n rest F m a kids nd C SO IH]; intros g miss l G.
  - cbn [by_name map change index_of]. rewrite C. cbn [nth_error]. eapply only_edit; eauto.
  - destruct rest as [|n2 rest]; [inversion SO|]. destruct (IH g miss l G) as (kids' & CK). rewrite by_name_cons, change_more. cbn [index_of]. rewrite C. cbn [nth_error]. eapply only_edit; eauto. change ((n2, None) :: by_name rest) with (by_name (n2 :: rest)). cbn beta iota. rewrite CK. reflexivity.
Qed.
Lemma put_value : forall x v y a, attr_value y (put_attr x v a) = if bytes_eqb y x then Some v else attr_value y a.
Proof.
  intros x v y. induction a as [|[z w] a IH]; cbn [put_attr attr_value]; [reflexivity|]. destruct (bytes_eqb x z) eqn:Q; cbn [attr_value].
  - apply bytes_eqb_eq in Q. subst z. destruct (bytes_eqb y x); reflexivity.
  - rewrite IH. destruct (bytes_eqb y z) eqn:Q2; [|reflexivity]. apply bytes_eqb_eq in Q2. subst z. now rewrite eqb_sym, Q.
Qed.
Lemma drop_value : forall x y a, attr_value y (drop_attr x a) = if bytes_eqb y x then None else attr_value y a.
Proof.
  intros x y. induction a as [|[z w] a IH]; [cbn [drop_attr filter attr_value]; now destruct (bytes_eqb y x)|]. unfold drop_attr in *. cbn [filter fst]. destruct (bytes_eqb z x) eqn:Q; cbn [negb attr_value].
  - rewrite IH. apply bytes_eqb_eq in Q. subst z. destruct (bytes_eqb y x); reflexivity.
  - rewrite IH. destruct (bytes_eqb y z) eqn:Q2; [|reflexivity]. apply bytes_eqb_eq in Q2. subst z. now rewrite Q.
Qed.
Definition shown_entry (k : list bytes) (F : list node) (d : option entry) : Prop :=
  match d with
  | Some e => exists m a kids, sole k F (Elem m a false kids) /\ holds kids (content_of e) /\ forall x, attr_value x a = attribute e x
  | None => absent k F
  end.
Lemma stored : forall K F D, stores K F D <-> forall k, K k -> shown_entry k F (D k).
Proof. reflexivity. Qed.
(** The function and the new elements of an edit. *)
Definition edit_at (o : store_op) : node -> option (list node) :=
  match o with
  | Give _ v => with_kids [Text (esc v)]
  | Mark _ x v => attr_of x v
  | Forget _ => fun _ => Some []
  | Unmark _ x => without_attr x
  end.
Definition edit_miss (o : store_op) : list tstep -> option (list node) :=
  match o with
  | Give _ v => new_kids [Text (esc v)]
  | Mark _ x v => new_attr x v
  | _ => nothing
  end.
Lemma edit_change : forall o F F', apply_edit (store_edit o) F = Some F' ->
  change (edit_at o) (edit_miss o) (by_name (key_of o)) F = Some F' \/ (F' = F /\ change (edit_at o) (edit_miss o) (by_name (key_of o)) F = None).
Proof.
  intros [k v|k x v|k|k x] F F' H; cbn [store_edit apply_edit content_nodes key_of edit_at edit_miss] in *; auto.
  - match type of H with match ?c with _ => _ end = _ => destruct c eqn:Q end; injection H as <-; auto.
  - match type of H with match ?c with _ => _ end = _ => destruct c eqn:Q end; injection H as <-; auto.
Qed.
Definition made_attrs (o : store_op) : list (bytes * bytes) := match o with Mark _ x v => [(x, v)] | _ => [] end.
Definition made_kids (o : store_op) : list node := match o with Give _ v => [Text (esc v)] | _ => [] end.
Lemma edit_made : forall o names, names <> [] -> edit_miss o (by_name names) = Some (made (made_attrs o) (made_kids o) names) \/ edit_miss o (by_name names) = None.
Proof.
  intros [k v|k x v|k|k x] names N; cbn [edit_miss made_attrs made_kids]; auto; left.
  - unfold new_kids. rewrite names_by_name. cbn [option_map]. now rewrite made_nest.
  - unfold new_attr. now rewrite names_by_name.
Qed.
Lemma edit_keeps : forall o, keeps_name (edit_at o).
Proof.
  intros [k v|k x v|k|k x] nd l y G I; cbn [edit_at] in G.
  - destruct nd as [n a [|] kids| |]; try discriminate. injection G as <-. destruct I as [<-|[]]. do 7 eexists. split; reflexivity.
  - destruct nd as [n a s kids| |]; try discriminate. cbn [attr_of] in G. destruct (_ <=? _); [|discriminate]. injection G as <-. destruct I as [<-|[]]. do 7 eexists. split; reflexivity.
  - injection G as <-. destruct I.
  - destruct nd as [n a s kids| |]; try discriminate. injection G as <-. destruct I as [<-|[]]. do 7 eexists. split; reflexivity.
Qed.
Lemma own_entry : forall o F F' d, key_of o <> [] -> shown_entry (key_of o) F d -> apply_edit (store_edit o) F = Some F' -> shown_entry (key_of o) F' (in_entry o d).
Proof.
  intros o F F' d NE S AP. destruct d as [e|]; cbn [shown_entry] in S.
  - destruct S as (m & a & kids & SO & HO & AT). destruct (edit_change o F F' AP) as [CH|[_ CH]].
    + destruct o as [k v|k x v|k|k x]; cbn [key_of edit_at edit_miss in_entry shown_entry] in *.
      * destruct (sole_at _ _ _ SO _ _ _ CH) as (l & G & Q). injection G as <-. exists m, a, [Text (esc v)]. split; [apply Q; reflexivity|]. split; [now left|exact AT].
      * destruct (sole_at _ _ _ SO _ _ _ CH) as (l & G & Q). cbn [attr_of] in G. destruct (_ <=? _); [|discriminate]. injection G as <-. exists m, (put_attr x v a), kids. split; [apply Q; reflexivity|]. split; [exact HO|]. intros y. rewrite put_value, AT. reflexivity.
      * eapply sole_gone; [exact SO| |exact CH]. reflexivity.
      * destruct (sole_at _ _ _ SO _ _ _ CH) as (l & G & Q). injection G as <-. exists m, (drop_attr x a), kids. split; [apply Q; reflexivity|]. split; [exact HO|]. intros y. rewrite drop_value, AT. reflexivity.
    + exfalso. destruct o as [k v|k x v|k|k x]; cbn [key_of edit_at edit_miss store_edit apply_edit content_nodes] in *; try congruence.
      * edestruct (edit_defined _ _ _ SO (fun _ => Some []) nothing) as (F2 & Q); [reflexivity|congruence].
      * edestruct (edit_defined _ _ _ SO (without_attr x) nothing) as (F2 & Q); [reflexivity|congruence].
  - destruct o as [k v|k x v|k|k x]; cbn [key_of store_edit apply_edit content_nodes in_entry shown_entry] in *.
    + destruct (absent_made [] [Text (esc v)] (with_kids [Text (esc v)]) (new_kids [Text (esc v)])) with (k := k) (F := F) as (F2 & Q & SO); auto.
      { intros names N. unfold new_kids. rewrite names_by_name. cbn [option_map]. now rewrite made_nest. }
      rewrite Q in AP. injection AP as <-. exists (last k []), [], [Text (esc v)]. split; [exact SO|]. split; [now left|]. reflexivity.
    + destruct (absent_made [(x, v)] [] (attr_of x v) (new_attr x v)) with (k := k) (F := F) as (F2 & Q & SO); auto.
      { intros names N. unfold new_attr. now rewrite names_by_name. }
      rewrite Q in AP. injection AP as <-. exists (last k []), [(x, v)], []. split; [exact SO|]. split; [now right|]. reflexivity.
    + rewrite absent_nothing in AP by auto. injection AP as <-. exact S.
    + rewrite absent_nothing in AP by auto. injection AP as <-. exact S.
Qed.
Lemma other_entry : forall o k F F' d, Forall (fun n => plain n) (key_of o) -> Forall (fun n => plain n) k -> (forall z, k <> key_of o ++ z) -> (forall z, key_of o <> k ++ z) ->
  shown_entry k F d -> apply_edit (store_edit o) F = Some F' -> shown_entry k F' d.
Proof.
  intros o k F F' d P P' D D' S AP. destruct (edit_change o F F' AP) as [CH|[-> _]]; [|exact S].
  pose proof (others (made_attrs o) (made_kids o) (edit_at o) (edit_miss o) (edit_keeps o) (edit_made o) (key_of o) k F F') as O. destruct d as [e|]; cbn [shown_entry] in *.
  - destruct S as (m & a & kids & SO & R). exists m, a, kids. split; [|exact R]. exact (O (Some (Elem m a false kids)) P P' D D' CH SO).
  - exact (O None P P' D D' CH S).
Qed.
Lemma same_key_spec : forall k k', same_key k k' = true <-> k = k'.
Proof. intros k k'. unfold same_key. match goal with |- context [if ?c then _ else _] => destruct c end; split; congruence. Qed.
Lemma keys_apart : forall K k k', keys K -> K k -> K k' -> k <> k' -> forall z, k <> k' ++ z.
Proof. intros K k k' [_ Q] A B N z ->. specialize (Q k' z B A). subst z. now rewrite app_nil_r in N. Qed.
Lemma op_stores : forall K F F' D o, keys K -> stores K F D -> K (key_of o) -> apply_edit (store_edit o) F = Some F' -> stores K F' (do_store o D).
Proof.
  intros K F F' D o HK S KO AP k Kk. unfold do_store. change (shown_entry k F' (if same_key k (key_of o) then in_entry o (D k) else D k)). destruct (same_key k (key_of o)) eqn:Q.
  - apply same_key_spec in Q. subst k. eapply own_entry; eauto; [apply HK; auto|apply S; auto].
  - assert (N : k <> key_of o) by (intros ->; rewrite (proj2 (same_key_spec _ _) eq_refl) in Q; discriminate).
    eapply other_entry; eauto; [apply (proj1 HK _ KO)|apply (proj1 HK _ Kk)| | |exact (S k Kk)]; intros z; eapply keys_apart; eauto.
Qed.
Lemma ops_stores : forall K p ops F F' D, keys K -> stores K F D -> Forall (fun o => K (key_of o)) ops -> history p (map store_edit ops) F F' -> stores K F' (do_all ops D).
Proof.
  intros K p. induction ops as [|o ops IH]; intros F F' D HK S KO H; inversion H; subst; [exact S|]. inversion KO; subst. cbn [do_all fold_left]. eapply IH; eauto. eapply op_stores; eauto.
Qed.
Lemma op_defined : forall K F D o, keys K -> stores K F D -> K (key_of o) -> (forall k x v, o = Mark k x v -> forall m a s kids, sole k F (Elem m a s kids) -> List.length a < 100) -> exists F', apply_edit (store_edit o) F = Some F'.
Proof.
  intros K F D o HK S KO L. specialize (S _ KO). destruct o as [k v|k x v|k|k x]; cbn [key_of store_edit apply_edit content_nodes] in *.
  - destruct (D k) as [e|].
    + destruct S as (m & a & kids & SO & _). eapply edit_defined; eauto. reflexivity.
    + destruct (absent_made [] [Text (esc v)] (with_kids [Text (esc v)]) (new_kids [Text (esc v)])) with (k := k) (F := F) as (F2 & Q & SO); eauto.
      intros names N. unfold new_kids. rewrite names_by_name. cbn [option_map]. now rewrite made_nest.
  - destruct (D k) as [e|].
    + destruct S as (m & a & kids & SO & _). pose proof (L k x v eq_refl m a false kids SO) as LA. eapply edit_defined with (l := [Elem m (put_attr x v a) false kids]); eauto. cbn [attr_of].
      replace (List.length (put_attr x v a) <=? 100) with true; [reflexivity|]. symmetry. apply Nat.leb_le. assert (X : List.length (put_attr x v a) <= Datatypes.S (List.length a)); [|lia].
      clear. induction a as [|[z w] a IH]; cbn [put_attr List.length]; [lia|]. destruct (bytes_eqb x z); cbn [List.length]; lia.
    + destruct (absent_made [(x, v)] [] (attr_of x v) (new_attr x v)) with (k := k) (F := F) as (F2 & Q & SO); eauto.
      intros names N. unfold new_attr. now rewrite names_by_name.
  - destruct (change _ _ _ _); eauto.
  - destruct (change _ _ _ _); eauto.
Qed.

(** ** Reading *)
Definition read_end (fin : final) : Prop := fin = TheElement \/ exists x, fin = TheAttribute x.
Lemma query_more : forall fin, read_end fin -> forall top n n2 rest F,
  query top (by_name (n :: n2 :: rest)) fin F = first_answer (fun nd => query false (by_name (n2 :: rest)) fin (kids_of nd)) (called (selects n) F).
Proof. intros fin [->|(x & ->)]; reflexivity. Qed.
Lemma query_one : forall fin, read_end fin -> forall top n F,
  query top (by_name [n]) fin F = match called (selects n) F with nd :: _ => final_answer fin nd | [] => Nothing end.
Proof. intros fin [->|(x & ->)]; reflexivity. Qed.
Lemma query_sole : forall fin, read_end fin -> forall k F nd, sole k F nd -> forall top, query top (by_name k) fin F = final_answer fin nd.
Proof.
  intros fin R. induction 1 as [n F nd C|n rest F m a kids nd C SO IH]; intros top.
  - rewrite query_one by auto. now rewrite C.
  - destruct rest as [|n2 rest]; [inversion SO|]. rewrite query_more, C by auto. cbn [first_answer kids_of]. rewrite IH. now destruct (final_answer fin nd).
Qed.
Lemma query_absent : forall fin, read_end fin -> forall k F, absent k F -> forall top, query top (by_name k) fin F = Nothing.
Proof.
  intros fin R. induction 1 as [n rest F C|n rest F m a s kids C A IH]; intros top.
  - destruct rest as [|n2 rest]; [rewrite query_one by auto|rewrite query_more by auto]; now rewrite C.
  - destruct rest as [|n2 rest]; [inversion A|]. rewrite query_more, C by auto. cbn [first_answer kids_of]. now rewrite IH.
Qed.
Lemma element_empty : forall r, describes r (Element []) -> r_type r = RElement /\ r_string r = [].
Proof. intros r [H1 [H2 _]]. split; auto. unfold all_text in H2. cbn [flat_map] in H2. eapply decodes_eq; eauto. apply (esc_decodes []). Qed.
