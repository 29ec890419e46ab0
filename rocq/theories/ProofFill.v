(** Copying a document value by value: proofs. *)
From Coq Require Import List Ascii String NArith ZArith Bool Lia Permutation.
From Verif Require Import GoStr ModelParser ModelPath ModelResult ModelQuery ModelValidate ModelBuilder SpecText SpecPath SpecTree SpecQuery SpecEdit SpecContent SpecValid SpecMod SpecHistory SpecTable SpecStore SpecBudget SpecPart SpecFill
  ProofBase ProofTree ProofTree5 ProofEdit ProofEdit2 ProofEdit4 ProofEdit5 ProofEdit6 ProofEdit8 ProofEdit9 ProofTable ProofStore ProofBudget PropTree PropEdit PropHistory PropStore.
Import ListNotations.
Open Scope nat_scope.

Section DataInd.
  Variable P : data -> Prop.
  Hypothesis HL : forall n a v, P (Leaf n a v).
  Hypothesis HG : forall n a subs, Forall P subs -> P (Group n a subs).
  Fixpoint data_ind2 (t : data) : P t :=
    match t with
    | Leaf n a v => HL n a v
    | Group n a subs => HG n a subs ((fix go l : Forall P l := match l with [] => Forall_nil P | x :: l' => Forall_cons x (data_ind2 x) (go l') end) subs)
    end.
End DataInd.

(** ** The edits *)
Definition own_script (n : bytes) (a : list (bytes * bytes)) : list edit := map (fun xv => SetAttr (by_name [n]) (fst xv) (snd xv)) a.
Fixpoint script (t : data) : list edit :=
  match t with
  | Leaf n a v => SetContent (by_name [n]) (AsText v) :: own_script n a
  | Group n a subs => map (under (by_name [n])) (flat_map script subs) ++ own_script n a
  end.
(** Edits by names. *)
Definition simple (o : edit) : Prop :=
  match o with
  | SetContent steps (AsText _) | SetAttr steps _ _ => exists k, k <> [] /\ steps = by_name k
  | _ => False
  end.
Lemma own_simple : forall n a, Forall simple (own_script n a).
Proof. intros n a. apply Forall_forall. intros o I. apply in_map_iff in I. destruct I as (xv & <- & _). exists [n]. split; [discriminate|reflexivity]. Qed.
Lemma under_simple : forall n o, simple o -> simple (under (by_name [n]) o).
Proof.
  intros n [s c|s x v|s|s x|s m c] H; cbn [under simple] in *; try easy; [destruct c; try easy|]; destruct H as (k & N & ->); exists (n :: k); (split; [discriminate|reflexivity]).
Qed.
Lemma script_simple : forall t, Forall simple (script t).
Proof.
  induction t as [n a v|n a subs IH] using data_ind2; cbn [script].
  - constructor; [exists [n]; split; [discriminate|reflexivity]|apply own_simple].
  - apply Forall_app. split; [|apply own_simple]. apply Forall_forall. intros o I. apply in_map_iff in I. destruct I as (o' & <- & I). apply under_simple.
    apply in_flat_map in I. destruct I as (t & It & I). rewrite Forall_forall in IH. specialize (IH t It). rewrite Forall_forall in IH. auto.
Qed.
(** The first edit makes the way to the first text. *)
Lemma script_head : forall t, well t -> exists k v ops, script t = SetContent (by_name (label t :: k)) (AsText v) :: ops.
Proof.
  induction t as [n a v|n a subs IH] using data_ind2; intros W; cbn [script label].
  - exists [], v, (own_script n a). reflexivity.
  - inversion W as [|? ? ? L A NE WS ND]; subst. destruct subs as [|s subs]; [contradiction|]. inversion IH as [|? ? I1 _]; inversion WS as [|? ? W1 _]; subst.
    destruct (I1 W1) as (k & v & ops & Q). cbn [flat_map]. rewrite Q. cbn [app map under]. exists (label s :: k), v. eexists. reflexivity.
Qed.

(** ** Growing forests *)
Inductive grows (B : nat) : list edit -> list node -> list node -> Prop :=
| gr_nil : forall F, grows B [] F F
| gr_cons : forall o ops F F1 F2, apply_edit o F = Some F1 -> has_element F1 -> full F1 <= B -> grows B ops F1 F2 -> grows B (o :: ops) F F2.
Lemma grows_app : forall B a b F F1 F2, grows B a F F1 -> grows B b F1 F2 -> grows B (a ++ b) F F2.
Proof. intros B a b F F1 F2 H. induction H; intros X; [exact X|]. cbn [app]. econstructor; eauto. Qed.
Lemma grows_more : forall B B' ops F F', grows B ops F F' -> B <= B' -> grows B' ops F F'.
Proof. intros B B' ops F F' H L. induction H; [constructor|]. econstructor; eauto. lia. Qed.
Lemma last_element : forall F n a s k, has_element (F ++ [Elem n a s k]).
Proof. intros F n a s k. exists n, a, s, k. apply in_or_app. right. now left. Qed.
Lemma edit_last : forall f g F x l, called f F = [] -> named f x = true -> g x = Some l -> edit_nth f 0 g (F ++ [x]) = Some (F ++ l).
Proof.
  intros f g F x l. induction F as [|y F IH]; intros C N G; cbn [app edit_nth].
  - rewrite N, G. cbn [option_map]. now rewrite app_nil_r.
  - rewrite ProofEdit2.called_cons in C. destruct (named f y); [discriminate|]. rewrite (IH C N G). reflexivity.
Qed.
Lemma called_last : forall n F a s k, called (selects n) F = [] -> called (selects n) (F ++ [Elem n a s k]) = [Elem n a s k].
Proof. intros n F a s k C. rewrite ProofEdit7.called_app, C. apply self_one. Qed.
Lemma change_inner : forall g miss n k F a kids kids', called (selects n) F = [] -> k <> [] -> change g miss (by_name k) kids = Some kids' ->
  change g miss (by_name (n :: k)) (F ++ [Elem n a false kids]) = Some (F ++ [Elem n a false kids']).
Proof.
  intros g miss n [|m k] F a kids kids' C N H; [contradiction|]. rewrite by_name_cons, change_more. cbn [index_of]. rewrite called_last by exact C. cbn [nth_error].
  apply edit_last; [exact C|cbn [named]; apply selects_self|]. cbn beta iota. change ((m, None) :: by_name k) with (by_name (m :: k)). rewrite H. reflexivity.
Qed.
Lemma apply_inner : forall n o F a kids kids', simple o -> called (selects n) F = [] -> apply_edit o kids = Some kids' ->
  apply_edit (under (by_name [n]) o) (F ++ [Elem n a false kids]) = Some (F ++ [Elem n a false kids']).
Proof.
  intros n [s c|s x v|s|s x|s m c] F a kids kids' SI C H; cbn [simple under apply_edit] in *; try easy; [destruct c; try easy|]; destruct SI as (k & N & ->);
    change (by_name [n] ++ by_name k) with (by_name (n :: k)); now apply change_inner.
Qed.
Lemma lift : forall B ops kids kids', grows B ops kids kids' -> forall n F a B', Forall simple ops -> called (selects n) F = [] -> full F + full [Elem n a false []] + B <= B' ->
  grows B' (map (under (by_name [n])) ops) (F ++ [Elem n a false kids]) (F ++ [Elem n a false kids']).
Proof.
  intros B ops kids kids' H. induction H as [kids|o ops kids k1 k2 A E Z H IH]; intros n F a B' S C L; cbn [map]; [constructor|]. inversion S as [|? ? S1 S2]; subst.
  econstructor; [now apply apply_inner; [| |exact A]|apply last_element| |now apply IH]. rewrite full_app, full_elem. rewrite full_elem, full_nil in L. lia.
Qed.
Lemma attrs_more : forall a b, List.length (attrs_text (a ++ b)) = List.length (attrs_text a) + List.length (attrs_text b).
Proof. intros a b. unfold attrs_text. now rewrite flat_map_app, app_length. Qed.
Lemma tag_more : forall n a b, List.length (start_tag n (a ++ b) false) = List.length (start_tag n a false) + List.length (attrs_text b).
Proof. intros n a b. unfold start_tag. rewrite !app_length, attrs_more. lia. Qed.
Lemma put_new : forall x v a, ~ In x (map fst a) -> put_attr x v a = a ++ [(x, v)].
Proof.
  intros x v. induction a as [|[y w] a IH]; intros NI; [reflexivity|]. cbn [put_attr app]. destruct (bytes_eqb x y) eqn:Q.
  - exfalso. apply NI. left. apply bytes_eqb_eq in Q. now symmetry.
  - rewrite IH; [reflexivity|]. intros I. apply NI. now right.
Qed.
Lemma own_grows : forall n F kids a before B, called (selects n) F = [] -> NoDup (map fst (before ++ a)) -> List.length (before ++ a) <= 100 ->
  full F + full [Elem n (before ++ a) false kids] <= B ->
  grows B (own_script n a) (F ++ [Elem n before false kids]) (F ++ [Elem n (before ++ a) false kids]).
Proof.
  intros n F kids. induction a as [|[x v] a IH]; intros before B C ND L Z; cbn [own_script map fst snd]; [rewrite app_nil_r; constructor|].
  assert (Q : before ++ (x, v) :: a = (before ++ [(x, v)]) ++ a) by (now rewrite <- app_assoc). rewrite Q in *.
  assert (NI : ~ In x (map fst before)).
  { rewrite map_app, map_app in ND. cbn [map fst] in ND. rewrite <- app_assoc in ND. apply NoDup_remove_2 in ND. intros I. apply ND. apply in_or_app. now left. }
  econstructor; [|apply last_element| |now apply IH].
  - cbn [apply_edit by_name map change index_of]. rewrite called_last by exact C. cbn [nth_error]. apply edit_last; [exact C|cbn [named]; apply selects_self|].
    cbn [attr_of]. rewrite put_new by exact NI. rewrite app_length in L. replace (List.length (before ++ [(x, v)]) <=? 100) with true by (symmetry; apply Nat.leb_le; lia). reflexivity.
  - rewrite full_app, full_elem. rewrite full_elem, tag_more in Z. lia.
Qed.
Lemma other_label : forall n m, split_colon n = None -> split_colon m = None -> n <> m -> selects n m = false.
Proof. intros n m N M D. unfold selects. rewrite N, M, orb_false_r. apply bytes_eqb_neq. congruence. Qed.
Lemma node_label : forall t, exists a k, node_of t = Elem (label t) a false k.
Proof. intros [n a v|n a subs]; cbn [node_of label]; eauto. Qed.
Lemma label_plain : forall t, well t -> label_ok (label t).
Proof. intros t W. inversion W; subst; cbn [label]; assumption. Qed.
Lemma labels_other : forall n l, split_colon n = None -> Forall well l -> ~ In n (map label l) -> called (selects n) (map node_of l) = [].
Proof.
  intros n l P. induction l as [|t l IH]; intros W NI; [reflexivity|]. inversion W as [|? ? W1 W2]; subst. cbn [map]. rewrite ProofEdit2.called_cons.
  destruct (node_label t) as (a & k & ->). cbn [named]. rewrite other_label; [apply IH; auto; intros I; apply NI; now right|exact P|apply (label_plain t W1)|intros ->; apply NI; now left].
Qed.
Lemma create : forall k v n F, called (selects n) F = [] ->
  apply_edit (SetContent (by_name (n :: k)) (AsText v)) F = Some (F ++ [Elem n [] false (nest k [Text (esc v)])]).
Proof.
  intros k v n F C. cbn [apply_edit content_nodes].
  assert (X : change (with_kids [Text (esc v)]) (new_kids [Text (esc v)]) (by_name (n :: k)) F = option_map (fun l => F ++ l) (new_kids [Text (esc v)] (by_name (n :: k)))) by (cbn [by_name map change index_of]; rewrite C; reflexivity).
  rewrite X. unfold new_kids. rewrite names_by_name. reflexivity.
Qed.
Lemma tag_le : forall n a, List.length (start_tag n [] false) <= List.length (start_tag n a false).
Proof. intros n a. pose proof (tag_more n [] a). cbn [app] in *. lia. Qed.
Theorem script_grows : forall t, well t -> forall F, called (selects (label t)) F = [] -> grows (full F + full [node_of t]) (script t) F (F ++ [node_of t]).
Proof.
  induction t as [n a v|n a subs IH] using data_ind2; intros W F C; cbn [script label node_of] in *.
  - inversion W as [? ? ? L A T Z|]; subst. econstructor; [apply create; exact C|apply last_element| |apply (own_grows n F [Text (esc v)] a [] _ C); [apply (ga_distinct _ A)|apply (ga_count _ A)|apply le_n]].
    rewrite full_app, !full_elem. cbn [nest]. pose proof (tag_le n a). lia.
  - inversion W as [|? ? ? L A NE WS ND]; subst.
    assert (LL : forall rest before, Forall well before -> Forall well rest -> Forall (fun t => well t -> forall F, called (selects (label t)) F = [] -> grows (full F + full [node_of t]) (script t) F (F ++ [node_of t])) rest ->
        NoDup (map label (before ++ rest)) -> grows (full (map node_of (before ++ rest))) (flat_map script rest) (map node_of before) (map node_of (before ++ rest))).
    { clear. induction rest as [|t rest IHr]; intros before WB WR IHt ND; [rewrite app_nil_r; constructor|]. inversion WR as [|? ? W1 W2]; inversion IHt as [|? ? I1 I2]; subst.
      assert (Q : before ++ t :: rest = (before ++ [t]) ++ rest) by (now rewrite <- app_assoc). rewrite Q in *. cbn [flat_map].
      assert (NI : ~ In (label t) (map label before)).
      { rewrite !map_app in ND. cbn [map] in ND. rewrite <- app_assoc in ND. apply NoDup_remove_2 in ND. intros I. apply ND. apply in_or_app. now left. }
      eapply grows_app; [|apply IHr; auto; apply Forall_app; auto].
      rewrite (map_app node_of before [t]). cbn [map]. eapply grows_more; [apply I1; auto; apply labels_other; auto; apply (label_plain t W1)|].
      rewrite !map_app, !full_app. cbn [map]. lia. }
    specialize (LL subs [] (Forall_nil _) WS IH ND). cbn [app map] in LL. destruct subs as [|s subs]; [contradiction|].
    inversion WS as [|? ? W1 _]; subst. destruct (script_head s W1) as (k & v & ops & Q). cbn [flat_map] in LL. rewrite Q in LL. cbn [app] in LL.
    assert (SI : Forall simple (ops ++ flat_map script subs)).
    { apply Forall_app. split; [pose proof (script_simple s) as S; rewrite Q in S; now inversion S|]. apply Forall_forall. intros o I. apply in_flat_map in I. destruct I as (t & _ & I). pose proof (script_simple t) as S. rewrite Forall_forall in S. auto. }
    set (kids := map node_of (s :: subs)) in *. assert (QQ : flat_map script (s :: subs) = SetContent (by_name (label s :: k)) (AsText v) :: (ops ++ flat_map script subs)) by (cbn [flat_map]; now rewrite Q).
    rewrite QQ. cbn [map under app]. inversion LL as [|? ? ? F1 ? A1 E1 Z1 H1]; subst.
    assert (Q1 : Some F1 = Some ([] ++ [Elem (label s) [] false (nest k [Text (esc v)])])) by (rewrite <- (create k v (label s) [] eq_refl); symmetry; exact A1). injection Q1 as ->.
    assert (TL := tag_le n a). assert (ZT : full [Elem n a false kids] = List.length (start_tag n a false) + full kids + List.length (end_tag n)) by apply full_elem.
    change (by_name [n] ++ by_name (label s :: k)) with (by_name (n :: label s :: k)).
    econstructor; [apply create; exact C|apply last_element| |].
    + rewrite full_app, full_elem, ZT. cbn [nest]. lia.
    + eapply grows_app; [eapply (lift _ _ _ _ H1 n F []); [exact SI|exact C|rewrite full_elem, full_nil, ZT; lia]|].
      apply (own_grows n F kids a [] _ C); [apply (ga_distinct _ A)|apply (ga_count _ A)|apply le_n].
Qed.

(** ** From forests to documents *)
Lemma grows_history : forall p B ops F F', grows B ops F F' -> Forall legal ops -> (N.of_nat (List.length p + B) <= 10485760)%N -> history p ops F F'.
Proof.
  intros p B ops F F' H. induction H as [F|o ops F F1 F2 A E Z H IH]; intros L S; [constructor|]. inversion L as [|? ? L1 L2]; subst. econstructor; [exact L1|exact A| |now apply IH].
  split; [exact E|]. pose proof (full_ge F1). rewrite app_length. lia.
Qed.
Lemma depth_in : forall s subs, In s subs -> depth s <= fold_right (fun s m => Nat.max (depth s) m) 0 subs.
Proof. intros s. induction subs as [|x subs IH]; intros I; [destruct I|]. cbn [fold_right]. destruct I as [->|I]; [lia|]. specialize (IH I). lia. Qed.
(** What makes an edit by names legal. *)
Definition fair (o : edit) (m : nat) : Prop :=
  match o with
  | SetContent steps (AsText v) => exists k, steps = by_name k /\ k <> [] /\ Forall label_ok k /\ List.length k <= m /\ (N.of_nat (List.length (esc v)) <= 5242880)%N
  | SetAttr steps x v => exists k, steps = by_name k /\ k <> [] /\ Forall label_ok k /\ List.length k <= m /\ xml_name x /\ small (esc v)
  | _ => False
  end.
Lemma own_fair : forall n a m, label_ok n -> good_attrs a -> 1 <= m -> Forall (fun o => fair o m) (own_script n a).
Proof.
  intros n a m L A M. apply Forall_forall. intros o I. apply in_map_iff in I. destruct I as ([x v] & <- & I). exists [n]. cbn [fst snd]. split; [reflexivity|]. split; [discriminate|]. split; [auto|]. split; [exact M|]. split.
  - pose proof (ga_names _ A) as G. rewrite Forall_forall in G. apply G. now apply (in_map fst) in I.
  - pose proof (ga_values _ A) as G. rewrite Forall_forall in G. now specialize (G _ I).
Qed.
Lemma under_fair : forall n o m, label_ok n -> fair o m -> fair (under (by_name [n]) o) (S m).
Proof.
  intros n [s c|s x v|s|s x|s y c] m L H; cbn [under fair] in *; try easy; [destruct c; try easy|]; destruct H as (k & -> & N & FK & LE & R); exists (n :: k); (split; [reflexivity|]);
    (split; [discriminate|]); (split; [now constructor|]); (split; [cbn [List.length]; lia|exact R]).
Qed.
Lemma fair_more : forall o m m', fair o m -> m <= m' -> fair o m'.
Proof. intros [s c|s x v|s|s x|s y c] m m' H L; cbn [fair] in *; try easy; [destruct c; try easy|]; destruct H as (k & Q & N & FK & LE & R); exists k; (split; [exact Q|]); (split; [exact N|]); (split; [exact FK|]); (split; [lia|exact R]). Qed.
Lemma script_fair : forall t, well t -> Forall (fun o => fair o (depth t)) (script t).
Proof.
  induction t as [n a v|n a subs IH] using data_ind2; intros W; cbn [script depth].
  - inversion W as [? ? ? L A T Z|]; subst. constructor; [exists [n]; split; [reflexivity|]; split; [discriminate|]; auto|now apply own_fair].
  - inversion W as [|? ? ? L A NE WS ND]; subst. apply Forall_app. split; [|apply own_fair; auto; lia]. apply Forall_forall. intros o I. apply in_map_iff in I. destruct I as (o' & <- & I).
    apply under_fair; [exact L|]. apply in_flat_map in I. destruct I as (t & It & I). rewrite Forall_forall in IH, WS. specialize (IH t It (WS t It)). rewrite Forall_forall in IH.
    eapply fair_more; [now apply IH|now apply depth_in].
Qed.
Lemma names_steps : forall k, List.length (flat_map tstep_steps (by_name k)) = List.length k.
Proof. induction k as [|n k IH]; [reflexivity|]. cbn [by_name map flat_map tstep_steps app List.length] in *. f_equal. exact IH. Qed.
Lemma labels_path : forall k fin, k <> [] -> Forall label_ok k -> good_final (by_name k) fin -> List.length k + List.length (final_steps fin) <= 100 -> good_tpath (by_name k) fin.
Proof.
  intros k fin N L G Z. split; [|exact G|unfold tpath_steps; rewrite app_length, names_steps; exact Z].
  apply Forall_forall. intros s I. apply in_map_iff in I. destruct I as (n & <- & I). rewrite Forall_forall in L. destruct (L n I) as (_ & S & _). split; [exact S|exact Logic.I].
Qed.
Lemma by_name_some : forall k, k <> [] -> by_name k <> [].
Proof. intros [|n k] N; [contradiction|discriminate]. Qed.
Lemma xml_no_bar : forall x, xml_name x -> ~ In "|"%char x.
Proof.
  intros x (_ & H & _) I. apply H in I. destruct I as [[[X Y]|[X Y]]|[[X Y]|I]]; try (vm_compute in X, Y; congruence). cbn in I. intuition discriminate.
Qed.
Lemma fair_legal : forall o m, fair o m -> m < 100 -> legal o.
Proof.
  intros [s c|s x v|s|s x|s y c] m H L; cbn [fair] in H; try easy; [destruct c as [v| | |]; try easy|].
  - destruct H as (k & -> & N & FK & LE & Z). cbn [legal]. split; [apply labels_path; auto; [now apply by_name_some|cbn [final_steps List.length]; lia]|].
    rewrite by_name_fst. split; [eapply Forall_impl; [|exact FK]; now intros n (X & _)|]. split; [split; [exact I|]|].
    + cbn [content_nodes forest_text flat_map node_text]. now rewrite app_nil_r.
    + unfold by_name. rewrite map_length. cbn [content_nodes height fold_right levels]. lia.
  - destruct H as (k & -> & N & FK & LE & X & Z). cbn [legal]. split; [apply labels_path; auto; [split; [now apply xml_no_bar|now apply by_name_some]|cbn [final_steps List.length]; lia]|].
    rewrite by_name_fst. split; [eapply Forall_impl; [|exact FK]; now intros n (Y & _)|]. split; [exact X|]. split; [unfold small in Z; lia|exact Z].
Qed.
Lemma node_good : forall t, well t -> good (node_of t).
Proof.
  induction t as [n a v|n a subs IH] using data_ind2; intros W; cbn [node_of].
  - inversion W as [? ? ? L A T Z|]; subst. constructor; [apply L|exact A|discriminate|]. constructor; [apply text_good|constructor].
  - inversion W as [|? ? ? L A NE WS ND]; subst. constructor; [apply L|exact A|discriminate|]. rewrite Forall_forall in *. intros x I. apply in_map_iff in I. destruct I as (t & <- & I). auto.
Qed.
Lemma full_text_eq : forall t, full [node_of t] = List.length (node_text (node_of t)).
Proof.
  induction t as [n a v|n a subs IH] using data_ind2; cbn [node_of]; rewrite full_elem; cbn [node_text]; rewrite !app_length.
  - rewrite full_text. cbn [flat_map node_text]. rewrite app_nil_r. lia.
  - assert (Q : full (map node_of subs) = List.length (flat_map node_text (map node_of subs))); [|lia].
    induction IH as [|t subs I1 _ I2]; [reflexivity|]. cbn [map flat_map]. rewrite full_cons, app_length. lia.
Qed.

(** ** Reading the values *)
Definition tells (F : list node) (p : place) (o : edit) : Prop :=
  match p, o with
  | Content k, SetContent steps (AsText v) => steps = by_name k /\ trim_space v = v /\ exists m a, sole k F (Elem m a false [Text (esc v)])
  | Named k x, SetAttr steps y v => steps = by_name k /\ x = y /\ exists m a s kids, sole k F (Elem m a s kids) /\ attr_value x a = Some v
  | _, _ => False
  end.
Lemma tells_under : forall n a kids p o, tells kids p o -> tells [Elem n a false kids] (below n p) (under (by_name [n]) o).
Proof.
  intros n a kids [k|k x] [s c|s y v|s|s y|s z c] H; cbn [tells below under] in *; try easy.
  - destruct c; try easy. destruct H as (-> & T & m & b & S). split; [reflexivity|]. split; [exact T|]. exists m, b. eapply sole_down; [apply self_one|exact S].
  - destruct H as (-> & -> & m & b & s' & ks & S & A). split; [reflexivity|]. split; [reflexivity|]. exists m, b, s', ks. split; [eapply sole_down; [apply self_one|exact S]|exact A].
Qed.
Lemma sole_among : forall t k nd before after, well t -> Forall well before -> Forall well after -> NoDup (map label (before ++ t :: after)) ->
  (exists k', k = label t :: k') -> sole k [node_of t] nd -> sole k (map node_of (before ++ t :: after)) nd.
Proof.
  intros t k nd before after W WB WA ND (k' & ->) S. rewrite map_app in ND. cbn [map] in ND. pose proof (NoDup_remove_2 _ _ _ ND) as NI.
  assert (C : called (selects (label t)) (map node_of (before ++ t :: after)) = called (selects (label t)) [node_of t]).
  { rewrite map_app, ProofEdit7.called_app. cbn [map]. rewrite (ProofEdit2.called_cons _ (node_of t) (map node_of after)), (ProofEdit2.called_cons _ (node_of t) []).
    assert (P := proj2 (proj2 (label_plain t W))). rewrite (labels_other _ before P WB), (labels_other _ after P WA); [reflexivity| |]; intros I; apply NI; apply in_or_app; auto. }
  inversion S as [? ? ? X|? ? ? ? ? ? ? X Y]; subst; [apply sole_here; rewrite C; exact X|]. eapply sole_down; [rewrite C; exact X|exact Y].
Qed.
Definition key_in (p : place) : list bytes := match p with Content k | Named k _ => k end.
Lemma places_head : forall t p, In p (places t) -> exists k', key_in p = label t :: k'.
Proof.
  intros [n a v|n a subs] p I; cbn [places label] in *.
  - destruct I as [<-|I]; [now exists []|]. apply in_map_iff in I. destruct I as (xv & <- & _). now exists [].
  - apply in_app_or in I. destruct I as [I|I]; apply in_map_iff in I; [destruct I as ([k|k x] & <- & _); now exists k|destruct I as (xv & <- & _); now exists []].
Qed.
Lemma tells_among : forall t before after p o, well t -> Forall well before -> Forall well after -> NoDup (map label (before ++ t :: after)) ->
  In p (places t) -> tells [node_of t] p o -> tells (map node_of (before ++ t :: after)) p o.
Proof.
  intros t before after p o W WB WA ND I H. destruct (places_head t p I) as (k' & Q). destruct p as [k|k x]; destruct o as [s c|s y v|s|s y|s z c]; cbn [tells key_in] in *; try easy.
  - destruct c; try easy. destruct H as (-> & T & m & b & S). split; [reflexivity|]. split; [exact T|]. exists m, b. apply sole_among; auto. now exists k'.
  - destruct H as (-> & -> & m & b & s' & ks & S & A). split; [reflexivity|]. split; [reflexivity|]. exists m, b, s', ks. split; [|exact A]. apply sole_among; auto. now exists k'.
Qed.
Lemma attr_value_in : forall a x v, NoDup (map fst a) -> In (x, v) a -> attr_value x a = Some v.
Proof.
  induction a as [|[y w] a IH]; intros x v ND I; [destruct I|]. cbn [attr_value]. inversion ND as [|? ? N1 N2]; subst. cbn [map fst] in *. destruct I as [Q|I].
  - injection Q as -> ->. now rewrite bytes_eqb_refl.
  - destruct (bytes_eqb x y) eqn:Q; [|now apply IH]. apply bytes_eqb_eq in Q. subst y. exfalso. apply N1. now apply (in_map fst) in I.
Qed.
Lemma own_tells : forall n a kids, NoDup (map fst a) -> Forall2 (tells [Elem n a false kids]) (own_places n a) (own_script n a).
Proof.
  intros n a kids ND. assert (X : forall l, incl l a -> Forall2 (tells [Elem n a false kids]) (own_places n l) (own_script n l)); [|apply X; apply incl_refl].
  induction l as [|[x v] l IH]; intros IN; cbn [own_places own_script map fst snd]; constructor.
  - split; [reflexivity|]. split; [reflexivity|]. exists n, a, false, kids. split; [constructor; apply self_one|]. apply attr_value_in; [exact ND|]. apply IN. now left.
  - apply IH. intros y I. apply IN. now right.
Qed.
Lemma Forall2_in : forall A B (P Q : A -> B -> Prop) l m, Forall2 P l m -> (forall x y, In x l -> P x y -> Q x y) -> Forall2 Q l m.
Proof. intros A B P Q l m H. induction H as [|x y l m H1 H2 IH]; intros I; constructor; [apply I; [now left|exact H1]|apply IH; intros; apply I; auto; now right]. Qed.
Lemma Forall2_map2 : forall A B A' B' (f : A -> A') (g : B -> B') (P : A -> B -> Prop) (Q : A' -> B' -> Prop) l m, Forall2 P l m -> (forall x y, P x y -> Q (f x) (g y)) -> Forall2 Q (map f l) (map g m).
Proof. intros A B A' B' f g P Q l m H I. induction H; cbn [map]; constructor; auto. Qed.
Lemma script_tells : forall t, well t -> Forall2 (tells [node_of t]) (places t) (script t).
Proof.
  induction t as [n a v|n a subs IH] using data_ind2; intros W; cbn [places script node_of].
  - inversion W as [? ? ? L A T Z|]; subst. constructor; [|apply own_tells; apply (ga_distinct _ A)]. split; [reflexivity|]. split; [exact T|]. exists n, a. constructor. apply self_one.
  - inversion W as [|? ? ? L A NE WS ND]; subst. apply Forall2_app; [|apply own_tells; apply (ga_distinct _ A)].
    eapply Forall2_map2; [|intros p o; apply tells_under].
    assert (LL : forall rest before, subs = before ++ rest -> Forall2 (tells (map node_of subs)) (flat_map places rest) (flat_map script rest)); [|now apply (LL subs [])].
    induction rest as [|t rest IHr]; intros before Q; cbn [flat_map]; [constructor|]. apply Forall2_app; [|apply (IHr (before ++ [t])); now rewrite <- app_assoc].
    rewrite Q in WS, ND, IH |- *. apply Forall_app in WS as [WB WR]. inversion WR as [|? ? W1 W2]; subst. apply Forall_app in IH as [_ IR]. inversion IR as [|? ? I1 _]; subst.
    eapply Forall2_in; [apply I1; exact W1|]. intros p o I H. now apply tells_among.
Qed.
Lemma few_exact : forall t nd, few t -> same (node_of t) nd -> nd = node_of t.
Proof.
  assert (X : forall (a a' : list (bytes * bytes)), List.length a <= 1 -> Permutation a a' -> a' = a).
  { intros a a' L P. destruct a as [|x [|y a]]; [now apply Permutation_nil in P|now apply Permutation_length_1_inv in P|cbn in L; lia]. }
  induction t as [n a v|n a subs IH] using data_ind2; intros nd H S; cbn [few node_of] in *; inversion S as [? ? a' ? ? kids' P K| |]; subst.
  - rewrite (X _ _ H P). f_equal. inversion K as [|? y ? ? K1 K2]; subst. inversion K1; subst. now inversion K2; subst.
  - destruct H as [H1 H2]. rewrite (X _ _ H1 P). f_equal. clear - IH H2 K. revert kids' K. induction IH as [|t subs I1 _ I2]; intros kids' K; cbn [map fold_right] in *; inversion K as [|? y ? ? K1 K2]; subst; [reflexivity|].
    destruct H2 as [F1 F2]. rewrite (I1 _ F1 K1). f_equal. now apply I2.
Qed.
Section Copy.
  Variable E : env.
  Variable fmt_g : f64 -> bytes.
  Hypothesis Hord : forall k l, Permutation l (e_ord E k l).
  Lemma copy_calls : forall F ps ops m, Forall good F -> (blen (forest_text F) <= 10485760)%N -> m < 100 -> Forall2 (tells F) ps ops -> Forall (fun o => fair o m) ops ->
    forall d, copy_all E fmt_g (forest_text F) ps d = calls E fmt_g ops d.
  Proof.
    intros F ps ops m G Z M H. induction H as [|p o ps ops T H IH]; intros FA d; [reflexivity|]. inversion FA as [|? ? F1 F2]; subst. cbn [copy_all calls].
    pose proof (fair_legal o m F1 M) as L.
    assert (X : exists r v, get E (forest_text F) (place_path p) = Ok r /\ r_string r = v /\ set E fmt_g d (place_path p) (VStr v) = call E fmt_g o d).
    { destruct p as [k|k x]; destruct o as [s c|s y v|s|s y|s z c]; cbn [tells] in T; try easy.
      - destruct c as [v| | |]; try easy. destruct T as (-> & TR & n & a & S). destruct L as [GT _].
        destruct (get_query_text E Hord [] F F (by_name k) TheElement pro_nil (same_all_refl F) G Z GT) as (r & R1 & R2). apply denotes_describes in R2; [|now apply query_good].
        rewrite (query_sole TheElement (or_introl eq_refl) _ _ _ S) in R2. cbn [final_answer kids_of] in R2. destruct (element_string v r R2) as [_ RS].
        exists r, v. split; [exact R1|]. split; [now rewrite RS|reflexivity].
      - destruct T as (-> & -> & n & a & s' & kids & S & A). destruct L as [GT _]. assert (RE : read_end (TheAttribute y)) by (right; now exists y).
        destruct (get_query_text E Hord [] F F (by_name k) (TheAttribute y) pro_nil (same_all_refl F) G Z GT) as (r & R1 & R2). apply denotes_describes in R2; [|now apply query_good].
        rewrite (query_sole _ RE _ _ _ S) in R2. cbn [final_answer attrs_of] in R2. rewrite A in R2. destruct R2 as [_ RS].
        exists r, v. split; [exact R1|]. split; [exact RS|reflexivity]. }
    destruct X as (r & v & G1 & G2 & G3). rewrite G1. cbn [bind]. rewrite G2, G3. destruct (call E fmt_g o d) as [[d' [e|]]| |]; cbn [bind]; auto.
  Qed.
End Copy.
