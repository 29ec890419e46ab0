(** Sequences of edits under options: what they do. *)
From Coq Require Import List Ascii String NArith ZArith Bool Lia Permutation.
From Verif Require Import GoStr ModelParser ModelPath ModelResult ModelQuery ModelValidate ModelBuilder SpecText SpecPath SpecTree SpecQuery SpecEdit SpecMod SpecContent SpecValid SpecHistory SpecFilter SpecLang SpecCase SpecOptions SpecSession
  ProofBase ProofEscape ProofPath ProofScan ProofSyntax ProofApi2 ProofTree ProofTree2 ProofTree3 ProofTree4 ProofTree5 ProofTree7 ProofEdit ProofEdit2 ProofEdit3 ProofEdit4 ProofEdit5 ProofEdit6 ProofEdit7 ProofEdit8 ProofEdit11 ProofEdit12 ProofRaw2 ProofValid2
  ProofOpt ProofOpt2 ProofOpt3 ProofOpt4 ProofEdit9 ProofSession.
Import ListNotations.
Notation called_cons := ProofEdit2.called_cons.
Notation alike := ProofEdit8.alike.


(** ** Attributes *)
Lemma existsb_perm : forall A (f : A -> bool) l l', Permutation l l' -> existsb f l = existsb f l'.
Proof. intros A f l l' P. induction P; cbn [existsb]; auto; [now rewrite IHP|destruct (f x), (f y); auto|congruence]. Qed.
Lemma puts_perm : forall e x v a a', Permutation a a' -> Permutation (put_attrs e x v a) (put_attrs e x v a').
Proof.
  intros e x v a a' P. unfold put_attrs. rewrite (existsb_perm _ _ _ _ P). destruct (existsb _ a'); [now apply Permutation_map|now apply Permutation_app_tail].
Qed.
Lemma filter_perm : forall A (f : A -> bool) l l', Permutation l l' -> Permutation (filter f l) (filter f l').
Proof.
  intros A f l l' P. induction P; cbn [filter]; auto; [destruct (f x); auto| |etransitivity; eauto]. destruct (f x), (f y); auto. apply perm_swap.
Qed.
Lemma puts_good : forall e x v a, good_attrs a -> xml_name x -> small (esc v) -> len (put_attrs e x v a) <= 100 -> good_attrs (put_attrs e x v a).
Proof.
  intros e x v a [G1 G2 G3 G4] X S L. constructor; auto; [now apply puts_nodup| |].
  - rewrite puts_names. destruct (existsb _ a); auto. apply Forall_app. split; auto. constructor; auto. now apply spelled_xml_name.
  - unfold put_attrs. destruct (existsb _ a).
    + apply Forall_forall. intros q I. apply in_map_iff in I. destruct I as [q0 [<- I]]. rewrite Forall_forall in G4. destruct (attr_is e x (fst q0)); [exact S|now apply G4].
    + apply Forall_app. split; auto.
Qed.
Lemma drops_good : forall e x a, good_attrs a -> good_attrs (drop_attrs e x a).
Proof.
  intros e x a [G1 G2 G3 G4]. constructor.
  - assert (LE : len (drop_attrs e x a) <= len a); [|lia]. unfold drop_attrs. clear. induction a as [|q a IH]; [apply le_n|]. cbn [filter]. destruct (negb _); cbn [List.length]; lia.
  - rewrite drops_names. now apply NoDup_filter.
  - rewrite drops_names. apply Forall_forall. intros q I. apply filter_In in I. rewrite Forall_forall in G3. now apply G3.
  - apply Forall_forall. intros q I. apply filter_In in I. rewrite Forall_forall in G4. now apply G4.
Qed.
Lemma drops_absent : forall e x a, existsb (fun q => attr_is e x (fst q)) a = false -> drop_attrs e x a = a.
Proof.
  intros e x. induction a as [|q a IH]; intros H; [reflexivity|]. cbn [existsb] in H. apply orb_false_iff in H. destruct H as [H1 H2]. unfold drop_attrs in *. cbn [filter]. rewrite H1. cbn [negb]. now rewrite IH.
Qed.

(** ** The place of a new element *)
Lemma divide_parted : forall f F, parted f F (fst (divide f F)) (snd (divide f F)).
Proof.
  intros f. induction F as [|nd F IH]; [now constructor|]. cbn [divide]. destruct (called f F) as [|y l] eqn:Q.
  - destruct (named f nd) eqn:N; cbn [fst snd].
    + change (nd :: F) with ([] ++ nd :: F). change [nd] with ([] ++ [nd]). now constructor.
    + constructor. now rewrite called_cons, N.
  - cbn [fst snd]. destruct (divide f F) as [K1 K2]. cbn [fst snd] in *. destruct IH as [F C|F1 nd0 F2 N C]; [congruence|]. apply (parted_last f (nd :: F1)); auto.
Qed.
Lemma divide_app : forall f F, fst (divide f F) ++ snd (divide f F) = F.
Proof. intros f F. destruct (divide_parted f F); [apply app_nil_r|now rewrite <- app_assoc]. Qed.
Lemma divide_same : forall f F G, Forall2 same F G -> Forall2 same (fst (divide f F)) (fst (divide f G)) /\ Forall2 same (snd (divide f F)) (snd (divide f G)).
Proof.
  intros f F G H. induction H as [|u w F G H1 H2 [IH1 IH2]]; [split; constructor|]. cbn [divide]. pose proof (same_called f F G H2) as C. rewrite (same_named f u w H1).
  destruct (called f F), (called f G); try solve [inversion C].
  - destruct (named f w); cbn [fst snd]; split; auto.
  - cbn [fst snd]. split; auto.
Qed.
Lemma line_same : forall K K' ind i, Forall2 same K K' -> line_after K ind i = line_after K' ind i.
Proof.
  intros K K' ind i H. unfold line_after. apply same_length_all in H. destruct (forest_text K), (forest_text K'); try discriminate; reflexivity.
Qed.
Lemma blanks_angle : forall s, blanks s -> no_angle s.
Proof. intros s H. unfold blanks in H. rewrite Forall_forall in H. split; intros I; apply H in I; destruct I as [I|[I|[I|[I|[]]]]]; discriminate. Qed.
Lemma times_blank : forall n s, blanks s -> blanks (times n s).
Proof. induction n as [|n IH]; intros s H; cbn [times]; [constructor|]. apply Forall_app. split; auto. apply IH, H. Qed.
Lemma line_top : forall ind i, blanks ind -> Forall top_node (new_line ind i).
Proof.
  intros [|c ind] i H; [constructor|]. cbn [new_line]. constructor; [|constructor]. cbn [top_node]. constructor; [right; right; now left|]. now apply times_blank.
Qed.
Lemma after_good : forall K ind i, blanks ind -> Forall good (line_after K ind i).
Proof. intros K ind i H. unfold line_after. destruct (forest_text K); [constructor|]. now apply line_good, blanks_angle. Qed.
Lemma lines_top : forall ind i n names a K, blanks ind -> Forall top_node (nest_lines ind i (n :: names) a K).
Proof. intros. cbn [nest_lines]. apply Forall_app. split; [now apply line_top|]. constructor; [exact I|constructor]. Qed.
Lemma chain_good : forall e ind names a K, blanks ind -> Forall xml_name names -> good_attrs a -> Forall good K -> Forall good (new_chain e ind names a K).
Proof. intros. apply lines_good; auto; [now apply blanks_angle|now apply spelled_xml_names]. Qed.

(** ** What edits keep *)
Lemma one_attr_good : forall e x v, xml_name x -> small (esc v) -> good_attrs [(spelled e x, v)].
Proof.
  intros e x v X S. constructor; cbn [map fst List.length]; [lia| | |].
  - constructor; [intros []|constructor].
  - constructor; [now apply spelled_xml_name|constructor].
  - constructor; [exact S|constructor].
Qed.
Lemma no_attr_good : good_attrs [].
Proof. constructor; cbn [map List.length]; try constructor. lia. Qed.
Lemma apply_under_good : forall e ind o F F', blanks ind -> legal o -> Forall good F -> Forall top_node F -> apply_under e ind o F = Some F' -> Forall good F' /\ Forall top_node F'.
Proof.
  intros e ind o F F' BI LG G T H.
  assert (NW : forall s a K l, Forall xml_name (map fst s) -> good_attrs a -> Forall good K -> new_under e ind a K s = Some l -> Forall good l).
  { intros s a K l XS GA GK Q. unfold new_under in Q. destruct (names_only s) as [names|] eqn:QN; [|discriminate]. injection Q as <-. apply names_by in QN. subst s. rewrite by_name_fst in XS. now apply chain_good. }
  assert (NT : forall s a K l, s <> [] -> new_under e ind a K s = Some l -> Forall top_node l).
  { intros s a K l NE Q. unfold new_under in Q. destruct (names_only s) as [names|] eqn:QN; [|discriminate]. injection Q as <-. apply names_by in QN. subst s.
    destruct names as [|n names]; [contradiction|]. now apply lines_top. }
  destruct o as [steps [v| | |]|steps x v|steps|steps x|[|s0 steps] m [v| | |]]; cbn [apply_under legal] in *; try discriminate.
  - destruct LG as [GT [XN [GC _]]]. split.
    + eapply (alter_good e); [| |  |exact G|exact H]; [intros nd l; apply with_kids_good; constructor; [apply text_good|constructor]|exact XN|]. intros s l NE X Q. eapply NW; [exact X|apply no_attr_good| |exact Q]. constructor; [apply text_good|constructor].
    + eapply (alter_top e); [| |exact T|exact H]; [|intros s l NE Q; eapply NT; eauto].
      intros nd l Q. destruct nd as [n a [|] kids| |]; try discriminate. injection Q as <-. constructor; [exact I|constructor].
  - destruct LG as [GT [XN [X [SZ SM]]]]. split.
    + eapply (alter_good e); [| |  |exact G|exact H]; [|exact XN|intros s l NE XS Q; exact (NW s _ _ l XS (one_attr_good e x v X SM) (Forall_nil _) Q)].
      intros nd l Gn Q. destruct nd as [n a self kids| |]; try discriminate. cbn [attr_under] in Q. destruct (_ <=? _) eqn:LE; [|discriminate]. apply Nat.leb_le in LE. injection Q as <-.
      inversion Gn; subst. constructor; [|constructor]. constructor; auto. now apply puts_good.
    + eapply (alter_top e); [| |exact T|exact H]; [|intros s l NE Q; eapply NT; eauto].
      intros nd l Q. destruct nd as [n a self kids| |]; try discriminate. cbn [attr_under] in Q. destruct (_ <=? _); [|discriminate]. injection Q as <-. constructor; [exact I|constructor].
  - destruct (alter _ _ _ _ _) as [F1|] eqn:Q; injection H as <-; [|auto]. split.
    + eapply (alter_good_nothing e); eauto. intros nd l _ K. now injection K as <-.
    + eapply (alter_top e); [| |exact T|exact Q]; [|discriminate]. intros nd l K. now injection K as <-.
  - destruct (alter _ _ _ _ _) as [F1|] eqn:Q; injection H as <-; [|auto]. split.
    + eapply (alter_good_nothing e); eauto. intros nd l Gn K. destruct nd as [n a self kids| |]; try discriminate. injection K as <-. inversion Gn; subst. constructor; [|constructor]. constructor; auto. now apply drops_good.
    + eapply (alter_top e); [| |exact T|exact Q]; [|discriminate]. intros nd l K. destruct nd; try discriminate. injection K as <-. constructor; [exact I|constructor].
  - destruct LG as [GS [LN [XN [GC _]]]]. injection H as <-. rewrite <- (divide_app (finds e m) F) in G, T. apply Forall_app in G, T. destruct G as [G1 G2], T as [T1 T2].
    split; apply Forall_app; split; auto; constructor; auto; [|exact I]. apply child_good; [now apply spelled_xml_name|constructor; [apply text_good|constructor]].
  - destruct LG as [GS [LN [XN [GC _]]]]. split.
    + eapply (alter_good_nothing e); [|exact G|exact H]. intros nd l Gn K. destruct nd as [n a self kids| |]; try discriminate. cbn [more_under] in K. injection K as <-.
      inversion Gn as [? ? ? ? N A S GK| |]; subst. constructor; [|constructor]. constructor; auto; [discriminate|]. rewrite <- (divide_app (finds e m) kids) in GK. apply Forall_app in GK. destruct GK as [K1 K2].
      apply Forall_app. split; auto. apply Forall_app. split; [now apply after_good|]. constructor; auto. apply child_good; [now apply spelled_xml_name|constructor; [apply text_good|constructor]].
    + eapply (alter_top e); [| |exact T|exact H]; [|discriminate]. intros nd l K. destruct nd; try discriminate. injection K as <-. constructor; [exact I|constructor].
Qed.
Lemma apply_under_alike : forall e ind o F G, Forall good F -> Forall2 same F G -> alike (apply_under e ind o F) (apply_under e ind o G).
Proof.
  intros e ind o F G Gd H.
  assert (NA : forall a K s, alike (new_under e ind a K s) (new_under e ind a K s)) by (intros a K s; destruct (new_under e ind a K s); [apply same_all_refl|exact I]).
  destruct o as [steps [v| | |]|steps x v|steps|steps x|[|s0 steps] m [v| | |]]; cbn [apply_under]; try exact I.
  - apply (alter_alike e); auto. intros nd nd' Gn S. inversion S as [n a a' self kids kids' P K| |]; subst; try exact I. destruct self; [exact I|]. constructor; [|constructor]. constructor; auto. apply same_all_refl.
  - apply (alter_alike e); auto. intros nd nd' Gn S. inversion S as [n a a' self kids kids' P K| |]; subst; try exact I. cbn [attr_under].
    pose proof (puts_perm e x v a a' P) as PP. rewrite <- (Permutation_length PP). destruct (_ <=? _); [|exact I]. constructor; [|constructor]. now constructor.
  - assert (C : alike (alter e (fun _ => Some []) nothing steps F) (alter e (fun _ => Some []) nothing steps G)).
    { apply (alter_alike e); auto; [|intros; exact I]. intros. constructor. }
    destruct (alter _ _ _ steps F), (alter _ _ _ steps G); try contradiction; auto.
  - assert (C : alike (alter e (without_under e x) nothing steps F) (alter e (without_under e x) nothing steps G)).
    { apply (alter_alike e); auto; [|intros; exact I]. intros nd nd' Gn S. inversion S as [n a a' self kids kids' P K| |]; subst; try exact I. constructor; [|constructor]. constructor; auto. now apply filter_perm. }
    destruct (alter _ _ _ steps F), (alter _ _ _ steps G); try contradiction; auto.
  - destruct (divide_same (finds e m) F G H) as [D1 D2]. apply Forall2_app; auto. constructor; auto. apply same_refl.
  - apply (alter_alike e); auto; [|intros; exact I].
    intros nd nd' Gn S. inversion S as [n a a' self kids kids' P K| |]; subst; try exact I. destruct (divide_same (finds e m) kids kids' K) as [D1 D2]. constructor; [|constructor]. constructor; auto.
    apply Forall2_app; auto. rewrite (line_same _ _ ind _ D1). apply Forall2_app; [apply same_all_refl|]. constructor; auto. apply same_refl.
Qed.
Lemma lines_depth : forall ind names i a K k, depth_le k K -> 1 <= k + len names -> depth_le (len names + k) (nest_lines ind i names a K).
Proof.
  intros ind. induction names as [|n names IH]; intros i a K k D L; [exact D|]. cbn [nest_lines List.length]. apply depth_app.
  - destruct ind; [constructor|]. constructor; [cbn [levels]; lia|constructor].
  - constructor; [|constructor]. apply depth_elem. destruct (Nat.eq_dec (len names + k) 0) as [Q|Q]; [|apply IH; auto; lia].
    assert (names = []) by (destruct names; [auto|cbn [List.length] in Q; lia]). subst names. cbn [List.length] in Q. assert (k = 0) by (cbn in Q; lia). subst k. exact D.
Qed.
Lemma apply_under_shallow : forall e ind o F F', legal o -> apply_under e ind o F = Some F' -> shallow F -> shallow F'.
Proof.
  intros e ind o F F' LG H SH. change (depth_le 100 F'). change (depth_le 100 F) in SH.
  assert (GL : forall steps fin, good_tpath steps fin -> List.length steps <= 100).
  { intros steps fin [_ _ L]. unfold tpath_steps in L. rewrite app_length in L. pose proof (tsteps_len steps). lia. }
  assert (NW : forall k st a K l, st <> [] -> depth_le k K -> new_under e ind a K st = Some l -> depth_le (len st + k) l).
  { intros k st a K l NE D Q. unfold new_under in Q. destruct (names_only st) as [names|] eqn:QN; [|discriminate]. injection Q as <-. rewrite <- (names_only_len _ _ QN).
    unfold new_chain. rewrite <- (map_length (spelled e) names). apply lines_depth; auto. rewrite map_length, (names_only_len _ _ QN). destruct st; [contradiction|]. cbn [List.length]. lia. }
  assert (DT : forall v, depth_le 0 [Text (esc v)]) by (intros v; constructor; [apply le_n|constructor]).
  destruct o as [steps [v| | |]|steps x v|steps|steps x|[|s0 steps] m [v| | |]]; cbn [apply_under legal] in *; try discriminate.
  - destruct LG as [GT [_ [_ HL]]]. eapply (alter_depth e 0); [| |exact H| |exact SH].
    + intros k nd l K Q LV. destruct nd as [n a [|] kids| |]; try discriminate. injection Q as <-. constructor; [|constructor]. destruct k as [|k]; [lia|]. apply depth_elem. constructor; [cbn; lia|constructor].
    + intros st l NE Q. eapply NW; eauto.
    + rewrite Nat.add_0_r. eauto.
  - destruct LG as [GT _]. eapply (alter_depth e 0); [| |exact H| |exact SH].
    + intros k nd l K Q LV. destruct nd as [n a s kids| |]; try discriminate. unfold attr_under in Q. destruct (_ <=? _) in Q; [|discriminate]. injection Q as <-. constructor; auto.
    + intros st l NE Q. eapply NW; [exact NE| |exact Q]. constructor.
    + rewrite Nat.add_0_r. eauto.
  - destruct (alter _ _ _ _ _) as [F1|] eqn:Q; injection H as <-; auto. eapply (alter_depth e 0); [| |exact Q| |exact SH].
    + intros k nd l K Q1 _. injection Q1 as <-. constructor.
    + discriminate.
    + rewrite Nat.add_0_r. eauto.
  - destruct (alter _ _ _ _ _) as [F1|] eqn:Q; injection H as <-; auto. eapply (alter_depth e 0); [| |exact Q| |exact SH].
    + intros k nd l K Q1 LV. destruct nd as [n a s kids| |]; try discriminate. injection Q1 as <-. constructor; auto.
    + discriminate.
    + rewrite Nat.add_0_r. eauto.
  - injection H as <-. rewrite <- (divide_app (finds e m) F) in SH. apply Forall_app in SH. destruct SH as [S1 S2]. apply Forall_app. split; auto. constructor; auto. cbn. lia.
  - destruct LG as [_ [_ [_ [_ HL]]]].
    eapply (alter_depth e 1); [| |exact H| |exact SH]; [|discriminate|change (height (content_nodes (AsText v))) with 0 in HL; lia].
    intros k nd l K Q1 LV. destruct nd as [n a s kids| |]; try discriminate. injection Q1 as <-. destruct k as [|k]; [lia|]. apply depth_elem in LV. constructor; [|constructor]. apply depth_elem.
    rewrite <- (divide_app (finds e m) kids) in LV. apply Forall_app in LV. destruct LV as [S1 S2]. apply Forall_app. split; auto. apply Forall_app. split; [|constructor; auto; cbn; lia].
    unfold line_after. destruct (forest_text _); [constructor|]. destruct ind; [constructor|]. constructor; [cbn [levels]; lia|constructor].
Qed.
