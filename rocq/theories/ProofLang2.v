(** Queries on canonical text are queries on trees: the building blocks. *)
From Coq Require Import List Ascii String NArith ZArith Bool Lia Permutation.
From Verif Require Import GoStr ModelParser ModelPath ModelResult ModelQuery SpecText SpecPath SpecTree SpecQuery SpecValid SpecEdit SpecContent SpecFilter SpecLang
  ProofBase ProofEscape ProofPath ProofScan ProofSyntax ProofFuel ProofFuel2 ProofMono ProofFilter ProofTree ProofTree2 ProofTree3 ProofTree4 ProofTree5 ProofRaw2 ProofLang.
Import ListNotations.

(** ** Pairs of lists *)
Lemma f2_filter : forall A B (R : A -> B -> Prop) (f : A -> bool) (g : B -> bool) l l',
  Forall2 R l l' -> (forall a b, R a b -> f a = g b) -> Forall2 R (filter f l) (filter g l').
Proof. intros A B R f g l l' H Hfg. induction H; [constructor|]. cbn [filter]. rewrite (Hfg x y) by auto. destruct (g y); auto. Qed.
Lemma f2_firstn : forall A B (R : A -> B -> Prop) n l l', Forall2 R l l' -> Forall2 R (firstn n l) (firstn n l').
Proof. intros A B R n l l' H. revert n. induction H; intros [|n]; cbn [firstn]; constructor; auto. Qed.
Lemma f2_map : forall A B C D (R : A -> B -> Prop) (Q : C -> D -> Prop) (f : A -> C) (g : B -> D) l l',
  Forall2 R l l' -> (forall a b, R a b -> Q (f a) (g b)) -> Forall2 Q (map f l) (map g l').
Proof. intros A B C D R Q f g l l' H Hfg. induction H; cbn [map]; constructor; auto. Qed.
Lemma f2_flat_map : forall A B C D (R : A -> B -> Prop) (Q : C -> D -> Prop) (f : A -> list C) (g : B -> list D) l l',
  Forall2 R l l' -> (forall a b, R a b -> Forall2 Q (f a) (g b)) -> Forall2 Q (flat_map f l) (flat_map g l').
Proof. intros A B C D R Q f g l l' H Hfg. induction H; cbn [flat_map]; [constructor|]. apply Forall2_app; auto. Qed.
Lemma f2_impl : forall A B (R Q : A -> B -> Prop) l l', Forall2 R l l' -> (forall a b, R a b -> Q a b) -> Forall2 Q l l'.
Proof. intros A B R Q l l' H K. induction H; constructor; auto. Qed.
Lemma flat_map_one : forall A B (f : A -> B) l, flat_map (fun x => [f x]) l = map f l.
Proof. intros A B f l. induction l; cbn [flat_map map app]; congruence. Qed.
Lemma flat_map_ext2 : forall A B (f g : A -> list B) l, (forall x, f x = g x) -> flat_map f l = flat_map g l.
Proof. intros A B f g l H. induction l; cbn [flat_map]; congruence. Qed.

(** ** Results *)
Lemma no_mods : forall E r, apply_modifiers E r [] = r. Proof. reflexivity. Qed.
Lemma item_type : forall i r, item_is i r -> r_type r <> RNull /\ r_type r <> RArray.
Proof. intros [k|v|k|n] r H; cbn [item_is describes] in H; [destruct H as [H _]..|destruct H as [[H _] _]]; rewrite H; split; discriminate. Qed.
Lemma says_null : forall r a, says r a -> is_null r = match a with NoReply => true | _ => false end.
Proof.
  intros r [|i|l] H; cbn [says] in H; unfold is_null.
  - now rewrite H.
  - destruct (item_type _ _ H) as [K _]. destruct (r_type r); auto. contradiction.
  - destruct H as [H _]. now rewrite H.
Qed.
Lemma says_flat : forall r a, says r a -> Forall2 item_is (items a) (flatten1 r).
Proof.
  intros r [|i|l] H; cbn [says items] in *; unfold flatten1.
  - rewrite H. constructor.
  - destruct (item_type _ _ H) as [K1 K2]. destruct (r_type r); try contradiction; constructor; auto.
  - destruct H as [H1 H2]. now rewrite H1.
Qed.
Lemma says_empty : forall r a, says r a -> match r_type r, r_results r with RArray, [] => true | _, _ => false end = is_empty_list a.
Proof.
  intros r [|i|l] H; cbn [says] in *.
  - now rewrite H.
  - destruct (item_type _ _ H) as [K1 K2]. destruct (r_type r); auto; contradiction.
  - destruct H as [H1 H2]. rewrite H1. now destruct H2.
Qed.
Lemma says_pack : forall l rs, Forall2 item_is l rs ->
  says (match rs with [] => r_null | _ => package rs end) (pack l).
Proof.
  intros l rs H. inversion H as [|i r l' rs' H1 H2]; subst; [reflexivity|].
  inversion H2; subst; cbn [package pack says r_array r_type r_results]; auto.
Qed.
Lemma pack_says : forall a r, says r a -> (forall l, a <> Many l) -> a = pack (items a).
Proof. intros [|i|l] r H K; auto. destruct (K l eq_refl). Qed.

Lemma itoa_decimal : forall n, itoa n = decimal (Z.of_nat n).
Proof.
  intros n. unfold itoa, decimal. replace (Z.abs_N (Z.of_nat n)) with (N.of_nat n) by lia.
  rewrite (proj2 (Z.ltb_ge (Z.of_nat n) 0)) by lia. cbn [app]. apply ProofRaw2.uint_digits.
Qed.

(** ** Sizes *)
Definition within (F : list node) : Prop := shallow F /\ (elements F < 9999)%N.
Lemma elements_cons : forall nd F, elements (nd :: F) = (elements [nd] + elements F)%N.
Proof. intros nd F. unfold elements, post. cbn [flat_map]. rewrite app_nil_r, app_length. lia. Qed.
Lemma elements_kids : forall nd, is_elem nd = true -> elements [nd] = (elements (kids_of nd) + 1)%N.
Proof.
  intros [n a self kids| |] H; try discriminate. unfold elements, post. cbn [flat_map kids_of post_node]. rewrite app_nil_r, app_length.
  cbn [List.length]. lia.
Qed.
Lemma height_in : forall k kids, In k kids -> levels k <= fold_right (fun k m => Nat.max (levels k) m) 0 kids.
Proof. intros k kids H. induction kids as [|x kids IH]; [easy|]. destruct H as [->|H]; cbn [fold_right]; [|specialize (IH H)]; lia. Qed.
Lemma shallow_kids : forall nd, levels nd <= 100 -> shallow (kids_of nd).
Proof.
  intros [n a self kids| |] H; cbn [kids_of]; try constructor. apply Forall_forall. intros k Hk. cbn [levels] in H.
  pose proof (height_in k kids Hk). lia.
Qed.
Lemma within_kids : forall F nd, within F -> In nd F -> is_elem nd = true -> within (kids_of nd).
Proof.
  intros F nd [H1 H2] Hin He. split.
  - apply shallow_kids. unfold shallow in H1. rewrite Forall_forall in H1. auto.
  - assert (K : (elements [nd] <= elements F)%N).
    { clear - Hin. induction F as [|x F IH]; [easy|]. destruct Hin as [->|H]; rewrite (elements_cons _ F); [lia|]. specialize (IH H). lia. }
    rewrite elements_kids in K by auto. lia.
Qed.

Section Lang.
  Variable E : env.
  Hypothesis Hord : forall k l, Permutation l (e_ord E k l).

  Definition shown (nd : node) (e : elem) : Prop := shows nd e /\ within (kids_of nd).
  Definition reads_in (s : bytes) (F : list node) : Prop := reads E s F /\ within F.
  Lemma shown_all : forall F es, within F -> Forall2 shows (elems F) es -> Forall2 shown (elems F) es.
  Proof.
    intros F es W H. assert (K : forall nd, In nd (elems F) -> within (kids_of nd)).
    { intros nd Hn. apply filter_In in Hn. eapply within_kids; eauto; apply Hn. }
    revert K. induction H; intros K; constructor; [split; auto; apply K; now left|]. apply IHForall2. intros nd Hn. apply K. now right.
  Qed.
  Lemma reads_scan : forall s F key, reads_in s F -> exists es, scan_res E key s = Ok es /\ Forall2 shown (elems F) es.
  Proof. intros s F key [H W]. destruct (H key) as [es [H1 H2]]. exists es. unfold scan_res. rewrite H1. split; auto using shown_all. Qed.
  Lemma shown_reads : forall nd e, shown nd e -> reads_in (e_content e) (kids_of nd).
  Proof. intros nd e [H W]. split; auto. now apply shows_reads. Qed.
  Lemma shown_good : forall nd e, shown nd e -> good nd. Proof. intros nd e [H _]. apply H. Qed.
  Lemma shown_elem : forall nd e, shown nd e -> is_elem nd = true. Proof. intros nd e [H _]. apply H. Qed.
  Lemma shown_name : forall nd e, shown nd e -> e_name e = name_of nd /\ xml_name (name_of nd).
  Proof. intros nd e [H _]. split; [apply H|]. destruct H as [K1 K2 _ _ _]. inversion K2; subst; try discriminate. auto. Qed.
  Lemma shown_called : forall f g l es, Forall2 shown l es -> (forall n, xml_name n -> f n = g n) ->
    Forall2 shown (filter (fun nd => f (name_of nd)) l) (filter (fun e => g (e_name e)) es).
  Proof.
    intros f g l es H Hfg. eapply f2_filter; eauto. intros a b R. destruct (shown_name _ _ R) as [K1 K2]. cbn. rewrite K1. auto.
  Qed.
  Lemma shown_matching : forall n F es, step_name n -> Forall2 shown (elems F) es -> Forall2 shown (called (selects n) F) (matching (elem_seg n) es).
  Proof. intros n F es Hn H. rewrite called_elems. unfold matching. apply shown_called; auto. intros m Hm. symmetry. now apply selects_match. Qed.
  Lemma shown_exact : forall n F es, Forall2 shown (elems F) es -> Forall2 shown (called (bytes_eqb n) F) (filter (fun e => bytes_eqb (e_name e) n) es).
  Proof. intros n F es H. rewrite called_elems. apply shown_called with (g := fun m => bytes_eqb m n); auto. intros m Hm. apply bytes_eqb_sym. Qed.

  (** ** Items *)
  Lemma element_is : forall nd e, shown nd e -> item_is (element nd) (r_element (e_content e)).
  Proof. intros nd e H. cbn [item_is element describes]. apply is_element_text; [now apply shows_element, H|]. apply good_kids. eapply shown_good; eauto. Qed.
  Lemma text_is : forall nd e, shown nd e -> item_is (AText (kids_of nd)) (r_text (e_content e)).
  Proof.
    intros nd e H. cbn [item_is]. apply denotes_describes; [|apply good_kids; eapply shown_good; eauto].
    destruct H as [[_ _ _ _ [kids' [K1 K2]]] _]. exists kids'. now rewrite K2.
  Qed.
  Lemma attribute_is : forall x nd e, shown nd e ->
    Forall2 item_is (attribute x nd) (match map_get x (e_attrs e) with Some v => [r_attribute v] | None => [] end).
  Proof.
    intros x nd e [H _]. rewrite (shows_attr _ _ x H). unfold attribute. destruct (attr_value x (attrs_of nd)); repeat constructor.
  Qed.
  Lemma field_texts : forall nd e, shown nd e -> Forall2 item_is (fields_of FieldText nd)
    (match extract_direct (e_content e) with [] => [] | t => [mkR RString t (unescape_xml t) f64_zero []] end).
  Proof.
    intros nd e H. pose proof (shown_good _ _ H) as G. apply good_kids in G. destruct H as [[_ _ _ _ [kids' [K1 K2]]] _].
    assert (G' : Forall good kids') by (eapply same_good_all; eauto).
    rewrite K2, extract_direct_forest, <- (same_own_text _ _ K1) by auto. cbn [fields_of].
    destruct (trim_space (own_text (kids_of nd))) as [|c t] eqn:T; constructor; [|constructor]. cbn [item_is describes r_type r_string].
    rewrite T. split; [reflexivity|apply unescape_decodes].
  Qed.
  Lemma field_kids : forall key n l es, Forall2 shown l es ->
    exists rs, field_children E key n es = Ok rs /\ Forall2 item_is (flat_map (fields_of (FieldName n)) l) rs.
  Proof.
    intros key n l es H. induction H as [|nd e l es H1 H2 [rs [R1 R2]]]; [exists []; split; [reflexivity|constructor]|].
    cbn [field_children flat_map]. destruct (reads_scan _ _ (child_key site_field e key) (shown_reads _ _ H1)) as [cs [C1 C2]].
    rewrite C1. cbn [bind]. rewrite R1. cbn [bind]. eexists. split; [reflexivity|]. apply Forall2_app; auto.
    cbn [fields_of]. eapply f2_map; [now apply shown_exact|]. apply element_is.
  Qed.
  Lemma fields_ok : forall key f l es, good_field f -> Forall2 shown l es ->
    exists r, field_extract E key es (field_seg f) = Ok r /\ says r (fields f l).
  Proof.
    intros key f l es Hf H.
    assert (K : exists all,
      match field_text f with
      | [] => False
      | c :: name => (if Ascii.eqb c "@" then
           Ok (flat_map (fun e => match map_get name (e_attrs e) with Some v => [r_attribute v] | None => [] end) es)
         else if bytes_eqb (field_text f) (bs "%") then
           Ok (flat_map (fun e => match extract_direct (e_content e) with [] => [] | t => [mkR RString t (unescape_xml t) f64_zero []] end) es)
         else field_children E key (field_text f) es) = Ok all
      end /\ Forall2 item_is (flat_map (fields_of f) l) all).
    { destruct f as [n|x|]; cbn [field_text good_field] in *.
      - pose proof (field_plain n Hf) as P. destruct (field_kids key n l es H) as [rs [R1 R2]]. exists rs. split; auto.
        destruct n as [|c n]; [now destruct P|]. destruct (Ascii.eqb_spec c "@"); [subst; now destruct (pn_not_attr _ P n)|].
        destruct (bytes_eqb (c :: n) (bs "%")) eqn:B; auto. apply bytes_eqb_eq in B. exfalso. apply (pn_not_special _ P). rewrite B. now left.
      - change (Ascii.eqb "@" "@") with true. eexists. split; [reflexivity|]. eapply f2_flat_map; [exact H|]. intros; now apply attribute_is.
      - change (Ascii.eqb "%" "@") with false. change (bytes_eqb ["%"%char] (bs "%")) with true. eexists. split; [reflexivity|].
        eapply f2_flat_map; [exact H|]. apply field_texts. }
    destruct K as [all [K1 K2]]. unfold field_extract. cbn [field_seg s_field s_mods]. destruct (field_text f) as [|c name]; [easy|].
    match goal with |- exists r, bind ?x _ = _ /\ _ => replace x with (Ok all) by (symmetry; exact K1) end. cbn [bind]. apply (f2_firstn _ _ _ 1000) in K2. rewrite wild_max. unfold fields.
    destruct K2 as [|i r li rs Q1 Q2].
    - exists (r_array []). repeat split; constructor.
    - exists (r_array (r :: rs)). split; [reflexivity|]. cbn [says r_array r_type r_results]. auto.
  Qed.
End Lang.
