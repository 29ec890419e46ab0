(** Text and names of canonical forests. *)
From Coq Require Import List Ascii String NArith ZArith Bool Lia Permutation.
From Verif Require Import GoStr ModelParser ModelPath ModelResult ModelQuery SpecText SpecPath SpecTree SpecQuery
  ProofBase ProofEscape ProofPath ProofScan ProofTree ProofTree2.
Import ListNotations.

(** ** Text *)
Definition is_angle (c : ascii) : bool := Ascii.eqb c "<" || Ascii.eqb c ">".
Lemma text_loop_in : forall x s, ~ In "<"%char x -> ~ In ">"%char x -> text_loop true (x ++ s) = text_loop true s.
Proof.
  induction x as [|c x IH]; intros s H1 H2; auto. cbn [app text_loop].
  rewrite (proj2 (ascii_eqb_false c "<")), (proj2 (ascii_eqb_false c ">")); try (intros ->; simpl in *; tauto).
  apply IH; simpl in *; tauto.
Qed.
Lemma text_loop_tag : forall x s, ~ In "<"%char x -> ~ In ">"%char x ->
  text_loop false ("<"%char :: x ++ ">"%char :: s) = text_loop false s.
Proof. intros x s H1 H2. cbn [text_loop]. change (Ascii.eqb "<" "<") with true. cbn iota. now rewrite text_loop_in. Qed.
Lemma text_loop_out : forall x s, ~ In "<"%char x -> ~ In ">"%char x -> text_loop false (x ++ s) = x ++ text_loop false s.
Proof.
  induction x as [|c x IH]; intros s H1 H2; auto. cbn [app text_loop].
  rewrite (proj2 (ascii_eqb_false c "<")), (proj2 (ascii_eqb_false c ">")); try (intros ->; simpl in *; tauto).
  f_equal. apply IH; simpl in *; tauto.
Qed.
Lemma name_no_angle : forall n, xml_name n -> no_angle n.
Proof.
  intros n H. split; intros K; apply (proj1 (Forall_forall _ _) (name_all n H)) in K.
  - apply (name_byte_not _ "<" K); [inlist|reflexivity].
  - apply (name_byte_not _ ">" K); [inlist|reflexivity].
Qed.
Lemma esc_no_angle : forall v, no_angle (esc v).
Proof. intros v. split; intros K; apply esc_In in K; tauto. Qed.
Lemma no_angle_app : forall a b, no_angle a -> no_angle b -> no_angle (a ++ b).
Proof. intros a b [A1 A2] [B1 B2]. split; intros K; apply in_app_or in K; tauto. Qed.
Lemma no_angle_lit : forall a, forallb (fun c => negb (is_angle c)) a = true -> no_angle a.
Proof.
  intros a H. rewrite forallb_forall in H.
  split; intros K; apply H in K; discriminate.
Qed.
Lemma attrs_no_angle : forall a, Forall xml_name (map fst a) -> no_angle (attrs_text a).
Proof.
  induction a as [|[x v] a IH]; intros H; [now split|]. cbn [map fst] in H. inversion H as [|? ? H1 H2]; subst.
  cbn [attrs_text flat_map attr_text fst snd].
  repeat apply no_angle_app; auto using name_no_angle, esc_no_angle; try (apply no_angle_lit; reflexivity).
Qed.
Lemma misc_no_angle : forall b, misc_body b -> no_angle b.
Proof.
  intros b [[c [-> [H _]]]|[c [-> H]]]; repeat apply no_angle_app; auto; apply no_angle_lit; reflexivity.
Qed.
(** The bytes of a start tag between the angle brackets. *)
Definition tag_inside (n : bytes) (a : list (bytes * bytes)) (self : bool) : bytes :=
  n ++ attrs_text a ++ (if self then bs "/" else []).
Lemma start_tag_inside : forall n a self s, start_tag n a self ++ s = "<"%char :: tag_inside n a self ++ ">"%char :: s.
Proof. intros n a self s. unfold start_tag, tag_inside. destruct self; rewrite <- !app_assoc; reflexivity. Qed.
Lemma inside_no_angle : forall n a self, xml_name n -> good_attrs a -> no_angle (tag_inside n a self).
Proof.
  intros n a self Hn [_ _ Ha _]. unfold tag_inside. repeat apply no_angle_app; auto using name_no_angle, attrs_no_angle.
  destruct self; [apply no_angle_lit; reflexivity|now split].
Qed.
Lemma end_tag_inside : forall n s, end_tag n ++ s = "<"%char :: ("/"%char :: n) ++ ">"%char :: s.
Proof. intros n s. unfold end_tag. rewrite <- !app_assoc. reflexivity. Qed.
Lemma slash_no_angle : forall n, xml_name n -> no_angle ("/"%char :: n).
Proof. intros n H. apply (no_angle_app ["/"%char]); auto using name_no_angle. apply no_angle_lit; reflexivity. Qed.
Lemma misc_inside : forall b s, (bs "<!" ++ b ++ bs ">") ++ s = "<"%char :: ("!"%char :: b) ++ ">"%char :: s.
Proof. intros b s. rewrite <- !app_assoc. reflexivity. Qed.
Lemma bang_no_angle : forall b, misc_body b -> no_angle ("!"%char :: b).
Proof. intros n H. apply (no_angle_app ["!"%char]); auto using misc_no_angle. apply no_angle_lit; reflexivity. Qed.

Lemma text_loop_node : forall nd, good nd -> forall s, text_loop false (node_text nd ++ s) = node_chars nd ++ text_loop false s.
Proof.
  induction nd as [n a self kids IH|t|b] using node_ind'; intros G s; inversion G as [? ? ? ? N A S K|? T|? M]; subst.
  - cbn [node_text node_chars]. rewrite <- app_assoc, start_tag_inside.
    destruct (inside_no_angle n a self N A) as [I1 I2]. rewrite text_loop_tag by auto.
    destruct self; [rewrite (S eq_refl); reflexivity|].
    rewrite <- app_assoc.
    assert (L : forall r, text_loop false (flat_map node_text kids ++ r) = flat_map node_chars kids ++ text_loop false r).
    { clear -IH K. induction IH as [|k kids IH1 IH2 IHl]; intros r; auto. inversion K as [|? ? K1 K2]; subst.
      cbn [flat_map]. rewrite <- !app_assoc, (IH1 K1), (IHl K2). reflexivity. }
    rewrite L, end_tag_inside. destruct (slash_no_angle n N). now rewrite text_loop_tag.
  - cbn [node_text node_chars]. destruct T. now apply text_loop_out.
  - cbn [node_text node_chars]. rewrite misc_inside. destruct (bang_no_angle b M). now rewrite text_loop_tag.
Qed.
Lemma extract_text_forest : forall F, Forall good F -> extract_text (forest_text F) = trim_space (all_text F).
Proof.
  intros F G. unfold extract_text. f_equal. rewrite <- (app_nil_r (forest_text F)), <- (app_nil_r (all_text F)).
  change (@nil ascii) with (text_loop false []) at 2. generalize (@nil ascii) as s.
  unfold forest_text, all_text. induction G as [|nd F G1 G2 IH]; intros s; auto. cbn [flat_map].
  rewrite <- !app_assoc, text_loop_node by auto. now rewrite IH.
Qed.

Lemma direct_in : forall x c p d s, no_angle (x ++ [c]) ->
  direct_loop p true d ((x ++ [c]) ++ ">"%char :: s) =
  direct_loop (Some ">"%char) false (if Ascii.eqb c "/" then d - 1 else d)%Z s.
Proof.
  intros x c. assert (B : forall p d s, c <> "<"%char -> c <> ">"%char -> direct_loop p true d (c :: ">"%char :: s) =
    direct_loop (Some ">"%char) false (if Ascii.eqb c "/" then d - 1 else d)%Z s).
  { intros p d s H1 H2. remember (">"%char :: s) as t eqn:Et. cbn [direct_loop].
    rewrite (proj2 (ascii_eqb_false c "<") H1), (proj2 (ascii_eqb_false c ">") H2). subst t.
    cbn [negb andb direct_loop]. change (Ascii.eqb ">" "<") with false. change (Ascii.eqb ">" ">") with true. reflexivity. }
  induction x as [|x0 x IH]; intros p d s [H1 H2].
  - cbn [app]. apply B; intros ->; simpl in *; tauto.
  - cbn [app direct_loop]. rewrite (proj2 (ascii_eqb_false x0 "<")), (proj2 (ascii_eqb_false x0 ">")); try (intros ->; simpl in *; tauto).
    cbn [negb andb]. apply IH. split; simpl in *; tauto.
Qed.
Lemma direct_out : forall x p d s, no_angle x -> exists p',
  direct_loop p false d (x ++ s) = (if (d =? 0)%Z then x else []) ++ direct_loop p' false d s.
Proof.
  induction x as [|c x IH]; intros p d s [H1 H2].
  - exists p. now destruct (d =? 0)%Z.
  - cbn [app direct_loop]. rewrite (proj2 (ascii_eqb_false c "<")), (proj2 (ascii_eqb_false c ">")); try (intros ->; simpl in *; tauto).
    destruct (IH (Some c) d s) as [p' E]; [split; simpl in *; tauto|]. exists p'. cbn [negb andb]. rewrite E.
    now destruct (d =? 0)%Z.
Qed.
Lemma inside_last : forall n a self, xml_name n -> exists x c, tag_inside n a self = x ++ [c] /\ Ascii.eqb c "/" = self.
Proof.
  intros n a self Hn. unfold tag_inside. destruct self.
  - exists (n ++ attrs_text a), "/"%char. split; [now rewrite <- app_assoc|reflexivity].
  - rewrite app_nil_r. destruct a as [|p a _] using rev_ind.
    + cbn [attrs_text flat_map]. rewrite app_nil_r. destruct (name_first n Hn) as [c0 [r0 [En _]]].
      destruct (exists_last (l := n)) as [x [c E]]; [intros ->; discriminate|]. exists x, c. split; auto.
      apply ascii_eqb_false. intros ->. assert (K : In "/"%char n) by (rewrite E; apply in_or_app; simpl; auto).
      apply (proj1 (Forall_forall _ _) (name_all n Hn)) in K. apply (name_byte_not _ "/" K); [inlist|reflexivity].
    + unfold attrs_text. rewrite flat_map_app. cbn [flat_map]. rewrite app_nil_r. unfold attr_text at 2.
      exists (n ++ flat_map attr_text a ++ bs " " ++ fst p ++ bs "=" ++ [dquote] ++ esc (snd p)), dquote.
      split; [|reflexivity]. now rewrite <- !app_assoc.
Qed.
Lemma direct_lt : forall p d c s, direct_loop p false d ("<"%char :: c :: s) =
  direct_loop (Some "<"%char) true (if Ascii.eqb c "/" then d - 1 else if negb (Ascii.eqb c "!") && negb (Ascii.eqb c "?") then d + 1 else d)%Z (c :: s).
Proof. intros. remember (c :: s) as t eqn:Et. cbn [direct_loop]. change (Ascii.eqb "<" "<") with true. cbn iota. now subst t. Qed.
Lemma direct_start : forall n a (self : bool) p d s, xml_name n -> good_attrs a ->
  direct_loop p false d (start_tag n a self ++ s) = direct_loop (Some ">"%char) false (if self then d else d + 1)%Z s.
Proof.
  intros n a self p d s Hn Ha. rewrite start_tag_inside.
  destruct (inside_last n a self Hn) as [x [c [E1 E2]]]. assert (NA := inside_no_angle n a self Hn Ha).
  destruct (name_first n Hn) as [c0 [r [En Hc]]].
  assert (H : exists r2, tag_inside n a self = c0 :: r2) by (unfold tag_inside; rewrite En; eexists; reflexivity).
  destruct H as [r2 E3]. rewrite E3 at 1. cbn [app]. rewrite direct_lt.
  rewrite (name_eqb c0 "/" Hc), (name_eqb c0 "!" Hc), (name_eqb c0 "?" Hc) by inlist. cbn [negb andb].
  change (c0 :: r2 ++ ">"%char :: s) with ((c0 :: r2) ++ ">"%char :: s). rewrite <- E3, E1, direct_in by now rewrite <- E1.
  rewrite E2. destruct self; f_equal. lia.
Qed.
Lemma direct_end : forall n p d s, xml_name n ->
  direct_loop p false d (end_tag n ++ s) = direct_loop (Some ">"%char) false (d - 1)%Z s.
Proof.
  intros n p d s Hn. rewrite end_tag_inside. assert (NA := slash_no_angle n Hn). cbn [app]. rewrite direct_lt.
  change (Ascii.eqb "/" "/") with true. cbn iota.
  destruct (name_first n Hn) as [c0 [r0 [En _]]].
  destruct (exists_last (l := n)) as [x [c E]]; [intros ->; discriminate|].
  assert (Hc : Ascii.eqb c "/" = false).
  { apply ascii_eqb_false. intros ->. assert (K : In "/"%char n) by (rewrite E; apply in_or_app; simpl; auto).
    apply (proj1 (Forall_forall _ _) (name_all n Hn)) in K. apply (name_byte_not _ "/" K); [inlist|reflexivity]. }
  rewrite E in *. change ("/"%char :: (x ++ [c]) ++ ">"%char :: s) with ((("/"%char :: x) ++ [c]) ++ ">"%char :: s).
  rewrite direct_in by exact NA. now rewrite Hc.
Qed.
Lemma direct_misc : forall b p d s, misc_body b ->
  direct_loop p false d ((bs "<!" ++ b ++ bs ">") ++ s) = direct_loop (Some ">"%char) false d s.
Proof.
  intros b p d s Hb. rewrite misc_inside. assert (NA := bang_no_angle b Hb). cbn [app]. rewrite direct_lt.
  change (Ascii.eqb "!" "/") with false. change (Ascii.eqb "!" "!") with true. cbn [negb andb]. cbn iota.
  assert (H : exists x c, b = x ++ [c] /\ Ascii.eqb c "/" = false).
  { destruct Hb as [[c [-> _]]|[c [-> _]]].
    - exists (bs "--" ++ c ++ bs "-"), "-"%char. split; [now rewrite <- !app_assoc|reflexivity].
    - exists (bs "[CDATA[" ++ c ++ bs "]"), "]"%char. split; [now rewrite <- !app_assoc|reflexivity]. }
  destruct H as [x [c [E Hc]]]. rewrite E in *.
  change ("!"%char :: (x ++ [c]) ++ ">"%char :: s) with ((("!"%char :: x) ++ [c]) ++ ">"%char :: s).
  rewrite direct_in by exact NA. now rewrite Hc.
Qed.
Definition own (nd : node) : bytes := match nd with Text t => t | _ => [] end.
Lemma direct_node : forall nd, good nd -> forall p d s, (0 <= d)%Z -> exists p',
  direct_loop p false d (node_text nd ++ s) = (if (d =? 0)%Z then own nd else []) ++ direct_loop p' false d s.
Proof.
  induction nd as [n a self kids IH|t|b] using node_ind'; intros G p d s Hd; inversion G as [? ? ? ? N A S K|? T|? M]; subst.
  - cbn [node_text own]. exists (Some ">"%char). rewrite <- app_assoc, direct_start by auto.
    replace (if (d =? 0)%Z then [] else []) with (@nil ascii) by now destruct (d =? 0)%Z. cbn [app].
    destruct self; [reflexivity|]. rewrite <- app_assoc.
    assert (L : forall r q, exists q', direct_loop q false (d + 1) (flat_map node_text kids ++ r) = direct_loop q' false (d + 1) r).
    { clear -IH K Hd. induction IH as [|k kids IH1 IH2 IHl]; intros r q; [exists q; reflexivity|]. inversion K as [|? ? K1 K2]; subst.
      cbn [flat_map]. rewrite <- !app_assoc.
      destruct (IH1 K1 q (d + 1)%Z (flat_map node_text kids ++ r)) as [q1 E1]; [lia|]. rewrite E1.
      destruct (IHl K2 r q1) as [q2 E2]. exists q2. rewrite E2. rewrite (proj2 (Z.eqb_neq (d + 1) 0)) by lia. reflexivity. }
    destruct (L (end_tag n ++ s) (Some ">"%char)) as [q E]. rewrite E, direct_end by auto. f_equal. lia.
  - now apply direct_out.
  - cbn [node_text own]. exists (Some ">"%char). rewrite direct_misc by auto. now destruct (d =? 0)%Z.
Qed.
Lemma extract_direct_forest : forall F, Forall good F -> extract_direct (forest_text F) = trim_space (own_text F).
Proof.
  intros F G. unfold extract_direct. f_equal. generalize (@None ascii) as p.
  unfold forest_text, own_text. induction G as [|nd F G1 G2 IH]; intros p; auto. cbn [flat_map].
  destruct (direct_node nd G1 p 0%Z (flat_map node_text F)) as [q E]; [lia|]. rewrite E. cbn [Z.eqb].
  rewrite IH. reflexivity.
Qed.

Lemma same_chars : forall nd nd', same nd nd' -> node_chars nd = node_chars nd'.
Proof.
  induction nd as [n a self kids IH|t|b] using node_ind'; intros nd' H; inversion H as [? ? ? ? ? kids' P K| |]; subst; auto.
  cbn [node_chars]. clear -IH K. revert kids' K. induction IH as [|k kids IH1 IH2 IHl]; intros kids' K; inversion K; subst; auto.
  cbn [flat_map]. f_equal; auto.
Qed.
Lemma same_all_text : forall F F', Forall2 same F F' -> all_text F = all_text F'.
Proof. unfold all_text. induction 1; auto. cbn [flat_map]. f_equal; auto using same_chars. Qed.
Lemma same_own_text : forall F F', Forall2 same F F' -> own_text F = own_text F'.
Proof.
  unfold own_text. induction 1 as [|nd nd' F F' H1 H2 IH]; auto. cbn [flat_map]. rewrite IH. f_equal. now inversion H1.
Qed.

(** ** Names *)
Lemma split_colon_first : forall s, split_colon s = split_first ":" s.
Proof. induction s as [|c s IH]; auto. cbn [split_colon split_first]. rewrite IH. reflexivity. Qed.
Lemma name_prefix : forall p l, xml_name (qualified p l) -> ~ In ":"%char p -> len p <= 256 -> good_prefix p.
Proof.
  intros p l H1 H2 H3. constructor; auto. intros c Hc.
  assert (B : name_byte c) by (apply (proj1 (Forall_forall _ _) (name_all _ H1)); apply in_or_app; auto).
  destruct B as [B|[B|B]].
  - unfold letter in B. lia.
  - unfold digit in B. lia.
  - cbn in B. repeat (destruct B as [<-|B]; [cbn; lia|]). easy.
Qed.
Lemma bool_iff : forall a b : bool, (a = true <-> b = true) -> a = b.
Proof. intros [|] [|] [H1 H2]; auto; try (symmetry; auto); auto. Qed.
Lemma selects_match : forall step name, step_name step -> xml_name name ->
  seg_matches (elem_seg step) name = selects step name.
Proof.
  intros step name [_ Hs] Hn. apply bool_iff. unfold selects. rewrite orb_true_iff, bytes_eqb_eq, !split_colon_first.
  destruct Hs as [Hs|[p [l [Hp [G ->]]]]].
  - rewrite ns_match_unprefixed by (intros p l _ ->; apply Hs; apply in_or_app; simpl; auto).
    rewrite (proj2 (split_first_none _ _) Hs). split.
    + intros [H|[p [G ->]]]; auto. right. rewrite (proj2 (split_first_spec ":" (qualified p step) p step)) by (split; [reflexivity|apply G]).
      rewrite bytes_eqb_refl, andb_true_r. apply Nat.leb_le. apply G.
    + intros [H|H]; auto. destruct (split_first ":" name) as [[p l]|] eqn:E; [|discriminate].
      apply split_first_spec in E. destruct E as [-> E]. apply andb_true_iff in H. destruct H as [H1 H2].
      apply Nat.leb_le in H1. apply bytes_eqb_eq in H2. subst l. right. exists p. split; auto.
      eapply name_prefix; eauto.
  - rewrite ns_match_prefixed by auto. split; [auto|]. intros [H|H]; auto.
    rewrite (proj2 (split_first_spec ":" (qualified p l) p l)) in H by (split; [reflexivity|apply G]). discriminate.
Qed.
