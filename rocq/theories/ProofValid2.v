(** The validator on canonical text, and the positions of its errors. *)
From Coq Require Import List Ascii String NArith ZArith Bool Lia.
From Verif Require Import GoStr ModelParser ModelValidate SpecText SpecPath SpecTree SpecQuery SpecValid
  ProofBase ProofScan ProofTree ProofTree2 ProofTree3 ProofEdit ProofValid.
Import ListNotations.

Lemma attributes_text : forall a, Forall xml_name (map fst a) -> Forall (fun p => small (esc (snd p))) a -> attributes (len a) (attrs_text a).
Proof.
  induction a as [|[n v] a IH]; intros N V; [constructor; constructor|]. cbn [map fst] in N. inversion N; subst. inversion V; subst.
  assert (E : attrs_text ((n, v) :: a) = [" "%char] ++ n ++ [] ++ "="%char :: [] ++ dquote :: esc v ++ dquote :: attrs_text a).
  { unfold attrs_text. cbn [flat_map]. unfold attr_text at 1. cbn [fst snd]. rewrite <- !app_assoc. reflexivity. }
  rewrite E. cbn [List.length]. apply at_one; auto.
  - repeat constructor.
  - constructor.
  - constructor.
  - intros K. now apply esc_In in K.
Qed.
Lemma tag_attributes_text : forall a, good_attrs a -> tag_attributes (len a) (attrs_text a).
Proof.
  intros a [A1 A2 A3 A4]. split; [now apply attributes_text|]. destruct a as [|p a]; [now left|]. right. eexists _, _. split; [reflexivity|]. now left.
Qed.
Lemma misc_aside : forall b, misc_body b -> aside ("<"%char :: "!"%char :: b ++ bs ">").
Proof.
  intros b [[c [-> [_ C]]]|[c [-> C]]].
  - rewrite <- !app_assoc. exact (as_comment c C).
  - rewrite <- !app_assoc. apply (as_cdata c). intros x y H. destruct C as [_ C].
    assert (I : In ">"%char (c ++ bs "]]")) by (rewrite H, !in_app_iff; right; left; cbn; auto).
    apply in_app_iff in I. destruct I as [I|I]; auto. cbn in I. intuition discriminate.
Qed.

Definition st_of (s : bytes) (stack : list (bytes * bytes)) (found : bool) : vstate :=
  mkV s stack found (match stack with [] => found | _ => false end).
Lemma yields_blanks : forall w s stack found closed x, blanks w -> yields (mkV s stack found closed) x -> yields (mkV (w ++ s) stack found closed) x.
Proof. intros w s stack found closed x H. induction H; intros Y; cbn [app]; auto. apply yields_blank; auto. Qed.
Lemma yields_text : forall t s stack x, ~ In "<"%char t -> yields (mkV s stack true false) x -> yields (mkV (t ++ s) stack true false) x.
Proof.
  induction t as [|c t IH]; intros s stack x H Y; [exact Y|]. cbn [app]. apply yields_char; [intros ->; apply H; now left|].
  apply IH; auto. intros K. apply H. now right.
Qed.
Lemma yields_aside : forall m s stack found closed x, aside m -> yields (mkV s stack found closed) x -> yields (mkV (m ++ s) stack found closed) x.
Proof.
  intros m s stack found closed x A Y. destruct (aside_head m A) as [m' ->]. cbn [app]. eapply yields_tag; [apply v_tag_aside; exact A|]. exact Y.
Qed.
Lemma yields_error : forall s stack found closed e, v_tag (mkV ("<"%char :: s) stack found closed) ("<"%char :: s) s = inl e ->
  yields (mkV ("<"%char :: s) stack found closed) (inl e).
Proof.
  intros s stack found closed e H. exists 1. cbn [v_loop v_rest]. rewrite skip_ws_none by (intros B; apply (blank_eq _ "<" B); cbn; auto).
  change (Ascii.eqb "<" "<") with true. cbn iota. now rewrite H.
Qed.
Definition fails (st : vstate) : Prop := exists e, yields st (inl e).
Definition passes (st st' : vstate) : Prop := forall x, yields st' x -> yields st x.
Lemma passes_fails : forall st st', passes st st' -> fails st' -> fails st.
Proof. intros st st' H [e F]. exists e. auto. Qed.
(** A start tag. *)
Lemma tag_yields : forall n a self s stack found, xml_name n -> good_attrs a -> (stack <> [] -> found = true) ->
  (100 <= len stack /\ fails (st_of (start_tag n a self ++ s) stack found)) \/
  (len stack < 100 /\ exists t, passes (st_of (start_tag n a self ++ s) stack found) (st_of s (if self then stack else (n, t) :: stack) true)).
Proof.
  intros n a self s stack found N A HF. set (d := "<"%char :: n ++ attrs_text a ++ (if self then bs "/>" else bs ">") ++ s).
  assert (E : start_tag n a self ++ s = d) by (unfold d; rewrite start_tag_split; cbn [app]; rewrite <- !app_assoc; reflexivity). rewrite E.
  pose proof (v_open_complete (st_of d stack found) d n (len a) (attrs_text a) self s N (ga_count a A) (tag_attributes_text a A)) as V.
  rewrite <- (tag_char n _ N) in V. unfold st_of in V at 2 3 4 5 6 7 8 9. cbn [v_stack v_root_found v_root_closed] in V.
  destruct (Nat.leb_spec 100 (len stack)) as [L|L].
  - left. split; auto. eexists. apply yields_error. exact V.
  - right. split; auto. exists d. intros x Y. eapply yields_tag; [exact V|]. destruct self.
    + destruct stack; exact Y.
    + destruct stack as [|p stack]; cbn [List.length]; [|rewrite andb_false_r; exact Y]. rewrite andb_true_r. destruct found; exact Y.
Qed.
Lemma close_yields : forall n t s stack, xml_name n -> passes (st_of (end_tag n ++ s) ((n, t) :: stack) true) (st_of s stack true).
Proof.
  intros n t s stack N x Y. unfold end_tag. change (bs "</") with ["<"%char; "/"%char]. cbn [app]. rewrite <- app_assoc. change (bs ">" ++ s) with (">"%char :: s).
  unfold st_of. eapply yields_tag.
  - cbn [v_tag]. change (Ascii.eqb "/" "?") with false. change (Ascii.eqb "/" "!") with false. change (Ascii.eqb "/" "/") with true. cbn iota.
    apply (v_close_complete _ _ n t stack [] s N); [constructor|reflexivity].
  - cbn [v_root_found v_root_closed]. destruct stack; exact Y.
Qed.
Definition depth_of (F : list node) : nat := fold_right (fun k m => Nat.max (levels k) m) 0 F.
Definition verdict (nd : list node) (s : bytes) (stack : list (bytes * bytes)) (found : bool) : Prop :=
  (100 < len stack + depth_of nd /\ fails (st_of (forest_text nd ++ s) stack found)) \/
  (len stack + depth_of nd <= 100 /\ passes (st_of (forest_text nd ++ s) stack found) (st_of s stack (found || existsb is_elem nd))).
Lemma forest_yields : forall F, (forall nd, In nd F -> good nd) ->
  (forall nd, In nd F -> forall s stack found, (stack <> [] -> found = true) -> (stack <> [] \/ top_node nd) -> len stack <= 100 -> verdict [nd] s stack found) ->
  forall s stack found, (stack <> [] -> found = true) -> (stack <> [] \/ Forall top_node F) -> len stack <= 100 -> verdict F s stack found.
Proof.
  induction F as [|nd F IH]; intros G H s stack found HF T L.
  - right. split; [cbn; lia|]. rewrite orb_false_r. intros x Y. exact Y.
  - assert (T1 : stack <> [] \/ top_node nd) by (destruct T as [T|T]; auto; inversion T; auto).
    assert (T2 : stack <> [] \/ Forall top_node F) by (destruct T as [T|T]; auto; inversion T; auto).
    assert (HF2 : stack <> [] -> found || is_elem nd = true) by (intros K; now rewrite (HF K)).
    unfold verdict. rewrite forest_cons, <- app_assoc. cbn [depth_of fold_right existsb]. fold (depth_of F).
    destruct (H nd (or_introl eq_refl) (forest_text F ++ s) stack found HF T1 L) as [[D X]|[D X]]; cbn [depth_of fold_right existsb] in D, X;
      unfold forest_text in X; cbn [flat_map] in X; rewrite app_nil_r in X; fold (forest_text F) in X.
    + left. split; [lia|auto].
    + rewrite orb_false_r in X. destruct (IH (fun x K => G x (or_intror K)) (fun x K => H x (or_intror K)) s stack (found || is_elem nd) HF2 T2 L) as [[D2 Y]|[D2 Y]].
      * left. split; [lia|]. eapply passes_fails; eauto.
      * right. split; [lia|]. intros x Z. apply X. apply Y. now rewrite <- orb_assoc.
Qed.
Lemma node_yields : forall nd, good nd -> forall s stack found, (stack <> [] -> found = true) -> (stack <> [] \/ top_node nd) -> len stack <= 100 ->
  verdict [nd] s stack found.
Proof.
  induction nd as [n a self kids IH|t|b] using node_ind'; intros G s stack found HF T L.
  - inversion G as [? ? ? ? N A S K| |]; subst. unfold verdict. cbn [depth_of fold_right existsb is_elem levels]. fold (depth_of kids).
    unfold forest_text. cbn [flat_map node_text]. rewrite app_nil_r, <- app_assoc. fold (forest_text kids). rewrite !orb_true_r.
    destruct (tag_yields n a self ((if self then [] else forest_text kids ++ end_tag n) ++ s) stack found N A HF) as [[D X]|[D [t X]]].
    + left. split; [lia|auto].
    + destruct self.
      * rewrite (S eq_refl) in *. right. split; [cbn; lia|]. exact X.
      * rewrite <- app_assoc in *. destruct (forest_yields kids (fun x Hx => proj1 (Forall_forall _ _) K x Hx)
          (fun x Hx => proj1 (Forall_forall _ _) IH x Hx (proj1 (Forall_forall _ _) K x Hx)) (end_tag n ++ s) ((n, t) :: stack) true) as [[D2 Y]|[D2 Y]]; auto.
        -- left. discriminate.
        -- left. split; [cbn [List.length] in D2; lia|]. eapply passes_fails; eauto.
        -- right. split; [cbn [List.length] in D2; lia|]. intros x Z. apply X, Y. cbn [orb]. now apply close_yields.
  - right. unfold verdict. cbn [depth_of fold_right existsb is_elem levels]. split; [lia|]. inversion G as [|? NA|]; subst.
    unfold forest_text. cbn [flat_map node_text]. rewrite app_nil_r, !orb_false_r. intros x Y. destruct T as [T|T].
    + rewrite (HF T) in *. destruct stack; [contradiction|]. apply yields_text; auto. apply NA.
    + apply yields_blanks; auto.
  - right. unfold verdict. cbn [depth_of fold_right existsb is_elem levels]. split; [lia|]. inversion G as [| |? M]; subst.
    unfold forest_text. cbn [flat_map node_text]. rewrite app_nil_r, !orb_false_r. intros x Y. apply yields_aside; auto. exact (misc_aside b M).
Qed.
Lemma brackets_none : forall x, (forall c, In c x -> c <> "["%char /\ c <> "]"%char) -> brackets x = 0%Z.
Proof.
  induction x as [|c x IH]; intros H; [reflexivity|]. cbn [brackets]. rewrite IH by (intros d Hd; apply H; now right).
  destruct (H c (or_introl eq_refl)) as [H1 H2]. apply ascii_eqb_false in H1, H2. now rewrite H1, H2.
Qed.
Lemma brackets_app : forall x y, brackets (x ++ y) = (brackets x + brackets y)%Z.
Proof. induction x as [|c x IH]; intros y; [reflexivity|]. cbn [app brackets]. rewrite IH. lia. Qed.
Lemma cut_at : forall (c : ascii) a b x y, a ++ b = x ++ c :: y -> ~ In c a -> exists z, x = a ++ z /\ b = z ++ c :: y.
Proof.
  intros c. induction a as [|d a IH]; intros b x y H N; [exists x; auto|]. destruct x as [|e x].
  - injection H as -> _. exfalso. apply N. now left.
  - injection H as -> H. destruct (IH b x y H) as [z [-> ->]]; [intros K; apply N; now right|]. exists z. auto.
Qed.
Lemma prolog_passes : forall p, strict_prolog p -> forall s, passes (st_of (p ++ s) [] false) (st_of s [] false).
Proof.
  induction 1 as [|x p B P IH|b p B1 B2 P IH|c p C P IH|x p D P IH|x y z p D1 D2 P IH]; intros s w Y.
  - exact Y.
  - rewrite <- app_assoc. apply yields_blanks; auto. now apply IH.
  - rewrite <- !app_assoc. replace (bs "<?" ++ b ++ bs "?>" ++ p ++ s) with ((bs "<?" ++ (b ++ ["?"%char]) ++ bs ">") ++ p ++ s)
      by (rewrite <- !app_assoc; reflexivity).
    apply yields_aside; [|now apply IH]. constructor.
    + intros K. apply in_app_iff in K. destruct K as [K|K]; auto. cbn in K. intuition discriminate.
    + unfold small in *. rewrite !app_length in *. change (len (bs "<?")) with 2 in *. change (len (bs "?")) with 1 in *. cbn [List.length] in *. lia.
  - rewrite <- !app_assoc. replace (bs "<!--" ++ c ++ bs "-->" ++ p ++ s) with ((bs "<!--" ++ c ++ bs "-->") ++ p ++ s)
      by (rewrite <- !app_assoc; reflexivity).
    apply yields_aside; [|now apply IH]. now constructor.
  - rewrite <- !app_assoc. replace (bs "<!DOCTYPE" ++ x ++ bs ">" ++ p ++ s) with ((bs "<!" ++ bs "DOCTYPE" ++ x ++ bs ">") ++ p ++ s)
      by (rewrite <- !app_assoc; reflexivity).
    apply yields_aside; [|now apply IH]. constructor; auto.
    + apply brackets_none. intros c Hc. specialize (D c Hc). cbn in D. split; intros ->; tauto.
    + intros u v E. exfalso. apply (D ">"%char); [rewrite E; apply in_elt|cbn; tauto].
  - rewrite <- !app_assoc. replace (bs "<!DOCTYPE" ++ x ++ bs "[" ++ y ++ bs "]" ++ z ++ bs ">" ++ p ++ s)
      with ((bs "<!" ++ bs "DOCTYPE" ++ (x ++ bs "[" ++ y ++ bs "]" ++ z) ++ bs ">") ++ p ++ s)
      by (rewrite <- !app_assoc; reflexivity).
    assert (X0 : brackets x = 0%Z) by (apply brackets_none; intros c Hc; specialize (D1 c (in_or_app _ _ _ (or_introl Hc))); cbn in D1; split; intros ->; tauto).
    assert (Z0 : brackets z = 0%Z) by (apply brackets_none; intros c Hc; specialize (D1 c (in_or_app _ _ _ (or_intror Hc))); cbn in D1; split; intros ->; tauto).
    assert (Y0 : forall u v, y = u ++ v -> brackets u = 0%Z).
    { intros u v ->. apply brackets_none; intros c Hc; specialize (D2 c (in_or_app _ _ _ (or_introl Hc))); cbn in D2; split; intros ->; tauto. }
    apply yields_aside; [|now apply IH]. constructor; auto.
    + rewrite !brackets_app, X0, Z0, (Y0 y []) by (now rewrite app_nil_r). reflexivity.
    + intros u v E. destruct (cut_at ">" x _ u v E) as [u1 [-> E1]]; [intros K; apply (D1 _ (in_or_app _ _ _ (or_introl K))); cbn; tauto|].
      destruct u1 as [|c u1]; [discriminate|]. change (bs "[" ++ y ++ bs "]" ++ z) with ("["%char :: y ++ bs "]" ++ z) in E1. injection E1 as <- E1.
      rewrite brackets_app, X0. cbn [brackets]. change (Ascii.eqb "[" "[") with true. cbn iota.
      assert (B : brackets u1 = 0%Z).
      { clear - E1 Y0 D1 D2. revert y E1 Y0 D2. induction u1 as [|c u1 IHu]; intros y E1 Y0 D2; [reflexivity|]. destruct y as [|c' y].
        - change (bs "]" ++ z) with ("]"%char :: z) in E1. cbn [app] in E1. injection E1 as <- E1. exfalso. apply (D1 ">"%char); [|cbn; tauto].
          apply in_or_app. right. rewrite E1. apply in_elt.
        - cbn [app] in E1. injection E1 as <- E1. cbn [brackets]. rewrite (IHu y E1).
          + pose proof (Y0 [c'] y eq_refl) as Q. cbn [brackets] in Q. lia.
          + intros a b ->. pose proof (Y0 (c' :: a) b eq_refl) as Q. pose proof (Y0 [c'] (a ++ b) eq_refl) as Q2. cbn [brackets] in Q, Q2. lia.
          + intros d Hd. apply D2. now right. }
      rewrite B. discriminate.
Qed.
Lemma depth_shallow : forall F, depth_of F <= 100 <-> shallow F.
Proof.
  unfold shallow, depth_of. induction F as [|x F IH]; [split; [constructor|cbn; lia]|]. cbn [fold_right]. rewrite Forall_cons_iff, <- IH. lia.
Qed.
Lemma has_element_exists : forall F, has_element F <-> existsb is_elem F = true.
Proof.
  intros F. rewrite existsb_exists. split.
  - intros [n [a [s [k H]]]]. eexists. split; [exact H|reflexivity].
  - intros [x [H E]]. destruct x as [n a s k| |]; try discriminate. exists n, a, s, k. exact H.
Qed.
Lemma forest_nonempty : forall F, has_element F -> forest_text F <> [].
Proof.
  intros F [n [a [s [k H]]]] E. apply in_split in H. destruct H as [F1 [F2 ->]]. rewrite forest_app, forest_cons in E.
  apply app_eq_nil in E. destruct E as [_ E]. cbn [node_text] in E. discriminate.
Qed.
Lemma canonical_valid : forall p F, strict_prolog p -> Forall good F -> Forall top_node F -> has_element F ->
  (N.of_nat (len (p ++ forest_text F)) <= 10485760)%N -> (valid (p ++ forest_text F) = true <-> shallow F).
Proof.
  intros p F P G T HE L.
  assert (V : verdict F [] [] false).
  { apply forest_yields; auto; try (now rewrite <- Forall_forall); try discriminate; cbn; auto; [|lia].
    intros nd Hn. apply node_yields. now apply (proj1 (Forall_forall _ _) G). }
  unfold verdict in V. rewrite app_nil_r in V. cbn [orb List.length] in V. rewrite (proj1 (has_element_exists F) HE) in V.
  pose proof (prolog_passes p P (forest_text F)) as PP.
  unfold valid, validate. change MaxDocumentSize with 10485760%N. rewrite (proj2 (N.ltb_ge 10485760 (blen _)) L).
  destruct (p ++ forest_text F) as [|c d0] eqn:E; [apply app_eq_nil in E; destruct E as [_ E]; now apply forest_nonempty in E|]. rewrite <- E in *. clear c d0 E.
  set (d := p ++ forest_text F) in *. clearbody d.
  destruct (v_loop_total (S (len d)) (mkV d [] false false)) as [x VL]; [cbn [v_rest]; lia|]. rewrite VL.
  destruct V as [[D [e X]]|[D X]].
  - apply PP in X. rewrite (yields_eq _ _ _ _ X VL). split; [discriminate|]. intros SH. apply depth_shallow in SH. lia.
  - assert (Y : yields (st_of [] [] true) (inr (mkV [] [] true true))) by (exists 1; reflexivity).
    apply X, PP in Y. rewrite (yields_eq _ _ _ _ Y VL). cbn. split; auto. intros _. now apply depth_shallow.
Qed.
