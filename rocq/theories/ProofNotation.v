(** The scanner sees the tree, however its tags are written. *)
From Coq Require Import List Ascii String NArith ZArith Bool Lia Permutation.
From Verif Require Import GoStr ModelParser ModelPath ModelResult ModelQuery SpecText SpecPath SpecTree SpecQuery SpecValid SpecNotation
  ProofBase ProofEscape ProofPath ProofScan ProofSyntax ProofTree ProofTree2 ProofTree3 ProofTree4.
Import ListNotations.

Scheme written_mut := Induction for written Sort Prop with written_all_mut := Induction for written_all Sort Prop.
Combined Scheme written_both from written_mut, written_all_mut.

Lemma blank_ws : forall c, blank c -> is_ws c = true.
Proof. intros c H. unfold blank in H. cbn [In] in H. destruct H as [<-|[<-|[<-|[<-|[]]]]]; reflexivity. Qed.
Lemma skip_blanks : forall w s, blanks w -> skip_ws (w ++ s) = skip_ws s.
Proof. induction 1 as [|c w H1 H2 IH]; auto. cbn [app skip_ws]. now rewrite blank_ws. Qed.
Lemma blank_delim : forall c ds, blank c -> (forall d, In d ws_chars -> In d ds) -> mem c ds = true.
Proof.
  intros c ds H K. apply mem_In. apply K. unfold blank in H. cbn [In] in H. cbn.
  destruct H as [<-|[<-|[<-|[<-|[]]]]]; auto.
Qed.
Lemma read_name_blanks : forall n w d s, xml_name n -> blanks w -> mem d attr_delims = true ->
  read_until_any attr_delims (n ++ w ++ d :: s) = (n, w ++ d :: s).
Proof.
  intros n w d s Hn Hw Hd. destruct Hw as [|c w H1 H2]; cbn [app].
  - apply read_name; auto. intros x. inlist.
  - apply read_name; auto; [|intros x; inlist]. apply blank_delim; auto. intros x. cbn. tauto.
Qed.
Lemma decodes_unescape : forall t s, Decodes t s -> unescape_xml t = s.
Proof. intros t s H. eapply decodes_fun; eauto using unescape_decodes. Qed.
Lemma parse_attrs_as : forall a s0, attrs_as a s0 -> forall n acc s, Forall xml_name (map fst a) ->
  NoDup (map fst (acc ++ a)) -> (List.length a <= n)%nat -> tag_end s ->
  parse_attrs_loop n acc (s0 ++ s) = (acc ++ a, s).
Proof.
  induction 1 as [w Hw|k v a w1 w2 w3 q x s0 W1 W2 W3 Q1 Q2 Q3 D H IH]; intros n acc s H1 H3 H4 Hs.
  - rewrite app_nil_r. destruct Hs as [c [r [-> Hc]]].
    assert (K : skip_ws (w ++ c :: r) = c :: r) by (rewrite skip_blanks by auto; destruct Hc; subst; reflexivity).
    destruct n as [|n]; cbn [parse_attrs_loop]; rewrite K; auto.
    destruct Hc; subst; reflexivity.
  - cbn [map fst] in H1. inversion H1 as [|? ? N1 N2]; subst.
    destruct n as [|n]; [cbn [List.length] in H4; lia|].
    rewrite <- !app_assoc. cbn [app]. rewrite <- !app_assoc. cbn [app]. rewrite <- !app_assoc. cbn [app parse_attrs_loop].
    set (R := s0 ++ s) in *.
    destruct (name_first k N1) as [c [r [Ek Hc]]].
    assert (S1 : skip_ws (w1 ++ k ++ w2 ++ "="%char :: w3 ++ q :: x ++ q :: R) = k ++ w2 ++ "="%char :: w3 ++ q :: x ++ q :: R).
    { rewrite skip_blanks by auto. rewrite Ek. cbn [app]. now rewrite skip_ws_name. }
    rewrite S1. clear S1.
    assert (S2 : read_until_any attr_delims (k ++ w2 ++ "="%char :: w3 ++ q :: x ++ q :: R) = (k, w2 ++ "="%char :: w3 ++ q :: x ++ q :: R)).
    { now apply read_name_blanks. }
    rewrite S2. clear S2. rewrite Ek at 1. cbn [app].
    assert (S3 : forall (X : Type) (x y : X), (if Ascii.eqb c ">" || Ascii.eqb c "/" then x else y) = y).
    { intros X x0 y. rewrite (name_eqb c ">" Hc), (name_eqb c "/" Hc) by inlist. reflexivity. }
    rewrite S3. clear S3. rewrite Ek at 1. rewrite skip_blanks by auto. cbn [skip_ws]. change (is_ws "=") with false. cbn iota. cbn [peek next].
    change (negb (Ascii.eqb "=" "=")) with false. cbn iota. rewrite skip_blanks by auto.
    assert (S6 : skip_ws (q :: x ++ q :: R) = q :: x ++ q :: R) by (destruct Q1; subst; reflexivity). rewrite S6. clear S6.
    cbn [peek next]. assert (S7 : (Ascii.eqb q dquote || Ascii.eqb q squote) = true) by (destruct Q1; subst; reflexivity).
    rewrite S7. clear S7.
    assert (S4 : read_until q (x ++ q :: R) = (x, q :: R)).
    { unfold read_until. apply read_stop_token; auto using Ascii.eqb_refl.
      apply Forall_forall. intros y Hy. apply ascii_eqb_false. now intros <-. }
    rewrite S4. cbn [next]. rewrite (decodes_unescape _ _ D), map_set_new.
    2:{ intros K. rewrite map_app in H3. cbn [map fst] in H3. apply NoDup_remove_2 in H3. apply H3. apply in_or_app. now left. }
    unfold R. rewrite IH; auto.
    + now rewrite <- app_assoc.
    + rewrite <- app_assoc. exact H3.
    + cbn [List.length] in H4. lia.
Qed.

Lemma parse_attributes_as : forall a t s, tag_as a t -> good_attrs a -> tag_end s -> parse_attributes (t ++ s) = (a, s).
Proof. intros a t s [H _] [H1 H2 H3 H4] Hs. unfold parse_attributes. now rewrite (parse_attrs_as a). Qed.
Lemma tag_as_head : forall a t s, tag_as a t -> tag_end s -> exists c r, t ++ s = c :: r /\ mem c name_delims = true.
Proof.
  intros a t s [_ [->|[c [r [-> Hc]]]]] Hs.
  - destruct Hs as [c [r [-> Hc]]]. exists c, r. split; auto. destruct Hc; subst; reflexivity.
  - exists c, (r ++ s). split; auto. apply blank_delim; auto. intros x. cbn. tauto.
Qed.
Definition shut (self : bool) : bytes := if self then bs "/>" else bs ">".
Lemma tag_end_shut : forall self s, tag_end (shut self ++ s).
Proof. intros [] s; eexists _, _; split; try reflexivity; auto. Qed.
Lemma parse_element_name_as : forall n a t (self : bool) s, xml_name n -> good_attrs a -> tag_as a t ->
  parse_element_name (n ++ t ++ shut self ++ s) = (n, a, self, s).
Proof.
  intros n a t self s Hn Ha Ht. unfold parse_element_name.
  destruct (tag_as_head a t _ Ht (tag_end_shut self s)) as [c [r [E Hc]]]. rewrite E.
  rewrite read_name; auto; [|intros d; inlist]. rewrite <- E, (parse_attributes_as a); auto using tag_end_shut.
  destruct self; reflexivity.
Qed.

(** ** Names of end tags *)
Lemma blank_space : forall c, blank c -> ascii_space c = true.
Proof. intros c H. unfold blank in H. cbn [In] in H. destruct H as [<-|[<-|[<-|[<-|[]]]]]; reflexivity. Qed.
Lemma trim_left_rev_blanks : forall w s, blanks w -> trim_left_rev (w ++ s) = trim_left_rev s.
Proof. induction 1 as [|c w H1 H2 IH]; auto. cbn [app trim_left_rev]. now rewrite blank_space. Qed.
Lemma name_not_space : forall c, name_byte c -> ascii_space c = false.
Proof.
  intros c H. unfold name_byte, letter, digit in H. unfold ascii_space, in_range, code.
  assert (K : (33 <= N_of_ascii c < 128)%N).
  { destruct H as [H|[H|H]]; [lia|lia|]. cbn [In bs list_ascii_of_string] in H.
    repeat (destruct H as [<-|H]; [vm_compute; split; congruence|]). destruct H. }
  apply orb_false_iff. split; [|apply N.eqb_neq; lia]. apply andb_false_iff. right. apply N.leb_gt. lia.
Qed.
Lemma name_ascii : forall c, name_byte c -> (code c < 128)%N.
Proof.
  intros c H. unfold name_byte, letter, digit in H. unfold code.
  destruct H as [H|[H|H]]; [lia|lia|]. cbn [In bs list_ascii_of_string] in H.
  repeat (destruct H as [<-|H]; [vm_compute; congruence|]). destruct H.
Qed.
Lemma trim_left_name : forall c s, name_byte c -> trim_left (c :: s) = c :: s.
Proof.
  intros c s H. cbn [trim_left]. rewrite name_not_space by auto. pose proof (name_ascii c H) as L.
  destruct s as [|b s]; auto. unfold uni_space2. rewrite (proj2 (N.eqb_neq (code c) 194)) by lia.
  destruct s as [|x s]; auto. unfold uni_space3.
  rewrite (proj2 (N.eqb_neq (code c) 225)), (proj2 (N.eqb_neq (code c) 226)), (proj2 (N.eqb_neq (code c) 227)) by lia. reflexivity.
Qed.
Lemma close_name_blanks : forall n w, xml_name n -> blanks w -> close_name (n ++ w) = n.
Proof.
  intros n w Hn Hw. rewrite <- (close_name_name n Hn) at 2. unfold close_name. f_equal. unfold trim_space.
  destruct (name_first n Hn) as [c [r [E Hc]]].
  assert (L : trim_left (n ++ w) = n ++ w) by (rewrite E; cbn [app]; now apply trim_left_name).
  assert (L2 : trim_left n = n) by (rewrite E; now apply trim_left_name).
  rewrite L, L2. unfold trim_right. rewrite rev_app_distr, trim_left_rev_blanks; auto. now apply Forall_rev.
Qed.
Lemma read_end_blanks : forall n w s, xml_name n -> blanks w -> small (n ++ w) ->
  read_until ">" (n ++ w ++ ">"%char :: s) = (n ++ w, ">"%char :: s).
Proof.
  intros n w s Hn Hw L. unfold read_until. rewrite app_assoc. apply read_stop_token; auto.
  apply Forall_app. split.
  - eapply Forall_impl; [|apply name_all; eauto]. intros c Hc. rewrite ascii_eqb_sym. apply name_eqb; auto. inlist.
  - eapply Forall_impl; [|exact Hw]. intros c Hc. unfold blank in Hc. cbn [In] in Hc. destruct Hc as [<-|[<-|[<-|[<-|[]]]]]; reflexivity.
Qed.

(** ** Contents *)
Section Contents.
  Variable ord : order.
  Hypothesis Hord : forall k l, Permutation l (ord k l).
  Variable key : list nat.
  Variable ename : bytes.
  Notation C := (contents ord key ename).
  Lemma contents_start_as : forall n a x (self : bool) d s t r, xml_name n -> good_attrs a -> tag_as a x ->
    C (if negb self && bytes_eqb n ename then S (S d) else S d) s t r ->
    exists a', Permutation a a' /\ C (S d) ("<"%char :: n ++ x ++ shut self ++ s) (start_tag n a' self ++ t) r.
  Proof.
    intros n a x self d s t r Hn Ha Hx [f H].
    exists (ord (List.length ("<"%char :: n ++ x ++ shut self ++ s) :: key) a). split; auto. exists (S f).
    destruct (name_first n Hn) as [c [n' [En Hc]]].
    set (k := List.length ("<"%char :: n ++ x ++ shut self ++ s) :: key).
    assert (E : n ++ x ++ shut self ++ s = c :: n' ++ x ++ shut self ++ s)
      by (rewrite En; reflexivity).
    cbn [content_loop]. change (Ascii.eqb "<" "<") with true. cbn iota.
    rewrite E. rewrite (name_eqb c "/" Hc), (name_eqb c "!" Hc) by inlist. rewrite <- E. fold k.
    destruct (tag_as_head a x _ Hx (tag_end_shut self s)) as [x1 [y [E2 Hx1]]]. rewrite E2.
    rewrite read_name; auto; [|intros q; inlist]. rewrite <- E2, (parse_attributes_as a); auto using tag_end_shut.
    rewrite start_tag_split. cbn [app]. rewrite <- !app_assoc.
    destruct self; cbn [shut bs list_ascii_of_string app peek next negb andb] in *;
      change (Ascii.eqb "/" "/") with true; change (Ascii.eqb ">" "/") with false; change (Ascii.eqb ">" ">") with true;
      cbn iota; cbn [peek next negb andb]; change (Ascii.eqb ">" ">") with true; cbn iota; rewrite H;
      rewrite write_attrs_text, <- ?app_assoc; reflexivity.
  Qed.
  Lemma contents_end_as : forall n w d s t r, xml_name n -> blanks w -> small (n ++ w) ->
    C (S d) s t r -> C (if bytes_eqb n ename then S (S d) else S d) ("<"%char :: "/"%char :: n ++ w ++ ">"%char :: s) (end_tag n ++ t) r.
  Proof.
    intros n w d s t r Hn Hw L [f H]. exists (S f). rewrite !end_tag_split.
    assert (G : forall d2, (if bytes_eqb n ename then d2 else S d2) = S d ->
      content_loop ord key (S f) ename (S d2) ("<"%char :: "/"%char :: n ++ w ++ ">"%char :: s) =
      Some ("<"%char :: "/"%char :: n ++ ">"%char :: t, r)).
    { intros d2 E. cbn [content_loop]. change (Ascii.eqb "<" "<") with true. change (Ascii.eqb "/" "/") with true. cbn iota.
      rewrite read_end_blanks, close_name_blanks; auto. cbn [next]. rewrite E, H. reflexivity. }
    destruct (bytes_eqb n ename) eqn:E; apply G; reflexivity.
  Qed.
  Lemma contents_stop_as : forall w s, xml_name ename -> blanks w -> small (ename ++ w) ->
    C 1 ("<"%char :: "/"%char :: ename ++ w ++ ">"%char :: s) [] s.
  Proof.
    intros w s Hn Hw L. exists 1. cbn [content_loop].
    change (Ascii.eqb "<" "<") with true. change (Ascii.eqb "/" "/") with true. cbn iota.
    rewrite read_end_blanks, close_name_blanks, bytes_eqb_refl; auto.
  Qed.
  Lemma contents_written :
    (forall nd x, written nd x -> good nd -> forall d s t r, C (S d) s t r ->
       exists nd', same nd nd' /\ C (S d) (x ++ s) (node_text nd' ++ t) r) /\
    (forall F x, written_all F x -> Forall good F -> forall d s t r, C (S d) s t r ->
       exists F', Forall2 same F F' /\ C (S d) (x ++ s) (forest_text F' ++ t) r).
  Proof.
    apply written_both.
    - intros n a kids t x w Ht _ IH Hw L G d s t0 r H. inversion G as [? ? ? ? G1 G2 G3 G4| |]; subst.
      pose proof (contents_end_as n w d s t0 r G1 Hw L H) as H1.
      assert (exists d', (if bytes_eqb n ename then S (S d) else S d) = S d') as [d' E] by (destruct (bytes_eqb n ename); eauto).
      rewrite E in H1. destruct (IH G4 _ _ _ _ H1) as [kids' [K1 K2]]. rewrite <- E in K2.
      destruct (contents_start_as n a t false d _ _ r G1 G2 Ht K2) as [a' [P1 P2]].
      exists (Elem n a' false kids'). split; [constructor; auto|]. cbn [node_text].
      rewrite <- !app_assoc in *. cbn [bs list_ascii_of_string app shut] in *. exact P2.
    - intros n a t Ht G d s t0 r H. inversion G as [? ? ? ? G1 G2 G3 G4| |]; subst.
      destruct (contents_start_as n a t true d s t0 r G1 G2 Ht H) as [a' [P1 P2]]. exists (Elem n a' true []).
      split; [constructor; auto|]. cbn [node_text]. rewrite <- ?app_assoc in *. rewrite ?app_nil_r. cbn [bs list_ascii_of_string app shut] in *. exact P2.
    - intros x G d s t r H. exists (Text x). split; [constructor|]. cbn [node_text]. apply contents_text; auto. inversion G as [|? [K _]|]; auto.
    - intros b G d s t r H. exists (Misc b). split; [constructor|]. cbn [node_text]. rewrite <- !app_assoc. apply contents_misc; auto. now inversion G.
    - intros _ d s t r H. exists []. split; auto.
    - intros nd F x y _ IH1 _ IH2 G d s t r H. inversion G as [|? ? J1 J2]; subst.
      destruct (IH2 J2 _ _ _ _ H) as [F' [P1 P2]]. destruct (IH1 J1 _ _ _ _ P2) as [nd' [P3 P4]].
      exists (nd' :: F'). split; [constructor; auto|]. unfold forest_text in *. cbn [flat_map]. now rewrite <- !app_assoc.
  Qed.
  Lemma parse_content_written : forall F x w s, xml_name ename -> Forall good F -> written_all F x -> blanks w -> small (ename ++ w) ->
    exists F', Forall2 same F F' /\
      parse_content ord key ename (x ++ "<"%char :: "/"%char :: ename ++ w ++ ">"%char :: s) = Some (forest_text F', s).
  Proof.
    intros F x w s Hn G H Hw L. destruct (proj2 contents_written F x H G _ _ _ _ (contents_stop_as w s Hn Hw L)) as [F' [P1 P2]].
    exists F'. split; auto. apply contents_eq. now rewrite app_nil_r in P2.
  Qed.
End Contents.

(** ** Elements *)
Section Elements.
  Variable E : env.
  Hypothesis Hord : forall k l, Permutation l (e_ord E k l).
  Lemma scan_step : forall key s n a (self : bool) body c rest es,
    skip_to_next s = Some (Some s) -> parse_element_name (next s) = (n, a, self, body) ->
    (if self then c = [] /\ rest = body else parse_content (e_ord E) key n body = Some (c, rest)) ->
    scan (e_ord E) key rest = Some es -> scan (e_ord E) key s = Some (mkElem n a self c s body rest :: es).
  Proof.
    intros key s n a self body c rest es SK PE PC H1. unfold scan in H1.
    apply (scan_any _ _ (Datatypes.S (Datatypes.S (len rest)))). remember (Datatypes.S (len rest)) as f.
    cbn [scan_loop]. rewrite SK, PE. destruct self.
    - destruct PC as [-> ->]. now rewrite H1.
    - rewrite PC. now rewrite H1.
  Qed.
  Lemma scan_written : forall key F x, written_all F x -> Forall good F ->
    exists es, scan (e_ord E) key x = Some es /\ Forall2 shows (elems F) es.
  Proof.
    intros key. induction 1 as [|nd F x y H1 H2 IH]; intros G.
    - exists []. split; [reflexivity|constructor].
    - inversion G as [|? ? G1 G2]; subst. destruct (IH G2) as [es [E1 E2]].
      inversion H1 as [n a kids t xs w Ht Hk Hw L|n a t Ht|t|b]; subst.
      + inversion G1 as [? ? ? ? N A S K| |]; subst.
        destruct (parse_content_written (e_ord E) Hord key n kids xs w y N K Hk Hw L) as [kids' [P1 P2]].
        exists (mkElem n a false (forest_text kids') (bs "<" ++ n ++ t ++ shut false ++ xs ++ "<"%char :: "/"%char :: n ++ w ++ ">"%char :: y)
          (xs ++ "<"%char :: "/"%char :: n ++ w ++ ">"%char :: y) y :: es). split.
        * rewrite <- !app_assoc. apply scan_step; auto.
          { apply (skip_any 1). destruct (name_first n N) as [c [r [-> Hc]]]. cbn [bs list_ascii_of_string app skip_next_loop].
            change (Ascii.eqb "<" "<") with true. cbn iota.
            rewrite (name_eqb c "!" Hc), (name_eqb c "?" Hc), (name_eqb c "/" Hc) by inlist. reflexivity. }
          cbn [bs list_ascii_of_string app next]. change (">"%char :: xs ++ "<"%char :: "/"%char :: n ++ w ++ ">"%char :: y) with
            (shut false ++ xs ++ "<"%char :: "/"%char :: n ++ w ++ ">"%char :: y). now apply parse_element_name_as.
        * unfold elems in *. cbn [filter is_elem]. constructor; auto. constructor; auto. exists kids'. auto.
      + inversion G1 as [? ? ? ? N A S K| |]; subst.
        exists (mkElem n a true [] (bs "<" ++ n ++ t ++ shut true ++ y) y y :: es). split.
        * rewrite <- !app_assoc. apply scan_step; auto.
          { apply (skip_any 1). destruct (name_first n N) as [c [r [-> Hc]]]. cbn [bs list_ascii_of_string app skip_next_loop].
            change (Ascii.eqb "<" "<") with true. cbn iota.
            rewrite (name_eqb c "!" Hc), (name_eqb c "?" Hc), (name_eqb c "/" Hc) by inlist. reflexivity. }
          cbn [bs list_ascii_of_string app next]. change ("/"%char :: ">"%char :: y) with (shut true ++ y). now apply parse_element_name_as.
        * unfold elems in *. cbn [filter is_elem]. constructor; auto. constructor; auto. exists []. split; [constructor|reflexivity].
      + exists es. split; [|exact E2]. inversion G1; subst. rewrite scan_skip; auto. apply skippable_text. match goal with H : no_angle _ |- _ => apply H end.
      + exists es. split; [|exact E2]. inversion G1; subst. rewrite scan_skip; auto. now apply skippable_misc.
  Qed.
  Lemma reads_written : forall p F x, prolog p -> written_all F x -> Forall good F -> reads E (p ++ x) F.
  Proof. intros p F x Hp H G key. rewrite scan_skip by (now apply skippable_prolog). now apply scan_written. Qed.
  Lemma reads_same : forall F F' s, Forall2 same F F' -> Forall good F -> reads E s F' -> reads E s F.
  Proof.
    intros F F' s HS G H key. destruct (H key) as [es [H1 H2]]. exists es. split; auto.
    apply same_elems in HS. apply good_elems in G. clear H H1.
    revert es H2 G. induction HS as [|nd nd' l l' S1 S2 IH]; intros es H2 G; inversion H2; subst; auto.
    inversion G; subst. constructor; auto. eapply shows_same; eauto.
  Qed.
End Elements.

(** The canonical text is one of the ways. *)
Lemma esc_small_as : forall a, good_attrs a -> tag_as a (attrs_text a).
Proof.
  intros a [H1 H2 H3 H4]. split.
  - clear H1 H2 H3. induction H4 as [|[k v] a V H IH].
    + apply (aa_none []). constructor.
    + unfold attrs_text in *. cbn [flat_map]. unfold attr_text at 1. cbn [fst snd]. rewrite <- !app_assoc. cbn [app].
      apply (aa_one k v a (bs " ") [] [] dquote (esc v)); auto; try (now constructor).
      * constructor; [now left|constructor].
      * intros K. now apply esc_In in K.
      * rewrite esc_escape. apply escape_decodes.
  - destruct a as [|p a]; [now left|]. right. eexists _, _. split; [reflexivity|]. now left.
Qed.
Lemma forest_written : forall F, Forall good F -> written_all F (forest_text F).
Proof.
  assert (W : forall nd, good nd -> written nd (node_text nd)).
  { induction nd as [n a self kids IH|x|b] using node_ind'; intros G; [|constructor|constructor].
    inversion G as [? ? ? ? N A S K| |]; subst. cbn [node_text]. destruct self.
    - rewrite (S eq_refl). rewrite app_nil_r. apply (wr_self n a). now apply esc_small_as.
    - unfold start_tag, end_tag. rewrite <- !app_assoc. apply (wr_elem n a kids (attrs_text a) (flat_map node_text kids) []);
        [now apply esc_small_as| |constructor|rewrite app_nil_r; now apply name_small].
      clear - IH K. induction IH as [|k kids I1 I2 I3]; [constructor|]. inversion K; subst. cbn [flat_map]. constructor; auto. }
  induction 1 as [|nd F G1 G2 IH]; [constructor|]. unfold forest_text in *. cbn [flat_map]. constructor; auto.
Qed.
