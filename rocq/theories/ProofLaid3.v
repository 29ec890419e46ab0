(** The element a path designates in such a text is the one the editor finds. *)
From Coq Require Import List Ascii String NArith ZArith Bool Lia Permutation.
From Verif Require Import GoStr ModelParser ModelPath ModelResult ModelQuery ModelValidate ModelBuilder SpecText SpecPath SpecTree SpecQuery SpecEdit SpecContent SpecValid SpecNotation SpecLaid
  ProofBase ProofEscape ProofPath ProofScan ProofSyntax ProofApi2 ProofTree ProofTree2 ProofTree3 ProofTree4 ProofTree5 ProofTree7 ProofEdit ProofEdit2 ProofEdit3 ProofNotation ProofLaid ProofLaid2.
Import ListNotations.

Record stands (s : nat) (steps : list tstep) (F : list node) (A n : bytes) (a : list (bytes * bytes)) (self : bool) (kids : list node)
  (lv : bool) (e : nat) (t y B : bytes) : Prop := {
  sd_standing : standing true s steps F A (Elem n a self kids) lv e (opening n t self ++ closing n self y) B;
  sd_tag : tagged lv e a t;
  sd_kids : laid_all false 0 kids y;
  sd_self : self = true -> kids = [] /\ y = [] }.
Lemma located_stands : forall steps F A0 n a self kids B0 s x, located steps F A0 (Elem n a self kids) B0 -> Forall good F -> laid_all true s F x ->
  exists s' A lv e t y B, stands s' steps F A n a self kids lv e t y B /\ x = A ++ (opening n t self ++ closing n self y) ++ B /\ s' + e <= s.
Proof.
  intros steps F A0 n a self kids B0 s x L G H. destruct (located_standing _ _ _ _ _ L G _ _ _ H) as [s' [A [lv [e [z [B [S1 [-> [S2 _]]]]]]]]].
  destruct (standing_text _ _ _ _ _ _ _ _ _ _ S1) as [LN _]. destruct (laid_form _ _ _ _ _ _ _ LN) as [t [y [HT [HK [HS ->]]]]].
  exists s', A, lv, e, t, y, B. split; auto. now constructor.
Qed.
Lemma stands_located : forall s steps F A n a self kids lv e t y B, stands s steps F A n a self kids lv e t y B -> exists A0 B0, located steps F A0 (Elem n a self kids) B0.
Proof. intros s steps F A n a self kids lv e t y B [H _ _ _]. destruct (standing_located _ _ _ _ _ _ _ _ _ _ H) as [A0 [B0 [L _]]]. eauto. Qed.
Lemma stands_text : forall s steps F A n a self kids lv e t y B, stands s steps F A n a self kids lv e t y B ->
  laid_all true (s + e) F (A ++ (opening n t self ++ closing n self y) ++ B).
Proof.
  intros s steps F A n a self kids lv e t y B [H _ _ _]. destruct (standing_text _ _ _ _ _ _ _ _ _ _ H) as [_ [_ [s' [L1 L2]]]]. eapply all_more; eauto.
Qed.
Lemma stands_good : forall s steps F A n a self kids lv e t y B, stands s steps F A n a self kids lv e t y B -> Forall good F -> good (Elem n a self kids).
Proof. intros s steps F A n a self kids lv e t y B H G. destruct (stands_located _ _ _ _ _ _ _ _ _ _ _ _ _ H) as [A0 [B0 L]]. now destruct (located_good _ _ _ _ _ L G). Qed.
Lemma stands_swapped : forall s steps F A n a self kids lv e t y B l e' z' F', stands s steps F A n a self kids lv e t y B -> laid_all lv e' l z' ->
  swapped steps F (Elem n a self kids) l F' -> laid_all true (s + e') F' (A ++ z' ++ B).
Proof. intros s steps F A n a self kids lv e t y B l e' z' F' [H _ _ _] L S. eapply replace_laid; eauto. Qed.

Section Find.
  Variable E : env.
  Hypothesis Hord : forall k l, Permutation l (e_ord E k l).
  Lemma scan_elem : forall key lv e n a self kids t y x2 es, good (Elem n a self kids) -> tagged lv e a t -> laid_all false 0 kids y -> (self = true -> kids = [] /\ y = []) ->
    scan (e_ord E) key x2 = Some es -> exists kids', Forall2 same kids kids' /\
    scan (e_ord E) key (opening n t self ++ closing n self y ++ x2) =
      Some (mkElem n a self (forest_text kids') (opening n t self ++ closing n self y ++ x2) (closing n self y ++ x2) x2 :: es).
  Proof.
    intros key lv e n a self kids t y x2 es G1 HT HK HS E1. inversion G1 as [? ? ? ? N A S K| |]; subst.
    assert (SK : skip_to_next (opening n t self ++ closing n self y ++ x2) = Some (Some (opening n t self ++ closing n self y ++ x2))).
    { apply (skip_any 1). unfold opening. destruct (name_first n N) as [c [r [-> Hc]]]. cbn [bs list_ascii_of_string app skip_next_loop].
      change (Ascii.eqb "<" "<") with true. cbn iota.
      rewrite (name_eqb c "!" Hc), (name_eqb c "?" Hc), (name_eqb c "/" Hc) by inlist. reflexivity. }
    assert (PE : parse_element_name (next (opening n t self ++ closing n self y ++ x2)) = (n, a, self, closing n self y ++ x2)).
    { unfold opening. rewrite <- !app_assoc. cbn [bs list_ascii_of_string app next]. change (if self then ["/"%char; ">"%char] else [">"%char]) with (shut self).
      destruct HT as [HT _]. now apply parse_element_name_as. }
    assert (PC : exists kids', Forall2 same kids kids' /\
      if self then forest_text kids' = [] /\ x2 = closing n self y ++ x2 else parse_content (e_ord E) key n (closing n self y ++ x2) = Some (forest_text kids', x2)).
    { destruct self.
      - destruct (HS eq_refl) as [-> ->]. exists []. split; [constructor|]. split; reflexivity.
      - destruct (parse_content_written (e_ord E) Hord key n kids y [] x2 N K (all_written _ _ _ _ HK K) ltac:(constructor) (xml_small n N)) as [kids' [P1 P2]].
        exists kids'. split; auto. cbn [closing]. unfold end_tag. rewrite <- !app_assoc. exact P2. }
    destruct PC as [kids' [P1 P2]]. exists kids'. split; auto. apply (scan_step E key); auto.
  Qed.
  Lemma scan_before : forall key lv s F x, laid_all lv s F x -> Forall good F -> forall rest es, scan (e_ord E) key rest = Some es ->
    exists es1, scan (e_ord E) key (x ++ rest) = Some (es1 ++ es) /\ map e_name es1 = top_names F.
  Proof.
    intros key. induction 1 as [lv s|lv e s nd F x y H1 H2 IH]; intros G rest es H.
    - exists []. split; [exact H|reflexivity].
    - inversion G as [|? ? G1 G2]; subst. destruct (IH G2 rest es H) as [es1 [E1 E2]]. rewrite <- app_assoc. destruct nd as [n a self kids|t|b].
      + destruct (laid_form _ _ _ _ _ _ _ H1) as [t [z [HT [HK [HS ->]]]]]. rewrite <- app_assoc.
        destruct (scan_elem key _ _ _ _ _ _ _ _ _ _ G1 HT HK HS E1) as [kids' [_ S]]. exists (mkElem n a self (forest_text kids') (opening n t self ++ closing n self z ++ y ++ rest) (closing n self z ++ y ++ rest) (y ++ rest) :: es1). split; [exact S|].
        unfold top_names, elems in *. cbn [map e_name filter is_elem name_of]. now rewrite E2.
      + exists es1. inversion H1; subst. inversion G1; subst. split; [|exact E2]. rewrite scan_skip; auto. apply skippable_text. match goal with H : no_angle _ |- _ => apply H end.
      + exists es1. inversion H1; subst. inversion G1; subst. split; [|exact E2]. rewrite scan_skip; auto. now apply skippable_misc.
  Qed.
  Lemma names_count : forall f es F, map e_name es = top_names F -> len (filter (fun e => f (e_name e)) es) = len (called f F).
  Proof.
    intros f es F. revert es. induction F as [|nd F IH]; intros es H.
    - destruct es; [reflexivity|discriminate].
    - unfold top_names, elems, called in *. destruct nd as [n a self kids|t|b]; cbn [filter is_elem map name_of] in *; auto. destruct es as [|el es]; [discriminate|].
      cbn [map] in H. injection H as H1 H2. cbn [filter]. rewrite H1. specialize (IH es H2). destruct (f n); cbn [List.length]; auto.
  Qed.
  Lemma nth_filter : forall A (f : A -> bool) l1 x l2, f x = true -> nth_error (filter f (l1 ++ x :: l2)) (len (filter f l1)) = Some x.
  Proof. intros A f l1 x l2 H. rewrite filter_app, nth_error_app2, Nat.sub_diag by auto. cbn [filter]. now rewrite H. Qed.

  (** One step of the search, at the top level. *)
  Lemma find_top : forall n idx rest F1 m a self kids F2 s1 e s2 x1 t y x2 p key, step_name n ->
    Forall good (F1 ++ Elem m a self kids :: F2) -> selects n m = true -> len (called (selects n) F1) = index_of idx ->
    laid_all true s1 F1 x1 -> tagged true e a t -> laid_all false 0 kids y -> (self = true -> kids = [] /\ y = []) -> laid_all true s2 F2 x2 -> skippable p ->
    (Z.of_nat (len (p ++ x1 ++ (opening m t self ++ closing m self y) ++ x2)) <= MaxPositionOffset)%Z ->
    exists kids', Forall2 same kids kids' /\
    let d := p ++ x1 ++ (opening m t self ++ closing m self y) ++ x2 in
    let el := mkElem m a self (forest_text kids') (opening m t self ++ closing m self y ++ x2) (closing m self y ++ x2) x2 in
    find_loc E default_options key d (segs_of ((n, idx) :: rest) TheElement) 0 =
      match rest with
      | [] => Ok (Some (elem_location d 0 el))
      | _ => find_loc E default_options (child_key site_query el key) (forest_text kids') (segs_of rest TheElement) (0 + pos_of d (closing m self y ++ x2))
      end.
  Proof.
    intros n idx rest F1 m a self kids F2 s1 e s2 x1 t y x2 p key SN G HM HI L1 HT HK HS L2 Hp Hm.
    apply Forall_app in G as G0. destruct G0 as [G1 G2]. inversion G2 as [|? ? G3 G4]; subst.
    destruct (scan_laid E Hord key _ _ _ _ L2 G4) as [es2 [S2 _]].
    destruct (scan_elem key _ _ m a self kids t y x2 es2 G3 HT HK HS S2) as [kids' [SK S3]].
    set (el := mkElem m a self (forest_text kids') (opening m t self ++ closing m self y ++ x2) (closing m self y ++ x2) x2) in *.
    destruct (scan_before key _ _ _ _ L1 G1 _ _ S3) as [es1 [S4 N1]]. exists kids'. split; auto. cbv zeta. fold el.
    set (d := p ++ x1 ++ (opening m t self ++ closing m self y) ++ x2) in *.
    assert (LD : laid_all true (s1 + (e + s2)) (F1 ++ Elem m a self kids :: F2) (x1 ++ (opening m t self ++ closing m self y) ++ x2)).
    { apply all_app; auto. constructor; auto. apply form_laid; auto. intros Q. now apply HS. }
    destruct (scan_laid E Hord key _ _ _ _ LD G) as [es [SC SD]].
    assert (EE : es = es1 ++ el :: es2) by (rewrite <- app_assoc in SC; rewrite S4 in SC; congruence).
    assert (SR : scan_res E key d = Ok es) by (unfold scan_res, d; rewrite scan_skip by auto; now rewrite SC).
    pose proof (seen_selects n _ _ _ _ _ SD G SN) as FS. pose proof (seen_count (selects n) _ _ _ _ _ SD) as CNT.
    pose proof (called_len (selects n) _ _ _ _ LD) as CS. assert (I64 : (MaxPositionOffset < int64_max)%Z) by reflexivity.
    assert (PK : pick idx (filter (fun e => selects n (e_name e)) es) = Some el).
    { unfold pick. rewrite <- HI, <- (names_count (selects n) es1 F1 N1), EE. now apply (nth_filter _ (fun e => selects n (e_name e))). }
    pose proof (find_loc_step E key d n idx rest 0%Z es _ SR (eq_sym FS)) as ST. rewrite PK in ST. rewrite ST; clear ST.
    - destruct rest; reflexivity.
    - rewrite CNT. unfold d in Hm. rewrite app_length in Hm. lia.
    - lia.
    - intros e0 He. apply In_nth_error in He. destruct He as [i Hi].
      destruct (seen_nth _ _ _ _ _ _ SD i e0 Hi) as [F1' [m' [a' [self' [k1 [k2 [F2' [s1' [e0' [s2' [x1' [t' [y' [x2' [_ [_ [_ [_ [_ [EX [_ [_ [_ [_ [_ ->]]]]]]]]]]]]]]]]]]]]]]]]].
      cbn [e_body]. unfold pos_of. rewrite !app_length. lia.
  Qed.

  Lemma find_stands : forall s steps F A n a self kids lv e t y B p key, stands s steps F A n a self kids lv e t y B -> Forall good_tstep steps -> Forall good F -> skippable p ->
    (Z.of_nat (len (p ++ A ++ (opening n t self ++ closing n self y) ++ B)) <= MaxPositionOffset)%Z ->
    exists l, find_loc E default_options key (p ++ A ++ (opening n t self ++ closing n self y) ++ B) (segs_of steps TheElement) 0 = Ok (Some l) /\
      placed (Z.of_nat (len p)) A n a self t y l.
  Proof.
    intros s steps F A n a self kids lv e t y B p key [ST HT HK HS] GS G Hp Hm.
    inversion ST as [top s1 s2 e' n' idx F1 nd F2 x1 z x2 H1 H2 H3 H4 H5|top s1 s2 e0 n' idx rest F1 m a0 kids0 F2 x1 t0 A' nd e' z B' x2 H1 H2 H3 H4 H5 H6 H7 H8]; subst.
    - inversion GS as [|? ? [SN _] _]; subst. cbn [fst] in SN.
      destruct (find_top n' idx [] F1 n a self kids F2 s1 e s2 A t y B p key SN G H1 H2 H3 HT HK HS H5 Hp Hm) as [kids' [SK FD]]. cbv zeta in FD. rewrite FD. eexists. split; [reflexivity|].
      set (d := p ++ A ++ (opening n t self ++ closing n self y) ++ B) in *.
      assert (EL : len d = len p + (len A + (len (opening n t self) + len (closing n self y)) + len B)) by (unfold d; rewrite !app_length; lia).
      unfold elem_location. cbn [e_name e_attrs e_self e_start e_body e_after].
      constructor; cbn [l_start l_content_start l_content_end l_end_tag l_name l_attrs l_self]; auto; unfold pos_of; rewrite ?EL, ?app_length; try lia.
      destruct self; [lia|]. cbn [closing]. rewrite app_length, end_tag_len. lia.
    - inversion GS as [|? ? [SN _] GS']; subst. cbn [fst] in SN. assert (GE : good (Elem m a0 false kids0)) by (apply Forall_app in G; destruct G as [_ G]; now inversion G).
      inversion GE as [? ? ? ? XN XA XS XK| |]; subst.
      set (z := opening n t self ++ closing n self y) in *. set (y0 := A' ++ z ++ B') in *.
      destruct (standing_text _ _ _ _ _ _ _ _ _ _ H8) as [_ [_ [s' [LY _]]]]. fold y0 in LY. apply all_zero in LY.
      assert (ED : (x1 ++ opening m t0 false ++ A') ++ z ++ B' ++ end_tag m ++ x2 = x1 ++ (opening m t0 false ++ closing m false y0) ++ x2).
      { unfold y0. cbn [closing]. now rewrite <- !app_assoc. }
      rewrite ED in *.
      assert (HT0 : tagged true e0 a0 t0) by (split; auto).
      destruct (find_top n' idx rest F1 m a0 false kids0 F2 s1 e0 s2 x1 t0 y0 x2 p key SN G H1 H2 H3 HT0 LY ltac:(discriminate) H4 Hp Hm) as [kids' [SK FD]]. cbv zeta in FD. rewrite FD. clear FD.
      destruct rest as [|st rest]; [inversion H8|].
      set (d := p ++ x1 ++ (opening m t0 false ++ closing m false y0) ++ x2) in *.
      assert (EL : len d = len p + (len x1 + (len (opening m t0 false) + (len y0 + len (end_tag m))) + len x2)) by (unfold d; cbn [closing]; rewrite !app_length; lia).
      assert (PB : pos_of d (closing m false y0 ++ x2) = Z.of_nat (len p + (len x1 + len (opening m t0 false)))).
      { unfold pos_of. rewrite EL. cbn [closing]. rewrite !app_length. lia. }
      pose proof (inner_len _ _ _ LY) as LK. pose proof (same_length_all _ _ SK) as LS.
      match goal with |- context [find_loc _ _ ?k (forest_text kids')] => set (key' := k) end.
      destruct (find_loc_tree E Hord (st :: rest) ltac:(discriminate) GS' kids0 kids' [] (0 + pos_of d (closing m false y0 ++ x2))%Z key') as [r [R1 R2]]; auto.
      + apply skippable_nil.
      + rewrite PB. lia.
      + cbn [app]. rewrite PB, <- LS, <- LK. lia.
      + cbn [app] in R1. destruct (standing_located _ _ _ _ _ _ _ _ _ _ H8) as [A2 [B2 [L3 [L4 _]]]]. specialize (L4 eq_refl).
        destruct r as [l|]; [|destruct (R2 _ _ _ L3)]. destruct R2 as [A3 [nd [B3 [L AT]]]]. destruct (located_unique _ _ _ _ _ L3 _ _ _ L) as [-> [-> ->]].
        exists l. split; [exact R1|]. inversion AT as [n1 a1 self1 kids2 l1 B1' B2' B3' B4' B5' B6' B7']; subst. cbn [List.length] in *.
        pose proof (inner_len _ _ _ HK) as LK1. destruct HT as [_ [_ HTE]]. constructor; auto.
        * rewrite B1', PB, !app_length. lia.
        * rewrite B2', PB, (opening_same _ _ _ _ (HTE eq_refl)), !app_length. lia.
        * rewrite B3', LK1. reflexivity.
  Qed.
End Find.
