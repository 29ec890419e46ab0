(** Positions found by the editor in such texts. *)
From Coq Require Import List Ascii String NArith ZArith Bool Lia Permutation.
From Verif Require Import GoStr ModelParser ModelPath ModelResult ModelQuery ModelValidate ModelBuilder SpecText SpecPath SpecTree SpecQuery SpecEdit SpecContent SpecValid SpecNotation SpecLaid
  ProofBase ProofEscape ProofPath ProofScan ProofSyntax ProofApi2 ProofTree ProofTree2 ProofTree3 ProofTree4 ProofTree5 ProofTree7 ProofEdit ProofEdit2 ProofNotation ProofLaid.
Import ListNotations.

(** The way the attributes of a start tag are written. *)
Definition tagged (lv : bool) (e : nat) (a : list (bytes * bytes)) (t : bytes) : Prop :=
  tag_as a t /\ len t <= len (attrs_text a) + e /\ (lv = false -> len t = len (attrs_text a)).
Definition closing (n : bytes) (self : bool) (y : bytes) : bytes := if self then [] else y ++ end_tag n.
Lemma laid_form : forall lv e n a self kids z, laid lv e (Elem n a self kids) z -> exists t y, tagged lv e a t /\ laid_all false 0 kids y /\
  (self = true -> kids = [] /\ y = []) /\ z = opening n t self ++ closing n self y.
Proof.
  intros lv e n a self kids z H. inversion H; subst.
  - exists t, x. split; [now split|]. split; auto. split; [discriminate|reflexivity].
  - exists t, []. split; [now split|]. split; [constructor|]. split; auto. cbn [closing]. now rewrite app_nil_r.
Qed.
Lemma form_laid : forall lv e n a self kids t y, tagged lv e a t -> laid_all false 0 kids y -> (self = true -> kids = []) ->
  laid lv e (Elem n a self kids) (opening n t self ++ closing n self y).
Proof.
  intros lv e n a self kids t y [H1 [H2 H3]] H S. destruct self; cbn [closing].
  - rewrite (S eq_refl), app_nil_r. now constructor.
  - now constructor.
Qed.
Lemma tagged_canon : forall lv e a, good_attrs a -> tagged lv e a (attrs_text a).
Proof. intros lv e a H. split; [now apply esc_small_as|]. split; auto. lia. Qed.

(** The elements of a text with their real positions. *)
Inductive seen : bool -> nat -> list node -> bytes -> list elem -> Prop :=
| sn_nil : forall lv s, seen lv s [] [] []
| sn_text : forall lv s t F x es, seen lv s F x es -> seen lv s (Text t :: F) (t ++ x) es
| sn_misc : forall lv s b F x es, seen lv s F x es -> seen lv s (Misc b :: F) ((bs "<!" ++ b ++ bs ">") ++ x) es
| sn_elem : forall lv e s n a self kids kids' t y F x es, tagged lv e a t -> laid_all false 0 kids y -> (self = true -> kids = [] /\ y = []) ->
    Forall2 same kids kids' -> seen lv s F x es ->
    seen lv (e + s) (Elem n a self kids :: F) ((opening n t self ++ closing n self y) ++ x)
      (mkElem n a self (forest_text kids') (opening n t self ++ closing n self y ++ x) (closing n self y ++ x) x :: es).
Lemma seen_more : forall lv s F x es, seen lv s F x es -> forall s', s <= s' -> seen lv s' F x es.
Proof.
  induction 1; intros s' L; try (constructor; auto; fail). replace s' with (e + (s' - e)) by lia. constructor; auto. apply IHseen. lia.
Qed.
Lemma seen_count : forall f lv s F x es, seen lv s F x es -> len (filter (fun e => f (e_name e)) es) = len (called f F).
Proof.
  intros f lv s F x es H. induction H; auto. unfold called in *. cbn [filter e_name]. destruct (f n); cbn [List.length]; auto.
Qed.
Lemma seen_laid : forall lv s F x es, seen lv s F x es -> laid_all lv s F x.
Proof.
  induction 1; [constructor| | |].
  - apply (ls_cons lv 0 s); auto. constructor.
  - apply (ls_cons lv 0 s); auto. constructor.
  - constructor; auto. apply form_laid; auto. intros Q. now apply H1.
Qed.
Lemma seen_nth : forall f lv s F x es, seen lv s F x es -> forall i e, nth_error (filter (fun e => f (e_name e)) es) i = Some e ->
  exists F1 n a self kids kids' F2 s1 e0 s2 x1 t y x2, F = F1 ++ Elem n a self kids :: F2 /\ f n = true /\ len (called f F1) = i /\ Forall2 same kids kids' /\
    s1 + e0 + s2 <= s /\ x = x1 ++ (opening n t self ++ closing n self y) ++ x2 /\
    laid_all lv s1 F1 x1 /\ tagged lv e0 a t /\ laid_all false 0 kids y /\ (self = true -> kids = [] /\ y = []) /\ laid_all lv s2 F2 x2 /\
    e = mkElem n a self (forest_text kids') (opening n t self ++ closing n self y ++ x2) (closing n self y ++ x2) x2.
Proof.
  intros f lv s F x es H.
  induction H as [lv s|lv s t F x es H IH|lv s b F x es H IH|lv e s n a self kids kids' t y F x es HT HK HS SK H IH]; intros i el Hn.
  - destruct i; discriminate.
  - destruct (IH i el Hn) as [F1 [n [a [self [kids [kids' [F2 [s1 [e0 [s2 [x1 [t0 [y [x2 [-> [Q1 [Q2 [Q3 [Q4 [-> [Q5 Q]]]]]]]]]]]]]]]]]]]]].
    exists (Text t :: F1), n, a, self, kids, kids', F2, s1, e0, s2, (t ++ x1), t0, y, x2. rewrite <- (app_assoc t). split; auto. split; auto. split; auto. split; auto. split; auto. split; auto.
    split; auto. apply (ls_cons lv 0 s1); auto. constructor.
  - destruct (IH i el Hn) as [F1 [n [a [self [kids [kids' [F2 [s1 [e0 [s2 [x1 [t0 [y [x2 [-> [Q1 [Q2 [Q3 [Q4 [-> [Q5 Q]]]]]]]]]]]]]]]]]]]]].
    exists (Misc b :: F1), n, a, self, kids, kids', F2, s1, e0, s2, ((bs "<!" ++ b ++ bs ">") ++ x1), t0, y, x2. rewrite <- (app_assoc (bs "<!" ++ b ++ bs ">")).
    split; auto. split; auto. split; auto. split; auto. split; auto. split; auto.
    split; auto. apply (ls_cons lv 0 s1); auto. constructor.
  - cbn [filter e_name] in Hn. destruct (f n) eqn:Q.
    + destruct i as [|i].
      * injection Hn as <-. exists [], n, a, self, kids, kids', F, 0, e, s, [], t, y, x. split; auto. split; auto. split; auto. split; auto. split; auto. split; auto.
        split; [constructor|]. split; auto. split; auto. split; auto. split; auto. eapply seen_laid; eauto.
      * destruct (IH i el Hn) as [F1 [n1 [a1 [self1 [kids1 [kids1' [F2 [s1 [e0 [s2 [x1 [t0 [y0 [x2 [-> [Q1 [Q2 [Q3 [Q4 [-> [Q5 Q6]]]]]]]]]]]]]]]]]]]]].
        exists (Elem n a self kids :: F1), n1, a1, self1, kids1, kids1', F2, (e + s1), e0, s2, ((opening n t self ++ closing n self y) ++ x1), t0, y0, x2.
        split; auto. split; auto. split; [unfold called in *; cbn [filter]; rewrite Q; cbn [List.length]; now rewrite Q2|]. split; auto. split; [lia|].
        split; [now rewrite <- (app_assoc (opening n t self ++ closing n self y))|]. split; auto. constructor; auto. apply form_laid; auto. intros K. now apply HS.
    + destruct (IH i el Hn) as [F1 [n1 [a1 [self1 [kids1 [kids1' [F2 [s1 [e0 [s2 [x1 [t0 [y0 [x2 [-> [Q1 [Q2 [Q3 [Q4 [-> [Q5 Q6]]]]]]]]]]]]]]]]]]]]].
      exists (Elem n a self kids :: F1), n1, a1, self1, kids1, kids1', F2, (e + s1), e0, s2, ((opening n t self ++ closing n self y) ++ x1), t0, y0, x2.
      split; auto. split; auto. split; [unfold called in *; cbn [filter]; rewrite Q; exact Q2|]. split; auto. split; [lia|].
      split; [now rewrite <- (app_assoc (opening n t self ++ closing n self y))|]. split; auto. constructor; auto. apply form_laid; auto. intros K. now apply HS.
Qed.
Lemma seen_selects : forall n lv s F x es, seen lv s F x es -> Forall good F -> step_name n ->
  filter (fun e => seg_matches_opts (o_case default_options) (elem_seg n) (e_name e)) es = filter (fun e => selects n (e_name e)) es.
Proof.
  intros n lv s F x es H G S. induction H; auto; inversion G as [|? ? G1 G2]; subst; auto.
  cbn [filter e_name]. rewrite IHseen by auto. inversion G1; subst. rewrite matches_default, selects_match by auto. reflexivity.
Qed.
Lemma called_len : forall f lv s F x, laid_all lv s F x -> len (called f F) <= len x.
Proof.
  intros f lv s F x H. induction H as [|lv e s nd F x y H1 H2 IH]; [cbn; lia|]. unfold called in *. cbn [filter]. rewrite app_length.
  destruct nd as [n a self kids| |]; cbn [named]; try lia. destruct (laid_form _ _ _ _ _ _ _ H1) as [t [y0 [_ [_ [_ ->]]]]].
  destruct (f n); cbn [List.length]; [|lia]. rewrite app_length, opening_len. destruct self; lia.
Qed.

Section Find.
  Variable E : env.
  Hypothesis Hord : forall k l, Permutation l (e_ord E k l).
  Lemma scan_laid : forall key lv s F x, laid_all lv s F x -> Forall good F -> exists es, scan (e_ord E) key x = Some es /\ seen lv s F x es.
  Proof.
    intros key. induction 1 as [lv s|lv e s nd F x y H1 H2 IH]; intros G.
    - exists []. split; [reflexivity|constructor].
    - inversion G as [|? ? G1 G2]; subst. destruct (IH G2) as [es [E1 E2]]. destruct nd as [n a self kids|t|b].
      + inversion G1 as [? ? ? ? N A S K| |]; subst.
        destruct (laid_form _ _ _ _ _ _ _ H1) as [t [z [HT [HK [HS ->]]]]].
        assert (SK : skip_to_next (opening n t self ++ closing n self z ++ y) = Some (Some (opening n t self ++ closing n self z ++ y))).
        { apply (skip_any 1). unfold opening. destruct (name_first n N) as [c [r [-> Hc]]]. cbn [bs list_ascii_of_string app skip_next_loop].
          change (Ascii.eqb "<" "<") with true. cbn iota.
          rewrite (name_eqb c "!" Hc), (name_eqb c "?" Hc), (name_eqb c "/" Hc) by inlist. reflexivity. }
        assert (PE : parse_element_name (next (opening n t self ++ closing n self z ++ y)) = (n, a, self, closing n self z ++ y)).
        { unfold opening. rewrite <- !app_assoc. cbn [bs list_ascii_of_string app next]. change (if self then ["/"%char; ">"%char] else [">"%char]) with (shut self).
          destruct HT as [HT _]. now apply parse_element_name_as. }
        assert (PC : exists kids', Forall2 same kids kids' /\
          if self then forest_text kids' = [] /\ y = closing n self z ++ y else parse_content (e_ord E) key n (closing n self z ++ y) = Some (forest_text kids', y)).
        { destruct self.
          - destruct (HS eq_refl) as [-> ->]. exists []. split; [constructor|]. split; reflexivity.
          - destruct (parse_content_written (e_ord E) Hord key n kids z [] y N K (all_written _ _ _ _ HK K) ltac:(constructor) (xml_small n N)) as [kids' [P1 P2]].
            exists kids'. split; auto. cbn [closing]. unfold end_tag. rewrite <- !app_assoc. exact P2. }
        destruct PC as [kids' [P1 P2]].
        exists (mkElem n a self (forest_text kids') (opening n t self ++ closing n self z ++ y) (closing n self z ++ y) y :: es). split.
        * rewrite <- app_assoc. apply (scan_step E key); auto.
        * constructor; auto.
      + exists es. inversion H1; subst. inversion G1; subst. split; [|constructor; apply seen_more with s; auto; lia].
        rewrite scan_skip; auto. apply skippable_text. match goal with H : no_angle _ |- _ => apply H end.
      + exists es. inversion H1; subst. inversion G1; subst. split; [|constructor; apply seen_more with s; auto; lia].
        rewrite scan_skip; auto. now apply skippable_misc.
  Qed.

  (** The location of an element of which the text is known. *)
  Record placed (base : Z) (A : bytes) (n : bytes) (a : list (bytes * bytes)) (self : bool) (t y : bytes) (l : location) : Prop := {
    pl_start : l_start l = (base + Z.of_nat (len A))%Z;
    pl_content : l_content_start l = (base + Z.of_nat (len A) + Z.of_nat (len (opening n t self)))%Z;
    pl_end : l_content_end l = (l_content_start l + if self then 0 else Z.of_nat (len y))%Z;
    pl_tag : l_end_tag l = l_content_end l;
    pl_name : l_name l = n;
    pl_attrs : Permutation a (l_attrs l);
    pl_self : l_self l = self }.
  Record is_found (base : Z) (s : nat) (steps : list tstep) (F : list node) (x A : bytes) (n : bytes) (a : list (bytes * bytes)) (self : bool) (kids : list node)
    (lv : bool) (s' e : nat) (t y B : bytes) (l : location) : Prop := {
    if_standing : standing true s' steps F A (Elem n a self kids) lv e (opening n t self ++ closing n self y) B;
    if_text : x = A ++ (opening n t self ++ closing n self y) ++ B;
    if_size : s' + e <= s;
    if_tag : tagged lv e a t;
    if_kids : laid_all false 0 kids y;
    if_self : self = true -> kids = [] /\ y = [];
    if_loc : placed base A n a self t y l }.
  Lemma find_laid : forall steps, steps <> [] -> Forall good_tstep steps -> forall F s x p key,
    laid_all true s F x -> Forall good F -> skippable p -> (Z.of_nat (len (p ++ x)) <= MaxPositionOffset)%Z ->
    exists r, find_loc E default_options key (p ++ x) (segs_of steps TheElement) 0 = Ok r /\
      match r with
      | Some l => exists A n a self kids lv s' e t y B, is_found (Z.of_nat (len p)) s steps F x A n a self kids lv s' e t y B l
      | None => forall A nd B, ~ located steps F A nd B
      end.
  Proof.
    intros [|[n idx] rest] NE GS F s x p key LD G Hp Hm; [contradiction|].
    inversion GS as [|? ? [SN GI] GS']; subst. cbn [fst snd] in *.
    destruct (scan_laid key true s F x LD G) as [es [SC SD]].
    assert (SR : scan_res E key (p ++ x) = Ok es) by (unfold scan_res; rewrite scan_skip by auto; now rewrite SC).
    pose proof (seen_selects n _ _ _ _ _ SD G SN) as FS. remember (filter (fun e => selects n (e_name e)) es) as ms eqn:Ems.
    pose proof (seen_count (selects n) _ _ _ _ _ SD) as CNT. rewrite <- Ems in CNT.
    pose proof (called_len (selects n) _ _ _ _ LD) as CS. rewrite app_length in Hm.
    assert (I64 : (MaxPositionOffset < int64_max)%Z) by reflexivity.
    match goal with |- exists r, ?x = Ok r /\ _ => eassert (ST : x = _) end.
    { apply (find_loc_step E key _ n idx rest 0%Z es ms SR (eq_sym FS)); [lia|lia|]. intros e He. apply In_nth_error in He. destruct He as [i Hi]. rewrite Ems in Hi.
      destruct (seen_nth _ _ _ _ _ _ SD i e Hi) as [F1 [m [a [self [kids [kids' [F2 [s1 [e0 [s2 [x1 [t [y [x2 [_ [_ [_ [_ [_ [EX [_ [_ [_ [_ [_ ->]]]]]]]]]]]]]]]]]]]]]]]]].
      cbn [e_body]. unfold pos_of. rewrite !app_length. lia. }
    rewrite ST. clear ST.
    destruct (pick idx ms) as [e|] eqn:P.
    2:{ exists None. split; auto. intros A nd B L. unfold pick in P. apply nth_error_None in P. rewrite CNT in P.
        inversion L as [n0 idx0 F1 nd0 F2 Hn Hc|n0 idx0 r0 F1 m a kids F2 A0 nd0 B0 Hn Hc Hl]; subst;
          unfold called in *; rewrite filter_app, app_length in P; cbn [filter] in P; fold (called (selects n) F1) in *.
        - fold (named (selects n) nd) in P. rewrite Hn in P. cbn [List.length] in P. unfold called in *. lia.
        - rewrite Hn in P. cbn [List.length] in P. unfold called in *. lia. }
    unfold pick in P. rewrite Ems in P.
    destruct (seen_nth _ _ _ _ _ _ SD _ e P) as [F1 [m [a [self [kids [kids' [F2 [s1 [e0 [s2 [x1 [t [y [x2 [EF [Hn [Hc [Sk [HS [EX [L1 [HT [HK [HSf [L2 Ee]]]]]]]]]]]]]]]]]]]]]]]]].
    assert (EL : len (p ++ x) = len p + (len x1 + (len (opening m t self) + len (closing m self y)) + len x2)) by (rewrite EX, !app_length; lia).
    assert (PB : pos_of (p ++ x) (e_body e) = Z.of_nat (len p + (len x1 + len (opening m t self)))).
    { unfold pos_of. rewrite EL, Ee. cbn [e_body]. rewrite app_length. lia. }
    assert (GE : good (Elem m a self kids)) by (rewrite EF in G; apply Forall_app in G; destruct G as [_ G]; now inversion G).
    inversion GE as [? ? ? ? XN XA XS XK| |]; subst n0 a0 self0 kids0.
    destruct rest as [|st rest].
    - eexists. split; [reflexivity|]. exists x1, m, a, self, kids, true, (s1 + s2), e0, t, y, x2. constructor; auto.
      + rewrite EF. constructor; auto. apply form_laid; auto.
      + lia.
      + assert (EN : e_name e = m) by (rewrite Ee; reflexivity). assert (EA : e_attrs e = a) by (rewrite Ee; reflexivity).
        assert (ES : e_self e = self) by (rewrite Ee; reflexivity).
        unfold elem_location. constructor; cbn [l_start l_content_start l_content_end l_end_tag l_name l_attrs l_self]; auto; try (now rewrite EA).
        * rewrite Ee. cbn [e_start]. unfold pos_of. rewrite EL, !app_length. lia.
        * rewrite PB. lia.
        * rewrite PB, ES. destruct self; [lia|].
          rewrite Ee. cbn [e_after e_name]. unfold pos_of. rewrite EL. cbn [closing]. rewrite app_length, end_tag_len. lia.
    - pose proof (inner_len _ _ _ HK) as LK. pose proof (same_length_all _ _ Sk) as LS.
      destruct (find_loc_tree E Hord (st :: rest) ltac:(discriminate) GS' kids kids' [] (0 + pos_of (p ++ x) (e_body e))%Z (child_key site_query e key)) as [r [R1 R2]]; auto.
      + apply skippable_nil.
      + rewrite PB. lia.
      + cbn [app]. rewrite PB, <- LS, <- LK. rewrite app_length in EL. destruct self; [destruct (HSf eq_refl) as [_ ->]; cbn [List.length]; lia|].
        cbn [closing] in EL. rewrite app_length in EL. lia.
      + cbn [app] in R1. assert (EC : e_content e = forest_text kids') by (rewrite Ee; reflexivity). rewrite EC. exists r. split; [exact R1|]. destruct r as [l|].
        * destruct R2 as [A [nd [B [L AT]]]]. destruct self; [rewrite (XS eq_refl) in L; inversion L; match goal with Q : ?u ++ _ :: _ = [] |- _ => destruct u; discriminate end|].
          destruct (located_standing _ _ _ _ _ L XK false 0 y HK) as [s' [A1 [lv [e1 [z1 [B1 [S1 [-> [S2 S3]]]]]]]]].
          assert (lv = false) by (destruct lv; auto; discriminate (S3 eq_refl)). subst lv. assert (s' = 0) by lia. assert (e1 = 0) by lia. subst s' e1.
          destruct (standing_located _ _ _ _ _ _ _ _ _ _ S1) as [A2 [B2 [L3 [L4 _]]]]. destruct (located_unique _ _ _ _ _ L _ _ _ L3) as [-> [_ ->]]. specialize (L4 eq_refl).
          destruct (standing_text _ _ _ _ _ _ _ _ _ _ S1) as [LN [_ _]].
          inversion AT as [n1 a1 self1 kids2 l1 B1' B2' B3' B4' B5' B6' B7']; subst nd l1. cbn [List.length] in *.
          destruct (laid_form _ _ _ _ _ _ _ LN) as [t1 [y1 [HT1 [HK1 [HS1 ->]]]]].
          pose proof (inner_len _ _ _ HK1) as LK1. destruct HT as [HT [HTL HTE]].
          exists (x1 ++ opening m t false ++ A1), n1, a1, self1, kids2, false, (s1 + e0 + s2), 0, t1, y1, (B1 ++ end_tag m ++ x2). constructor; auto.
          -- rewrite EF. eapply st_down; eauto.
          -- rewrite EX. cbn [closing]. now rewrite <- !app_assoc.
          -- lia.
          -- constructor; auto.
             ++ rewrite B1', PB, !app_length. lia.
             ++ destruct HT1 as [_ [_ HT1]]. rewrite B2', PB, (opening_same _ _ _ _ (HT1 eq_refl)), !app_length. lia.
             ++ rewrite B3', LK1. reflexivity.
        * intros A nd B L. inversion L as [|n0 idx0 r0 G1 m0 a0 k0 G2 A0 nd0 B0 Hn0 Hcc Hl]; subst n0 idx0 r0 nd0 A B.
          match goal with Q : G1 ++ _ :: G2 = F |- _ => rewrite EF in Q; rename Q into H end.
          destruct (split_unique (selects n) _ _ _ _ _ _ H) as [_ [Q _]]; auto; [congruence|].
          injection Q as -> -> <- ->. exact (R2 _ _ _ Hl).
  Qed.
End Find.
