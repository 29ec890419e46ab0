(** Single edits of such texts. *)
From Coq Require Import List Ascii String NArith ZArith Bool Lia Permutation.
From Verif Require Import GoStr ModelParser ModelPath ModelResult ModelQuery ModelValidate ModelBuilder SpecText SpecPath SpecTree SpecQuery SpecEdit SpecContent SpecValid SpecNotation SpecLaid
  ProofBase ProofEscape ProofPath ProofScan ProofSyntax ProofApi2 ProofTree ProofTree2 ProofTree3 ProofTree4 ProofTree5 ProofTree7 ProofEdit ProofEdit2 ProofEdit3 ProofEdit4 ProofEdit5 ProofEdit6 ProofEdit7
  ProofNotation ProofLaid ProofLaid2 ProofLaid3.
Import ListNotations.

Lemma opening_nonempty : forall X n t self Y, X ++ opening n t self ++ Y <> [].
Proof. intros X n t self Y K. apply (f_equal (@List.length ascii)) in K. rewrite !app_length, opening_len in K. cbn [List.length] in K. destruct self; lia. Qed.

Section Start.
  Variable E : env.
  Variable fmt_g : f64 -> bytes.
  Variable d : bytes.
  Hypothesis Hd : (blen d <= 10485760)%N.
  Hypothesis Hv : valid d = true.
  Lemma set_start' : forall path v segs, v <> VNil -> parse_path path = Ok segs -> segs <> [] ->
    set E fmt_g d path v = edit_of d (set_element E fmt_g default_options d segs v).
  Proof.
    intros path v segs NV P NE. unfold set, set_opts. rewrite (size_ok _ Hd), Hv. cbn [negb].
    replace (match d with [] => false | _ :: _ => false end) with false by (destruct d; reflexivity). rewrite (parse_default _ _ P).
    destruct segs; [contradiction|]. destruct v; try reflexivity. contradiction.
  Qed.
  Lemma delete_start' : forall path segs, parse_path path = Ok segs -> segs <> [] ->
    delete E d path = edit_of d (delete_element E default_options d segs).
  Proof.
    intros path segs P NE. unfold delete, delete_opts. rewrite (size_ok _ Hd), Hv. cbn [negb]. rewrite (parse_default _ _ P). cbn [bind]. destruct segs; [contradiction|reflexivity].
  Qed.
  Lemma append_start' : forall steps n v xv, Forall good_tstep (steps ++ [(n, None)]) -> len (flat_map tstep_steps (steps ++ [(n, None)])) < 100 ->
    v <> VNil -> value_to_xml fmt_g v = inr xv -> (blen xv <= 5242880)%N ->
    set E fmt_g d (tpath (steps ++ [(n, None)]) TheElement ++ bs ".-1") v =
    edit_of d (let* r := append_element E default_options [0] d (segs_of steps TheElement ++ [elem_seg n; append_seg]) xv in
               match r with inl e => Ok (inl e) | inr r => Ok (inr (get_result d r)) end).
  Proof.
    intros steps n v xv GS LN NV XV SZ. assert (NE : steps ++ [(n, None)] <> []) by (intros K; now destruct steps).
    pose proof (append_parse _ NE GS LN) as P.
    rewrite (set_start' _ v _ NV P) by (intros K; now destruct (segs_of (steps ++ [(n, None)]) TheElement)).
    unfold set_element. destruct (segs_nonempty _ NE) as [sg [r Q]]. rewrite Q. cbn [app]. rewrite XV. rewrite (proj2 (N.ltb_ge MaxValueSize (blen xv)) SZ), (size_ok _ Hd).
    change (sg :: r ++ [append_seg]) with ((sg :: r) ++ [append_seg]). rewrite <- Q, intents_append. rewrite segs_app.
    replace (segs_of [(n, None)] TheElement) with [elem_seg n] by reflexivity. rewrite <- app_assoc. reflexivity.
  Qed.
  Lemma append_parts' : forall steps n xv key, append_element E default_options key d (segs_of steps TheElement ++ [elem_seg n; append_seg]) xv =
    match segs_of steps TheElement with
    | [] => append_root E default_options (0 :: key) d (elem_seg n) xv
    | parent =>
        let* l := find_loc E default_options (1 :: key) d parent 0 in
        match l with
        | None => create_element E default_options (2 :: key) d (parent ++ [elem_seg n]) xv
        | Some l =>
            if l_self l then
              let* a := slice_to d (l_start l) in
              let* b := slice_from d (l_content_end l) in
              Ok (inr (a ++ bs "<" ++ l_name l ++ sorted_attrs (l_attrs l) ++ bs ">" ++ new_elem n xv ++ close_tag (l_name l) ++ b))
            else
              let* q := find_last_match E default_options (3 :: key) d l (elem_seg n) in
              let* a := slice_to d q in
              let* b := slice_from d q in
              let r := a ++ new_elem n xv ++ b in
              if (MaxDocumentSize <? blen r)%N then Ok (inl ErrInvalidValue) else Ok (inr r)
        end
    end.
  Proof.
    intros steps n xv key. unfold append_element.
    assert (RV : rev (segs_of steps TheElement ++ [elem_seg n; append_seg]) = append_seg :: elem_seg n :: rev (segs_of steps TheElement))
      by (rewrite rev_app_distr; reflexivity).
    rewrite RV. cbn [append_seg s_type s_index segtype_eqb negb orb elem_seg s_value]. rewrite Z.eqb_refl. cbn [negb]. rewrite rev_involutive.
    destruct (segs_of steps TheElement) as [|x l]; reflexivity.
  Qed.
End Start.

Lemma cut : forall p A n a self t y B l, placed (Z.of_nat (len p)) A n a self t y l -> let d := p ++ A ++ (opening n t self ++ closing n self y) ++ B in
  (self = true -> y = []) ->
  slice_to d (l_start l) = Ok (p ++ A) /\
  slice_from d (l_content_start l) = Ok (closing n self y ++ B) /\
  slice_to d (l_content_start l) = Ok (p ++ A ++ opening n t self) /\
  slice_from d (l_content_end l) = Ok ((if self then [] else end_tag n) ++ B) /\
  slice_to d (l_content_end l) = Ok (p ++ A ++ opening n t self ++ y) /\
  slice_from d (if l_self l then l_content_start l else (l_end_tag l + Z.of_nat (len (l_name l)) + 3)%Z) = Ok B.
Proof.
  intros p A n a self t y B l [B1 B2 B3 B4 B5 B6 B7] d HS.
  assert (D : d = (p ++ A) ++ opening n t self ++ closing n self y ++ B) by (unfold d; now rewrite <- !app_assoc).
  assert (D1 : d = (p ++ A ++ opening n t self) ++ closing n self y ++ B) by (rewrite D, <- !app_assoc; reflexivity).
  assert (D2 : d = (p ++ A ++ opening n t self ++ y) ++ (if self then [] else end_tag n) ++ B)
    by (rewrite D1, <- !app_assoc; destruct self; [rewrite (HS eq_refl)|cbn [closing]; rewrite <- !app_assoc]; reflexivity).
  assert (D3 : d = (p ++ A ++ opening n t self ++ closing n self y) ++ B) by (rewrite D1, <- !app_assoc; reflexivity).
  repeat split.
  - rewrite D. apply slice_to_app. rewrite B1, app_length. lia.
  - rewrite D1. apply slice_from_app. rewrite B2, !app_length. lia.
  - rewrite D1. apply slice_to_app. rewrite B2, !app_length. lia.
  - rewrite D2. apply slice_from_app. rewrite B3, B2, !app_length. destruct self; [rewrite (HS eq_refl); cbn [List.length]|]; lia.
  - rewrite D2. apply slice_to_app. rewrite B3, B2, !app_length. destruct self; [rewrite (HS eq_refl); cbn [List.length]|]; lia.
  - rewrite D3. apply slice_from_app. rewrite B7, B5, B4, B3, B2, !app_length. destruct self; cbn [closing List.length]; [lia|]. rewrite app_length, end_tag_len. lia.
Qed.

(** The last match among the children. *)
Lemma last_none' : forall n d lv s F x es, seen lv s F x es -> Forall good F -> step_name n -> called (selects n) F = [] ->
  forall dflt, last_match_pos default_options (elem_seg n) d es dflt = dflt.
Proof.
  intros n d lv s F x es H G S C. pose proof (seen_selects n _ _ _ _ _ H G S) as FS. pose proof (seen_count (selects n) _ _ _ _ _ H) as K. rewrite C in K. rewrite <- FS in K. clear FS C H G.
  induction es as [|e es IH]; intros dflt; [reflexivity|]. cbn [last_match_pos]. cbn [filter] in K. cbn [o_case default_options] in *. destruct (seg_matches_opts true (elem_seg n) (e_name e)); [discriminate|]. auto.
Qed.
Lemma last_some' : forall n d F1 m a self kids F2 lv s x es, seen lv s (F1 ++ Elem m a self kids :: F2) x es -> Forall good (F1 ++ Elem m a self kids :: F2) -> step_name n ->
  selects n m = true -> called (selects n) F2 = [] -> exists s1 s2 x1 x2, s1 + s2 <= s /\ x = x1 ++ x2 /\ laid_all lv s1 (F1 ++ [Elem m a self kids]) x1 /\ laid_all lv s2 F2 x2 /\
  forall dflt, last_match_pos default_options (elem_seg n) d es dflt = pos_of d x2.
Proof.
  intros n d. induction F1 as [|nd F1 IH]; intros m a self kids F2 lv s x es H G S M C; cbn [app] in *; inversion G as [|? ? G1 G2]; subst.
  - inversion H as [| | |? e0 s0 ? ? ? ? kids' t y ? x0 es0 HT HK HS SK H0]; subst. inversion G1; subst.
    exists e0, s0, (opening m t self ++ closing m self y), x0. split; [lia|]. split; auto. split; [apply all_one; apply form_laid; auto; intros Q; now apply HS|]. split; [eapply seen_laid; eauto|].
    intros dflt. cbn [last_match_pos e_name e_after]. rewrite matches_default. rewrite selects_match by auto. rewrite M. eapply last_none'; eauto.
  - inversion H as [|? ? t ? x0 es0 H0|? ? b ? x0 es0 H0|? e0 s0 n0 a0 self0 kids0 kids' t y ? x0 es0 HT HK HS SK H0]; subst;
      destruct (IH _ _ _ _ _ _ _ _ _ H0 G2 S M C) as [s1 [s2 [x1 [x2 [Q1 [-> [Q2 [Q3 Q4]]]]]]]].
    + exists (0 + s1), s2, (t ++ x1), x2. split; [lia|]. split; [now rewrite app_assoc|]. split; [constructor; auto; constructor|]. auto.
    + exists (0 + s1), s2, ((bs "<!" ++ b ++ bs ">") ++ x1), x2. split; [lia|]. split; [now rewrite app_assoc|]. split; [constructor; auto; constructor|]. auto.
    + exists (e0 + s1), s2, ((opening n0 t self0 ++ closing n0 self0 y) ++ x1), x2. split; [lia|]. split; [now rewrite app_assoc|].
      split; [constructor; auto; apply form_laid; auto; intros Q; now apply HS|]. split; auto. intros dflt. cbn [last_match_pos]. apply Q4.
Qed.
Lemma last' : forall n d F es dflt F1 F2 lv s x, seen lv s F x es -> Forall good F -> step_name n -> F = F1 ++ F2 -> called (selects n) F2 = [] ->
  (called (selects n) F = [] -> F2 = []) -> (called (selects n) F <> [] -> exists G nd, F1 = G ++ [nd] /\ named (selects n) nd = true) ->
  dflt = pos_of d [] -> exists s1 s2 x1 x2, s1 + s2 <= s /\ x = x1 ++ x2 /\ laid_all lv s1 F1 x1 /\ laid_all lv s2 F2 x2 /\
  last_match_pos default_options (elem_seg n) d es dflt = pos_of d x2.
Proof.
  intros n d F es dflt F1 F2 lv s x H G S EF C K1 K2 D. destruct (called (selects n) F) as [|y l] eqn:Q.
  - specialize (K1 eq_refl). subst F2. rewrite app_nil_r in EF. subst F1. exists s, 0, x, []. split; [lia|]. split; [now rewrite app_nil_r|]. split; [eapply seen_laid; eauto|]. split; [constructor|].
    rewrite (last_none' n d _ _ _ _ _ H G S Q). exact D.
  - destruct (K2 ltac:(discriminate)) as [G0 [nd [-> N]]]. destruct nd as [m a self kids| |]; try discriminate. rewrite <- app_assoc in EF. cbn [app] in EF. subst F.
    destruct (last_some' n d _ _ _ _ _ _ _ _ _ _ H G S N C) as [s1 [s2 [x1 [x2 [Q1 [Q2 [Q3 [Q4 Q5]]]]]]]]. exists s1, s2, x1, x2. auto.
Qed.

Section Edits.
  Variable E : env.
  Variable fmt_g : f64 -> bytes.
  Hypothesis Hord : forall k l, Permutation l (e_ord E k l).
  Section Doc.
  Variable p x : bytes.
  Variable F : list node.
  Variable S0 : nat.
  Hypothesis Hp : prolog p.
  Hypothesis Hg : Forall good F.
  Hypothesis Hx : laid_all true S0 F x.
  Let d := p ++ x.
  Hypothesis Hd : (blen d <= 10485760)%N.

  Lemma find_at : forall s steps A n a self kids lv e t y B key, stands s steps F A n a self kids lv e t y B -> x = A ++ (opening n t self ++ closing n self y) ++ B ->
    Forall good_tstep steps -> exists l, find_loc E default_options key d (segs_of steps TheElement) 0 = Ok (Some l) /\ placed (Z.of_nat (len p)) A n a self t y l.
  Proof.
    intros s steps A n a self kids lv e t y B key ST EX GS. unfold d. rewrite EX. eapply find_stands; eauto; [now apply skippable_prolog|].
    rewrite <- EX. apply size_pos. exact Hd.
  Qed.
  Lemma find_no : forall steps key, Forall good_tstep steps -> steps <> [] -> (forall A nd B, ~ located steps F A nd B) ->
    find_loc E default_options key d (segs_of steps TheElement) 0 = Ok None.
  Proof.
    intros steps key GS NE H. destruct (find_laid E Hord steps NE GS F S0 x p key Hx Hg (skippable_prolog p Hp) (size_pos _ Hd)) as [[l|] [R1 R2]]; auto.
    destruct R2 as [A [n [a [self [kids [lv [s' [e [t [y [B [ST _ _ _ _ _ _]]]]]]]]]]]]. destruct (standing_located _ _ _ _ _ _ _ _ _ _ ST) as [A0 [B0 [L _]]]. destruct (H _ _ _ L).
  Qed.
  Lemma stands_nonempty : forall s steps A n a self kids lv e t y B, stands s steps F A n a self kids lv e t y B -> steps <> [].
  Proof. intros s steps A n a self kids lv e t y B H. destruct (stands_located _ _ _ _ _ _ _ _ _ _ _ _ _ H) as [A0 [B0 L]]. eapply located_nonempty; eauto. Qed.

  Hypothesis Hv : valid d = true.
  Lemma d_nonempty : exists c r, d = c :: r.
  Proof. destruct d as [|c r] eqn:Q; eauto. discriminate Hv. Qed.
  Lemma set_found' : forall s steps A n a self kids lv e t y B v xv, good_tpath steps TheElement ->
    stands s steps F A n a self kids lv e t y B -> x = A ++ (opening n t self ++ closing n self y) ++ B ->
    v <> VNil -> value_to_xml fmt_g v = inr xv -> (blen xv <= 5242880)%N ->
    set E fmt_g d (tpath steps TheElement) v = Ok (p ++ A ++ opening n t self ++ xv ++ (if self then [] else end_tag n) ++ B, None).
  Proof.
    intros s steps A n a self kids lv e t y B v xv GT ST EX NV XV SZ. pose proof (stands_nonempty _ _ _ _ _ _ _ _ _ _ _ _ ST) as NE.
    destruct (segs_nonempty steps NE) as [sg [r Q]]. pose proof (segs_parse _ _ GT) as P. rewrite (set_start' E fmt_g d Hd Hv _ v _ NV P) by (rewrite Q; discriminate).
    unfold set_element. rewrite Q. cbn iota. rewrite XV. rewrite (proj2 (N.ltb_ge MaxValueSize (blen xv)) SZ), (size_ok _ Hd).
    rewrite <- Q. rewrite <- (app_nil_r (segs_of steps TheElement)), intents_steps, app_nil_r by (intros ? []).
    rewrite (type_attr_false _ (last_steps steps _ NE)). destruct GT as [GS _ _].
    destruct (find_at _ _ _ _ _ _ _ _ _ _ _ _ [3] ST EX GS) as [l [R AT]]. rewrite R. cbn [bind].
    destruct (cut p A n a self t y B l AT) as [_ [_ [S1 [S2 _]]]]; [intros K; now apply (sd_self _ _ _ _ _ _ _ _ _ _ _ _ _ ST)|]. rewrite <- EX in S1, S2. fold d in S1, S2.
    unfold lift, replace_element. rewrite S1. cbn [bind]. rewrite S2. cbn [bind edit_of].
    rewrite get_result_some; [now rewrite <- !app_assoc|]. rewrite <- !app_assoc, app_assoc. apply opening_nonempty.
  Qed.
  Lemma set_attr_found' : forall s steps A n a self kids lv e t y B k v, good_tpath steps (TheAttribute k) ->
    stands s steps F A n a self kids lv e t y B -> x = A ++ (opening n t self ++ closing n self y) ++ B ->
    (blen (esc v) <= 5242880)%N -> exists a', Permutation a' (put_attr k v a) /\
    set E fmt_g d (tpath steps (TheAttribute k)) (VStr v) = Ok (p ++ A ++ (opening n (attrs_text a') self ++ closing n self y) ++ B, None).
  Proof.
    intros s steps A n a self kids lv e t y B k v GT ST EX SZ. pose proof (stands_nonempty _ _ _ _ _ _ _ _ _ _ _ _ ST) as NE. pose proof (segs_parse _ _ GT) as P.
    pose proof (stands_good _ _ _ _ _ _ _ _ _ _ _ _ _ ST Hg) as GE. inversion GE as [? ? ? ? GN GA GSf GK| |]; subst n0 a0 self0 kids0.
    destruct GT as [GS _ _]. destruct (find_at _ _ _ _ _ _ _ _ _ _ _ _ [1] ST EX GS) as [l [R AT]].
    destruct (cut p A n a self t y B l AT) as [S1 [S2 _]]; [intros K; now apply (sd_self _ _ _ _ _ _ _ _ _ _ _ _ _ ST)|]. rewrite <- EX in S1, S2. fold d in S1, S2.
    destruct AT as [B1 B2 B3 B4 B5 B6 B7].
    destruct (replaced_attrs a (l_attrs l) k v (ga_distinct _ GA) B6) as [a' [PA TA]]. exists a'. split; auto.
    rewrite (set_start' E fmt_g d Hd Hv _ (VStr v) _ ltac:(discriminate) P (segs_attr_nonempty _ _)).
    unfold set_element. rewrite segs_attr. destruct (segs_nonempty steps NE) as [sg [rr Q]]. rewrite Q. cbn [app]. cbn [value_to_xml]. rewrite <- esc_escape.
    rewrite (proj2 (N.ltb_ge MaxValueSize (blen (esc v))) SZ), (size_ok _ Hd).
    change (sg :: rr ++ [step_seg (Attr k, [])]) with ((sg :: rr) ++ [step_seg (Attr k, [])]). rewrite <- Q.
    rewrite intents_steps by (intros ? [<-|[]]; discriminate). rewrite last_last, removelast_last. cbn [step_seg s_type segtype_eqb s_value].
    rewrite R. cbn [bind]. unfold lift, replace_attribute. rewrite S1. cbn [bind]. rewrite S2. cbn [bind]. cbn [step_seg s_value] in *. rewrite TA. rewrite B5, B7.
    cbn [bind edit_of].
    replace ((p ++ A) ++ bs "<" ++ n ++ attrs_text a' ++ (if self then bs "/>" else bs ">") ++ closing n self y ++ B)
      with ((p ++ A) ++ opening n (attrs_text a') self ++ closing n self y ++ B) by (unfold opening; now rewrite <- !app_assoc).
    rewrite get_result_some by apply opening_nonempty. now rewrite <- !app_assoc.
  Qed.
  Lemma delete_found' : forall s steps A n a self kids lv e t y B, good_tpath steps TheElement ->
    stands s steps F A n a self kids lv e t y B -> x = A ++ (opening n t self ++ closing n self y) ++ B ->
    delete E d (tpath steps TheElement) = Ok (match p ++ A ++ B with [] => d | r => r end, None).
  Proof.
    intros s steps A n a self kids lv e t y B GT ST EX. pose proof (stands_nonempty _ _ _ _ _ _ _ _ _ _ _ _ ST) as NE. destruct (segs_nonempty steps NE) as [sg [r Q]]. pose proof (segs_parse _ _ GT) as P.
    rewrite (delete_start' E d Hd Hv _ _ P) by (rewrite Q; discriminate). destruct GT as [GS _ _]. destruct (find_at _ _ _ _ _ _ _ _ _ _ _ _ [6] ST EX GS) as [l [R AT]].
    destruct (cut p A n a self t y B l AT) as [S1 [_ [_ [_ [_ S6]]]]]; [intros K; now apply (sd_self _ _ _ _ _ _ _ _ _ _ _ _ _ ST)|]. rewrite <- EX in S1, S6. fold d in S1, S6.
    unfold delete_element. rewrite Q. cbn iota. rewrite <- Q. rewrite (size_ok _ Hd), (type_attr_false _ (last_steps steps _ NE)). rewrite R. cbn [bind].
    rewrite S1. cbn [bind]. rewrite S6. cbn [bind edit_of]. unfold get_result. rewrite <- app_assoc. now destruct (p ++ A ++ B).
  Qed.
  Lemma delete_missing' : forall steps fin, good_tpath steps fin -> fin = TheElement \/ (exists k, fin = TheAttribute k) -> (forall A nd B, ~ located steps F A nd B) ->
    delete E d (tpath steps fin) = Ok (d, None).
  Proof.
    intros steps fin GT HF NL. pose proof (segs_parse _ _ GT) as P. destruct GT as [GS GF _].
    assert (NE : steps <> []) by (destruct HF as [->|[k ->]]; cbn [good_final] in GF; tauto).
    destruct (segs_nonempty steps NE) as [sg [r Q]]. destruct HF as [->|[k ->]].
    - rewrite (delete_start' E d Hd Hv _ _ P) by (rewrite Q; discriminate). unfold delete_element. rewrite Q. cbn iota. rewrite <- Q.
      rewrite (size_ok _ Hd), (type_attr_false _ (last_steps steps _ NE)). rewrite (find_no steps [6] GS NE NL). reflexivity.
    - rewrite (delete_start' E d Hd Hv _ _ P (segs_attr_nonempty _ _)). unfold delete_element. rewrite segs_attr. rewrite Q. cbn [app]. change (sg :: r ++ [step_seg (Attr k, [])]) with ((sg :: r) ++ [step_seg (Attr k, [])]).
      rewrite (size_ok _ Hd). rewrite last_last, removelast_last. cbn [step_seg s_type segtype_eqb]. rewrite <- Q.
      rewrite (find_no steps [5] GS NE NL). reflexivity.
  Qed.
  End Doc.
End Edits.
