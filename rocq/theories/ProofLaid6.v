(** Histories of edits of documents in ordinary notation. *)
From Coq Require Import List Ascii String NArith ZArith Bool Lia Permutation.
From Verif Require Import GoStr ModelParser ModelPath ModelResult ModelQuery ModelValidate ModelBuilder SpecText SpecPath SpecTree SpecQuery SpecEdit SpecContent SpecValid SpecNotation SpecHistory SpecLaid
  ProofBase ProofEscape ProofPath ProofScan ProofSyntax ProofApi2 ProofTree ProofTree2 ProofTree3 ProofTree4 ProofTree5 ProofTree7 ProofEdit ProofEdit2 ProofEdit3 ProofEdit4 ProofEdit5 ProofEdit6 ProofEdit7 ProofEdit8 ProofEdit9 ProofEdit11 ProofEdit12 ProofRaw2 ProofValid2
  ProofNotation ProofNotation2 ProofLaid ProofLaid2 ProofLaid3 ProofLaid4 ProofLaid5.
Import ListNotations.

Lemma laid_nonempty : forall top s F x, laid_all top s F x -> has_element F -> x <> [].
Proof.
  intros top s F x H. induction H as [|top e s nd F x y H1 H2 IH]; intros [n [a [sf [k I]]]]; [destruct I|]. destruct I as [->|I].
  - intros K. apply app_eq_nil in K. destruct K as [-> _]. inversion H1; unfold opening in *; cbn in *; discriminate.
  - intros K. apply app_eq_nil in K. destruct K as [_ K]. apply IH; auto. exists n, a, sf, k. exact I.
Qed.
Lemma nest_laid : forall names K, Forall xml_name names -> Forall good K -> forall top s, laid_all top s (nest names K) (fold_right (fun n t => start_tag n [] false ++ t ++ end_tag n) (forest_text K) names).
Proof. intros names K X G top s. rewrite <- nest_text. apply forest_laid. now apply nest_good. Qed.
Lemma child_laid : forall m K, xml_name m -> Forall good K -> forall top s, laid_all top s [child_of m K] (start_tag m [] false ++ forest_text K ++ end_tag m).
Proof.
  intros m K X G top s. pose proof (forest_laid [child_of m K] (Forall_cons _ (child_good m K X G) (Forall_nil _)) top s) as H. rewrite forest_one in H. unfold child_of in *. now rewrite node_elem in H.
Qed.
Lemma swapped_len : forall steps F nd l l' F1 F2, swapped steps F nd l F1 -> swapped steps F nd l' F2 -> len (forest_text l) <= len (forest_text l') -> len (forest_text F1) <= len (forest_text F2).
Proof.
  intros steps F nd l l' F1 F2 S1 S2 H.
  assert (L : exists A B, located steps F A nd B).
  { clear - S1. induction S1 as [m idx F1 nd l F2 H1 H2|m idx rest F1 m' a' kids kids' F2 nd l H1 H2 H3 [A [B IH]]]; do 2 eexists; constructor; eauto. }
  destruct L as [A [B L]]. rewrite (swapped_text _ _ _ _ _ S1 A B L), (swapped_text _ _ _ _ _ S2 A B L), !app_length. lia.
Qed.

Section Calls.
  Variable E : env.
  Variable fmt_g : f64 -> bytes.
  Hypothesis Hord : forall k l, Permutation l (e_ord E k l).
  Section Doc.
  Variable p x : bytes.
  Variable F : list node.
  Variable S0 : nat.
  Hypothesis Hp : prolog p.
  Hypothesis Hg : Forall good F.
  Hypothesis Hx : laid_all true S0 F x.
  Hypothesis Hv : valid (p ++ x) = true.
  Let Hd : (blen (p ++ x) <= 10485760)%N := valid_size (p ++ x) Hv.

  Lemma call_laid : forall o F', legal o -> apply_edit o F = Some F' -> has_element F' -> (N.of_nat (len p + len (forest_text F') + S0) <= 10485760)%N ->
    exists G y, call E fmt_g o (p ++ x) = Ok (p ++ y, None) /\ Forall2 same F' G /\ laid_all true S0 G y.
  Proof.
    intros o F' LG H HE FS. destruct o as [steps c|steps k v|steps|steps k|steps m c]; cbn [apply_edit legal call] in *.
    - destruct LG as [GT [XN [GC _]]]. destruct (content_call E fmt_g c (p ++ x) (tpath steps TheElement) GC) as [v [NV [VX [SZ CC]]]]. rewrite CC. pose proof (content_good c GC) as GK. set (K := content_nodes c) in *.
      destruct (change_inv _ _ _ _ _ Hg H) as [[A0 [nd [B0 [l [L [SW GN]]]]]]|[[pre [post [n [a [self [kids [A0 [B0 [l [-> [L [SW [MS ML]]]]]]]]]]]]]|[l [-> [MS ML]]]]].
      + destruct nd as [n a [|] kids| |]; try discriminate. injection GN as <-. destruct (located_stands _ _ _ _ _ _ _ _ _ _ L Hg Hx) as [s [A [lv [e [t [y [B [ST [EX SS]]]]]]]]].
        exists F', (A ++ (opening n t false ++ closing n false (forest_text K)) ++ B). split; [|split; [apply same_all_refl|]].
        * rewrite (set_found' E fmt_g Hord p x F Hp Hg Hd Hv s steps A n a false kids lv e t y B v (forest_text K) GT ST EX NV VX SZ). cbn [closing]. now rewrite <- !app_assoc.
        * apply all_more with (s := s + e); auto. eapply stands_swapped; eauto. apply all_one, form_laid; [apply (sd_tag _ _ _ _ _ _ _ _ _ _ _ _ _ ST)|now apply forest_laid|discriminate].
      + unfold new_kids in ML. destruct (names_only post) as [names|] eqn:QN; [|discriminate]. injection ML as <-.
        destruct (missing_names _ _ _ QN MS) as [m [ms [-> [-> CM]]]]. destruct (located_stands _ _ _ _ _ _ _ _ _ _ L Hg Hx) as [s [A [lv [e [t [y [B [ST [EX SS]]]]]]]]].
        rewrite map_app in XN. apply Forall_app in XN. destruct XN as [_ XN]. rewrite by_name_fst in XN.
        destruct (create_kids' E fmt_g Hord p x F S0 Hp Hg Hx Hd Hv s pre m ms A n a self kids lv e t y B v (forest_text K) GT ST EX CM NV VX SZ) as [a' [t' [PA [TG [_ S1]]]]].
        destruct (located_swapped _ _ _ _ _ [Elem n a' false (kids ++ nest (m :: ms) K)] L) as [G [SG _]].
        exists G. eexists. split; [exact S1|]. split.
        * eapply swapped_same; [exact Hg|exact SW|exact SG|]. constructor; [|constructor]. constructor; auto. apply same_all_refl.
        * apply all_more with (s := s + e); auto. eapply stands_swapped; eauto. apply all_one, form_laid; [exact TG| |discriminate].
          apply (all_app _ 0 _ _ (sd_kids _ _ _ _ _ _ _ _ _ _ _ _ _ ST) 0). now apply nest_laid.
      + unfold new_kids in ML. destruct (names_only steps) as [names|] eqn:QN; [|discriminate]. injection ML as <-.
        destruct (missing_names _ _ _ QN MS) as [m [ms [-> [-> CM]]]]. rewrite by_name_fst in XN.
        exists (F ++ nest (m :: ms) K). eexists. split; [exact (create_top' E fmt_g Hord p x F S0 Hp Hg Hx Hd Hv m ms v _ GT CM NV VX SZ)|]. split; [apply same_all_refl|].
        rewrite <- (Nat.add_0_r S0). apply all_app; auto. now apply nest_laid.
    - destruct LG as [GT [XN [X [SZ SM]]]].
      assert (GK1 : good_attrs [(k, v)]) by (apply (put_good k v []); auto; [constructor; cbn; try constructor; lia|cbn; lia]).
      destruct (change_inv _ _ _ _ _ Hg H) as [[A0 [nd [B0 [l [L [SW GN]]]]]]|[[pre [post [n [a [self [kids [A0 [B0 [l [-> [L [SW [MS ML]]]]]]]]]]]]]|[l [-> [MS ML]]]]].
      + destruct nd as [n a self kids| |]; try discriminate. cbn [attr_of] in GN. destruct (Nat.leb_spec (len (put_attr k v a)) 100) as [LE|]; [|discriminate]. injection GN as <-.
        destruct (located_stands _ _ _ _ _ _ _ _ _ _ L Hg Hx) as [s [A [lv [e [t [y [B [ST [EX SS]]]]]]]]].
        pose proof (stands_good _ _ _ _ _ _ _ _ _ _ _ _ _ ST Hg) as GE. inversion GE as [? ? ? ? GN GA GSf GK| |]; subst n0 a0 self0 kids0.
        destruct (set_attr_found' E fmt_g Hord p x F Hp Hg Hd Hv s steps A n a self kids lv e t y B k v GT ST EX SZ) as [a' [PA S1]].
        destruct (located_swapped _ _ _ _ _ [Elem n a' self kids] L) as [G [SG _]]. exists G. eexists. split; [exact S1|]. split.
        * eapply swapped_same; [exact Hg|exact SW|exact SG|]. constructor; [|constructor]. constructor; [now symmetry|apply same_all_refl].
        * apply all_more with (s := s + e); auto. eapply stands_swapped; eauto. apply all_one, form_laid; [|apply (sd_kids _ _ _ _ _ _ _ _ _ _ _ _ _ ST)|exact GSf].
          apply tagged_canon. eapply good_attrs_perm; [symmetry; exact PA|]. now apply put_good.
      + unfold new_attr in ML. destruct (names_only post) as [names|] eqn:QN; [|discriminate]. injection ML as <-.
        destruct (missing_names _ _ _ QN MS) as [m [ms [-> [-> CM]]]]. rewrite last_cons in SW.
        rewrite map_app in XN. apply Forall_app in XN. destruct XN as [_ XN]. rewrite by_name_fst in XN.
        destruct (located_stands _ _ _ _ _ _ _ _ _ _ L Hg Hx) as [s [A [lv [e [t [y [B [ST [EX SS]]]]]]]]]. pose proof GT as [GS _ _].
        pose proof (stands_good _ _ _ _ _ _ _ _ _ _ _ _ _ ST Hg) as GE. inversion GE as [? ? ? ? GN GA GSf GK| |]; subst n0 a0 self0 kids0.
        destruct (create_below' E Hord p x F S0 Hp Hg Hx Hd Hv s pre m ms [0; 2] [] A n a self kids lv e t y B GS ST EX CM) as [a' [t' [PA [TG [_ S1]]]]].
        destruct (located_swapped _ _ _ _ _ [Elem n a' false (kids ++ nest (m :: ms) [])] L) as [F2 [SW2 _]].
        destruct (swapped_below _ _ _ _ _ _ _ _ _ SW2 _ _ _ _ (swapped_nest ms m kids (Elem (last ms m) [(k, v)] false []) CM)) as [F3 [SW3 SW4]].
        assert (L2 : laid_all true (s + e) F2 (A ++ (opening n t' false ++ closing n false (y ++ fold_right (fun n t => start_tag n [] false ++ t ++ end_tag n) [] (m :: ms))) ++ B)).
        { eapply stands_swapped; eauto. apply all_one, form_laid; [exact TG| |discriminate].
          apply (all_app _ 0 _ _ (sd_kids _ _ _ _ _ _ _ _ _ _ _ _ _ ST) 0). apply (nest_laid (m :: ms) []); auto. }
        assert (G2 : Forall good F2).
        { eapply swapped_good; [exact SW2|exact Hg|]. constructor; [|constructor]. constructor; auto; [eapply good_attrs_perm; eauto|discriminate|]. apply Forall_app. split; auto. apply nest_good; auto. }
        assert (SF : Forall2 same F' F3).
        { eapply swapped_same; [exact Hg|exact SW|exact SW4|]. constructor; [|constructor]. constructor; auto. apply same_all_refl. }
        match type of L2 with laid_all _ _ _ ?z => set (x2 := z) in * end.
        assert (SN : (blen (p ++ x2) <= 10485760)%N).
        { pose proof (laid_le _ _ _ _ L2) as LL. unfold blen. rewrite app_length. rewrite (same_length_all _ _ SF) in FS.
          assert (len (forest_text F2) <= len (forest_text F3)); [|lia]. eapply swapped_len; [exact SW2|exact SW4|]. rewrite !forest_one, nest_split, !node_elem, !forest_app, !app_length.
          pose proof (nest_length (removelast (m :: ms)) _ _ (attr_longer (last ms m) (k, v) [])). lia. }
        destruct (set_attr_created E fmt_g Hord p x F S0 Hp Hg Hx Hd Hv (pre ++ by_name (m :: ms)) k v [0; 2] F2 (s + e) x2 (last ms m) F3) as [x3 [S3 L3]]; auto.
        * intros; cbn [by_name map]. eapply absent_below; eauto.
        * unfold x2. rewrite <- !app_assoc, app_assoc. apply opening_nonempty.
        * exists F3, x3. split; [exact S3|]. split; [exact SF|]. eapply all_more; eauto.
      + unfold new_attr in ML. destruct (names_only steps) as [names|] eqn:QN; [|discriminate]. injection ML as <-.
        destruct (missing_names _ _ _ QN MS) as [m [ms [-> [-> CM]]]]. rewrite last_cons in *. rewrite by_name_fst in XN. pose proof GT as [GS _ _].
        pose proof (create_root' E Hord p x F S0 Hp Hg Hx Hd Hv m ms [0; 2] [] GS CM) as CE.
        pose proof (swapped_nest ms m F (Elem (last ms m) [(k, v)] false []) CM) as SW3.
        assert (L2 : laid_all true S0 (F ++ nest (m :: ms) []) (x ++ fold_right (fun n t => start_tag n [] false ++ t ++ end_tag n) [] (m :: ms))).
        { rewrite <- (Nat.add_0_r S0). apply all_app; auto. apply (nest_laid (m :: ms) []); auto. }
        match type of L2 with laid_all _ _ _ ?z => set (x2 := z) in * end.
        assert (SN : (blen (p ++ x2) <= 10485760)%N).
        { pose proof (laid_le _ _ _ _ L2) as LL. unfold blen. rewrite app_length. rewrite forest_app, app_length in *. rewrite nest_split in LL.
          pose proof (nest_length (removelast (m :: ms)) _ _ (attr_longer (last ms m) (k, v) [])). lia. }
        destruct (set_attr_created E fmt_g Hord p x F S0 Hp Hg Hx Hd Hv (by_name (m :: ms)) k v [0; 2] (F ++ nest (m :: ms) []) S0 x2 (last ms m) (F ++ nest (removelast (m :: ms)) [Elem (last ms m) [(k, v)] false []]) GT SZ) as [x3 [S3 L3]]; auto.
        * intros; cbn [by_name map]. now apply absent_here.
        * unfold x2. destruct (d_nonempty p x Hd Hv) as [c [r Dn]]. rewrite app_assoc, Dn. discriminate.
        * apply Forall_app. split; auto. apply nest_good; auto.
        * eexists. exists x3. split; [exact S3|]. split; [apply same_all_refl|exact L3].
    - destruct (change _ nothing steps F) as [F1|] eqn:Q; injection H as <-.
      + destruct (change_inv _ _ _ _ _ Hg Q) as [[A0 [nd [B0 [l [L [SW GN]]]]]]|[[? [? [? [? [? [? [? [? [? [_ [_ [_ [_ K]]]]]]]]]]]]]|[? [_ [_ K]]]]]; try discriminate.
        injection GN as <-. destruct (located_good _ _ _ _ _ L Hg) as [_ EL]. destruct nd as [n a self kids| |]; try contradiction EL; try discriminate EL.
        destruct (located_stands _ _ _ _ _ _ _ _ _ _ L Hg Hx) as [s [A [lv [e [t [y [B [ST [EX SS]]]]]]]]].
        assert (L2 : laid_all true (s + 0) F1 (A ++ [] ++ B)) by (eapply stands_swapped; eauto; constructor).
        exists F1, (A ++ B). split; [|split; [apply same_all_refl|apply all_more with (s := s + 0); [exact L2|lia]]].
        rewrite (delete_found' E Hord p x F Hp Hg Hd Hv s steps A n a self kids lv e t y B LG ST EX).
        destruct (p ++ A ++ B) eqn:K; [|reflexivity]. exfalso. apply app_eq_nil in K. destruct K as [_ K]. now apply (laid_nonempty _ _ _ _ L2 HE).
      + exists F, x. split; [|split; [apply same_all_refl|exact Hx]]. apply (delete_missing' E Hord p x F S0 Hp Hg Hx Hd Hv steps TheElement LG); auto. intros A nd B L.
        eapply located_change; eauto. discriminate.
    - destruct (change _ nothing steps F) as [F1|] eqn:Q; injection H as <-.
      + destruct (change_inv _ _ _ _ _ Hg Q) as [[A0 [nd [B0 [l [L [SW GN]]]]]]|[[? [? [? [? [? [? [? [? [? [_ [_ [_ [_ K]]]]]]]]]]]]]|[? [_ [_ K]]]]]; try discriminate.
        destruct nd as [n a self kids| |]; try discriminate. injection GN as <-. destruct (located_stands _ _ _ _ _ _ _ _ _ _ L Hg Hx) as [s [A [lv [e [t [y [B [ST [EX SS]]]]]]]]].
        pose proof (stands_good _ _ _ _ _ _ _ _ _ _ _ _ _ ST Hg) as GE. inversion GE as [? ? ? ? GN GA GSf GK| |]; subst n0 a0 self0 kids0.
        pose proof (delete_attr_found' E Hord p x F Hp Hg Hd Hv s steps A n a self kids lv e t y B k LG ST EX) as D. destruct (attr_value k a) as [w|] eqn:AV.
        * destruct D as [a' [PA D]]. destruct (located_swapped _ _ _ _ _ [Elem n a' self kids] L) as [G [SG _]]. exists G. eexists. split; [exact D|]. split.
          -- eapply swapped_same; [exact Hg|exact SW|exact SG|]. constructor; [|constructor]. constructor; [now symmetry|apply same_all_refl].
          -- apply all_more with (s := s + e); auto. eapply stands_swapped; eauto. apply all_one, form_laid; [|apply (sd_kids _ _ _ _ _ _ _ _ _ _ _ _ _ ST)|exact GSf].
             apply tagged_canon. eapply good_attrs_perm; [symmetry; exact PA|]. now apply drop_good.
        * rewrite (drop_absent k a AV) in SW. apply swapped_id in SW. subst F1. exists F, x. split; [exact D|split; [apply same_all_refl|exact Hx]].
      + exists F, x. split; [|split; [apply same_all_refl|exact Hx]]. apply (delete_missing' E Hord p x F S0 Hp Hg Hx Hd Hv steps (TheAttribute k) LG); eauto. intros A nd B L.
        eapply located_change; [exact L| |exact Q]. destruct (located_good _ _ _ _ _ L Hg) as [_ EL]. destruct nd; discriminate.
    - destruct LG as [GS [LN [XN [GC _]]]]. destruct (content_call E fmt_g c (p ++ x) (tpath (steps ++ [(m, None)]) TheElement ++ bs ".-1") GC) as [v [NV [VX [SZ CC]]]]. rewrite CC. pose proof (content_good c GC) as GK0. set (K0 := content_nodes c) in *. destruct steps as [|st steps].
      + injection H as <-. cbn [app] in *.
        assert (SM : step_name m) by (inversion GS as [|? ? [K _] _]; exact K).
        destruct (append_top' E fmt_g Hord p x F S0 Hp Hg Hx Hd Hv m v _ SM NV VX SZ) as [F1 [F2 [s1 [s2 [x1 [x2 [EF [IL [EX [L1 [L2 [SS S1]]]]]]]]]]]]. cbv zeta in S1.
        exists (insert_last (selects m) (child_of m K0) F), (x1 ++ (start_tag m [] false ++ forest_text K0 ++ end_tag m) ++ x2).
        assert (LL : laid_all true S0 (insert_last (selects m) (child_of m K0) F) (x1 ++ (start_tag m [] false ++ forest_text K0 ++ end_tag m) ++ x2)).
        { rewrite IL. change (F1 ++ child_of m K0 :: F2) with (F1 ++ [child_of m K0] ++ F2). apply all_more with (s := s1 + (0 + s2)); [|lia]. apply all_app; auto. apply all_app; auto. now apply child_laid. }
        split; [|split; [apply same_all_refl|exact LL]]. rewrite S1. rewrite (proj2 (N.ltb_ge _ _)); [reflexivity|].
        pose proof (laid_le _ _ _ _ LL). unfold blen. rewrite app_length. change (Elem m [] false K0) with (child_of m K0) in FS. lia.
      + destruct (change_inv _ _ _ _ _ Hg H) as [[A0 [nd [B0 [l [L [SW GN]]]]]]|[[? [? [? [? [? [? [? [? [? [_ [_ [_ [_ K]]]]]]]]]]]]]|[? [_ [_ K]]]]]; try discriminate.
        destruct nd as [n a self kids| |]; try discriminate. injection GN as <-. destruct (located_stands _ _ _ _ _ _ _ _ _ _ L Hg Hx) as [s [A [lv [e [t [y [B [ST [EX SS]]]]]]]]].
        pose proof (stands_good _ _ _ _ _ _ _ _ _ _ _ _ _ ST Hg) as GE. inversion GE as [? ? ? ? GN GA GSf GK| |]; subst n0 a0 self0 kids0. destruct self.
        * destruct (append_self' E fmt_g Hord p x F Hp Hg Hd Hv s (st :: steps) A n a kids lv e t y B m v _ GS LN ST EX NV VX SZ) as [a' [PA S1]].
          destruct (located_swapped _ _ _ _ _ [Elem n a' false (insert_last (selects m) (child_of m K0) kids)] L) as [G [SG _]]. exists G. eexists. split; [exact S1|]. split.
          -- eapply swapped_same; [exact Hg|exact SW|exact SG|]. constructor; [|constructor]. constructor; [now symmetry|]. apply same_all_refl.
          -- apply all_more with (s := s + e); auto. eapply stands_swapped; eauto. destruct (sd_self _ _ _ _ _ _ _ _ _ _ _ _ _ ST eq_refl) as [-> _].
             apply all_one, form_laid; [|now apply child_laid|discriminate]. apply tagged_canon. eapply good_attrs_perm; [symmetry; exact PA|exact GA].
        * destruct (append_found' E fmt_g Hord p x F S0 Hp Hg Hx Hd Hv s (st :: steps) A n a kids lv e t y B m v _ GS LN ST EX NV VX SZ) as [K1 [K2 [y1 [y2 [EK [IL [EY [L1 [L2 S1]]]]]]]]]. cbv zeta in S1.
          exists F', (A ++ (opening n t false ++ closing n false (y1 ++ (start_tag m [] false ++ forest_text K0 ++ end_tag m) ++ y2)) ++ B).
          assert (LL : laid_all true S0 F' (A ++ (opening n t false ++ closing n false (y1 ++ (start_tag m [] false ++ forest_text K0 ++ end_tag m) ++ y2)) ++ B)).
          { apply all_more with (s := s + e); auto. eapply stands_swapped; eauto. apply all_one, form_laid; [apply (sd_tag _ _ _ _ _ _ _ _ _ _ _ _ _ ST)| |discriminate].
            rewrite IL. apply (all_app _ 0 _ _ L1 0). apply (all_app _ 0 [child_of m K0] _ (child_laid m K0 XN GK0 _ _) 0). exact L2. }
          split; [|split; [apply same_all_refl|exact LL]]. etransitivity; [exact S1|]. rewrite (proj2 (N.ltb_ge _ _)); [reflexivity|].
          pose proof (laid_le _ _ _ _ LL). unfold blen. rewrite app_length. lia.
  Qed.
  End Doc.
End Calls.

Section Histories.
  Variable E : env.
  Variable fmt_g : f64 -> bytes.
  Hypothesis Hord : forall k l, Permutation l (e_ord E k l).

  Lemma laid_valid : forall p F x s, strict_prolog p -> laid_all true s F x -> Forall good F -> Forall top_node F -> shallow F -> spacious p s F -> valid (p ++ x) = true.
  Proof.
    intros p F x s P L G T SH [HE SZ]. apply (written_valid p F x); auto; [eapply all_written; eauto|]. pose proof (laid_le _ _ _ _ L). rewrite app_length. lia.
  Qed.
  Lemma same_spacious : forall p s F G, Forall2 same F G -> spacious p s F -> spacious p s G.
  Proof. intros p s F G S [H1 H2]. split; [eapply same_element_has; eauto|]. now rewrite <- (same_length_all F G S). Qed.
  Lemma laid_history_ok : forall p s ops F F', prolog p -> strict_prolog p -> laid_history p s ops F F' ->
    forall G x, Forall good F -> Forall top_node F -> shallow F -> spacious p s F -> Forall2 same F G -> laid_all true s G x ->
    exists G' y, calls E fmt_g ops (p ++ x) = Ok (p ++ y, None) /\ Forall2 same F' G' /\ laid_all true s G' y /\
      Forall good F' /\ Forall top_node F' /\ shallow F' /\ spacious p s F'.
  Proof.
    intros p s ops F F' Hp SP H. induction H as [F|o ops F F1 F2 LG AP FT H IH]; intros G x Gd T SH Ft S L; cbn [calls].
    - exists G, x. auto 10.
    - pose proof (apply_alike o F G Gd S) as AL. rewrite AP in AL. destruct (apply_edit o G) as [G1|] eqn:AG; [|destruct AL]. cbn [alike] in AL.
      pose proof (same_good_all F G S Gd) as GG. pose proof (same_spacious p s F1 G1 AL FT) as [GE GZ].
      destruct (call_laid E fmt_g Hord p x G s Hp GG L) with (o := o) (F' := G1) as [G2 [y [CA [SG L2]]]]; auto.
      + apply (laid_valid p G x s); auto; [eapply same_top; eauto|eapply same_shallow; eauto|eapply same_spacious; eauto].
      + rewrite CA. destruct (apply_good o F F1 LG Gd T AP) as [G1' T1']. apply (IH G2 y); auto; [eapply apply_shallow; eauto|eapply same_all_trans; eauto].
  Qed.

  (** One call, in terms of the bytes around the designated element. *)
  Lemma standing_stands : forall s steps F A n a self kids lv e z B, standing true s steps F A (Elem n a self kids) lv e z B ->
    exists t y, stands s steps F A n a self kids lv e t y B /\ z = opening n t self ++ closing n self y.
  Proof.
    intros s steps F A n a self kids lv e z B ST. destruct (standing_text _ _ _ _ _ _ _ _ _ _ ST) as [L _].
    destruct (laid_form _ _ _ _ _ _ _ L) as [t [y [H1 [H2 [H3 ->]]]]]. exists t, y. split; auto. now constructor.
  Qed.
  Section One.
  Variables (p : bytes) (F : list node) (s : nat) (steps : list tstep) (A : bytes) (n : bytes) (a : list (bytes * bytes)) (self : bool) (kids : list node) (lv : bool) (e : nat) (z B : bytes).
  Hypothesis Hp : prolog p.
  Hypothesis SP : strict_prolog p.
  Hypothesis Hg : Forall good F.
  Hypothesis Ht : Forall top_node F.
  Hypothesis Hs : shallow F.
  Hypothesis Hst : standing true s steps F A (Elem n a self kids) lv e z B.
  Hypothesis Hz : (N.of_nat (len (p ++ A ++ z ++ B)) <= 10485760)%N.
  Let Hv : valid (p ++ A ++ z ++ B) = true.
  Proof.
    destruct (standing_text _ _ _ _ _ _ _ _ _ _ Hst) as [_ [_ [s' [L _]]]]. apply (written_valid p F); auto; [eapply all_written; eauto|].
    assert (K : exists A0 B0, located steps F A0 (Elem n a self kids) B0) by (destruct (standing_located _ _ _ _ _ _ _ _ _ _ Hst) as [A0 [B0 [K _]]]; eauto).
    destruct K as [A0 [B0 K]]. clear -K. inversion K; subst.
    - do 4 eexists. apply in_elt.
    - exists m, a0, false, kids0. apply in_elt.
  Qed.
  Lemma set_splice : forall v xv, self = false -> good_tpath steps TheElement -> v <> VNil -> value_to_xml fmt_g v = inr xv -> (blen xv <= 5242880)%N ->
    exists t y, tag_as a t /\ z = opening n t false ++ y ++ end_tag n /\
    set E fmt_g (p ++ A ++ z ++ B) (tpath steps TheElement) v = Ok (p ++ A ++ (opening n t false ++ xv ++ end_tag n) ++ B, None).
  Proof.
    intros v xv SF GT NV VX SZ. destruct (standing_stands _ _ _ _ _ _ _ _ _ _ _ _ Hst) as [t [y [ST Q]]]. subst self. exists t, y.
    split; [apply (sd_tag _ _ _ _ _ _ _ _ _ _ _ _ _ ST)|]. split; auto. rewrite Q in *.
    rewrite (set_found' E fmt_g Hord p _ F Hp Hg Hz Hv s steps A n a false kids lv e t y B v xv GT ST eq_refl NV VX SZ). now rewrite <- !app_assoc.
  Qed.
  Lemma delete_splice : good_tpath steps TheElement -> p ++ A ++ B <> [] -> delete E (p ++ A ++ z ++ B) (tpath steps TheElement) = Ok (p ++ A ++ B, None).
  Proof.
    intros GT NE. destruct (standing_stands _ _ _ _ _ _ _ _ _ _ _ _ Hst) as [t [y [ST Q]]]. rewrite Q in *.
    rewrite (delete_found' E Hord p _ F Hp Hg Hz Hv s steps A n a self kids lv e t y B GT ST eq_refl). now destruct (p ++ A ++ B).
  Qed.
  Lemma set_attr_splice : forall k v, good_tpath steps (TheAttribute k) -> (blen (esc v) <= 5242880)%N ->
    exists t rest a', tag_as a t /\ z = opening n t self ++ rest /\ Permutation a' (put_attr k v a) /\
    set E fmt_g (p ++ A ++ z ++ B) (tpath steps (TheAttribute k)) (VStr v) = Ok (p ++ A ++ (start_tag n a' self ++ rest) ++ B, None).
  Proof.
    intros k v GT SZ. destruct (standing_stands _ _ _ _ _ _ _ _ _ _ _ _ Hst) as [t [y [ST Q]]]. rewrite Q in *.
    destruct (set_attr_found' E fmt_g Hord p _ F Hp Hg Hz Hv s steps A n a self kids lv e t y B k v GT ST eq_refl SZ) as [a' [PA S1]].
    exists t, (closing n self y), a'. split; [apply (sd_tag _ _ _ _ _ _ _ _ _ _ _ _ _ ST)|]. split; [reflexivity|]. split; [exact PA|]. rewrite <- opening_start. exact S1.
  Qed.
  Lemma delete_attr_splice : forall k, good_tpath steps (TheAttribute k) ->
    exists t rest, tag_as a t /\ z = opening n t self ++ rest /\
    match attr_value k a with
    | None => delete E (p ++ A ++ z ++ B) (tpath steps (TheAttribute k)) = Ok (p ++ A ++ z ++ B, None)
    | Some _ => exists a', Permutation a' (drop_attr k a) /\
        delete E (p ++ A ++ z ++ B) (tpath steps (TheAttribute k)) = Ok (p ++ A ++ (start_tag n a' self ++ rest) ++ B, None)
    end.
  Proof.
    intros k GT. destruct (standing_stands _ _ _ _ _ _ _ _ _ _ _ _ Hst) as [t [y [ST Q]]]. rewrite Q in *.
    pose proof (delete_attr_found' E Hord p _ F Hp Hg Hz Hv s steps A n a self kids lv e t y B k GT ST eq_refl) as K.
    exists t, (closing n self y). split; [apply (sd_tag _ _ _ _ _ _ _ _ _ _ _ _ _ ST)|]. split; [reflexivity|].
    destruct (attr_value k a); [|exact K]. destruct K as [a' [PA S1]]. exists a'. split; [exact PA|]. rewrite <- opening_start. exact S1.
  Qed.
  Lemma append_splice : forall m v xv, self = false -> Forall good_tstep (steps ++ [(m, None)]) -> len (flat_map tstep_steps (steps ++ [(m, None)])) < 100 ->
    v <> VNil -> value_to_xml fmt_g v = inr xv -> (blen xv <= 5242880)%N ->
    exists t K1 K2 y1 y2, tag_as a t /\ z = opening n t false ++ (y1 ++ y2) ++ end_tag n /\
    laid_all false 0 K1 y1 /\ laid_all false 0 K2 y2 /\ kids = K1 ++ K2 /\ (forall c, insert_last (selects m) c kids = K1 ++ c :: K2) /\
    let new := p ++ A ++ (opening n t false ++ (y1 ++ (start_tag m [] false ++ xv ++ end_tag m) ++ y2) ++ end_tag n) ++ B in
    set E fmt_g (p ++ A ++ z ++ B) (tpath (steps ++ [(m, None)]) TheElement ++ bs ".-1") v =
      Ok (if (10485760 <? blen new)%N then (p ++ A ++ z ++ B, Some ErrInvalidValue) else (new, None)).
  Proof.
    intros m v xv SF GS L NV VX SZ. destruct (standing_stands _ _ _ _ _ _ _ _ _ _ _ _ Hst) as [t [y [ST Q]]]. subst self. rewrite Q in *.
    destruct (standing_text _ _ _ _ _ _ _ _ _ _ Hst) as [_ [_ [s' [L' _]]]].
    destruct (append_found' E fmt_g Hord p _ F s' Hp Hg L' Hz Hv s steps A n a kids lv e t y B m v xv GS L ST eq_refl NV VX SZ) as [K1 [K2 [y1 [y2 [H1 [H2 [H3 [H4 [H5 H6]]]]]]]]].
    exists t, K1, K2, y1, y2. split; [apply (sd_tag _ _ _ _ _ _ _ _ _ _ _ _ _ ST)|]. subst y. split; [reflexivity|]. split; [exact H4|]. split; [exact H5|]. split; [exact H1|]. split; [exact H2|]. exact H6.
  Qed.
  End One.
End Histories.
