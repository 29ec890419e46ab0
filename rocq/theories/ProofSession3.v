(** Sequences of edits under options: the calls. *)
From Coq Require Import List Ascii String NArith ZArith Bool Lia Permutation.
From Verif Require Import GoStr ModelParser ModelPath ModelResult ModelQuery ModelValidate ModelBuilder SpecText SpecPath SpecTree SpecQuery SpecEdit SpecMod SpecContent SpecValid SpecHistory SpecFilter SpecLang SpecCase SpecOptions SpecSession
  ProofBase ProofEscape ProofPath ProofScan ProofSyntax ProofApi2 ProofTree ProofTree2 ProofTree3 ProofTree4 ProofTree5 ProofTree7 ProofEdit ProofEdit2 ProofEdit3 ProofEdit4 ProofEdit5 ProofEdit6 ProofEdit7 ProofEdit8 ProofEdit11 ProofEdit12 ProofRaw2 ProofValid2
  ProofOpt ProofOpt2 ProofOpt3 ProofOpt4 ProofEdit9 ProofSession ProofSession2.
Import ListNotations.
Notation called_cons := ProofEdit2.called_cons.
Notation alike := ProofEdit8.alike.


Lemma lines_longer : forall ind names i a K, len (forest_text (nest_lines ind i names [] K)) <= len (forest_text (nest_lines ind i names a K)).
Proof.
  intros ind. induction names as [|n names IH]; intros i a K; [apply le_n|]. cbn [nest_lines]. rewrite !forest_app, !forest_one, !app_length, !node_elem, !app_length.
  assert (ST : forall b, len (start_tag n [] false) <= len (start_tag n b false)) by (intros b; unfold start_tag; rewrite !app_length; change (len (attrs_text [])) with 0; lia).
  specialize (IH (S i) a K). destruct names; [specialize (ST a); lia|lia].
Qed.

Section Calls.
  Variable E : env.
  Variable fmt_g : f64 -> bytes.
  Hypothesis Hord : forall k l, Permutation l (e_ord E k l).
  Section Doc.
  Variable o : options.
  Let x := o_case o.
  Hypothesis Hi : blanks (o_indent o).
  Variable p : bytes.
  Variable F : list node.
  Hypothesis Hp : prolog p.
  Hypothesis Hg : Forall good F.
  Let d := p ++ forest_text F.
  Hypothesis Hv : valid d = true.
  Let Hd : (blen d <= 10485760)%N := valid_size d Hv.

  Lemma call_under_ok : forall e F', legal e -> apply_under x (o_indent o) e F = Some F' -> fits p F' ->
    exists G, call_under E fmt_g o e d = Ok (p ++ forest_text G, None) /\ Forall2 same F' G.
  Proof.
    intros e F' LG H [FE [_ FS]]. destruct e as [steps [v| | |]|steps y v|steps|steps y|steps m [v| | |]]; cbn [apply_under legal call_under] in *; try discriminate; try (destruct steps; discriminate).
    - destruct LG as [GT [XN [[_ SZ] _]]]. cbn [content_nodes] in SZ. rewrite forest_one in SZ. cbn [node_text] in SZ.
      destruct (alter_inv x _ _ _ _ _ Hg H) as [[A [nd [B [l [L [SW GN]]]]]]|[[pre [post [n [a [self [kids [A [B [l [-> [L [SW [MS ML]]]]]]]]]]]]]|[l [-> [MS ML]]]]].
      + destruct nd as [n a [|] kids| |]; try discriminate. injection GN as <-. exists F'. split; [|apply same_all_refl].
        unfold d. rewrite (set_found_opt E fmt_g Hord o p F Hp Hg Hd Hv steps A n a false kids B (VStr v) (esc v) GT L ltac:(discriminate)); [|cbn [value_to_xml]; now rewrite esc_escape|exact SZ].
        rewrite (moved_text x _ _ _ _ _ SW A B L), forest_one, node_elem, forest_one, <- !app_assoc. reflexivity.
      + unfold new_under in ML. destruct (names_only post) as [names|] eqn:QN; [|discriminate]. injection ML as <-.
        destruct (absent_names x _ _ _ QN MS) as [m [ms [-> [-> CM]]]].
        destruct (set_below_opt E fmt_g Hord o p F Hp Hg Hv pre m ms A n a self kids B v GT L CM SZ) as [a' [PA [SA S1]]]. fold d in S1.
        destruct (des_moved x _ _ _ _ _ [Elem n a' false (kids ++ new_chain x (o_indent o) (m :: ms) [] [Text (esc v)])] L) as [G [SG TG]]. exists G. split.
        * rewrite S1, TG, forest_one. reflexivity.
        * eapply (moved_same x); eauto. constructor; [|constructor]. constructor; auto. apply same_all_refl.
      + unfold new_under in ML. destruct (names_only steps) as [names|] eqn:QN; [|discriminate]. injection ML as <-.
        destruct (absent_names x _ _ _ QN MS) as [m [ms [-> [-> CM]]]].
        eexists. split; [exact (set_root_opt E fmt_g Hord o p F Hp Hg Hv m ms v GT CM SZ)|apply same_all_refl].
    - destruct LG as [GT [XN [X [SZ SM]]]].
      destruct (alter_inv x _ _ _ _ _ Hg H) as [[A [nd [B [l [L [SW GN]]]]]]|[[pre [post [n [a [self [kids [A [B [l [-> [L [SW [MS ML]]]]]]]]]]]]]|[l [-> [MS ML]]]]].
      + destruct nd as [n a self kids| |]; try discriminate. cbn [attr_under] in GN. destruct (_ <=? _); [|discriminate]. injection GN as <-.
        destruct (set_attr_found_opt E fmt_g Hord o p F Hp Hg Hd Hv steps A n a self kids B y v GT L SZ) as [a' [PA [_ S1]]]. fold d in S1.
        destruct (des_moved x _ _ _ _ _ [Elem n a' self kids] L) as [G [SG TG]]. exists G. split.
        * rewrite S1, TG, forest_one, node_parts, <- !app_assoc. reflexivity.
        * eapply (moved_same x); eauto. constructor; [|constructor]. constructor; [now symmetry|apply same_all_refl].
      + unfold new_under in ML. destruct (names_only post) as [names|] eqn:QN; [|discriminate]. injection ML as <-.
        destruct (absent_names x _ _ _ QN MS) as [m [ms [-> [-> CM]]]].
        rewrite map_app in XN. apply Forall_app in XN. destruct XN as [_ XN]. rewrite by_name_fst in XN.
        destruct (attr_missing_below E fmt_g Hord o p F Hp Hg Hv pre m ms A n a self kids B y v GT L CM SZ XN (blanks_angle _ Hi)) as [a' [PA [SA S1]]]. fold d in S1.
        destruct (des_moved x _ _ _ _ _ [Elem n a' false (kids ++ new_chain x (o_indent o) (m :: ms) [(spelled x y, v)] [])] L) as [G [SG TG]].
        assert (SG2 : Forall2 same F' G).
        { eapply (moved_same x); eauto. constructor; [|constructor]. constructor; auto. apply same_all_refl. }
        exists G. split; auto. rewrite S1; [rewrite TG, forest_one; reflexivity|].
        rewrite app_length, (same_length_all F' G SG2), TG in FS. rewrite forest_one, !app_length, node_elem, forest_app, !app_length in FS. unfold blen. rewrite !app_length, node_elem, forest_app, !app_length.
        pose proof (lines_longer (o_indent o) (map (spelled x) (m :: ms)) 0 [(spelled x y, v)] []) as LE. unfold new_chain in *. fold x. lia.
      + unfold new_under in ML. destruct (names_only steps) as [names|] eqn:QN; [|discriminate]. injection ML as <-.
        destruct (absent_names x _ _ _ QN MS) as [m [ms [-> [-> CM]]]]. rewrite by_name_fst in XN.
        eexists. split; [|apply same_all_refl]. apply (attr_missing_root E fmt_g Hord o p F Hp Hg Hv m ms y v GT CM SZ XN (blanks_angle _ Hi)).
        unfold blen. rewrite app_length, forest_app, app_length in *.
        pose proof (lines_longer (o_indent o) (map (spelled x) (m :: ms)) 0 [(spelled x y, v)] []) as LE. unfold new_chain in *. fold x. lia.
    - destruct (alter x _ nothing steps F) as [F1|] eqn:Q; injection H as <-.
      + destruct (alter_inv x _ _ _ _ _ Hg Q) as [[A [nd [B [l [L [SW GN]]]]]]|[[? [? [? [? [? [? [? [? [? [_ [_ [_ [_ K]]]]]]]]]]]]]|[? [_ [_ K]]]]]; try discriminate.
        injection GN as <-. exists F1. split; [|apply same_all_refl]. pose proof (moved_text x _ _ _ _ _ SW A B L) as T. change (forest_text []) with (@nil ascii) in T. cbn [app] in T.
        pose proof (delete_found_opt E Hord o p F Hp Hg Hd Hv steps A nd B LG L) as D. fold d in D. rewrite D, T.
        destruct (p ++ A ++ B) eqn:K; [|reflexivity]. exfalso. apply app_eq_nil in K. destruct K as [_ K]. rewrite K in T. now apply (forest_nonempty F1 FE).
      + exists F. split; [|apply same_all_refl]. apply (delete_missing_opt E Hord o p F Hp Hg Hd Hv steps TheElement LG); auto. intros A nd B L.
        eapply (des_alter x); eauto. discriminate.
    - destruct (alter x _ nothing steps F) as [F1|] eqn:Q; injection H as <-.
      + destruct (alter_inv x _ _ _ _ _ Hg Q) as [[A [nd [B [l [L [SW GN]]]]]]|[[? [? [? [? [? [? [? [? [? [_ [_ [_ [_ K]]]]]]]]]]]]]|[? [_ [_ K]]]]]; try discriminate.
        destruct nd as [n a self kids| |]; try discriminate. injection GN as <-.
        pose proof (delete_attr_found_opt E Hord o p F Hp Hg Hd Hv steps A n a self kids B y LG L) as D. fold d x in D. destruct (existsb _ a) eqn:AV.
        * destruct D as [a' [PA [_ D]]]. destruct (des_moved x _ _ _ _ _ [Elem n a' self kids] L) as [G [SG TG]]. exists G. split.
          -- rewrite D, TG, forest_one, node_parts, <- !app_assoc. reflexivity.
          -- eapply (moved_same x); eauto. constructor; [|constructor]. constructor; [now symmetry|apply same_all_refl].
        * rewrite (drops_absent x y a AV) in SW. apply (moved_id x) in SW. subst F1. exists F. split; [exact D|apply same_all_refl].
      + exists F. split; [|apply same_all_refl]. apply (delete_missing_opt E Hord o p F Hp Hg Hd Hv steps (TheAttribute y) LG); eauto. intros A nd B L.
        eapply (des_alter x); [exact L| |exact Q]. destruct (designated_good _ _ _ _ _ _ L Hg) as [_ EL]. destruct nd; discriminate.
    - destruct LG as [GS [LN [XN [[_ SZ] _]]]]. cbn [content_nodes] in SZ. rewrite forest_one in SZ. cbn [node_text] in SZ. destruct steps as [|s steps].
      + injection H as <-. cbn [app] in *. eexists. split; [|apply same_all_refl].
        assert (SM : step_name m) by (inversion GS as [|? ? [K _] _]; exact K).
        pose proof (append_top_tree E fmt_g Hord o p F Hp Hg Hv m v _ _ SM (divide_parted (finds x m) F) SZ) as A. cbv zeta in A. fold d x in A. cbn [app] in A. rewrite A.
        destruct (10485760 <? _)%N eqn:Q; [|reflexivity]. apply N.ltb_lt in Q. unfold blen in Q. lia.
      + destruct (alter_inv x _ _ _ _ _ Hg H) as [[A [nd [B [l [L [SW GN]]]]]]|[[? [? [? [? [? [? [? [? [? [_ [_ [_ [_ K]]]]]]]]]]]]]|[? [_ [_ K]]]]]; try discriminate.
        destruct nd as [n a self kids| |]; try discriminate. cbn [more_under] in GN. injection GN as <-. pose proof (moved_text x _ _ _ _ _ SW A B L) as T. rewrite forest_one in T. destruct self.
        * destruct (append_self_tree E fmt_g Hord o p F Hp Hg Hv (s :: steps) A n a kids B m v GS LN L SZ) as [a' [PA [_ S1]]]. fold d x in S1.
          destruct (designated_good _ _ _ _ _ _ L Hg) as [GE _]. assert (kids = []) by (inversion GE; auto). subst kids.
          destruct (des_moved x _ _ _ _ _ [Elem n a' false [Elem (spelled x m) [] false [Text (esc v)]]] L) as [G [SG TG]]. exists G. split.
          -- rewrite TG, forest_one. exact S1.
          -- eapply (moved_same x); eauto. constructor; [|constructor]. constructor; [now symmetry|]. apply same_all_refl.
        * exists F'. split; [|apply same_all_refl]. rewrite T in *.
          pose proof (append_found_tree E fmt_g Hord o p F Hp Hg Hv (s :: steps) A n a kids B m v _ _ GS LN L (divide_parted (finds x m) kids) SZ) as S1. cbv zeta in S1. fold d x in S1. etransitivity; [exact S1|].
          destruct (10485760 <? _)%N eqn:Q; [|reflexivity]. apply N.ltb_lt in Q. exfalso. apply (N.lt_irrefl 10485760). eapply N.lt_le_trans; [exact Q|exact FS].
  Qed.
  End Doc.

  Lemma session_ok : forall p ops F F', prolog p -> strict_prolog p -> session p ops F F' -> forall G, Forall good F -> Forall top_node F -> fits p F -> Forall2 same F G ->
    exists G', calls_under E fmt_g ops (p ++ forest_text G) = Ok (p ++ forest_text G', None) /\ Forall2 same F' G' /\ Forall good F' /\ Forall top_node F' /\ fits p F'.
  Proof.
    intros p ops F F' Hp SP H. induction H as [F|o e ops F F1 F2 BI LG AP FT H IH]; intros G Gd T Ft S; cbn [calls_under].
    - exists G. auto.
    - assert (FT2 : fits p F1) by (destruct FT as [FT1 FT3]; destruct Ft as [_ [Ft _]]; split; [exact FT1|]; split; [eapply apply_under_shallow; eauto|exact FT3]).
      pose proof (apply_under_alike (o_case o) (o_indent o) e F G Gd S) as AL. rewrite AP in AL. destruct (apply_under _ _ e G) as [G1|] eqn:AG; [|destruct AL]. cbn [ProofEdit8.alike] in AL.
      pose proof (same_good_all F G S Gd) as GG.
      destruct (call_under_ok o BI p G Hp GG) with (e := e) (F' := G1) as [G2 [CA SG]]; auto.
      + apply state_valid; auto; [eapply same_top; eauto|eapply same_fits; eauto].
      + eapply same_fits; eauto.
      + rewrite CA. destruct (apply_under_good _ _ e F F1 BI LG Gd T AP) as [G1' T1']. apply IH; auto. eapply same_all_trans; eauto.
  Qed.
End Calls.
