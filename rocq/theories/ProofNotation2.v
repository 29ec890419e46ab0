(** Documents are accepted however their tags are written. *)
From Coq Require Import List Ascii String NArith ZArith Bool Lia Permutation.
From Verif Require Import GoStr ModelParser ModelValidate SpecText SpecPath SpecTree SpecQuery SpecValid SpecNotation
  ProofBase ProofScan ProofTree ProofTree3 ProofValid ProofValid2 ProofNotation.
Import ListNotations.

Lemma attrs_as_attributes : forall a t, attrs_as a t -> Forall xml_name (map fst a) -> attributes (len a) t.
Proof.
  induction 1 as [w Hw|k v a w1 w2 w3 q x s0 W1 W2 W3 Q1 Q2 Q3 D H IH]; intros N; [now constructor|].
  cbn [map fst] in N. inversion N; subst. cbn [List.length]. apply at_one; auto.
Qed.
Lemma tag_as_attributes : forall a t, tag_as a t -> good_attrs a -> tag_attributes (len a) t.
Proof. intros a t [H1 H2] [G1 G2 G3 G4]. split; auto. now apply attrs_as_attributes. Qed.
Lemma accepted_text : forall found open t s, open <> [] -> ~ In "<"%char t -> accepted found open s -> accepted found open (t ++ s).
Proof.
  intros found open t s O. induction t as [|c t IH]; intros N H; auto. cbn [app]. apply ac_text; auto.
  - intros ->. apply N. now left.
  - apply IH; auto. intros K. apply N. now right.
Qed.
Definition height (F : list node) : nat := fold_right (fun k m => Nat.max (levels k) m) 0 F.
Lemma written_accepted :
  (forall nd x, written nd x -> good nd -> forall found open s, (open = [] -> top_node nd) -> levels nd + len open <= 100 ->
     accepted (found || is_elem nd) open s -> accepted found open (x ++ s)) /\
  (forall F x, written_all F x -> Forall good F -> forall found open s, (open = [] -> Forall top_node F) -> height F + len open <= 100 ->
     accepted (found || existsb is_elem F) open s -> accepted found open (x ++ s)).
Proof.
  apply written_both.
  - intros n a kids t x w Ht _ IH Hw L G found open s O D H. inversion G as [? ? ? ? G1 G2 G3 G4| |]; subst.
    rewrite <- !app_assoc. cbn [bs list_ascii_of_string app]. cbn [levels] in D. fold (height kids) in D.
    apply (ac_open found open n (len a) t); auto.
    + apply G2.
    + lia.
    + now apply tag_as_attributes.
    + apply IH; auto; [discriminate|cbn [List.length]; lia|]. cbn [orb]. apply ac_close; auto.
      cbn [is_elem] in H. now rewrite orb_true_r in H.
  - intros n a t Ht G found open s O D H. inversion G as [? ? ? ? G1 G2 G3 G4| |]; subst.
    rewrite <- !app_assoc. cbn [bs list_ascii_of_string app]. cbn [levels fold_right] in D.
    apply (ac_self found open n (len a) t); auto.
    + apply G2.
    + now apply tag_as_attributes.
    + cbn [is_elem] in H. now rewrite orb_true_r in H.
  - intros t G found open s O D H. cbn [is_elem] in H. rewrite orb_false_r in H. destruct open as [|o open].
    + apply accepted_blanks; auto. exact (O eq_refl).
    + apply accepted_text; auto; [discriminate|]. inversion G as [|? [K _]|]; auto.
  - intros b G found open s O D H. cbn [is_elem] in H. rewrite orb_false_r in H. apply ac_aside; auto. inversion G; subst. now apply misc_aside.
  - intros _ found open s O D H. cbn [existsb] in H. now rewrite orb_false_r in H.
  - intros nd F x y _ IH1 _ IH2 G found open s O D H. inversion G as [|? ? J1 J2]; subst. rewrite <- app_assoc.
    cbn [height fold_right] in D. fold (height F) in D. cbn [existsb] in H.
    apply IH1; auto; [intros K; specialize (O K); now inversion O|lia|].
    apply IH2; auto; [intros K; specialize (O K); now inversion O|lia|]. now rewrite <- orb_assoc.
Qed.
Lemma accepted_prolog : forall p, strict_prolog p -> forall s, accepted false [] s -> accepted false [] (p ++ s).
Proof.
  induction 1 as [|x p B P IH|b p B1 B2 P IH|c p C P IH|x p D P IH|x y z p D1 D2 P IH]; intros s Y.
  - exact Y.
  - rewrite <- app_assoc. apply accepted_blanks; auto.
  - rewrite <- !app_assoc. replace (bs "<?" ++ b ++ bs "?>" ++ p ++ s) with ((bs "<?" ++ (b ++ ["?"%char]) ++ bs ">") ++ p ++ s)
      by (rewrite <- !app_assoc; reflexivity).
    apply ac_aside; [|now apply IH]. constructor.
    + intros K. apply in_app_iff in K. destruct K as [K|K]; auto. cbn in K. intuition discriminate.
    + unfold small in *. rewrite !app_length in *. change (len (bs "<?")) with 2 in *. change (len (bs "?")) with 1 in *. cbn [List.length] in *. lia.
  - rewrite <- !app_assoc. replace (bs "<!--" ++ c ++ bs "-->" ++ p ++ s) with ((bs "<!--" ++ c ++ bs "-->") ++ p ++ s)
      by (rewrite <- !app_assoc; reflexivity).
    apply ac_aside; [|now apply IH]. now constructor.
  - rewrite <- !app_assoc. replace (bs "<!DOCTYPE" ++ x ++ bs ">" ++ p ++ s) with ((bs "<!" ++ bs "DOCTYPE" ++ x ++ bs ">") ++ p ++ s)
      by (rewrite <- !app_assoc; reflexivity).
    apply ac_aside; [|now apply IH]. constructor; auto.
    + apply brackets_none. intros c Hc. specialize (D c Hc). cbn in D. split; intros ->; tauto.
    + intros u v E. exfalso. apply (D ">"%char); [rewrite E; apply in_elt|cbn; tauto].
  - rewrite <- !app_assoc. replace (bs "<!DOCTYPE" ++ x ++ bs "[" ++ y ++ bs "]" ++ z ++ bs ">" ++ p ++ s)
      with ((bs "<!" ++ bs "DOCTYPE" ++ (x ++ bs "[" ++ y ++ bs "]" ++ z) ++ bs ">") ++ p ++ s)
      by (rewrite <- !app_assoc; reflexivity).
    assert (X0 : brackets x = 0%Z) by (apply brackets_none; intros c Hc; specialize (D1 c (in_or_app _ _ _ (or_introl Hc))); cbn in D1; split; intros ->; tauto).
    assert (Z0 : brackets z = 0%Z) by (apply brackets_none; intros c Hc; specialize (D1 c (in_or_app _ _ _ (or_intror Hc))); cbn in D1; split; intros ->; tauto).
    assert (Y0 : forall u v, y = u ++ v -> brackets u = 0%Z).
    { intros u v ->. apply brackets_none; intros c Hc; specialize (D2 c (in_or_app _ _ _ (or_introl Hc))); cbn in D2; split; intros ->; tauto. }
    apply ac_aside; [|now apply IH]. constructor; auto.
    + rewrite !brackets_app, X0, Z0, (Y0 y []) by (now rewrite app_nil_r). reflexivity.
    + intros u v E. destruct (cut_at ">" x _ u v E) as [u1 [-> E1]]; [intros K; apply (D1 _ (in_or_app _ _ _ (or_introl K))); cbn; tauto|].
      destruct u1 as [|c u1]; [discriminate|]. change (bs "[" ++ y ++ bs "]" ++ z) with ("["%char :: y ++ bs "]" ++ z) in E1. injection E1 as <- E1.
      rewrite brackets_app, X0. cbn [brackets]. change (Ascii.eqb "[" "[") with true. cbn iota.
      assert (B : brackets u1 = 0%Z).
      { clear - E1 Y0 D1 D2. revert y E1 Y0 D2. induction u1 as [|c u1 IHu]; intros y E1 Y0 D2; [reflexivity|]. destruct y as [|c' y].
        - change (bs "]" ++ z) with ("]"%char :: z) in E1. cbn [app] in E1. injection E1 as <- E1. exfalso. apply (D1 ">"%char); [|cbn; tauto].
          apply in_or_app. right. rewrite E1. apply in_elt.
        - cbn [app] in E1. injection E1 as <- E1. cbn [brackets]. rewrite (IHu y E1).
          + pose proof (Y0 [c'] y eq_refl) as Q. cbn [brackets] in Q. lia.
          + intros a b ->. pose proof (Y0 (c' :: a) b eq_refl) as Q. pose proof (Y0 [c'] (a ++ b) eq_refl) as Q2. cbn [brackets] in Q, Q2. lia.
          + intros d Hd. apply D2. now right. }
      rewrite B. discriminate.
Qed.

Lemma written_valid : forall p F x, strict_prolog p -> written_all F x -> Forall good F -> Forall top_node F -> has_element F -> shallow F ->
  (N.of_nat (len (p ++ x)) <= 10485760)%N -> valid (p ++ x) = true.
Proof.
  intros p F x P W G T HE SH L. apply valid_accepted. split; auto. apply accepted_prolog; auto.
  rewrite <- (app_nil_r x). apply (proj2 written_accepted F x W G); auto.
  - cbn [List.length]. pose proof (proj2 (depth_shallow F) SH) as D. unfold depth_of in D. unfold height. lia.
  - rewrite (proj1 (has_element_exists F) HE). constructor.
Qed.
