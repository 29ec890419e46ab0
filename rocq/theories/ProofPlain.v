(** Ordinary documents are the texts of trees. *)
From Coq Require Import List Ascii String NArith ZArith Bool Lia.
From Verif Require Import GoStr ModelParser ModelValidate SpecText SpecPath SpecTree SpecQuery SpecValid SpecNotation SpecPlain
  ProofBase ProofScan ProofTree ProofTree3 ProofValid ProofValid2 ProofNotation ProofNotation2.
Import ListNotations.

(** ** From bytes to a tree *)
(** What follows in a document: the rest of the content of each open element, and its end
    tag. *)
Inductive remains : list bytes -> list (list node) -> bytes -> Prop :=
| rm_last : forall F x, written_all F x -> Forall good F -> Forall top_node F -> joined_all F -> Forall (fun nd => levels nd <= 100) F -> remains [] [F] x
| rm_more : forall n open F Fs x w s, written_all F x -> Forall good F -> joined_all F -> Forall (fun nd => levels nd + S (len open) <= 100) F -> blanks w -> small (n ++ w) ->
    remains open Fs s -> remains (n :: open) (F :: Fs) (x ++ bs "</" ++ n ++ w ++ bs ">" ++ s).
Lemma remains_cons : forall open F Fs s nd y, remains open (F :: Fs) s -> written nd y -> good nd -> (open = [] -> top_node nd) ->
  levels nd + len open <= 100 -> joined nd -> ~ is_text nd -> remains open ((nd :: F) :: Fs) (y ++ s).
Proof.
  intros open F Fs s nd y R W G T L J N. inversion R as [F0 x W0 G0 T0 J0 L0|n op F0 Fs0 x w s0 W0 G0 J0 L0 B0 S0 R0]; subst.
  - apply rm_last.
    + constructor; auto.
    + constructor; auto.
    + constructor; auto.
    + constructor; auto; intros K; contradiction.
    + constructor; auto. cbn [List.length] in L. lia.
  - rewrite app_assoc. apply rm_more; auto.
    + constructor; auto.
    + constructor; auto; intros K; contradiction.
Qed.
Definition glue (c : ascii) (F : list node) : list node :=
  match F with Text t :: F' => Text (c :: t) :: F' | _ => Text [c] :: F end.
Lemma glue_written : forall c F x, written_all F x -> written_all (glue c F) (c :: x).
Proof.
  intros c F x H. destruct F as [|[n a self kids|t|b] F]; cbn [glue]; try exact (wa_cons (Text [c]) _ [c] x (wr_text [c]) H).
  inversion H as [|? ? y z W1 W2]; subst. inversion W1; subst. match goal with |- written_all (Text (c :: ?u) :: F) _ => exact (wa_cons (Text (c :: u)) F (c :: u) z (wr_text (c :: u)) W2) end.
Qed.
Lemma glue_good : forall c F, c <> "<"%char -> c <> ">"%char -> Forall good F -> Forall good (glue c F).
Proof.
  intros c F C1 C2 H. assert (O : good (Text [c])). { constructor. split; cbn [In]; intros [K|[]]; congruence. }
  destruct F as [|[n a self kids|t|b] F]; cbn [glue]; try (constructor; auto; fail).
  inversion H as [|? ? G1 G2]; subst. constructor; auto. inversion G1 as [|? [K1 K2]|]; subst. constructor. split; cbn [In]; intros [K|K]; try congruence; auto.
Qed.
Lemma glue_joined : forall c F, joined_all F -> joined_all (glue c F).
Proof.
  intros c F H. assert (O : forall t, joined (Text (c :: t))) by (intros; constructor; discriminate).
  destruct F as [|[n a self kids|t|b] F]; cbn [glue].
  - constructor; auto. intros _ x F' K. discriminate.
  - constructor; auto. intros _ x F' K. injection K as <- <-. intros [t K]. discriminate.
  - inversion H as [|? ? J1 J2 J3]; subst. constructor; auto. intros _. apply J3. now exists t.
  - constructor; auto. intros _ x F' K. injection K as <- <-. intros [t K]. discriminate.
Qed.
Lemma glue_levels : forall c F m, Forall (fun nd => levels nd + m <= 100) F -> m <= 100 -> Forall (fun nd => levels nd + m <= 100) (glue c F).
Proof.
  intros c F m H L. destruct F as [|[n a self kids|t|b] F]; cbn [glue]; try (constructor; auto; fail).
  inversion H; subst. constructor; auto.
Qed.
Lemma glue_top : forall c F, blank c -> Forall top_node F -> Forall top_node (glue c F).
Proof.
  intros c F B H. destruct F as [|[n a self kids|t|b] F]; cbn [glue]; try (constructor; auto; constructor; auto; constructor; fail).
  inversion H as [|? ? T1 T2]; subst. constructor; auto. constructor; auto.
Qed.
Lemma remains_glue : forall open F Fs s c, remains open (F :: Fs) s -> c <> "<"%char -> c <> ">"%char -> (open = [] -> blank c) -> len open <= 100 ->
  remains open (glue c F :: Fs) (c :: s).
Proof.
  intros open F Fs s c R C1 C2 T L. inversion R as [F0 x W0 G0 T0 J0 L0|n op F0 Fs0 x w s0 W0 G0 J0 L0 B0 S0 R0]; subst.
  - apply rm_last; auto using glue_written, glue_good, glue_joined, glue_top.
    assert (K : Forall (fun nd => levels nd + 0 <= 100) F) by (eapply Forall_impl; [|exact L0]; cbn beta; intros; lia).
    pose proof (glue_levels c F 0 K) as Q. eapply Forall_impl; [|apply Q; lia]. cbn beta. intros; lia.
  - change (c :: x ++ bs "</" ++ n ++ w ++ bs ">" ++ s0) with ((c :: x) ++ bs "</" ++ n ++ w ++ bs ">" ++ s0).
    apply rm_more; auto using glue_written, glue_good, glue_joined. apply glue_levels; auto.
Qed.
Lemma remains_some : forall open Fs s, remains open Fs s -> exists F Fs', Fs = F :: Fs'.
Proof. intros open Fs s R. inversion R; subst; eauto. Qed.
Lemma blank_angle : forall c, blank c -> c <> "<"%char /\ c <> ">"%char.
Proof. intros c H. unfold blank in H. cbn [In] in H. destruct H as [<-|[<-|[<-|[<-|[]]]]]; split; discriminate. Qed.
Lemma glue_elem : forall c F, has_element F -> has_element (glue c F).
Proof.
  intros c F [n [a [b [k H]]]]. exists n, a, b, k. destruct F as [|[n0 a0 self kids|t|b0] F]; cbn [glue]; try (right; exact H).
  destruct H as [H|H]; [discriminate|]. now right.
Qed.
Lemma max_forall : forall (F : list node) m k, Forall (fun nd => levels nd + S m <= k) F -> m < k -> fold_right (fun x y => Nat.max (levels x) y) 0 F + S m <= k.
Proof. intros F m k H L. induction H as [|nd F H1 H2 IH]; cbn [fold_right]; lia. Qed.
Lemma ordinary_remains : forall found open s, ordinary found open s -> len open <= 100 ->
  exists F Fs, remains open (F :: Fs) s /\ (found = false -> open = [] -> has_element F).
Proof.
  induction 1 as [|found open c s B H IH|found open c s O C1 C2 H IH|found open c s A D H IH|found open c s A H IH|found open n a t s N L G T H IH
    |found open n a t s N L G T H IH|found open n w s B S H IH]; intros Lo.
  - exists [], []. split; [|discriminate]. apply rm_last; constructor.
  - destruct (IH Lo) as [F [Fs [R E]]]. destruct (blank_angle c B). exists (glue c F), Fs. split; [apply remains_glue; auto|]. intros; apply glue_elem; auto.
  - destruct (IH Lo) as [F [Fs [R E]]]. exists (glue c F), Fs. split; [apply remains_glue; auto; intros K; contradiction|]. intros; apply glue_elem; auto.
  - destruct (IH Lo) as [F [Fs [R E]]]. exists (Misc (bs "--" ++ c ++ bs "--") :: F), Fs. split.
    + replace (bs "<!--" ++ c ++ bs "-->" ++ s) with ((bs "<!" ++ (bs "--" ++ c ++ bs "--") ++ bs ">") ++ s) by (rewrite <- !app_assoc; reflexivity).
      apply remains_cons; auto; try (intros _; exact I); try constructor; auto.
      * left. exists c. auto.
      * intros [t K]. discriminate.
    + intros K1 K2. destruct (E K1 K2) as [n [a [b [k Q]]]]. exists n, a, b, k. now right.
  - destruct (IH Lo) as [F [Fs [R E]]]. exists (Misc (bs "[CDATA[" ++ c ++ bs "]]") :: F), Fs. split.
    + replace (bs "<![CDATA[" ++ c ++ bs "]]>" ++ s) with ((bs "<!" ++ (bs "[CDATA[" ++ c ++ bs "]]") ++ bs ">") ++ s) by (rewrite <- !app_assoc; reflexivity).
      apply remains_cons; auto; try (intros _; exact I); try constructor; auto.
      * right. exists c. auto.
      * intros [t K]. discriminate.
    + intros K1 K2. destruct (E K1 K2) as [n [a [b [k Q]]]]. exists n, a, b, k. now right.
  - destruct IH as [F [Fs [R E]]]; [cbn [List.length]; lia|].
    inversion R as [|n0 op F0 Fs0 x w s0 W0 G0 J0 L0 B0 S0 R0]; subst. destruct (remains_some _ _ _ R0) as [F1 [Fs1 ->]].
    exists (Elem n a false F :: F1), Fs1. split.
    + replace (bs "<" ++ n ++ t ++ bs ">" ++ x ++ bs "</" ++ n ++ w ++ bs ">" ++ s0) with ((bs "<" ++ n ++ t ++ bs ">" ++ x ++ bs "</" ++ n ++ w ++ bs ">") ++ s0)
        by (rewrite <- !app_assoc; reflexivity).
      apply remains_cons; auto; try (intros _; exact I).
      * constructor; auto.
      * constructor; auto. discriminate.
      * cbn [levels]. pose proof (max_forall F (len open) 100 L0 L). lia.
      * constructor; auto.
      * intros [t0 K]. discriminate.
    + intros _ _. exists n, a, false, F. now left.
  - destruct (IH Lo) as [F [Fs [R E]]]. exists (Elem n a true [] :: F), Fs. split.
    + replace (bs "<" ++ n ++ t ++ bs "/>" ++ s) with ((bs "<" ++ n ++ t ++ bs "/>") ++ s) by (rewrite <- !app_assoc; reflexivity).
      apply remains_cons; auto; try (intros _; exact I).
      * constructor; auto.
      * constructor; auto.
      * constructor; constructor.
      * intros [t0 K]. discriminate.
    + intros _ _. exists n, a, true, []. now left.
  - cbn [List.length] in Lo. destruct IH as [F [Fs [R E]]]; [lia|]. exists [], (F :: Fs). split; [|discriminate].
    apply (rm_more n open [] (F :: Fs) [] w s); auto; constructor.
Qed.
Lemma ordinary_tree : forall x, ordinary_document x ->
  exists F, Forall good F /\ Forall top_node F /\ has_element F /\ shallow F /\ joined_all F /\ written_all F x.
Proof.
  intros x H. destruct (ordinary_remains _ _ _ H) as [F [Fs [R E]]]; [cbn; lia|]. inversion R; subst. exists F. repeat (split; auto).
Qed.

(** ** From a tree to bytes *)
Lemma ordinary_textual : forall found open t s, open <> [] -> no_angle t -> ordinary found open s -> ordinary found open (t ++ s).
Proof.
  intros found open t s O [N1 N2] H. induction t as [|c t IH]; auto. cbn [app]. apply or_text; auto.
  - intros ->. apply N1. now left.
  - intros ->. apply N2. now left.
  - apply IH; intros K; [apply N1|apply N2]; now right.
Qed.
Lemma ordinary_blanks : forall found open t s, blanks t -> ordinary found open s -> ordinary found open (t ++ s).
Proof. intros found open t s B H. induction B; auto. cbn [app]. apply or_blank; auto. Qed.
Lemma written_ordinary :
  (forall nd x, written nd x -> good nd -> forall found open s, (open = [] -> top_node nd) -> levels nd + len open <= 100 ->
     ordinary (found || is_elem nd) open s -> ordinary found open (x ++ s)) /\
  (forall F x, written_all F x -> Forall good F -> forall found open s, (open = [] -> Forall top_node F) -> height F + len open <= 100 ->
     ordinary (found || existsb is_elem F) open s -> ordinary found open (x ++ s)).
Proof.
  apply written_both.
  - intros n a kids t x w Ht _ IH Hw L G found open s O D H. inversion G as [? ? ? ? G1 G2 G3 G4| |]; subst.
    rewrite <- !app_assoc. cbn [levels] in D. fold (height kids) in D.
    apply (or_open found open n a t); auto; [lia|]. 
    apply IH; auto; [discriminate|cbn [List.length]; lia|]. cbn [orb]. apply or_close; auto.
    cbn [is_elem] in H. now rewrite orb_true_r in H.
  - intros n a t Ht G found open s O D H. inversion G as [? ? ? ? G1 G2 G3 G4| |]; subst.
    rewrite <- !app_assoc. cbn [levels fold_right] in D.
    apply (or_self found open n a t); auto. cbn [is_elem] in H. now rewrite orb_true_r in H.
  - intros t G found open s O D H. cbn [is_elem] in H. rewrite orb_false_r in H. destruct open as [|o open].
    + apply ordinary_blanks; auto. exact (O eq_refl).
    + apply ordinary_textual; auto; [discriminate|]. now inversion G.
  - intros b G found open s O D H. cbn [is_elem] in H. rewrite orb_false_r in H. inversion G as [| |? M]; subst. destruct M as [[c [E [A1 A2]]]|[c [E A1]]]; rewrite E.
    + replace ((bs "<!" ++ (bs "--" ++ c ++ bs "--") ++ bs ">") ++ s) with (bs "<!--" ++ c ++ bs "-->" ++ s) by (rewrite <- !app_assoc; reflexivity).
      apply or_comment; auto.
    + replace ((bs "<!" ++ (bs "[CDATA[" ++ c ++ bs "]]") ++ bs ">") ++ s) with (bs "<![CDATA[" ++ c ++ bs "]]>" ++ s) by (rewrite <- !app_assoc; reflexivity).
      apply or_cdata; auto.
  - intros _ found open s O D H. cbn [existsb] in H. now rewrite orb_false_r in H.
  - intros nd F x y _ IH1 _ IH2 G found open s O D H. inversion G as [|? ? J1 J2]; subst. rewrite <- app_assoc.
    cbn [height fold_right] in D. fold (height F) in D. cbn [existsb] in H.
    apply IH1; auto; [intros K; specialize (O K); now inversion O|lia|].
    apply IH2; auto; [intros K; specialize (O K); now inversion O|lia|]. now rewrite <- orb_assoc.
Qed.
Lemma tree_ordinary : forall F x, Forall good F -> Forall top_node F -> has_element F -> shallow F -> written_all F x -> ordinary_document x.
Proof.
  intros F x G T HE SH W. rewrite <- (app_nil_r x). unfold ordinary_document. apply (proj2 written_ordinary F x W G false [] []); auto.
  - cbn [List.length]. rewrite Nat.add_0_r. unfold height. clear - SH. induction SH; cbn [fold_right]; lia.
  - cbn [orb]. destruct HE as [n [a [s [k K]]]]. assert (E : existsb is_elem F = true) by (apply existsb_exists; eexists; split; [exact K|reflexivity]).
    rewrite E. constructor.
Qed.
