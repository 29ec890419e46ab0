(** Markup inside comments is passed over. *)
From Coq Require Import List Ascii String NArith ZArith Bool Lia Permutation Relations.
From Verif Require Import GoStr ModelParser SpecText SpecPath SpecTree SpecQuery SpecHidden ProofBase ProofEscape ProofScan ProofTree ProofTree2.
Import ListNotations.

(** ** Arrows *)
(** The number of dashes just read, at most two; None after an arrow. *)
Fixpoint dash (st : nat) (s : bytes) : option nat :=
  match s with
  | [] => Some st
  | c :: s' =>
      if Ascii.eqb c "-" then dash (match st with 0 => 1 | _ => 2 end) s'
      else if Ascii.eqb c ">" && Nat.eqb st 2 then None
      else dash 0 s'
  end.
Lemma dash_app : forall s t st, dash st (s ++ t) = match dash st s with Some st' => dash st' t | None => None end.
Proof.
  induction s as [|c s IH]; intros t st; auto. cbn [app dash]. destruct (Ascii.eqb c "-"); auto.
  destruct (Ascii.eqb c ">" && Nat.eqb st 2); auto.
Qed.
Lemma dash_two : forall s x, dash 2 s = Some x -> ~ exists y, s = ">"%char :: y.
Proof. intros s x H [y ->]. discriminate. Qed.
Lemma dash_arrow : forall s, dash 0 s <> None -> no_arrow s.
Proof.
  intros s H x y ->. apply H. rewrite dash_app. destruct (dash 0 x) as [[|[|st]]|]; reflexivity.
Qed.
Lemma arrow_dash : forall s st p, (st = 0 \/ (st = 1 /\ exists q, p = q ++ bs "-") \/ (st = 2 /\ exists q, p = q ++ bs "--")) ->
  no_arrow (p ++ s) -> dash st s <> None.
Proof.
  induction s as [|c s IH]; intros st p HP H; [discriminate|]. cbn [dash].
  assert (A : p ++ c :: s = (p ++ [c]) ++ s) by (rewrite <- app_assoc; reflexivity).
  destruct (Ascii.eqb c "-") eqn:C.
  - apply Ascii.eqb_eq in C. subst c. rewrite A in H. apply (IH _ (p ++ ["-"%char])); auto.
    destruct HP as [->|[[-> [q ->]]|[-> [q ->]]]]; right.
    + left. split; auto. exists p. reflexivity.
    + right. split; auto. exists q. rewrite <- app_assoc. reflexivity.
    + right. split; auto. exists (q ++ ["-"%char]). rewrite <- !app_assoc. reflexivity.
  - destruct (Ascii.eqb c ">" && Nat.eqb st 2) eqn:Q.
    + exfalso. apply andb_true_iff in Q. destruct Q as [Q1 Q2]. apply Ascii.eqb_eq in Q1. apply Nat.eqb_eq in Q2. subst.
      destruct HP as [D|[[D _]|[_ [q ->]]]]; try discriminate. apply (H q s). rewrite <- app_assoc. reflexivity.
    + rewrite A in H. apply (IH 0 (p ++ [c])); auto.
Qed.
Lemma no_arrow_dash : forall s, no_arrow s <-> dash 0 s <> None.
Proof. intros s. split; [|apply dash_arrow]. intros H. apply (arrow_dash s 0 []); auto. Qed.
Lemma dash_plain : forall s st, ~ In ">"%char s -> exists st', dash st s = Some st'.
Proof.
  induction s as [|c s IH]; intros st H; [eexists; reflexivity|]. cbn [dash].
  assert (~ In ">"%char s) by (intros K; apply H; now right).
  destruct (Ascii.eqb c "-"); auto. destruct (Ascii.eqb c ">") eqn:C; cbn [andb]; auto.
  exfalso. apply H. left. now apply Ascii.eqb_eq in C.
Qed.
Lemma attr_dash : forall st x v, xml_name x -> dash st (attr_text (x, v)) = Some 0.
Proof.
  intros st x v N. unfold attr_text. cbn [fst snd].
  assert (P : forall s, ~ In ">"%char s -> dash st (bs " " ++ s ++ [dquote]) = Some 0).
  { intros s H. cbn [bs list_ascii_of_string app dash]. change (Ascii.eqb " " "-") with false. change (Ascii.eqb " " ">") with false. cbn [andb].
    rewrite dash_app. destruct (dash_plain s 0 H) as [st' ->]. reflexivity. }
  replace (bs " " ++ x ++ bs "=" ++ [dquote] ++ esc v ++ [dquote]) with (bs " " ++ (x ++ bs "=" ++ [dquote] ++ esc v) ++ [dquote])
    by (rewrite <- !app_assoc; reflexivity).
  apply P. intros K. apply in_app_or in K. destruct K as [K|K].
  - pose proof (name_all x N) as A. rewrite Forall_forall in A. apply A in K. unfold name_byte, letter, digit in K.
    destruct K as [K|[K|K]]; [vm_compute in K; intuition congruence|vm_compute in K; intuition congruence|].
    vm_compute in K. intuition discriminate.
  - apply in_app_or in K. destruct K as [K|K]; [vm_compute in K; intuition discriminate|].
    destruct K as [K|K]; [discriminate|]. apply esc_In in K. tauto.
Qed.
Lemma attrs_dash : forall a st, Forall xml_name (map fst a) -> dash st (attrs_text a) = match a with [] => Some st | _ => Some 0 end.
Proof.
  induction a as [|[x v] a IH]; intros st H; [reflexivity|]. inversion H; subst. unfold attrs_text in *. cbn [flat_map].
  rewrite dash_app, attr_dash by auto. rewrite IH by auto. now destruct a.
Qed.
Lemma start_dash : forall n a a' self st, good_attrs a -> Permutation a a' -> dash st (start_tag n a self) = dash st (start_tag n a' self).
Proof.
  intros n a a' self st G P. pose proof (good_attrs_perm _ _ P G) as G'. unfold start_tag. rewrite !dash_app.
  destruct (dash st (bs "<")) as [s1|]; auto. rewrite !dash_app. destruct (dash s1 n) as [s2|]; auto. rewrite !dash_app.
  rewrite !attrs_dash by (apply G || apply G').
  assert (E : match a with [] => Some s2 | _ => Some 0 end = match a' with [] => Some s2 | _ => Some 0 end).
  { destruct a, a'; auto; apply Permutation_length in P; discriminate. }
  now rewrite E.
Qed.
Lemma loose_dash : forall nd nd', same nd nd' -> loose nd -> forall st, dash st (node_text nd) = dash st (node_text nd').
Proof.
  induction nd as [n a self kids IH|t|b] using node_ind'; intros nd' S L st; inversion S as [? ? a' ? ? kids' P K| |]; subst; auto.
  inversion L as [? ? ? ? L1 L2 L3 L4|]; subst. cbn [node_text]. rewrite !dash_app, (start_dash n a a' self st L2 P).
  destruct (dash st (start_tag n a' self)) as [s1|]; auto. destruct self; auto. rewrite !dash_app.
  assert (Q : forall s, dash s (flat_map node_text kids) = dash s (flat_map node_text kids')).
  { clear - IH K L4. induction K as [|k k' kids kids' K1 K2 IHk]; intros s; auto. inversion IH; subst. inversion L4; subst.
    cbn [flat_map]. rewrite !dash_app. rewrite (H1 k') by auto. destruct (dash s (node_text k')); auto. }
  now rewrite Q.
Qed.
Lemma loose_dash_all : forall F F', Forall2 same F F' -> Forall loose F -> forall st, dash st (forest_text F) = dash st (forest_text F').
Proof.
  unfold forest_text. induction 1 as [|k k' F F' K1 K2 IH]; intros L st; auto. inversion L; subst. cbn [flat_map]. rewrite !dash_app.
  rewrite (loose_dash k k') by auto. destruct (dash st (node_text k')); auto.
Qed.
Lemma no_arrow_same : forall K K', Forall2 same K K' -> Forall loose K -> no_arrow (bs "--" ++ forest_text K ++ bs "--") ->
  no_arrow (bs "--" ++ forest_text K' ++ bs "--").
Proof.
  intros K K' S L. rewrite !no_arrow_dash. rewrite !dash_app. destruct (dash 0 (bs "--")) as [st|]; auto. rewrite !dash_app.
  now rewrite (loose_dash_all _ _ S L).
Qed.

(** ** Reordered trees *)
Lemma loose_same : forall nd nd', same nd nd' -> loose nd -> loose nd'.
Proof.
  induction nd as [n a self kids IH|t|b] using node_ind'; intros nd' H G; inversion H; subst; auto.
  inversion G as [? ? ? ? G1 G2 G3 G4|]; subst. constructor; auto.
  - eapply good_attrs_perm; eauto.
  - intros K. rewrite (G3 K) in H6. now inversion H6.
  - clear - IH H6 G4. induction H6; auto. inversion IH; subst. inversion G4; subst. constructor; auto.
Qed.
Lemma loose_same_all : forall F F', Forall2 same F F' -> Forall loose F -> Forall loose F'.
Proof. intros F F' H G. induction H; auto. inversion G; subst. constructor; eauto using loose_same. Qed.
(** As [same], also inside comments. *)
Definition step (b b' : bytes) : Prop := exists K K', Forall loose K /\ Forall2 same K K' /\
  b = bs "--" ++ forest_text K ++ bs "--" /\ b' = bs "--" ++ forest_text K' ++ bs "--".
Definition steps (b b' : bytes) : Prop := clos_refl_trans_n1 _ step b b'.
Inductive varied : node -> node -> Prop :=
| va_elem : forall n a a' self kids kids', Permutation a a' -> Forall2 varied kids kids' -> varied (Elem n a self kids) (Elem n a' self kids')
| va_text : forall t, varied (Text t) (Text t)
| va_misc : forall b b', steps b b' -> varied (Misc b) (Misc b').
Section FairInd.
  Variable P : node -> Prop.
  Hypothesis H1 : forall n a self kids, xml_name n -> good_attrs a -> (self = true -> kids = []) -> Forall fair kids -> Forall P kids -> P (Elem n a self kids).
  Hypothesis H2 : forall t, ~ In "<"%char t -> P (Text t).
  Hypothesis H3 : forall c, ~ In "<"%char c -> P (Misc (bs "[CDATA[" ++ c ++ bs "]]")).
  Hypothesis H4 : forall K, Forall loose K -> no_arrow (bs "--" ++ forest_text K ++ bs "--") -> P (comment_of K).
  Lemma fair_ind' : forall nd, fair nd -> P nd.
  Proof.
    induction nd as [n a self kids IH|t|b] using node_ind'; intros F.
    - inversion F as [? ? ? ? F1 F2 F3 F4| | |]; subst. apply H1; auto. clear - IH F4. induction F4; auto. inversion IH; subst. constructor; auto.
    - inversion F; subst; auto.
    - inversion F as [| |c Hc E|K L A E]; [now apply H3|exact (H4 K L A)].
  Qed.
End FairInd.

Lemma step_plain : forall b b', step b b' -> ~ In "<"%char b -> b = b'.
Proof.
  intros b b' (K & K' & L & S & -> & ->) H.
  assert (E : K = K'); [|now rewrite E].
  assert (A : ~ In "<"%char (forest_text K)) by (intros I; apply H; apply in_or_app; right; apply in_or_app; now left).
  clear - A S. induction S as [|x y K K' S1 S2 IH]; auto. unfold forest_text in A. cbn [flat_map] in A.
  f_equal; [|apply IH; intros I; apply A; apply in_or_app; now right].
  inversion S1; subst; auto. exfalso. apply A. apply in_or_app. left. cbn [node_text]. apply in_or_app. left. left. reflexivity.
Qed.
Lemma steps_plain : forall b b', steps b b' -> ~ In "<"%char b -> b = b'.
Proof. intros b b' H N. induction H; auto. subst. now apply step_plain. Qed.
Lemma steps_trans : forall a b c, steps a b -> steps b c -> steps a c.
Proof. intros a b c H K. induction K; auto. econstructor; eauto. Qed.
Lemma misc_plain : forall b, misc_body b -> ~ In "<"%char b.
Proof.
  intros b [[c [-> [[A _] _]]]|[c [-> [A _]]]] I; repeat (apply in_app_or in I; destruct I as [I|I]); auto; vm_compute in I; intuition discriminate.
Qed.
Lemma varied_good : forall nd nd', varied nd nd' -> good nd -> same nd nd'.
Proof.
  induction nd as [n a self kids IH|t|b] using node_ind'; intros nd' V G; inversion V as [? ? a' ? ? kids' P K| |? ? S]; subst.
  - constructor; auto. inversion G as [? ? ? ? _ _ _ G4| |]; subst. clear - IH G4 K. induction K; constructor; inversion IH; inversion G4; subst; auto.
  - constructor.
  - inversion G; subst. rewrite (steps_plain _ _ S) by now apply misc_plain. constructor.
Qed.
Lemma varied_trans : forall a b c, varied a b -> varied b c -> varied a c.
Proof.
  induction a as [n at0 self kids IH|t|bb] using node_ind'; intros b c H1 H2;
    inversion H1 as [? ? a1 ? ? k1 P1 K1| |? ? S1]; subst; inversion H2 as [? ? a2 ? ? k2 P2 K2| |? ? S2]; subst; constructor.
  - now transitivity a1.
  - clear - IH K1 K2. revert k2 K2. induction K1 as [|x y l l' Hxy Hl IHl]; intros m Hm; inversion Hm; subst; constructor; auto.
    + inversion IH; subst. eauto.
    + apply IHl; auto. now inversion IH.
  - eapply steps_trans; eauto.
Qed.
Lemma varied_all_trans : forall a b c, Forall2 varied a b -> Forall2 varied b c -> Forall2 varied a c.
Proof. intros a b c H. revert c. induction H; intros c H2; inversion H2; subst; constructor; eauto using varied_trans. Qed.
Lemma varied_good_all : forall F F', Forall2 varied F F' -> Forall good F -> Forall2 same F F'.
Proof. intros F F' V. induction V; intros G; constructor; inversion G; subst; auto using varied_good. Qed.
Lemma varied_refl : forall nd, varied nd nd.
Proof. apply node_ind'; intros; constructor; auto; [induction H; constructor; auto|constructor]. Qed.
Lemma varied_all_refl : forall F, Forall2 varied F F.
Proof. induction F; constructor; auto using varied_refl. Qed.
Lemma varied_fair : forall nd, fair nd -> forall nd', varied nd nd' -> fair nd'.
Proof.
  apply (fair_ind' (fun nd => forall nd', varied nd nd' -> fair nd')).
  - intros n a self kids N A S F IH nd' V. inversion V as [? ? a' ? ? kids' P K| |]; subst. constructor; auto.
    + eapply good_attrs_perm; eauto.
    + intros ->. rewrite (S eq_refl) in K. now inversion K.
    + clear - IH K. induction K; constructor; inversion IH; subst; auto.
  - intros t H nd' V. inversion V; subst. now constructor.
  - intros c H nd' V. inversion V as [| |? b' S]; subst.
    assert (I : ~ In "<"%char (bs "[CDATA[" ++ c ++ bs "]]")).
    { intros I. repeat (apply in_app_or in I; destruct I as [I|I]); auto; vm_compute in I; intuition discriminate. }
    rewrite <- (steps_plain _ _ S I). now constructor.
  - intros K L A nd' V. inversion V as [| |? b' S]; subst.
    remember (bs "--" ++ forest_text K ++ bs "--") as b eqn:E.
    enough (G : exists K', Forall loose K' /\ no_arrow b' /\ b' = bs "--" ++ forest_text K' ++ bs "--").
    { destruct G as (K' & G1 & G2 & ->). now apply fair_comment. }
    assert (S' : steps b b') by (rewrite E; exact S). clear S V. induction S' as [|b' b'' St _ IH]; [exists K; subst; auto|].
    destruct IH as (K1 & I1 & I2 & I3). destruct St as (K2 & K3 & L2 & S2 & E2 & ->). exists K3.
    split; [eauto using loose_same_all|]. split; auto. apply (no_arrow_same K2); auto. now rewrite <- E2.
Qed.
Lemma varied_fair_all : forall F F', Forall2 varied F F' -> Forall fair F -> Forall fair F'.
Proof. intros F F' V. induction V; intros G; constructor; inversion G; subst; eauto using varied_fair. Qed.

(** ** Contents *)
Section Contents.
  Variable ord : order.
  Hypothesis Hord : forall k l, Permutation l (ord k l).
  Variable key : list nat.
  Variable ename : bytes.
  Notation C := (contents ord key ename).
  Lemma contents_bang : forall d s t r, C (S d) ("!"%char :: s) t r -> C (S d) (bs "<!" ++ s) ("<"%char :: t) r.
  Proof.
    intros d s t r [f K]. exists (S f). change (bs "<!" ++ s) with ("<"%char :: "!"%char :: s).
    cbn [content_loop]. change (Ascii.eqb "<" "<") with true. change (Ascii.eqb "!" "/") with false.
    change (Ascii.eqb "!" "!") with true. cbn iota. now rewrite K.
  Qed.
  Lemma contents_loose : forall nd, loose nd -> forall d s t r, C (S d) s t r ->
    exists nd', same nd nd' /\ C (S d) (node_text nd ++ s) (node_text nd' ++ t) r.
  Proof.
    induction nd as [n a self kids IH|x|b] using node_ind'; intros G d s t r H.
    - inversion G as [? ? ? ? G1 G2 G3 G4|]; subst. cbn [node_text]. destruct self.
      + destruct (contents_start ord Hord key ename n a true d s t r G1 G2 H) as [a' [P1 P2]]. exists (Elem n a' true kids).
        split; [constructor; auto using same_all_refl|]. cbn [node_text]. now rewrite !app_nil_r.
      + pose proof (contents_end ord key ename n d s t r G1 H) as H1.
        assert (K : exists kids', Forall2 same kids kids' /\
          C (if bytes_eqb n ename then S (S d) else S d) (forest_text kids ++ end_tag n ++ s) (forest_text kids' ++ end_tag n ++ t) r).
        { set (D := if bytes_eqb n ename then S (S d) else S d) in *.
          assert (exists d', D = S d') as [d' E] by (unfold D; destruct (bytes_eqb n ename); eauto).
          rewrite E in *. clear - IH G4 H1. revert H1. generalize (end_tag n ++ s) (end_tag n ++ t). intros s0 t0 H1.
          induction kids as [|k kids IHk]; [exists []; split; auto|].
          inversion IH as [|? ? I1 I2]; subst. inversion G4 as [|? ? J1 J2]; subst.
          destruct (IHk I2 J2) as [kids' [P1 P2]].
          destruct (I1 J1 _ _ _ _ P2) as [k' [P3 P4]]. exists (k' :: kids'). split; [constructor; auto|].
          unfold forest_text in *. cbn [flat_map]. now rewrite <- !app_assoc. }
        destruct K as [kids' [K1 K2]].
        destruct (contents_start ord Hord key ename n a false d _ _ r G1 G2 K2) as [a' [P1 P2]].
        exists (Elem n a' false kids'). split; [constructor; auto|]. cbn [node_text].
        unfold forest_text in P2. now rewrite <- !app_assoc.
    - exists (Text x). split; [constructor|]. cbn [node_text]. apply contents_text; auto. now inversion G.
    - inversion G.
  Qed.
  Lemma contents_loose_all : forall F, Forall loose F -> forall d s t r, C (S d) s t r ->
    exists F', Forall2 same F F' /\ C (S d) (forest_text F ++ s) (forest_text F' ++ t) r.
  Proof.
    unfold forest_text. induction 1 as [|nd F G1 G2 IH]; intros d s t r H; [exists []; split; auto|].
    destruct (IH _ _ _ _ H) as [F' [P1 P2]]. destruct (contents_loose nd G1 _ _ _ _ P2) as [nd' [P3 P4]].
    exists (nd' :: F'). split; [constructor; auto|]. cbn [flat_map]. now rewrite <- !app_assoc.
  Qed.
  Lemma contents_fair : forall nd, fair nd -> forall d s t r, C (S d) s t r ->
    exists nd', varied nd nd' /\ C (S d) (node_text nd ++ s) (node_text nd' ++ t) r.
  Proof.
    apply (fair_ind' (fun nd => forall d s t r, C (S d) s t r ->
      exists nd', varied nd nd' /\ C (S d) (node_text nd ++ s) (node_text nd' ++ t) r)).
    - intros n a self kids G1 G2 G3 G4 IH d s t r H. cbn [node_text]. destruct self.
      + destruct (contents_start ord Hord key ename n a true d s t r G1 G2 H) as [a' [P1 P2]]. exists (Elem n a' true kids).
        split; [constructor; auto using varied_all_refl|]. cbn [node_text]. now rewrite !app_nil_r.
      + pose proof (contents_end ord key ename n d s t r G1 H) as H1.
        assert (K : exists kids', Forall2 varied kids kids' /\
          C (if bytes_eqb n ename then S (S d) else S d) (forest_text kids ++ end_tag n ++ s) (forest_text kids' ++ end_tag n ++ t) r).
        { set (D := if bytes_eqb n ename then S (S d) else S d) in *.
          assert (exists d', D = S d') as [d' E] by (unfold D; destruct (bytes_eqb n ename); eauto).
          rewrite E in *. clear - IH H1. revert H1. generalize (end_tag n ++ s) (end_tag n ++ t). intros s0 t0 H1.
          induction kids as [|k kids IHk]; [exists []; split; auto|].
          inversion IH as [|? ? I1 I2]; subst.
          destruct (IHk I2) as [kids' [P1 P2]].
          destruct (I1 _ _ _ _ P2) as [k' [P3 P4]]. exists (k' :: kids'). split; [constructor; auto|].
          unfold forest_text in *. cbn [flat_map]. now rewrite <- !app_assoc. }
        destruct K as [kids' [K1 K2]].
        destruct (contents_start ord Hord key ename n a false d _ _ r G1 G2 K2) as [a' [P1 P2]].
        exists (Elem n a' false kids'). split; [constructor; auto|]. cbn [node_text].
        unfold forest_text in P2. now rewrite <- !app_assoc.
    - intros x Hx d s t r H. exists (Text x). split; [constructor|]. cbn [node_text]. now apply contents_text.
    - intros c Hc d s t r H. exists (Misc (bs "[CDATA[" ++ c ++ bs "]]")). split; [apply varied_refl|]. cbn [node_text].
      rewrite <- !app_assoc. apply contents_bang.
      change ("!"%char :: bs "[CDATA[" ++ c ++ bs "]]" ++ bs ">" ++ s) with (bs "![CDATA[" ++ c ++ bs "]]>" ++ s).
      change ("!"%char :: bs "[CDATA[" ++ c ++ bs "]]" ++ bs ">" ++ t) with (bs "![CDATA[" ++ c ++ bs "]]>" ++ t).
      apply contents_text; [vm_compute; intuition discriminate|]. apply contents_text; auto.
      apply contents_text; auto. vm_compute; intuition discriminate.
    - intros K L _ d s t r H.
      assert (H1 : C (S d) (bs "-->" ++ s) (bs "-->" ++ t) r) by (apply contents_text; auto; vm_compute; intuition discriminate).
      destruct (contents_loose_all K L _ _ _ _ H1) as [K' [P1 P2]]. exists (comment_of K'). split.
      { constructor. econstructor; [|constructor]. exists K, K'. auto. }
      unfold comment_of. cbn [node_text]. rewrite <- !app_assoc. apply contents_bang.
      change ("!"%char :: bs "--" ++ forest_text K ++ bs "--" ++ bs ">" ++ s) with (bs "!--" ++ forest_text K ++ bs "-->" ++ s).
      change ("!"%char :: bs "--" ++ forest_text K' ++ bs "--" ++ bs ">" ++ t) with (bs "!--" ++ forest_text K' ++ bs "-->" ++ t).
      apply contents_text; auto. vm_compute; intuition discriminate.
  Qed.
  Lemma contents_fair_all : forall F, Forall fair F -> forall d s t r, C (S d) s t r ->
    exists F', Forall2 varied F F' /\ C (S d) (forest_text F ++ s) (forest_text F' ++ t) r.
  Proof.
    unfold forest_text. induction 1 as [|nd F G1 G2 IH]; intros d s t r H; [exists []; split; auto|].
    destruct (IH _ _ _ _ H) as [F' [P1 P2]]. destruct (contents_fair nd G1 _ _ _ _ P2) as [nd' [P3 P4]].
    exists (nd' :: F'). split; [constructor; auto|]. cbn [flat_map]. now rewrite <- !app_assoc.
  Qed.
  Lemma parse_content_fair : forall F s, xml_name ename -> Forall fair F ->
    exists F', Forall2 varied F F' /\
      parse_content ord key ename (forest_text F ++ end_tag ename ++ s) = Some (forest_text F', s).
  Proof.
    intros F s Hn G. destruct (contents_fair_all F G _ _ _ _ (contents_stop ord key ename s Hn)) as [F' [P1 P2]].
    exists F'. split; auto. apply contents_eq. now rewrite app_nil_r in P2.
  Qed.
End Contents.

(** ** Enumeration *)
Definition finds (nd : node) (e : elem) : Prop :=
  match nd with
  | Elem n a self kids => e_name e = n /\ e_attrs e = a /\ exists kids', Forall2 varied kids kids' /\ e_content e = forest_text kids'
  | _ => False
  end.
Lemma skippable_hidden : forall nd, fair nd -> is_elem nd = false -> skippable (node_text nd).
Proof.
  intros nd H N. destruct H as [| |c Hc|K L A]; try discriminate; cbn [node_text].
  - now apply skippable_text.
  - rewrite <- !app_assoc. exact (skippable_cdata c Hc).
  - unfold comment_of. cbn [node_text]. rewrite <- !app_assoc. exact (skippable_comment (forest_text K) A).
Qed.
Lemma scan_fair : forall ord key F, (forall k l, Permutation l (ord k l)) -> Forall fair F ->
  exists es, scan ord key (forest_text F) = Some es /\ Forall2 finds (elems F) es.
Proof.
  intros ord key F Hord G. induction G as [|nd F G1 G2 IH].
  - exists []. split; [reflexivity|constructor].
  - destruct IH as [es [H1 H2]]. destruct (is_elem nd) eqn:IE.
    + destruct nd as [n a self kids| |]; try discriminate. inversion G1 as [? ? ? ? N A S K| | |]; subst.
      assert (SK : skip_to_next (forest_text (Elem n a self kids :: F)) = Some (Some (forest_text (Elem n a self kids :: F)))).
      { apply (skip_any 1). unfold forest_text. cbn [flat_map node_text]. rewrite start_tag_split.
        destruct (name_first n N) as [c [r [-> Hc]]]. cbn [app skip_next_loop].
        change (Ascii.eqb "<" "<") with true. cbn iota.
        rewrite (name_eqb c "!" Hc), (name_eqb c "?" Hc), (name_eqb c "/" Hc) by inlist. reflexivity. }
      assert (PE : parse_element_name (next (forest_text (Elem n a self kids :: F))) =
                   (n, a, self, (if self then [] else forest_text kids ++ end_tag n) ++ forest_text F)).
      { unfold forest_text at 1. cbn [flat_map node_text]. rewrite start_tag_split. cbn [next app].
        rewrite <- !app_assoc. apply parse_element_name_text; auto. }
      unfold scan in H1. unfold elems. cbn [filter is_elem]. fold (elems F). destruct self.
      * exists (mkElem n a true [] (forest_text (Elem n a true kids :: F)) (forest_text F) (forest_text F) :: es).
        split; [|constructor; auto; rewrite (S eq_refl); cbn; repeat split; exists []; auto].
        apply (scan_any _ _ (Datatypes.S (Datatypes.S (len (forest_text F))))). remember (Datatypes.S (len (forest_text F))) as f.
        cbn [scan_loop]. rewrite SK, PE. cbn [app]. now rewrite H1.
      * destruct (parse_content_fair ord Hord key n kids (forest_text F) N K) as [kids' [P1 P2]].
        eexists. split; [|constructor; [|exact H2]].
        -- apply (scan_any _ _ (Datatypes.S (Datatypes.S (len (forest_text F))))). remember (Datatypes.S (len (forest_text F))) as f.
           cbn [scan_loop]. rewrite SK, PE. rewrite <- app_assoc, P2, H1. reflexivity.
        -- cbn. repeat split. exists kids'. split; auto.
    + exists es. unfold elems. cbn [filter]. rewrite IE. fold (elems F). split; auto. unfold forest_text in *. cbn [flat_map].
      rewrite scan_skip; auto using skippable_hidden.
Qed.
