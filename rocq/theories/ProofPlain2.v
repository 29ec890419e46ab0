(** A text is the text of one tree only. *)
From Coq Require Import List Ascii String NArith ZArith Bool Lia.
From Verif Require Import GoStr ModelParser ModelValidate SpecText SpecPath SpecTree SpecQuery SpecValid SpecNotation SpecPlain
  ProofBase ProofScan ProofTree ProofTree3 ProofValid ProofValid2 ProofNotation ProofNotation2 ProofPlain.
Import ListNotations.

Lemma split_at : forall (c : ascii) a a' r r', ~ In c a -> ~ In c a' -> a ++ c :: r = a' ++ c :: r' -> a = a' /\ r = r'.
Proof.
  intros c. induction a as [|x a IH]; intros [|x' a'] r r' H H' E; cbn [app] in E.
  - injection E as ->. auto.
  - injection E as <- _. elim H'. now left.
  - injection E as -> _. elim H. now left.
  - injection E as <- E. destruct (IH a' r r') as [-> ->]; auto; intros K; [apply H|apply H']; now right.
Qed.
Lemma start_unique : forall n a t self s n' a' t' self' s', xml_name n -> good_attrs a -> tag_as a t -> xml_name n' -> good_attrs a' -> tag_as a' t' ->
  n ++ t ++ shut self ++ s = n' ++ t' ++ shut self' ++ s' -> n = n' /\ a = a' /\ t = t' /\ self = self' /\ s = s'.
Proof.
  intros n a t self s n' a' t' self' s' N G T N' G' T' E.
  pose proof (parse_element_name_as n a t self s N G T) as P. rewrite E, (parse_element_name_as n' a' t' self' s' N' G' T') in P.
  assert (Q : n' = n /\ a' = a /\ self' = self /\ s' = s) by (split; [|split; [|split]]; congruence). clear P. destruct Q as [-> [-> [-> ->]]].
  apply app_inv_head in E. rewrite !app_assoc in E. apply app_inv_tail in E. apply app_inv_tail in E. auto.
Qed.
Definition ends (z : bytes) : Prop := z = [] \/ exists u, z = bs "</" ++ u.
Definition follows (r : bytes) : Prop := r = [] \/ exists u, r = "<"%char :: u.
Lemma name_first_byte : forall n, xml_name n -> exists c r, n = c :: r /\ c <> "/"%char /\ c <> "!"%char.
Proof.
  intros n [[c [r [-> H]]] _]. exists c, r. split; auto. unfold letter in H. split; intros ->; cbn in H; destruct H as [[H|H]|H];
    try (destruct H as [H1 H2]; vm_compute in H1, H2; try (now elim H1); now elim H2); intuition discriminate.
Qed.
Inductive heading : node -> bytes -> Prop :=
| he_elem : forall n a self kids c r, c <> "/"%char -> c <> "!"%char -> heading (Elem n a self kids) ("<"%char :: c :: r)
| he_text : forall t c r, c <> "<"%char -> heading (Text t) (c :: r)
| he_misc : forall b r, heading (Misc b) ("<"%char :: "!"%char :: r).
Lemma written_head : forall nd x r, written nd x -> good nd -> joined nd -> heading nd (x ++ r).
Proof.
  intros nd x r W G J. destruct W as [n a kids t x w T K B S|n a t T|t|b].
  - inversion G as [? ? ? ? G1| |]; subst. destruct (name_first_byte n G1) as [c [n' [E [C1 C2]]]]. rewrite E. rewrite <- !app_assoc. cbn. constructor; auto.
  - inversion G as [? ? ? ? G1| |]; subst. destruct (name_first_byte n G1) as [c [n' [E [C1 C2]]]]. rewrite E. rewrite <- !app_assoc. cbn. constructor; auto.
  - inversion J as [|? N|]; subst. destruct t as [|c t]; [now elim N|]. cbn [app]. constructor. inversion G as [|? [K _]|]; subst. intros ->. apply K. now left.
  - rewrite <- !app_assoc. cbn. constructor.
Qed.
Lemma heading_text : forall nd x, heading nd x -> ~ is_text nd -> exists u, x = "<"%char :: u.
Proof. intros nd x H N. destruct H; eauto. elim N. now exists t. Qed.
Definition kind (nd : node) : nat := match nd with Elem _ _ _ _ => 0 | Text _ => 1 | Misc _ => 2 end.
Lemma heading_kind : forall nd nd' x, heading nd x -> heading nd' x -> kind nd = kind nd'.
Proof.
  intros nd nd' x H H'. destruct H; inversion H'; subst; cbn; auto; congruence.
Qed.
Lemma misc_no_gt : forall b, misc_body b -> ~ In ">"%char b.
Proof.
  intros b [[c [-> [[_ A] _]]]|[c [-> [_ A]]]] K; cbn [bs list_ascii_of_string app] in K;
    repeat (destruct K as [K|K]; [discriminate K|]); apply in_app_iff in K; destruct K as [K|K]; auto; cbn in K; intuition discriminate.
Qed.
Lemma blanks_no_gt : forall w, blanks w -> ~ In ">"%char w.
Proof. intros w B K. unfold blanks in B. rewrite Forall_forall in B. destruct (blank_angle _ (B _ K)) as [_ Q]. now apply Q. Qed.
Lemma text_unique : forall t r t' r', ~ In "<"%char t -> ~ In "<"%char t' -> follows r -> follows r' -> t ++ r = t' ++ r' -> t = t'.
Proof.
  induction t as [|c t IH]; intros r [|c' t'] r' H H' F F' E; cbn [app] in E; auto.
  - destruct F as [->|[u ->]]; [discriminate|]. injection E as <- _. elim H'. now left.
  - destruct F' as [->|[u ->]]; [discriminate|]. injection E as -> _. elim H. now left.
  - injection E as <- E. f_equal. apply (IH r t' r'); auto; intros K; [apply H|apply H']; now right.
Qed.
Lemma unique_both :
  (forall nd x, written nd x -> good nd -> joined nd -> forall nd' x' r r', written nd' x' -> good nd' -> joined nd' ->
     (is_text nd -> follows r) -> (is_text nd' -> follows r') -> x ++ r = x' ++ r' -> nd = nd' /\ x = x') /\
  (forall F x, written_all F x -> Forall good F -> joined_all F -> forall F' x' z z', written_all F' x' -> Forall good F' -> joined_all F' ->
     ends z -> ends z' -> x ++ z = x' ++ z' -> F = F' /\ x = x').
Proof.
  assert (Elems : forall n a kids t x w r n' a' kids' t' x' w' r', good (Elem n a false kids) -> good (Elem n' a' false kids') -> tag_as a t -> tag_as a' t' ->
      blanks w -> blanks w' ->
      (forall z z', ends z -> ends z' -> x ++ z = x' ++ z' -> kids = kids' /\ x = x') ->
      (bs "<" ++ n ++ t ++ bs ">" ++ x ++ bs "</" ++ n ++ w ++ bs ">") ++ r = (bs "<" ++ n' ++ t' ++ bs ">" ++ x' ++ bs "</" ++ n' ++ w' ++ bs ">") ++ r' ->
      n = n' /\ a = a' /\ t = t' /\ kids = kids' /\ x = x' /\ w = w').
  { intros n a kids t x w r n' a' kids' t' x' w' r' G G' T T' B B' IH E. inversion G as [? ? ? ? G1 G2| |]; subst. inversion G' as [? ? ? ? G1' G2'| |]; subst.
    rewrite <- !app_assoc in E. injection E as E.
    destruct (start_unique n a t false (x ++ bs "</" ++ n ++ w ++ bs ">" ++ r) n' a' t' false (x' ++ bs "</" ++ n' ++ w' ++ bs ">" ++ r')) as [E1 [E2 [E3 [_ E5]]]]; auto.
    subst n' a' t'. destruct (IH _ _ (or_intror (ex_intro _ _ eq_refl)) (or_intror (ex_intro _ _ eq_refl)) E5) as [-> ->].
    apply app_inv_head in E5. apply app_inv_head in E5. apply app_inv_head in E5.
    destruct (split_at ">"%char w w' r r' (blanks_no_gt _ B) (blanks_no_gt _ B') E5) as [-> _]. repeat split; reflexivity. }
  apply written_both.
  - intros n a kids t x w T WK IH B S G J nd' x' r r' W' G' J' TX TX' E. pose proof (written_head _ _ r (wr_elem n a kids t x w T WK B S) G J) as H1.
    pose proof (written_head _ _ r' W' G' J') as H2. rewrite E in H1.
    destruct W' as [n' a' kids' t' x' w' T' WK' B' S'|n' a' t' T'|t'|b'].
    + inversion G as [? ? ? ? G1 G2 G3 G4| |]; subst. inversion G' as [? ? ? ? G1' G2' G3' G4'| |]; subst. inversion J; subst. inversion J'; subst.
      destruct (Elems n a kids t x w r n' a' kids' t' x' w' r') as [-> [-> [-> [-> [-> ->]]]]]; auto.
      intros z z' Z Z' E'. apply (IH G4 ltac:(assumption) kids' x' z z'); assumption.
    + exfalso. inversion G as [? ? ? ? G1 G2 G3 G4| |]; subst. inversion G' as [? ? ? ? G1' G2' G3' G4'| |]; subst.
      rewrite <- !app_assoc in E. injection E as E.
      destruct (start_unique n a t false (x ++ bs "</" ++ n ++ w ++ bs ">" ++ r) n' a' t' true r') as [_ [_ [_ [K _]]]]; auto. discriminate.
    + pose proof (heading_kind _ _ _ H1 H2); discriminate.
    + pose proof (heading_kind _ _ _ H1 H2); discriminate.
  - intros n a t T G J nd' x' r r' W' G' J' TX TX' E. pose proof (written_head _ _ r (wr_self n a t T) G J) as H1.
    pose proof (written_head _ _ r' W' G' J') as H2. rewrite E in H1.
    destruct W' as [n' a' kids' t' x' w' T' WK' B' S'|n' a' t' T'|t'|b'].
    + exfalso. inversion G as [? ? ? ? G1 G2 G3 G4| |]; subst. inversion G' as [? ? ? ? G1' G2' G3' G4'| |]; subst.
      rewrite <- !app_assoc in E. injection E as E.
      destruct (start_unique n a t true r n' a' t' false (x' ++ bs "</" ++ n' ++ w' ++ bs ">" ++ r')) as [_ [_ [_ [K _]]]]; auto. discriminate.
    + inversion G as [? ? ? ? G1 G2 G3 G4| |]; subst. inversion G' as [? ? ? ? G1' G2' G3' G4'| |]; subst.
      rewrite <- !app_assoc in E. injection E as E.
      destruct (start_unique n a t true r n' a' t' true r') as [-> [-> [-> _]]]; auto.
    + pose proof (heading_kind _ _ _ H1 H2); discriminate.
    + pose proof (heading_kind _ _ _ H1 H2); discriminate.
  - intros t G J nd' x' r r' W' G' J' TX TX' E. pose proof (written_head _ _ r (wr_text t) G J) as H1.
    pose proof (written_head _ _ r' W' G' J') as H2. rewrite E in H1.
    destruct W' as [n' a' kids' t' x' w' T' WK' B' S'|n' a' t' T'|t'|b'];
      try (pose proof (heading_kind _ _ _ H1 H2); discriminate).
    assert (Q : t = t'); [|subst; auto]. inversion G as [|? [A _]|]; subst. inversion G' as [|? [A' _]|]; subst.
    eapply text_unique; eauto; [apply TX|apply TX']; eexists; reflexivity.
  - intros b G J nd' x' r r' W' G' J' TX TX' E. pose proof (written_head _ _ r (wr_misc b) G J) as H1.
    pose proof (written_head _ _ r' W' G' J') as H2. rewrite E in H1.
    destruct W' as [n' a' kids' t' x' w' T' WK' B' S'|n' a' t' T'|t'|b'].
    + pose proof (heading_kind _ _ _ H1 H2); discriminate.
    + pose proof (heading_kind _ _ _ H1 H2); discriminate.
    + pose proof (heading_kind _ _ _ H1 H2); discriminate.
    + rewrite <- !app_assoc in E. injection E as E. inversion G as [| |? M]; subst. inversion G' as [| |? M']; subst.
      destruct (split_at ">"%char b b' r r' (misc_no_gt _ M) (misc_no_gt _ M') E) as [-> _]. auto.
  - intros _ _ F' x' z z' W' G' J' Z Z' E. destruct W' as [|nd F x y W1 W2]; auto. exfalso.
    inversion G' as [|? ? G1 G2]; subst. inversion J' as [|? ? J1 J2 J3]; subst. rewrite <- app_assoc in E.
    pose proof (written_head _ _ (y ++ z') W1 G1 J1) as H. rewrite <- E in H. cbn [app] in H.
    destruct Z as [->|[u ->]]; inversion H; subst; congruence.
  - intros nd F x y W1 IH1 W2 IH2 G J F' x' z z' W' G' J' Z Z' E.
    inversion G as [|? ? G1 G2]; subst. inversion J as [|? ? J1 J2 J3]; subst. rewrite <- app_assoc in E.
    assert (Fol : forall nd F y z, written_all F y -> Forall good F -> joined_all F -> (is_text nd -> forall x F', F = x :: F' -> ~ is_text x) -> ends z -> is_text nd -> follows (y ++ z)).
    { clear. intros nd F y z W G J N Z T. destruct W as [|nd' F x y W1 W2].
      - destruct Z as [->|[u ->]]; [now left|]. right. eexists. reflexivity.
      - right. inversion G; subst. inversion J; subst. rewrite <- app_assoc. eapply heading_text; [apply written_head; eauto|]. eapply N; eauto. }
    destruct W' as [|nd' F' x' y' W1' W2'].
    + exfalso. pose proof (written_head _ _ (y ++ z) W1 G1 J1) as H. rewrite E in H. cbn [app] in H.
      destruct Z' as [->|[u ->]]; inversion H; subst; congruence.
    + inversion G' as [|? ? G1' G2']; subst. inversion J' as [|? ? J1' J2' J3']; subst. rewrite <- app_assoc in E.
      destruct (IH1 G1 J1 nd' x' (y ++ z) (y' ++ z') W1' G1' J1') as [-> ->]; eauto.
      apply app_inv_head in E. destruct (IH2 G2 J2 F' y' z z' W2' G2' J2' Z Z' E) as [-> ->]. auto.
Qed.
Lemma tree_unique : forall F F' x, written_all F x -> written_all F' x -> Forall good F -> Forall good F' -> joined_all F -> joined_all F' -> F = F'.
Proof.
  intros F F' x W W' G G' J J'. apply (proj2 unique_both F x W G J F' x [] []); auto; now left.
Qed.
