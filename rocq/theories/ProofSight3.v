(** The scanner recognises exactly what SpecScan describes: content and elements. *)
From Coq Require Import List Ascii String NArith ZArith Bool Lia Permutation.
From Verif Require Import GoStr ModelParser ModelPath ModelResult ModelQuery SpecText SpecPath SpecTree SpecScan
  ProofBase ProofEscape ProofScan ProofTree ProofTree2 ProofFault ProofEdit ProofSight ProofSight2.
Import ListNotations.

Lemma closes_of : forall t, closes t (close_name t).
Proof.
  intros t. unfold closes, close_name. generalize (trim_space t). induction b as [|c s IH].
  - exists []. cbn. repeat split; auto.
  - cbn [cut_at_any]. destruct (mem c ws_chars) eqn:M.
    + exists (c :: s). repeat split; auto. right. apply begins_head. apply blank_is. apply mem_In in M. destruct M as [<-|[<-|[<-|[<-|[]]]]]; reflexivity.
    + destruct IH as [r [E [A B]]]. exists r. cbn [app]. rewrite <- E. repeat split; auto. constructor; auto. intros K. apply blank_is in K.
      assert (Q : mem c ws_chars = true); [|congruence]. apply mem_In. unfold is_ws in K. rewrite !orb_true_iff, !Ascii.eqb_eq in K. unfold ws_chars. cbn [In]. intuition auto.
Qed.
Lemma closes_det : forall t n, closes t n -> close_name t = n.
Proof.
  intros t n [r [E [A B]]]. unfold close_name. rewrite E. clear E. induction A as [|c n C A IH]; cbn [app].
  - destruct B as [->|[c [r' [-> B]]]]; auto. cbn [cut_at_any]. apply blank_is in B.
    assert (Q : mem c ws_chars = true); [|now rewrite Q]. apply mem_In. unfold is_ws in B. rewrite !orb_true_iff, !Ascii.eqb_eq in B. unfold ws_chars. cbn [In]. intuition auto.
  - cbn [cut_at_any]. destruct (mem c ws_chars) eqn:M; [|now rewrite IH]. exfalso. apply C. apply blank_is. apply mem_In in M. destruct M as [<-|[<-|[<-|[<-|[]]]]]; reflexivity.
Qed.
Lemma attrs_written : forall m, write_attrs m = attrs_text m.
Proof.
  unfold write_attrs, attrs_text. induction m as [|a m IH]; auto. cbn [flat_map]. rewrite IH. f_equal. unfold write_attr, attr_text. now rewrite esc_escape.
Qed.
Section Order.
  Variable ord : order.
  Hypothesis P : forall k l, Permutation l (ord k l).

  Lemma inner_of : forall f key n d s t r, content_loop ord key f n (S d) s = Some (t, r) -> inner n (S d) s t r.
  Proof.
    induction f as [|f IH]; intros key n d s t r H; [discriminate|]. cbn [content_loop] in H.
    destruct s as [|c s1]; [injection H as <- <-; constructor|]. destruct (Ascii.eqb c "<") eqn:C.
    2:{ destruct (content_loop ord key f n (S d) s1) as [[t0 r0]|] eqn:Q; [|discriminate]. injection H as <- <-. apply inner_char; eauto. intros ->. discriminate. }
    apply Ascii.eqb_eq in C. subst c. destruct s1 as [|x s2].
    { destruct (content_loop ord key f n (S d) []) as [[t0 r0]|] eqn:Q; [|discriminate]. injection H as <- <-. apply IH in Q. inversion Q; subst. apply (inner_alone n). }
    destruct (Ascii.eqb x "/") eqn:X1.
    { apply Ascii.eqb_eq in X1. subst x. destruct (read_until ">" s2) as [e r0] eqn:R. apply (cut_of (fun c => c = ">"%char) _ _ _ _ (eqb_is ">")) in R.
      rewrite next_rest in H. pose proof (closes_of e) as CL. change ("<"%char :: "/"%char :: s2) with (bs "</" ++ s2).
      destruct (bytes_eqb (close_name e) n) eqn:B.
      - apply bytes_eqb_eq in B. rewrite B in *. destruct d as [|d].
        + injection H as <- <-. eapply inner_last; eauto.
        + destruct (content_loop ord key f n (S d) (rest_of r0)) as [[t0 r1]|] eqn:Q; [|discriminate]. injection H as <- <-.
          change ("<"%char :: "/"%char :: n ++ ">"%char :: t0) with (bs "</" ++ n ++ bs ">" ++ t0). 
          replace (bs "</" ++ n ++ bs ">" ++ t0) with (end_tag n ++ t0) by (unfold end_tag; now rewrite <- !app_assoc). eapply inner_close; eauto.
      - destruct (content_loop ord key f n (S d) (rest_of r0)) as [[t0 r1]|] eqn:Q; [|discriminate]. injection H as <- <-. change ("<"%char :: "/"%char :: close_name e ++ ">"%char :: t0) with (bs "</" ++ close_name e ++ bs ">" ++ t0).
        replace (bs "</" ++ close_name e ++ bs ">" ++ t0) with (end_tag (close_name e) ++ t0) by (unfold end_tag; now rewrite <- !app_assoc).
        eapply inner_other; eauto. intros E. rewrite E, bytes_eqb_refl in B. discriminate. }
    destruct (Ascii.eqb x "!") eqn:X2.
    { apply Ascii.eqb_eq in X2. subst x. destruct (content_loop ord key f n (S d) ("!"%char :: s2)) as [[t0 r0]|] eqn:Q; [|discriminate]. injection H as <- <-.
      change ("<"%char :: "!"%char :: s2) with (bs "<!" ++ s2). apply inner_bang. eauto. }
    destruct (read_until_any name_delims (x :: s2)) as [nn s3] eqn:R. destruct (parse_attributes s3) as [a s4] eqn:A.
    pose proof (tag_of _ _ _ _ _ _ R A (P (len ("<"%char :: x :: s2) :: key) a)) as T. cbv zeta in T.
    assert (NX : ~ In x (bs "/!")) by (cbn; intros [<-|[<-|[]]]; discriminate).
    replace (if Ascii.eqb (peek s4) "/" then (true, next s4) else (false, s4)) with (Ascii.eqb (peek s4) "/", if Ascii.eqb (peek s4) "/" then next s4 else s4) in H by (destruct (Ascii.eqb (peek s4) "/"); reflexivity).
    set (self := Ascii.eqb (peek s4) "/") in *. set (s5 := if self then next s4 else s4) in *.
    replace (if Ascii.eqb (peek s5) ">" then (bs ">", next s5) else ([], s5)) with (mark (Ascii.eqb (peek s5) ">") (bs ">"), if Ascii.eqb (peek s5) ">" then next s5 else s5) in H by (destruct (Ascii.eqb (peek s5) ">"); reflexivity).
    set (gt := Ascii.eqb (peek s5) ">") in *. set (s6 := if gt then next s5 else s5) in *.
    assert (K : (if negb self && bytes_eqb nn n then S (S d) else S d) = (if self then S d else if bytes_eqb nn n then S (S d) else S d)) by (destruct self; reflexivity).
    destruct (content_loop ord key f n (if negb self && bytes_eqb nn n then S (S d) else S d) s6) as [[t0 r0]|] eqn:Q; [|discriminate].
    assert (Q2 : inner n (if self then S d else if bytes_eqb nn n then S (S d) else S d) s6 t0 r0).
    { rewrite <- K. destruct (negb self && bytes_eqb nn n); eapply IH; exact Q. }
    injection H as <- <-. rewrite attrs_written. change (if self then bs "/" else []) with (mark self (bs "/")).
    exact (inner_open n (S d) x s2 nn _ self gt s6 t0 r0 NX T Q2).
  Qed.
  Lemma sees_of : forall f key s l, scan_loop ord key f s = Some l -> sees s l.
  Proof.
    induction f as [|f IH]; intros key s l H; [discriminate|]. cbn [scan_loop] in H. destruct (skip_to_next s) as [[s1|]|] eqn:S1; [| |discriminate].
    2:{ injection H as <-. apply sees_none. exact (leads_of _ _ _ S1). }
    pose proof (leads_of _ _ _ S1) as L. assert (B : exists s0, s1 = "<"%char :: s0).
    { clear - L. remember (Some s1) as o eqn:E. induction L; auto; try discriminate. injection E as <-. eauto. }
    destruct B as [s0 ->]. cbn [next] in H. unfold parse_element_name in H.
    destruct (read_until_any name_delims s0) as [n s2] eqn:R. destruct (parse_attributes s2) as [a s3] eqn:A.
    pose proof (tag_of _ _ _ _ _ _ R A (Permutation_refl a)) as T. cbv zeta in T.
    replace (if Ascii.eqb (peek s3) "/" then (true, next s3) else (false, s3)) with (Ascii.eqb (peek s3) "/", if Ascii.eqb (peek s3) "/" then next s3 else s3) in H by (destruct (Ascii.eqb (peek s3) "/"); reflexivity).
    set (self := Ascii.eqb (peek s3) "/") in *. set (s5 := if self then next s3 else s3) in *. set (gt := Ascii.eqb (peek s5) ">") in *. set (s6 := if gt then next s5 else s5) in *.
    destruct self.
    - destruct (scan_loop ord key f s6) as [l'|] eqn:Q; [|discriminate]. injection H as <-. eapply sees_empty; eauto.
    - destruct (parse_content ord key n s6) as [[t r]|] eqn:C; [|discriminate]. destruct (scan_loop ord key f r) as [l'|] eqn:Q; [|discriminate]. injection H as <-.
      apply inner_of in C. eapply sees_element; eauto.
  Qed.
End Order.
Lemma scan_sees : forall E key s l, (forall k m, Permutation m (e_ord E k m)) -> scan_res E key s = Ok l -> sees s l.
Proof.
  intros E key s l P H. unfold scan_res, scan in H. destruct (scan_loop (e_ord E) key (S (len s)) s) as [l'|] eqn:Q; [|discriminate]. injection H as <-. exact (sees_of _ P _ _ _ _ Q).
Qed.

(** ** There is one reading *)
Lemma cut_det : forall P stop s t r t' r', (forall c, stop c = true <-> P c) -> cut P s t r -> cut P s t' r' -> t' = t /\ r' = r.
Proof.
  intros P stop s t r t' r' S H K. apply (cut_read _ _ _ _ _ S) in H, K. rewrite H in K. now injection K as -> ->.
Qed.
Lemma tag_det : forall s n m self gt r n' m' self' gt' r', tag s n m self gt r -> tag s n' m' self' gt' r' ->
  n' = n /\ Permutation m m' /\ self' = self /\ gt' = gt /\ r' = r.
Proof.
  intros s n m self gt r n' m' self' gt' r' H K. destruct (tag_read _ _ _ _ _ _ H) as (s1 & a & s2 & A1 & A2 & A3 & A4 & A5 & A6).
  destruct (tag_read _ _ _ _ _ _ K) as (s1' & a' & s2' & B1 & B2 & B3 & B4 & B5 & B6). rewrite A1 in B1. injection B1 as <- <-. rewrite A2 in B2. injection B2 as <- <-.
  subst self'. rewrite <- A4 in *. subst gt'. rewrite <- A5 in *. subst r'. rewrite <- A6. repeat split; auto. now rewrite <- A3.
Qed.
Lemma leads_det : forall s o o', leads s o -> leads s o' -> o' = o.
Proof.
  intros s o o' H K. destruct (leads_read _ _ H) as [f A]. destruct (leads_read _ _ K) as [f' B]. apply skip_any in A, B. rewrite A in B. now injection B.
Qed.
Lemma reordered_refl : forall t, reordered t t.
Proof. induction t; constructor; auto. Qed.
Lemma reordered_app : forall u t t', reordered t t' -> reordered (u ++ t) (u ++ t').
Proof. induction u; cbn [app]; auto. intros. constructor. auto. Qed.
Lemma inner_det : forall n d s t r, inner n d s t r -> forall t' r', inner n d s t' r' -> r' = r /\ reordered t t'.
Proof.
  induction 1 as [d|d c s t r C H IH|d|d s t r H IH|s e r C CL|d s e r0 t r C CL H IH|d s e x r0 t r C CL X H IH|d c s x m self gt r0 t r C T H IH]; intros t' r' K.
  - inversion K; subst; split; auto; constructor.
  - inversion K as [ |? ? ? t2 r2 C2 H2| | | | | | ]; subst; try contradiction. destruct (IH _ _ H2) as [-> R]. split; auto. now constructor.
  - inversion K as [ |? ? ? t2 r2 C2 H2| | | | | | ]; subst; try contradiction; split; auto. apply reordered_refl.
  - inversion K as [ |? ? ? t2 r2 C2 H2| |? ? t2 r2 H2| | | |? ? ? ? ? ? ? ? ? ? C2]; subst; try contradiction.
    + destruct (IH _ _ H2) as [-> R]. split; auto. now constructor.
    + exfalso. apply C2. cbn. auto.
  - inversion K as [ |? ? ? t2 r2 C2 H2| | |? e2 r2 C2 L2| |? ? e2 x2 r2 t2 r3 C2 L2 X2|? ? ? ? ? ? ? ? ? ? C2]; subst; try contradiction.
    + destruct (cut_det _ _ _ _ _ _ _ (eqb_is ">") C C2) as [-> ->]. split; auto. constructor.
    + destruct (cut_det _ _ _ _ _ _ _ (eqb_is ">") C C2) as [-> ->]. exfalso. apply X2. apply closes_det in CL, L2. congruence.
    + exfalso. apply C2. cbn. auto.
  - inversion K as [ |? ? ? t2 r2 C2 H2| | | |? ? e2 r2 t2 r3 C2 L2 H2|? ? e2 x2 r2 t2 r3 C2 L2 X2|? ? ? ? ? ? ? ? ? ? C2]; subst; try contradiction.
    + destruct (cut_det _ _ _ _ _ _ _ (eqb_is ">") C C2) as [-> ->]. destruct (IH _ _ H2) as [-> R]. split; auto. now apply reordered_app.
    + destruct (cut_det _ _ _ _ _ _ _ (eqb_is ">") C C2) as [-> ->]. exfalso. apply X2. apply closes_det in CL, L2. congruence.
    + exfalso. apply C2. cbn. auto.
  - inversion K as [ |? ? ? t2 r2 C2 H2| | |? e2 r2 C2 L2|? ? e2 r2 t2 r3 C2 L2 H2|? ? e2 x2 r2 t2 r3 C2 L2 X2 H2|? ? ? ? ? ? ? ? ? ? C2]; subst; try contradiction.
    + destruct (cut_det _ _ _ _ _ _ _ (eqb_is ">") C C2) as [-> ->]. exfalso. apply X. apply closes_det in CL, L2. congruence.
    + destruct (cut_det _ _ _ _ _ _ _ (eqb_is ">") C C2) as [-> ->]. exfalso. apply X. apply closes_det in CL, L2. congruence.
    + destruct (cut_det _ _ _ _ _ _ _ (eqb_is ">") C C2) as [-> ->]. assert (x2 = x) as -> by (apply closes_det in CL, L2; congruence).
      destruct (IH _ _ H2) as [-> R]. split; auto. now apply reordered_app.
    + exfalso. apply C2. cbn. auto.
  - inversion K as [ |? ? ? t2 r2 C2 H2| | |? e2 r2 C2 L2|? ? e2 r2 t2 r3 C2 L2 H2|? ? e2 x2 r2 t2 r3 C2 L2 X2 H2|? ? ? x2 m2 self2 gt2 r2 t2 r3 C2 T2 H2]; subst; try contradiction;
      try (exfalso; apply C; cbn; now auto).
    destruct (tag_det _ _ _ _ _ _ _ _ _ _ _ T T2) as (-> & M & -> & -> & ->). destruct (IH _ _ H2) as [-> R]. split; auto.
    apply reordered_app, reordered_app, reordered_attrs; auto. do 2 apply reordered_app. exact R.
Qed.
Lemma sees_det : forall s l, sees s l -> forall l', sees s l' -> Forall2 same_elem l l'.
Proof.
  induction 1 as [s L|s s1 n m gt r l L T H IH|s s1 n m gt r t r' l L T I H IH]; intros l' K.
  - inversion K as [? L2|? ? ? ? ? ? ? L2|? ? ? ? ? ? ? ? ? L2]; subst; [constructor| |]; pose proof (leads_det _ _ _ L L2); discriminate.
  - inversion K as [? L2|? ? ? ? ? ? ? L2 T2 H2|? ? ? ? ? ? ? ? ? L2 T2]; subst; pose proof (leads_det _ _ _ L L2) as E; try discriminate; injection E as ->;
      destruct (tag_det _ _ _ _ _ _ _ _ _ _ _ T T2) as (-> & M & E & -> & ->); [|discriminate]. constructor; auto. repeat split; auto. constructor.
  - inversion K as [? L2|? ? ? ? ? ? ? L2 T2 H2|? ? ? ? ? ? ? ? ? L2 T2 I2 H2]; subst; pose proof (leads_det _ _ _ L L2) as E; try discriminate; injection E as ->;
      destruct (tag_det _ _ _ _ _ _ _ _ _ _ _ T T2) as (-> & M & E & -> & ->); [discriminate|]. destruct (inner_det _ _ _ _ _ I _ _ I2) as [-> R].
    constructor; auto. repeat split; auto.
Qed.
