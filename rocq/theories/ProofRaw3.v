(** Set depends on its value through the text the value is written as; numerals survive
    escaping and trimming. *)
From Coq Require Import List Ascii String NArith ZArith Bool Lia Permutation.
From Verif Require Import GoStr ModelParser ModelPath ModelResult ModelQuery ModelValidate ModelBuilder ModelApi SpecText SpecPath SpecTree SpecQuery SpecEdit
  SpecMod SpecContent SpecRaw SpecHistory ProofBase ProofTree ProofSyntax ProofRaw ProofRaw2.
Import ListNotations.

Lemma written_xml : forall g v x, written g v x -> v <> VNil /\ value_to_xml g v = inr x.
Proof.
  intros g v x W. split; [destruct W; discriminate|]. destruct W; cbn [value_to_xml]; rewrite ?esc_escape, ?fmt_int_decimal; reflexivity.
Qed.
Lemma set_same_text : forall E g o xml path v v', v <> VNil -> v' <> VNil -> value_to_xml g v = value_to_xml g v' ->
  set_opts E g o xml path v = set_opts E g o xml path v'.
Proof.
  intros E g o xml path v v' N N' Q. unfold set_opts.
  assert (K : forall segs, set_element E g o xml segs v = set_element E g o xml segs v') by (intros segs; unfold set_element; rewrite Q; reflexivity).
  destruct (_ <? _)%N; auto. destruct (match xml with [] => _ | _ => _ end); auto.
  assert (M : (let* segs := parse_path_opts o path in match segs with [] => Ok (xml, Some ErrInvalidPath) | _ :: _ => edit_of xml (set_element E g o xml segs v) end)
      = (let* segs := parse_path_opts o path in match segs with [] => Ok (xml, Some ErrInvalidPath) | _ :: _ => edit_of xml (set_element E g o xml segs v') end)).
  { destruct (parse_path_opts o path) as [[|s l]| |]; auto. cbn [bind]. now rewrite K. }
  destruct v, v'; try contradiction; exact M.
Qed.
Lemma set_written : forall E g o xml path v v' x, written g v x -> written g v' x -> set_opts E g o xml path v = set_opts E g o xml path v'.
Proof.
  intros E g o xml path v v' x W W'. destruct (written_xml _ _ _ W), (written_xml _ _ _ W'). apply set_same_text; congruence.
Qed.
Lemma esc_plain : forall s, (forall c, In c s -> ~ In c (bs "<>&'""")) -> esc s = s.
Proof.
  induction s as [|c s IH]; intros H; auto. unfold esc in *. cbn [flat_map]. rewrite IH by (intros c' Hc; apply H; now right).
  assert (K : esc_byte c = [c]); [|now rewrite K]. specialize (H c (or_introl eq_refl)).
  destruct c as [[] [] [] [] [] [] [] []]; try reflexivity; exfalso; apply H; vm_compute; tauto.
Qed.
Lemma dig_not : forall c l, dig c -> forallb (fun x => negb (in_range 48 57 x)) l = true -> ~ In c l.
Proof.
  intros c l D F IN. rewrite forallb_forall in F. specialize (F _ IN). unfold in_range, dig in *. apply negb_true_iff, andb_false_iff in F.
  unfold code in F. destruct F as [F|F]; apply N.leb_gt in F; lia.
Qed.
Lemma esc_decimal : forall z, esc (decimal z) = decimal z.
Proof.
  intros z. apply esc_plain. intros c Hc. destruct (decimal_plain z c Hc) as [->|D]; [vm_compute; intuition discriminate|].
  apply dig_not; auto.
Qed.
Lemma decimal_visible : forall z c, In c (decimal z) -> visible c.
Proof. intros z c Hc. destruct (decimal_plain z c Hc) as [->|D]; unfold visible; [vm_compute; split; discriminate|unfold dig in D; lia]. Qed.
Lemma decimal_cons : forall z, decimal z <> [].
Proof.
  intros z H. unfold decimal in H. apply app_eq_nil in H. destruct H as [_ H].
  destruct (digits_ok (N.size_nat (Z.abs_N z)) (Z.abs_N z) (le_n _)) as [_ [_ [_ K]]]. exact (K H).
Qed.
Lemma trim_visible : forall s, s <> [] -> (forall c, In c s -> visible c) -> trim_space s = s.
Proof.
  intros s N V. rewrite <- (app_nil_r s) at 1. change (s ++ []) with (spaces 0 ++ s ++ spaces 0). apply trim_space_pad.
  - destruct s as [|c r]; [contradiction|]. exists c, r. split; auto. apply V. now left.
  - destruct (exists_last N) as [r [c ->]]. exists r, c. split; auto. apply V. apply in_or_app. right. now left.
Qed.
Lemma trim_decimal : forall z, trim_space (decimal z) = decimal z.
Proof. intros z. apply trim_visible; [apply decimal_cons|apply decimal_visible]. Qed.

Lemma digits_len : forall f n, (List.length (digits_of f n) <= f)%nat.
Proof.
  induction f as [|f IH]; intros n; cbn [digits_of]; auto. rewrite app_length. cbn [List.length].
  destruct (n <? 10)%N; cbn [List.length]; [lia|]. specialize (IH (n / 10)%N). lia.
Qed.
Lemma decimal_len : forall z, (- 2 ^ 63 <= z < 2 ^ 63)%Z -> (blen (decimal z) <= 5242880)%N.
Proof.
  intros z H. unfold blen, decimal. rewrite app_length. pose proof (digits_len (S (N.size_nat (Z.abs_N z))) (Z.abs_N z)) as L.
  assert (B : (N.size_nat (Z.abs_N z) <= 64)%nat).
  { assert (Q : forall p, N.of_nat (Pos.size_nat p) = Npos (Pos.size p)).
    { induction p as [p IHp|p IHp|]; cbn [Pos.size Pos.size_nat]; try reflexivity; rewrite Nat2N.inj_succ, IHp; lia. }
    assert (Q' : N.of_nat (N.size_nat (Z.abs_N z)) = N.size (Z.abs_N z)) by (destruct (Z.abs_N z); cbn [N.size_nat N.size]; auto).
    assert (R : (Z.abs_N z < 2 ^ 64)%N) by lia.
    destruct (N.eq_dec (Z.abs_N z) 0) as [->|NZ]; [cbn; lia|].
    rewrite N.size_log2 in Q' by auto. assert (N.log2 (Z.abs_N z) < 64)%N by (apply N.log2_lt_pow2; lia). lia. }
  assert (K : (List.length (if (z <? 0)%Z then bs "-" else []) <= 1)%nat) by (destruct (z <? 0)%Z; cbn; lia). lia.
Qed.

(** ** One construct at a time *)
Lemma raw_eq_comment : forall f st s a r, starts (bs "<!-") s -> first_cut (bs "-->") s a r -> raw_loop (S f) st s = raw_loop f st r.
Proof.
  intros f st s a r (y & ->) Hf. apply find_after_first in Hf. cbn [raw_loop].
  change (bs "<!-" ++ y) with ("<"%char :: "!"%char :: "-"%char :: y) in *. change (Ascii.eqb "<" "<") with true. cbn iota. change (Ascii.eqb "!" "/") with false. cbn iota.
  change (Ascii.eqb "!" "!" || Ascii.eqb "!" "?") with true. cbn iota. cbn [peek]. change (Ascii.eqb "-" "-") with true. cbn iota. rewrite Hf. reflexivity.
Qed.
Lemma raw_eq_cdata : forall f st s a r, first_cut (bs "]]>") s a r -> ~ has_sub (bs "<![CDATA[") a -> raw_loop (S f) st (bs "<![CDATA[" ++ s) = raw_loop f st r.
Proof.
  intros f st s a r Hf Hn. apply find_after_first in Hf. apply find_after_no in Hn. cbn [raw_loop].
  change (bs "<![CDATA[" ++ s) with ("<"%char :: "!"%char :: (bs "[CDATA[" ++ s)) at 1. change (Ascii.eqb "<" "<") with true. cbn iota. change (bs "<![CDATA[" ++ s) with ("<"%char :: "!"%char :: (bs "[CDATA[" ++ s)).
  cbn iota. change (Ascii.eqb "!" "/") with false. cbn iota.
  change (Ascii.eqb "!" "!" || Ascii.eqb "!" "?") with true. cbn iota. change (Ascii.eqb (peek (bs "[CDATA[" ++ s)) "-") with false. cbn iota.
  change ("<"%char :: "!"%char :: (bs "[CDATA[" ++ s)) with (cdata_start ++ s). rewrite strip_prefix_app. change cdata_end with (bs "]]>"). rewrite Hf. change cdata_start with (bs "<![CDATA["). rewrite Hn. reflexivity.
Qed.
Lemma raw_eq_open : forall f st n a r, tag_name n -> tag_rest (bs " /") a -> (forall a', a <> a' ++ bs "/") -> raw_loop (S f) st (bs "<" ++ n ++ a ++ bs ">" ++ r) = raw_loop f (n :: st) r.
Proof.
  intros f st n a r TN TR Ne. cbn [raw_loop]. destruct TN as [(c & n' & -> & Hc) TN]. destruct TR as [TR Na].
  assert (SU : span_until (bs "> /") ((c :: n') ++ (a ++ bs ">" ++ r)) = (c :: n', a ++ bs ">" ++ r)).
  { apply span_until_app; auto. right. destruct TR as [->|(x & y & -> & Hx)]; [exists ">"%char, r|exists x, (y ++ bs ">" ++ r)]; split; cbn; auto. }
  change (bs "<" ++ (c :: n') ++ a ++ bs ">" ++ r) with ("<"%char :: c :: (n' ++ a ++ bs ">" ++ r)). change (Ascii.eqb "<" "<") with true. cbn iota.
  assert (Q1 : Ascii.eqb c "/" = false) by (apply Ascii.eqb_neq; intros ->; apply Hc; cbn; auto). rewrite Q1.
  assert (Q2 : Ascii.eqb c "!" = false) by (apply Ascii.eqb_neq; intros ->; apply Hc; cbn; auto). rewrite Q2.
  assert (Q3 : Ascii.eqb c "?" = false) by (apply Ascii.eqb_neq; intros ->; apply Hc; cbn; auto). rewrite Q3. cbn [orb].
  change (c :: (n' ++ a ++ bs ">" ++ r)) with ((c :: n') ++ (a ++ bs ">" ++ r)). rewrite SU. rewrite (rte_open a r Na Ne). reflexivity.
Qed.
Lemma raw_eq_self : forall f st n a r, tag_name n -> tag_rest (bs " /") a -> raw_loop (S f) st (bs "<" ++ n ++ a ++ bs "/>" ++ r) = raw_loop f st r.
Proof.
  intros f st n a r TN TR. cbn [raw_loop]. destruct TN as [(c & n' & -> & Hc) TN]. destruct TR as [TR Na].
  assert (SU : span_until (bs "> /") ((c :: n') ++ (a ++ bs "/>" ++ r)) = (c :: n', a ++ bs "/>" ++ r)).
  { apply span_until_app; auto. right. destruct TR as [->|(x & y & -> & Hx)]; [exists "/"%char, (">"%char :: r)|exists x, (y ++ bs "/>" ++ r)]; split; cbn; auto. }
  change (bs "<" ++ (c :: n') ++ a ++ bs "/>" ++ r) with ("<"%char :: c :: (n' ++ a ++ bs "/>" ++ r)). change (Ascii.eqb "<" "<") with true. cbn iota.
  assert (Q1 : Ascii.eqb c "/" = false) by (apply Ascii.eqb_neq; intros ->; apply Hc; cbn; auto). rewrite Q1.
  assert (Q2 : Ascii.eqb c "!" = false) by (apply Ascii.eqb_neq; intros ->; apply Hc; cbn; auto). rewrite Q2.
  assert (Q3 : Ascii.eqb c "?" = false) by (apply Ascii.eqb_neq; intros ->; apply Hc; cbn; auto). rewrite Q3. cbn [orb].
  change (c :: (n' ++ a ++ bs "/>" ++ r)) with ((c :: n') ++ (a ++ bs "/>" ++ r)). rewrite SU. rewrite (rte_self a r Na). reflexivity.
Qed.
Lemma raw_eq_close : forall f m st n r, (forall c, In c n -> ~ In c (bs "> ")) ->
  raw_loop (S f) (m :: st) (bs "</" ++ n ++ bs ">" ++ r) = if bytes_eqb m n then raw_loop f st r else false.
Proof.
  intros f m st n r Hn. cbn [raw_loop].
  change (bs "</" ++ n ++ bs ">" ++ r) with ("<"%char :: "/"%char :: (n ++ bs ">" ++ r)). change (Ascii.eqb "<" "<") with true. cbn iota. change (Ascii.eqb "/" "/") with true. cbn iota.
  rewrite span_until_app; [|exact Hn|right; exists ">"%char, r; split; auto; left; auto].
  destruct (bytes_eqb m n); auto.
Qed.
Lemma raw_text : forall t f st s, ~ In "<"%char t -> raw_loop f st (t ++ s) = true -> fragment st s.
Proof.
  induction t as [|c t IH]; intros f st s N R; [now apply raw_sound in R|]. destruct f as [|f]; [discriminate|]. cbn [raw_loop app] in R.
  assert (Q : Ascii.eqb c "<" = false) by (apply Ascii.eqb_neq; intros ->; apply N; now left). rewrite Q in R. eapply IH; eauto. intros X. apply N. now right.
Qed.
Lemma fragment_raw : forall st s, fragment st s -> exists f, raw_loop (S f) st s = true.
Proof. intros st s F. exists (List.length s). apply raw_complete; auto. Qed.
Lemma node_fragment_inv : forall nd, good nd -> forall st s, fragment st (node_text nd ++ s) -> fragment st s.
Proof.
  induction nd as [n a self kids IH|t|b] using node_ind'; intros G st s F; inversion G as [? ? ? ? GN GA GS GK|? GT|? GM]; subst;
    apply fragment_raw in F; destruct F as [f R]; cbn [node_text] in R.
  - destruct (attrs_rest a GA) as [TR NE]. pose proof (xml_tag_name n GN) as TN. unfold start_tag in R. destruct self.
    + rewrite app_nil_r, <- !app_assoc in R. rewrite raw_eq_self in R by auto. now apply raw_sound in R.
    + rewrite <- !app_assoc in R. rewrite raw_eq_open in R by auto. apply raw_sound in R.
      assert (K : forall u, fragment (n :: st) (flat_map node_text kids ++ u) -> fragment (n :: st) u).
      { clear - IH GK. induction kids as [|k kids IHk]; intros u K; [exact K|]. cbn [flat_map] in K. rewrite <- app_assoc in K. inversion IH; inversion GK; subst. auto. }
      apply K in R. apply fragment_raw in R. destruct R as [g R]. unfold end_tag in R. rewrite <- !app_assoc in R. rewrite raw_eq_close in R.
      * rewrite bytes_eqb_refl in R. now apply raw_sound in R.
      * intros c Hc Q. destruct TN as [_ TN]. apply (TN c Hc). cbn in Q |- *. tauto.
  - eapply raw_text; [|exact R]. apply GT.
  - rewrite <- !app_assoc in R. destruct GM as [(c & -> & [N1 N2] & _)|(c & -> & [N1 N2])].
    + erewrite raw_eq_comment in R; [apply raw_sound in R; exact R| |].
      * exists (bs "-" ++ c ++ bs "--" ++ bs ">" ++ s). rewrite <- !app_assoc. reflexivity.
      * replace (bs "<!" ++ (bs "--" ++ c ++ bs "--") ++ bs ">" ++ s) with ((bs "<!--" ++ c) ++ bs "-->" ++ s) by (rewrite <- !app_assoc; reflexivity).
        apply (first_only _ _ _ ">"%char); try discriminate; auto.
        -- intros Q. apply in_app_or in Q. destruct Q as [Q|Q]; [|auto]. cbn in Q. repeat (destruct Q as [Q|Q]; [discriminate|]). exact Q.
        -- intros x y Q Hx. destruct x as [|x1 [|x2 [|x3 x]]]; cbn in Q; inversion Q; subst; cbn in Hx; try (repeat (destruct Hx as [Hx|Hx]; [discriminate|]); contradiction).
           match goal with H : [] = _ ++ _ |- _ => symmetry in H; apply app_eq_nil in H; tauto end.
        -- right. right. left. reflexivity.
    + replace (bs "<!" ++ (bs "[CDATA[" ++ c ++ bs "]]") ++ bs ">" ++ s) with (bs "<![CDATA[" ++ (c ++ bs "]]>" ++ s)) in R by (rewrite <- !app_assoc; reflexivity).
      erewrite raw_eq_cdata in R; [apply raw_sound in R; exact R| |].
      * apply (first_only _ _ _ ">"%char); try discriminate; auto.
        -- intros x y Q Hx. destruct x as [|x1 [|x2 [|x3 x]]]; cbn in Q; inversion Q; subst; cbn in Hx; try (repeat (destruct Hx as [Hx|Hx]; [discriminate|]); contradiction).
           match goal with H : [] = _ ++ _ |- _ => symmetry in H; apply app_eq_nil in H; tauto end.
        -- right. right. left. reflexivity.
      * intros (x & y & ->). apply N1. apply in_or_app. right. left. reflexivity.
Qed.
Lemma forest_fragment_inv : forall F st s, Forall good F -> fragment st (forest_text F ++ s) -> fragment st s.
Proof.
  intros F st s H. induction H as [|nd F H1 H2 IH]; intros K; [exact K|]. apply IH. cbn [forest_text flat_map] in K. rewrite <- app_assoc in K.
  eapply node_fragment_inv; eauto.
Qed.
Lemma no_declaration : forall st x r, In x [bs "<!DOCTYPE"; bs "<!ENTITY"] -> ~ fragment st (x ++ r).
Proof. intros st x r H F. apply fragment_raw in F. destruct F as [f R]. destruct H as [<-|[<-|[]]]; cbn in R; discriminate. Qed.
Lemma no_open_end : forall n a st, tag_name n -> tag_rest (bs " /") a -> (forall a', a <> a' ++ bs "/") -> forall s, fragment st (bs "<" ++ n ++ a ++ bs ">" ++ s) -> fragment (n :: st) s.
Proof. intros n a st T R N s F. apply fragment_raw in F. destruct F as [f F]. rewrite raw_eq_open in F by auto. now apply raw_sound in F. Qed.
Lemma no_stray_end : forall s, ~ fragment [] (bs "</" ++ s).
Proof. intros s F. apply fragment_raw in F. destruct F as [f R]. cbn in R. destruct (span_until _ _) in R. discriminate. Qed.
Lemma end_matches : forall m st n r, (forall c, In c n -> ~ In c (bs "> ")) -> fragment (m :: st) (bs "</" ++ n ++ bs ">" ++ r) -> m = n.
Proof.
  intros m st n r H F. apply fragment_raw in F. destruct F as [f R]. rewrite raw_eq_close in R by auto. destruct (bytes_eqb m n) eqn:Q; [|discriminate]. now apply bytes_eqb_eq.
Qed.
