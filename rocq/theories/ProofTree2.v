(** Enumerating the elements of a canonical text. *)
From Coq Require Import List Ascii String NArith ZArith Bool Lia Permutation.
From Verif Require Import GoStr ModelParser SpecText SpecPath SpecTree ProofBase ProofEscape ProofScan ProofTree.
Import ListNotations.

Lemma skip_more : forall f s x, skip_next_loop f s = Some x -> skip_next_loop (S f) s = Some x.
Proof.
  induction f as [|f IH]; intros s x H; [discriminate|].
  remember (S f) as f1. cbn [skip_next_loop]. rewrite Heqf1 in H. cbn [skip_next_loop] in H. subst f1.
  destruct s as [|c s1]; auto. destruct (Ascii.eqb c "<"); auto. destruct s1 as [|n s2]; auto.
  destruct (negb (Ascii.eqb n "!") && negb (Ascii.eqb n "?") && negb (Ascii.eqb n "/")); auto.
  destruct (Ascii.eqb n "!").
  - destruct ((8 <? blen (c :: n :: s2))%N && eq_fold_prefix (bs "<!DOCTYPE") (c :: n :: s2)); auto.
    destruct s2 as [|a [|b s2]]; auto. destruct (Ascii.eqb a "-" && Ascii.eqb b "-"); auto.
  - destruct (read_until ">" (c :: n :: s2)) as [? ?]. auto.
Qed.
Lemma skip_mono : forall f f' s x, skip_next_loop f s = Some x -> f <= f' -> skip_next_loop f' s = Some x.
Proof. intros f f' s x H L. induction L; auto. now apply skip_more. Qed.
Lemma skip_any : forall f s x, skip_next_loop f s = Some x -> skip_to_next s = Some x.
Proof.
  intros f s x H. destruct (skip_next_total (S (len s)) s) as [y [H' _]]; [lia|].
  unfold skip_to_next. destruct (Nat.le_ge_cases f (S (len s))) as [L|L].
  - exact (skip_mono _ _ _ _ H L).
  - rewrite H', <- H. symmetry. now apply skip_mono with (S (len s)).
Qed.
Definition skippable (x : bytes) : Prop := forall s, skip_to_next (x ++ s) = skip_to_next s.
Lemma skippable_via : forall x, (forall s y f, skip_next_loop f s = Some y -> exists f', skip_next_loop f' (x ++ s) = Some y) -> skippable x.
Proof.
  intros x H s. destruct (skip_to_next_total s) as [y [Hy _]]. rewrite Hy. unfold skip_to_next in Hy.
  destruct (H _ _ _ Hy) as [f' K]. now apply skip_any in K.
Qed.
Lemma skippable_nil : skippable [].
Proof. intros s. reflexivity. Qed.
Lemma skippable_app : forall x y, skippable x -> skippable y -> skippable (x ++ y).
Proof. intros x y Hx Hy s. now rewrite <- app_assoc, Hx, Hy. Qed.
Lemma skippable_text : forall x, ~ In "<"%char x -> skippable x.
Proof.
  induction x as [|c x IH]; intros H; [apply skippable_nil|]. apply (skippable_app [c] x).
  - apply skippable_via. intros s y f K. exists (S f). cbn [app skip_next_loop].
    assert (Ascii.eqb c "<" = false) as ->; auto. apply ascii_eqb_false. intros ->. apply H. now left.
  - apply IH. intros K. apply H. now right.
Qed.
Lemma skip_comment_find : forall c s, (forall x y, c ++ bs "--" <> x ++ bs "-->" ++ y) ->
  skip_comment_body (c ++ bs "-->" ++ s) = s.
Proof.
  induction c as [|a c IH]; intros s H; [reflexivity|].
  assert (H' : forall x y, c ++ bs "--" <> x ++ bs "-->" ++ y).
  { intros x y K. apply (H (a :: x) y). cbn [app]. now rewrite K. }
  specialize (IH s H'). cbn [app].
  assert (exists b1 b2 r, c ++ bs "-->" ++ s = b1 :: b2 :: r /\ c ++ bs "--" = b1 :: b2 :: firstn (len c) r) as [b1 [b2 [r [E E2]]]].
  { destruct c as [|b1 [|b2 c]].
    - exists "-"%char, "-"%char, (">"%char :: s). split; reflexivity.
    - exists b1, "-"%char, ("-"%char :: ">"%char :: s). split; reflexivity.
    - exists b1, b2, (c ++ bs "-->" ++ s). split; auto. cbn [app List.length]. f_equal. f_equal.
      change (bs "-->" ++ s) with ("-"%char :: "-"%char :: ">"%char :: s). rewrite firstn_app.
      rewrite firstn_all2 by lia. replace (S (S (len c)) - len c) with 2 by lia. reflexivity. }
  rewrite E in *. cbn [skip_comment_body].
  destruct (Ascii.eqb a "-" && Ascii.eqb b1 "-" && Ascii.eqb b2 ">") eqn:Q; auto.
  exfalso. apply andb_true_iff in Q. destruct Q as [Q Q3]. apply andb_true_iff in Q. destruct Q as [Q1 Q2].
  apply Ascii.eqb_eq in Q1, Q2, Q3. subst. apply (H [] (firstn (len c) r)). cbn [app]. rewrite E2. reflexivity.
Qed.
Lemma skippable_comment : forall c, (forall x y, bs "--" ++ c ++ bs "--" <> x ++ bs "-->" ++ y) ->
  skippable (bs "<!--" ++ c ++ bs "-->").
Proof.
  intros c H. apply skippable_via. intros s y f K. exists (S f).
  assert (E : skip_comment_body (bs "--" ++ c ++ bs "-->" ++ s) = s).
  { rewrite app_assoc. apply skip_comment_find. intros x z Q. apply (H x z). now rewrite <- app_assoc in Q. }
  rewrite <- !app_assoc. change (bs "<!--" ++ c ++ bs "-->" ++ s) with ("<"%char :: "!"%char :: bs "--" ++ c ++ bs "-->" ++ s).
  cbn [skip_next_loop]. change (Ascii.eqb "<" "<") with true. change (Ascii.eqb "!" "!") with true. cbn [negb andb]. cbn iota.
  assert (D : eq_fold_prefix (bs "<!DOCTYPE") ("<"%char :: "!"%char :: bs "--" ++ c ++ bs "-->" ++ s) = false) by reflexivity.
  rewrite D, andb_false_r. rewrite <- E in K.
  change (bs "--" ++ c ++ bs "-->" ++ s) with ("-"%char :: "-"%char :: c ++ bs "-->" ++ s) in *.
  change (Ascii.eqb "-" "-" && Ascii.eqb "-" "-") with true. cbn iota. exact K.
Qed.
Lemma skip_bracket : forall k s, skip_next_loop (S k) ("<"%char :: "!"%char :: "["%char :: s) = skip_next_loop k ("["%char :: s).
Proof.
  intros k s. cbn [skip_next_loop]. change (Ascii.eqb "<" "<") with true. change (Ascii.eqb "!" "!") with true. cbn [negb andb]. cbn iota.
  assert (D : eq_fold_prefix (bs "<!DOCTYPE") ("<"%char :: "!"%char :: "["%char :: s) = false) by reflexivity.
  rewrite D, andb_false_r. destruct s; reflexivity.
Qed.
Lemma skippable_cdata : forall c, ~ In "<"%char c -> skippable (bs "<![CDATA[" ++ c ++ bs "]]>").
Proof.
  intros c H.
  assert (A : skippable (bs "[CDATA[" ++ c ++ bs "]]>")).
  { apply skippable_text. intros K. repeat (apply in_app_or in K; destruct K as [K|K]); auto; vm_compute in K; intuition discriminate. }
  apply skippable_via. intros s y f K. apply skip_any in K. rewrite <- (A s) in K. unfold skip_to_next in K.
  exists (S (S (len ((bs "[CDATA[" ++ c ++ bs "]]>") ++ s)))). rewrite <- K. clear K.
  generalize (S (len ((bs "[CDATA[" ++ c ++ bs "]]>") ++ s))). intros k. rewrite <- !app_assoc.
  exact (skip_bracket k (bs "CDATA[" ++ c ++ bs "]]>" ++ s)).
Qed.
Lemma skippable_misc : forall b, misc_body b -> skippable (bs "<!" ++ b ++ bs ">").
Proof.
  intros b [[c [-> [[H1 H2] H3]]]|[c [-> [H1 H2]]]].
  - assert (K : skippable (bs "<!--" ++ c ++ bs "-->")).
    { apply skippable_comment. intros x y E.
      assert (In ">"%char (bs "--" ++ c ++ bs "--")) as I.
      { rewrite E. apply in_or_app. right. apply in_or_app. left. vm_compute. auto. }
      repeat (apply in_app_or in I; destruct I as [I|I]); auto; vm_compute in I; intuition discriminate. }
    rewrite <- !app_assoc. exact K.
  - pose proof (skippable_cdata c H1) as K. rewrite <- !app_assoc. exact K.
Qed.
Lemma skippable_pi : forall b, ~ In ">"%char b -> small (bs "<?" ++ b ++ bs "?") -> skippable (bs "<?" ++ b ++ bs "?>").
Proof.
  intros b H1 H2. apply skippable_via. intros s y f K. exists (S f).
  assert (E : read_until ">" ((bs "<?" ++ b ++ bs "?") ++ ">"%char :: s) = (bs "<?" ++ b ++ bs "?", ">"%char :: s)).
  { apply read_stop_token; auto. apply Forall_forall. intros c Hc. apply ascii_eqb_false. intros <-.
    repeat (apply in_app_or in Hc; destruct Hc as [Hc|Hc]); auto; vm_compute in Hc; intuition discriminate. }
  replace ((bs "<?" ++ b ++ bs "?>") ++ s) with ("<"%char :: "?"%char :: b ++ "?"%char :: ">"%char :: s)
    by (rewrite <- !app_assoc; reflexivity).
  replace ((bs "<?" ++ b ++ bs "?") ++ ">"%char :: s) with ("<"%char :: "?"%char :: b ++ "?"%char :: ">"%char :: s) in E
    by (rewrite <- !app_assoc; reflexivity).
  cbn [skip_next_loop]. change (Ascii.eqb "<" "<") with true. change (Ascii.eqb "?" "!") with false.
  change (Ascii.eqb "?" "?") with true. cbn [negb andb]. cbn iota. rewrite E. exact K.
Qed.
Lemma skip_doctype_plain : forall x d s, (forall c, In c x -> ~ In c (bs "[]>")) -> skip_doctype d (x ++ s) = skip_doctype d s.
Proof.
  induction x as [|c x IH]; intros d s H; auto. cbn [app skip_doctype].
  assert (N : ~ In c (bs "[]>")) by (apply H; now left). cbn [bs list_ascii_of_string In] in N.
  rewrite !(proj2 (ascii_eqb_false c _)) by (intros ->; apply N; auto).
  cbn [andb]. apply IH. intros c' Hc'. apply H. now right.
Qed.
Lemma skip_doctype_inner : forall x d s, (d <> 0)%Z -> (forall c, In c x -> ~ In c (bs "[]")) -> skip_doctype d (x ++ s) = skip_doctype d s.
Proof.
  induction x as [|c x IH]; intros d s Hd H; auto. cbn [app skip_doctype].
  assert (N : ~ In c (bs "[]")) by (apply H; now left). cbn [bs list_ascii_of_string In] in N.
  rewrite (proj2 (ascii_eqb_false c "[")), (proj2 (ascii_eqb_false c "]")) by (intros ->; apply N; auto).
  rewrite (proj2 (Z.eqb_neq _ _) Hd), andb_false_r. apply IH; auto. intros c' Hc'. apply H. now right.
Qed.
Lemma skippable_doctype : forall b, (forall s, skip_doctype 0 (b ++ s) = s) -> skippable (bs "<!DOCTYPE" ++ b).
Proof.
  intros b H. apply skippable_via. intros s y f K. exists (S f). rewrite <- app_assoc.
  change (bs "<!DOCTYPE" ++ b ++ s) with ("<"%char :: "!"%char :: bs "DOCTYPE" ++ b ++ s).
  cbn [skip_next_loop]. change (Ascii.eqb "<" "<") with true. change (Ascii.eqb "!" "!") with true. cbn [negb andb]. cbn iota.
  assert (D : eq_fold_prefix (bs "<!DOCTYPE") ("<"%char :: "!"%char :: bs "DOCTYPE" ++ b ++ s) = true) by reflexivity.
  assert (B : (8 <? blen ("<"%char :: "!"%char :: bs "DOCTYPE" ++ b ++ s))%N = true).
  { apply N.ltb_lt. unfold blen. cbn [bs list_ascii_of_string app List.length]. lia. }
  rewrite D, B. cbn [andb]. change (skipn 9 ("<"%char :: "!"%char :: bs "DOCTYPE" ++ b ++ s)) with (b ++ s). now rewrite H.
Qed.
Lemma skippable_prolog : forall p, prolog p -> skippable p.
Proof.
  induction 1 as [|x p Hx Hp IH|b p Hb Hs Hp IH|c p Hc Hp IH|x p Hx Hp IH|x y z p Hx Hy Hp IH].
  - apply skippable_nil.
  - apply skippable_app; auto. apply skippable_text. intros K. apply Hx in K. vm_compute in K. intuition discriminate.
  - replace (bs "<?" ++ b ++ bs "?>" ++ p) with ((bs "<?" ++ b ++ bs "?>") ++ p) by now rewrite <- !app_assoc.
    apply skippable_app; auto using skippable_pi.
  - replace (bs "<!--" ++ c ++ bs "-->" ++ p) with ((bs "<!--" ++ c ++ bs "-->") ++ p) by now rewrite <- !app_assoc.
    apply skippable_app; auto using skippable_comment.
  - replace (bs "<!DOCTYPE" ++ x ++ bs ">" ++ p) with ((bs "<!DOCTYPE" ++ (x ++ bs ">")) ++ p) by now rewrite <- !app_assoc.
    apply skippable_app; auto. apply skippable_doctype. intros s. rewrite <- app_assoc, skip_doctype_plain; auto.
  - replace (bs "<!DOCTYPE" ++ x ++ bs "[" ++ y ++ bs "]" ++ z ++ bs ">" ++ p) with
      ((bs "<!DOCTYPE" ++ (x ++ bs "[" ++ y ++ bs "]" ++ z ++ bs ">")) ++ p) by now rewrite <- !app_assoc.
    apply skippable_app; auto. apply skippable_doctype. intros s. rewrite <- !app_assoc.
    rewrite skip_doctype_plain by (intros c Hc; apply Hx; apply in_or_app; auto).
    change (bs "[" ++ y ++ bs "]" ++ z ++ bs ">" ++ s) with ("["%char :: y ++ bs "]" ++ z ++ bs ">" ++ s).
    cbn [skip_doctype]. change (Ascii.eqb "[" "[") with true. cbn iota.
    rewrite skip_doctype_inner; auto; [|lia].
    change (bs "]" ++ z ++ bs ">" ++ s) with ("]"%char :: z ++ bs ">" ++ s).
    cbn [skip_doctype]. change (Ascii.eqb "]" "[") with false. change (Ascii.eqb "]" "]") with true. cbn iota.
    rewrite skip_doctype_plain by (intros c Hc; apply Hx; apply in_or_app; auto). reflexivity.
Qed.

(** ** Enumeration *)
Lemma scan_loop_more : forall ord key f s x, scan_loop ord key f s = Some x -> scan_loop ord key (S f) s = Some x.
Proof.
  intros ord key. induction f as [|f IH]; intros s x H; [discriminate|].
  remember (S f) as f1. cbn [scan_loop]. rewrite Heqf1 in H. cbn [scan_loop] in H. subst f1.
  destruct (skip_to_next s) as [[s1|]|]; auto.
  destruct (parse_element_name (next s1)) as [[[name attrs] self] s2]. destruct self.
  - destruct (scan_loop ord key f s2) eqn:Q; [|discriminate]. now rewrite (IH _ _ Q).
  - destruct (parse_content ord key name s2) as [[content s3]|]; auto.
    destruct (scan_loop ord key f s3) eqn:Q; [|discriminate]. now rewrite (IH _ _ Q).
Qed.
Lemma scan_any : forall ord key f s x, scan_loop ord key f s = Some x -> scan ord key s = Some x.
Proof.
  intros ord key f s x H. assert (M : forall f f' y, scan_loop ord key f s = Some y -> f <= f' -> scan_loop ord key f' s = Some y).
  { intros g g' y K L. induction L; auto. now apply scan_loop_more. }
  destruct (scan_total ord key s) as [l Hl]. unfold scan in *. destruct (Nat.le_ge_cases f (S (len s))) as [L|L].
  - now apply M with f.
  - rewrite Hl, <- H. symmetry. now apply M with (S (len s)).
Qed.
Lemma scan_skip : forall ord key x s, skippable x -> scan ord key (x ++ s) = scan ord key s.
Proof.
  intros ord key x s Hx. destruct (scan_total ord key s) as [l Hl]. rewrite Hl. unfold scan in Hl.
  apply (scan_any _ _ (S (len s))). rewrite <- Hl. cbn [scan_loop]. now rewrite Hx.
Qed.
(** The elements of a forest as the scanner sees them: the contents may have their
    attributes reordered. *)
Inductive scanned : list node -> list elem -> Prop :=
| sc_nil : scanned [] []
| sc_text : forall t F es, scanned F es -> scanned (Text t :: F) es
| sc_misc : forall b F es, scanned F es -> scanned (Misc b :: F) es
| sc_elem : forall n a self kids kids' F es, Forall2 same kids kids' -> scanned F es ->
    scanned (Elem n a self kids :: F)
      (mkElem n a self (forest_text kids') (forest_text (Elem n a self kids :: F))
         ((if self then [] else forest_text kids ++ end_tag n) ++ forest_text F) (forest_text F) :: es).
Lemma scan_forest : forall ord key F, (forall k l, Permutation l (ord k l)) -> Forall good F ->
  exists es, scan ord key (forest_text F) = Some es /\ scanned F es.
Proof.
  intros ord key F Hord G. induction G as [|nd F G1 G2 IH].
  - exists []. split; [reflexivity|constructor].
  - destruct IH as [es [H1 H2]]. destruct nd as [n a self kids|t|b]; inversion G1 as [? ? ? ? N A S K|? T|? M]; subst.
    + unfold scan in H1.
      assert (SK : skip_to_next (forest_text (Elem n a self kids :: F)) = Some (Some (forest_text (Elem n a self kids :: F)))).
      { apply (skip_any 1). unfold forest_text. cbn [flat_map node_text]. rewrite start_tag_split.
        destruct (name_first n N) as [c [r [-> Hc]]]. cbn [app skip_next_loop].
        change (Ascii.eqb "<" "<") with true. cbn iota.
        rewrite (name_eqb c "!" Hc), (name_eqb c "?" Hc), (name_eqb c "/" Hc) by inlist. reflexivity. }
      assert (PE : parse_element_name (next (forest_text (Elem n a self kids :: F))) =
                   (n, a, self, (if self then [] else forest_text kids ++ end_tag n) ++ forest_text F)).
      { unfold forest_text at 1. cbn [flat_map node_text]. rewrite start_tag_split. cbn [next app].
        rewrite <- !app_assoc. apply parse_element_name_text; auto. }
      destruct self.
      * exists (mkElem n a true [] (forest_text (Elem n a true kids :: F)) (forest_text F) (forest_text F) :: es).
        split; [|rewrite (S eq_refl); exact (sc_elem n a true [] [] F es (Forall2_nil _) H2)].
        apply (scan_any _ _ (Datatypes.S (Datatypes.S (len (forest_text F))))). remember (Datatypes.S (len (forest_text F))) as f.
        cbn [scan_loop]. rewrite SK, PE. cbn [app]. now rewrite H1.
      * destruct (parse_content_text ord Hord key n kids (forest_text F) N K) as [kids' [P1 P2]].
        eexists. split; [|constructor; [exact P1|exact H2]].
        apply (scan_any _ _ (Datatypes.S (Datatypes.S (len (forest_text F))))). remember (Datatypes.S (len (forest_text F))) as f.
        cbn [scan_loop]. rewrite SK, PE. rewrite <- app_assoc, P2, H1. reflexivity.
    + exists es. split; [|now constructor]. unfold forest_text in *. cbn [flat_map node_text]. rewrite scan_skip; auto.
      apply skippable_text. apply T.
    + exists es. split; [|now constructor]. unfold forest_text in *. cbn [flat_map node_text]. rewrite scan_skip; auto.
      now apply skippable_misc.
Qed.
