(** The check of raw fragments accepts exactly the grammar. *)
From Coq Require Import List Ascii String NArith ZArith Bool Lia.
From Verif Require Import GoStr ModelParser ModelPath ModelResult ModelQuery ModelValidate ModelBuilder SpecText SpecPath SpecTree SpecQuery SpecEdit SpecMod SpecRaw ProofBase.
Import ListNotations.
Local Notation len := (@List.length ascii).

Lemma find_after_some : forall pat s a r, find_after pat s = Some (a, r) -> first_cut pat s a r.
Proof.
  intros pat s. induction s as [|c s IH]; intros a r H; cbn [find_after] in H.
  - destruct (strip_prefix pat []) as [r'|] eqn:E; [|discriminate]. apply strip_prefix_spec in E. inversion H; subst. split; [exact E|]. intros; cbn [List.length]; lia.
  - destruct (strip_prefix pat (c :: s)) as [r'|] eqn:E.
    + apply strip_prefix_spec in E. inversion H; subst. split; [exact E|]. intros; cbn [List.length]; lia.
    + destruct (find_after pat s) as [[a0 b0]|]; [|discriminate]. inversion H; subst. destruct (IH a0 r eq_refl) as [I1 I2]. split; [cbn [app]; now rewrite <- I1|].
      intros [|c' a'] r' H1.
      * exfalso. apply (proj1 (strip_prefix_none pat (c :: s)) E r'). exact H1.
      * cbn [app] in H1. inversion H1 as [[Q1 Q2]]. cbn [List.length]. specialize (I2 a' r' Q2). lia.
Qed.
Lemma find_after_none : forall pat s, find_after pat s = None -> ~ has_sub pat s.
Proof.
  intros pat s. induction s as [|c s IH]; intros H (a & r & H1); cbn [find_after] in H.
  - destruct (strip_prefix pat []) as [r'|] eqn:E; [discriminate|]. destruct a; [|discriminate]. apply (proj1 (strip_prefix_none pat []) E r). exact H1.
  - destruct (strip_prefix pat (c :: s)) as [r'|] eqn:E; [discriminate|]. destruct (find_after pat s) as [[a0 b0]|]; [discriminate|].
    destruct a as [|c' a]; [apply (proj1 (strip_prefix_none pat (c :: s)) E r); exact H1|]. cbn [app] in H1. inversion H1; subst. apply IH; auto. exists a, r. reflexivity.
Qed.
Lemma first_cut_unique : forall pat s a r a' r', first_cut pat s a r -> first_cut pat s a' r' -> a = a' /\ r = r'.
Proof.
  intros pat s a r a' r' [A1 A2] [B1 B2]. assert (L : len a = len a') by (pose proof (A2 _ _ B1); pose proof (B2 _ _ A1); lia).
  assert (Q : a ++ (pat ++ r) = a' ++ (pat ++ r')) by congruence. clear A1 A2 B1 B2. revert a' L Q. induction a as [|c a IH]; intros [|c' a'] L Q; try discriminate.
  - split; auto. cbn [app] in Q. now apply app_inv_head in Q.
  - cbn [app] in Q. inversion Q; subst. destruct (IH a') as [-> ->]; auto.
Qed.
Lemma find_after_first : forall pat s a r, first_cut pat s a r -> find_after pat s = Some (a, r).
Proof.
  intros pat s a r H. destruct (find_after pat s) as [[a' r']|] eqn:E.
  - apply find_after_some in E. destruct (first_cut_unique _ _ _ _ _ _ H E) as [-> ->]. reflexivity.
  - exfalso. apply (find_after_none _ _ E). exists a, r. apply H.
Qed.
Lemma find_after_no : forall pat s, ~ has_sub pat s -> find_after pat s = None.
Proof.
  intros pat s H. destruct (find_after pat s) as [[a r]|] eqn:E; auto. exfalso. apply H. apply find_after_some in E. exists a, r. apply E.
Qed.
Lemma first_cut_len : forall pat s a r, pat <> [] -> first_cut pat s a r -> len r < len s.
Proof. intros pat s a r H [-> _]. rewrite !app_length. destruct pat; [congruence|]. cbn [List.length]. lia. Qed.

Lemma span_until_cut : forall set s, let p := span_until set s in
  s = fst p ++ snd p /\ (forall c, In c (fst p) -> ~ In c set) /\ (snd p = [] \/ exists c r, snd p = c :: r /\ In c set).
Proof.
  intros set. induction s as [|c s IH]; cbn [span_until]; cbv zeta.
  - cbn. repeat split; auto.
  - destruct (mem c set) eqn:M.
    + apply mem_In in M. cbn [fst snd]. repeat split; auto. right. exists c, s. auto.
    + destruct (span_until set s) as [a b]. cbv zeta in IH. cbn [fst snd] in *. destruct IH as (I1 & I2 & I3). repeat split; [now rewrite I1 at 1| |exact I3].
      intros x [->|H]; [|now apply I2]. intros H. apply mem_In in H. congruence.
Qed.
Lemma span_until_app : forall set a b, (forall c, In c a -> ~ In c set) -> (b = [] \/ exists c r, b = c :: r /\ In c set) -> span_until set (a ++ b) = (a, b).
Proof.
  intros set a b. induction a as [|c a IH]; intros H Hb; cbn [app].
  - destruct Hb as [->|(c & r & -> & Hc)]; [reflexivity|]. cbn [span_until]. apply mem_In in Hc. now rewrite Hc.
  - cbn [span_until]. destruct (mem c set) eqn:M; [apply mem_In in M; destruct (H c); [left; auto|auto]|].
    rewrite IH; auto. intros x Hx. apply H. right. auto.
Qed.

Lemma rte_self : forall a r, ~ In ">"%char a -> raw_tag_end (a ++ bs "/>" ++ r) = (true, r).
Proof.
  induction a as [|c a IH]; intros r H; [reflexivity|]. cbn [app raw_tag_end].
  assert (Q : Ascii.eqb c ">" = false) by (apply Ascii.eqb_neq; intros ->; apply H; left; auto).
  assert (IH' : raw_tag_end (a ++ bs "/>" ++ r) = (true, r)) by (apply IH; intros Hx; apply H; right; auto).
  destruct (Ascii.eqb c "/"); [|now rewrite Q]. destruct (a ++ bs "/>" ++ r) as [|d s2] eqn:E; [destruct a; discriminate|].
  destruct (Ascii.eqb d ">") eqn:Qd; [|exact IH']. apply Ascii.eqb_eq in Qd; subst d. exfalso. destruct a as [|d a]; [discriminate|]. inversion E; subst. apply H. right. left. auto.
Qed.
Lemma rte_open : forall a r, ~ In ">"%char a -> (forall a', a <> a' ++ bs "/") -> raw_tag_end (a ++ bs ">" ++ r) = (false, r).
Proof.
  induction a as [|c a IH]; intros r H H2; [reflexivity|]. cbn [app raw_tag_end].
  assert (Q : Ascii.eqb c ">" = false) by (apply Ascii.eqb_neq; intros ->; apply H; left; auto).
  assert (IH' : raw_tag_end (a ++ bs ">" ++ r) = (false, r)).
  { apply IH; [intros Hx; apply H; right; auto|]. intros a' ->. apply (H2 (c :: a')). reflexivity. }
  destruct (Ascii.eqb c "/") eqn:Qc; [|now rewrite Q]. apply Ascii.eqb_eq in Qc; subst c. destruct a as [|d a]; [exfalso; apply (H2 []); reflexivity|]. cbn [app] in *.
  destruct (Ascii.eqb d ">") eqn:Qd; [|exact IH']. apply Ascii.eqb_eq in Qd; subst d. exfalso. apply H. right. left. auto.
Qed.
Lemma rte_cases : forall s,
  (exists a r, s = a ++ bs ">" ++ r /\ ~ In ">"%char a /\ (forall a', a <> a' ++ bs "/") /\ raw_tag_end s = (false, r)) \/
  (exists a r, s = a ++ bs "/>" ++ r /\ ~ In ">"%char a /\ raw_tag_end s = (true, r)) \/
  raw_tag_end s = (false, []).
Proof.
  intros s. assert (D : ~ In ">"%char s \/ exists a r, s = a ++ bs ">" ++ r /\ ~ In ">"%char a).
  { induction s as [|c s IH]; [left; intros []|]. destruct (Ascii.ascii_dec c ">") as [->|N]; [right; exists [], s; split; [reflexivity|intros []]|].
    destruct IH as [IH|(a & r & -> & H)]; [left; intros [?|?]; auto|]. right. exists (c :: a), r. split; [reflexivity|]. intros [?|?]; auto. }
  destruct D as [D|(a & r & -> & H)].
  - right; right. induction s as [|c s IH]; [reflexivity|]. cbn [raw_tag_end].
    assert (IH' : raw_tag_end s = (false, [])) by (apply IH; intros ?; apply D; right; auto).
    replace (Ascii.eqb c ">") with false by (symmetry; apply Ascii.eqb_neq; intros ->; apply D; left; auto). destruct (Ascii.eqb c "/"); [|exact IH'].
    destruct s as [|d s2]; [reflexivity|]. replace (Ascii.eqb d ">") with false by (symmetry; apply Ascii.eqb_neq; intros ->; apply D; right; left; auto). exact IH'.
  - assert (D2 : (forall a', a <> a' ++ bs "/") \/ exists a', a = a' ++ bs "/").
    { destruct a as [|c0 a0]; [left; intros a' Q; destruct a'; discriminate|]. destruct (exists_last (l := c0 :: a0) ltac:(discriminate)) as (a' & c & ->).
      destruct (Ascii.ascii_dec c "/") as [->|N]; [right; exists a'; reflexivity|]. left. intros a2 Q. apply app_inj_tail in Q. destruct Q as [_ Q]. auto. }
    destruct D2 as [D2|(a' & ->)].
    + left. exists a, r. repeat split; auto. now apply rte_open.
    + right; left. exists a', r. rewrite <- app_assoc. change (bs "/" ++ bs ">" ++ r) with (bs "/>" ++ r). assert (H' : ~ In ">"%char a') by (intros ?; apply H; apply in_or_app; auto).
      repeat split; auto. now apply rte_self.
Qed.

Lemma fragment_nil : forall st, fragment st [] -> st = [].
Proof.
  intros st H. remember (@nil ascii) as s eqn:Q. destruct H; try discriminate; auto. subst. destruct H as [(? & H)|(? & H)]; discriminate.
Qed.
Lemma raw_sound : forall f st s, raw_loop f st s = true -> fragment st s.
Proof.
  induction f as [|f IH]; intros st s H; [discriminate|]. cbn [raw_loop] in H.
  destruct s as [|c s1]; [destruct st; [constructor|discriminate]|].
  destruct (Ascii.eqb c "<") eqn:Qc; [|apply fr_text; [now apply Ascii.eqb_neq|now apply IH]].
  apply Ascii.eqb_eq in Qc; subst c. destruct s1 as [|n s2]; [discriminate|].
  destruct (Ascii.eqb n "/") eqn:Qn.
  - apply Ascii.eqb_eq in Qn; subst n. pose proof (span_until_cut (bs "> ") s2) as P. destruct (span_until (bs "> ") s2) as [name s3]. cbv zeta in P. cbn [fst snd] in P. destruct P as (P1 & P2 & P3).
    destruct st as [|top st']; [discriminate|]. destruct (bytes_eqb top name) eqn:Q; [|discriminate]. apply bytes_eqb_eq in Q; subst top.
    pose proof (span_until_cut (bs ">") s3) as R. destruct (span_until (bs ">") s3) as [w s4]. cbv zeta in R. cbn [fst snd] in *. destruct R as (R1 & R2 & R3).
    assert (T : tag_rest (bs " ") w).
    { split; [|intros Hx; apply (R2 _ Hx); left; auto]. destruct P3 as [P3|(c & r & P3 & Hc)].
      - left. destruct w; auto. rewrite P3 in R1. discriminate.
      - destruct w as [|c' w]; [left; auto|]. right. exists c', w. split; auto. rewrite P3 in R1. cbn [app] in R1. inversion R1; subst. destruct Hc as [<-|Hc]; [|exact Hc]. exfalso. apply (R2 ">"%char); left; auto. }
    destruct R3 as [R3|(c & r & R3 & Hc)].
    + subst s4 s3 s2. cbn [next] in H. apply IH in H. rewrite app_nil_r.
      apply fragment_nil in H. subst st'. exact (fr_cut name w T P2).
    + destruct Hc as [<-|[]]. subst s4 s3 s2. cbn [next] in H. exact (fr_close st' name w r T P2 (IH _ _ H)).
  - destruct (Ascii.eqb n "!" || Ascii.eqb n "?") eqn:Qb.
    + assert (Hn : In n (bs "!?")) by (apply orb_true_iff in Qb; destruct Qb as [Q|Q]; apply Ascii.eqb_eq in Q; subst; cbn; auto).
      destruct (Ascii.eqb (peek s2) "-") eqn:Qp.
      * destruct (find_after (bs "-->") ("<"%char :: n :: s2)) as [[a r]|] eqn:FA; [|discriminate]. apply find_after_some in FA. refine (fr_comment st _ a r _ FA (IH _ _ H)).
        destruct s2 as [|h s2]; [discriminate|]. cbn [peek] in Qp. apply Ascii.eqb_eq in Qp; subst h. destruct Hn as [<-|[<-|[]]]; [left|right]; exists s2; reflexivity.
      * destruct (strip_prefix cdata_start ("<"%char :: n :: s2)) as [body|] eqn:SP.
        -- apply strip_prefix_spec in SP. rewrite SP. destruct (find_after cdata_end body) as [[content r]|] eqn:FA; [|discriminate]. apply find_after_some in FA.
           destruct (find_after cdata_start content) as [?|] eqn:FC; [discriminate|]. apply find_after_none in FC. exact (fr_cdata st body content r FA FC (IH _ _ H)).
        -- destruct (has_prefix (bs "<!DOCTYPE") ("<"%char :: n :: s2) || has_prefix (bs "<!ENTITY") ("<"%char :: n :: s2)) eqn:HP; [discriminate|].
           apply orb_false_iff in HP. destruct HP as [HP1 HP2].
           destruct (find_after (bs ">") ("<"%char :: n :: s2)) as [[a r]|] eqn:FA; [|discriminate]. apply find_after_some in FA. destruct FA as [F1 F2].
           destruct a as [|c1 a]; [discriminate|]. destruct a as [|c2 b]; [exfalso; cbn [app] in F1; inversion F1; subst; destruct Hn as [Hn|[Hn|[]]]; discriminate|].
           cbn [app] in F1. inversion F1; subst c1 c2 s2.
           assert (NB : ~ In ">"%char b).
           { intros Hx. apply in_split in Hx. destruct Hx as (x & y & ->). assert (Q := F2 ("<"%char :: n :: x) (y ++ bs ">" ++ r)). cbn [List.length] in Q. rewrite app_length in Q. cbn [List.length] in Q.
             enough (S (S (len x + S (len y))) <= S (S (len x))) by lia. apply Q. cbn [app]. rewrite <- app_assoc. reflexivity. }
           refine (fr_other st n b r Hn NB _ _ _ _ (IH _ _ H)).
           ++ intros (y & Hy). subst b. cbn in Qp. discriminate.
           ++ intros (y & Hy). apply (proj1 (strip_prefix_none _ _) SP y). change (cdata_start ++ y) with ("<"%char :: (bs "![CDATA[" ++ y)). f_equal. exact Hy.
           ++ intros (y & Hy). apply not_true_iff_false in HP1. apply HP1. apply has_prefix_spec. exists y. change (bs "<!DOCTYPE" ++ y) with ("<"%char :: (bs "!DOCTYPE" ++ y)). f_equal. exact Hy.
           ++ intros (y & Hy). apply not_true_iff_false in HP2. apply HP2. apply has_prefix_spec. exists y. change (bs "<!ENTITY" ++ y) with ("<"%char :: (bs "!ENTITY" ++ y)). f_equal. exact Hy.
    + apply orb_false_iff in Qb. destruct Qb as [Qb1 Qb2]. apply Ascii.eqb_neq in Qn, Qb1, Qb2.
      pose proof (span_until_cut (bs "> /") (n :: s2)) as P. destruct (span_until (bs "> /") (n :: s2)) as [name s3]. cbv zeta in P. cbn [fst snd] in P. destruct P as (P1 & P2 & P3).
      destruct name as [|n' name]; [discriminate|]. cbn [app] in P1. inversion P1; subst n' s2.
      assert (TN : tag_name (n :: name)). { split; [|exact P2]. exists n, name. split; auto. intros [Q|[Q|[Q|[]]]]; congruence. }
      assert (TR : forall a x, s3 = a ++ x -> ~ In ">"%char a -> tag_rest (bs " /") a).
      { intros a x Q Na. split; auto. destruct a as [|c a]; [left; auto|]. right. exists c, a. split; auto. destruct P3 as [P3|(c' & r & P3 & Hc)]; [rewrite P3 in Q; discriminate|].
        rewrite P3 in Q. cbn [app] in Q. inversion Q; subst. destruct Hc as [<-|Hc]; [|exact Hc]. exfalso. apply Na. left. auto. }
      destruct (rte_cases s3) as [(a & r & Q & Na & Ne & R)|[(a & r & Q & Na & R)|R]]; rewrite R in H; apply IH in H.
      * rewrite Q. exact (fr_open st (n :: name) a r TN (TR _ _ Q Na) Ne H).
      * rewrite Q. exact (fr_self st (n :: name) a r TN (TR _ _ Q Na) H).
      * apply fragment_nil in H. discriminate.
Qed.

Lemma raw_complete : forall st s, fragment st s -> forall f, len s < f -> raw_loop f st s = true.
Proof.
  intros st s H. induction H as [|st c s Hc H IH|st s a r Hs Hf H IH|st s a r Hf Hn H IH|st c b r Hc Nb H1 H2 H3 H4 H IH|st n a r TN TR Ne H IH|st n a r TN TR H IH|st n w r TR Hn H IH|n w TR Hn];
    intros f Hl; destruct f as [|f]; try lia; cbn [raw_loop].
  - reflexivity.
  - apply Ascii.eqb_neq in Hc. rewrite Hc. apply IH. cbn [List.length] in Hl. lia.
  - assert (Hlr : len r < len s) by (apply (first_cut_len (bs "-->") s a r); [discriminate|exact Hf]). apply find_after_first in Hf.
    assert (IHr : raw_loop f st r = true) by (apply IH; lia).
    destruct Hs as [(y & ->)|(y & ->)].
    + change (bs "<!-" ++ y) with ("<"%char :: "!"%char :: "-"%char :: y) in *. change (Ascii.eqb "<" "<") with true. cbn iota. change (Ascii.eqb "!" "/") with false. cbn iota.
      change (Ascii.eqb "!" "!" || Ascii.eqb "!" "?") with true. cbn iota. cbn [peek]. change (Ascii.eqb "-" "-") with true. cbn iota. rewrite Hf. exact IHr.
    + change (bs "<?-" ++ y) with ("<"%char :: "?"%char :: "-"%char :: y) in *. change (Ascii.eqb "<" "<") with true. cbn iota. change (Ascii.eqb "?" "/") with false. cbn iota.
      change (Ascii.eqb "?" "!" || Ascii.eqb "?" "?") with true. cbn iota. cbn [peek]. change (Ascii.eqb "-" "-") with true. cbn iota. rewrite Hf. exact IHr.
  - assert (Hlr : len r < len s) by (apply (first_cut_len (bs "]]>") s a r); [discriminate|exact Hf]). apply find_after_first in Hf. apply find_after_no in Hn.
    assert (IHr : raw_loop f st r = true) by (apply IH; rewrite app_length in Hl; lia).
    change (bs "<![CDATA[" ++ s) with ("<"%char :: "!"%char :: (bs "[CDATA[" ++ s)) at 1. change (Ascii.eqb "<" "<") with true. cbn iota. change (bs "<![CDATA[" ++ s) with ("<"%char :: "!"%char :: (bs "[CDATA[" ++ s)).
    cbn iota. change (Ascii.eqb "!" "/") with false. cbn iota.
    change (Ascii.eqb "!" "!" || Ascii.eqb "!" "?") with true. cbn iota. change (Ascii.eqb (peek (bs "[CDATA[" ++ s)) "-") with false. cbn iota.
    change ("<"%char :: "!"%char :: (bs "[CDATA[" ++ s)) with (cdata_start ++ s). rewrite strip_prefix_app. change cdata_end with (bs "]]>"). rewrite Hf. change cdata_start with (bs "<![CDATA["). rewrite Hn. exact IHr.
  - assert (IHr : raw_loop f st r = true). { apply IH. rewrite !app_length in Hl. cbn [List.length] in Hl. lia. }
    change (bs "<" ++ [c] ++ b ++ bs ">" ++ r) with ("<"%char :: c :: (b ++ bs ">" ++ r)). change (Ascii.eqb "<" "<") with true. cbn iota.
    assert (Q1 : Ascii.eqb c "/" = false) by (destruct Hc as [<-|[<-|[]]]; reflexivity). rewrite Q1.
    assert (Q2 : Ascii.eqb c "!" || Ascii.eqb c "?" = true) by (destruct Hc as [<-|[<-|[]]]; reflexivity). rewrite Q2.
    assert (Q3 : Ascii.eqb (peek (b ++ bs ">" ++ r)) "-" = false).
    { destruct b as [|h b]; [reflexivity|]. cbn [app peek]. apply Ascii.eqb_neq. intros ->. apply H1. exists b. reflexivity. }
    rewrite Q3.
    assert (Q4 : strip_prefix cdata_start ("<"%char :: c :: (b ++ bs ">" ++ r)) = None).
    { apply strip_prefix_none. intros y Hy. apply H2. exists y. change (cdata_start ++ y) with ("<"%char :: (bs "![CDATA[" ++ y)) in Hy. congruence. }
    rewrite Q4.
    assert (Q5 : has_prefix (bs "<!DOCTYPE") ("<"%char :: c :: (b ++ bs ">" ++ r)) = false).
    { apply not_true_iff_false. rewrite has_prefix_spec. intros (y & Hy). apply H3. exists y. change (bs "<!DOCTYPE" ++ y) with ("<"%char :: (bs "!DOCTYPE" ++ y)) in Hy. congruence. }
    assert (Q6 : has_prefix (bs "<!ENTITY") ("<"%char :: c :: (b ++ bs ">" ++ r)) = false).
    { apply not_true_iff_false. rewrite has_prefix_spec. intros (y & Hy). apply H4. exists y. change (bs "<!ENTITY" ++ y) with ("<"%char :: (bs "!ENTITY" ++ y)) in Hy. congruence. }
    rewrite Q5, Q6. cbn [orb].
    rewrite (find_after_first (bs ">") _ ("<"%char :: c :: b) r); [exact IHr|]. split; [reflexivity|].
    intros a' r' Q. destruct (le_lt_dec (len ("<"%char :: c :: b)) (len a')) as [L|L]; auto. exfalso.
    assert (X : nth_error ("<"%char :: c :: b) (len a') = Some ">"%char).
    { rewrite <- (nth_error_app1 _ (bs ">" ++ r)) by exact L. change (("<"%char :: c :: b) ++ bs ">" ++ r) with ("<"%char :: c :: b ++ bs ">" ++ r). rewrite Q, nth_error_app2, Nat.sub_diag by lia. reflexivity. }
    apply nth_error_In in X. destruct X as [X|[X|X]]; [discriminate| |auto]. subst c. destruct Hc as [Hc|[Hc|[]]]; discriminate.
  - destruct TN as [(c & n' & -> & Hc) TN]. destruct TR as [TR Na].
    assert (IHr : raw_loop f ((c :: n') :: st) r = true). { apply IH. rewrite !app_length in Hl. cbn [List.length] in Hl. lia. }
    assert (SU : span_until (bs "> /") ((c :: n') ++ (a ++ bs ">" ++ r)) = (c :: n', a ++ bs ">" ++ r)).
    { apply span_until_app; auto. right. destruct TR as [->|(x & y & -> & Hx)]; [exists ">"%char, r|exists x, (y ++ bs ">" ++ r)]; split; cbn; auto. }
    change (bs "<" ++ (c :: n') ++ a ++ bs ">" ++ r) with ("<"%char :: c :: (n' ++ a ++ bs ">" ++ r)). change (Ascii.eqb "<" "<") with true. cbn iota.
    assert (Q1 : Ascii.eqb c "/" = false) by (apply Ascii.eqb_neq; intros ->; apply Hc; cbn; auto). rewrite Q1.
    assert (Q2 : Ascii.eqb c "!" = false) by (apply Ascii.eqb_neq; intros ->; apply Hc; cbn; auto). rewrite Q2.
    assert (Q3 : Ascii.eqb c "?" = false) by (apply Ascii.eqb_neq; intros ->; apply Hc; cbn; auto). rewrite Q3. cbn [orb].
    change (c :: (n' ++ a ++ bs ">" ++ r)) with ((c :: n') ++ (a ++ bs ">" ++ r)). rewrite SU. rewrite (rte_open a r Na Ne). exact IHr.
  - destruct TN as [(c & n' & -> & Hc) TN]. destruct TR as [TR Na].
    assert (IHr : raw_loop f st r = true). { apply IH. rewrite !app_length in Hl. cbn [List.length] in Hl. lia. }
    assert (SU : span_until (bs "> /") ((c :: n') ++ (a ++ bs "/>" ++ r)) = (c :: n', a ++ bs "/>" ++ r)).
    { apply span_until_app; auto. right. destruct TR as [->|(x & y & -> & Hx)]; [exists "/"%char, (">"%char :: r)|exists x, (y ++ bs "/>" ++ r)]; split; cbn; auto. }
    change (bs "<" ++ (c :: n') ++ a ++ bs "/>" ++ r) with ("<"%char :: c :: (n' ++ a ++ bs "/>" ++ r)). change (Ascii.eqb "<" "<") with true. cbn iota.
    assert (Q1 : Ascii.eqb c "/" = false) by (apply Ascii.eqb_neq; intros ->; apply Hc; cbn; auto). rewrite Q1.
    assert (Q2 : Ascii.eqb c "!" = false) by (apply Ascii.eqb_neq; intros ->; apply Hc; cbn; auto). rewrite Q2.
    assert (Q3 : Ascii.eqb c "?" = false) by (apply Ascii.eqb_neq; intros ->; apply Hc; cbn; auto). rewrite Q3. cbn [orb].
    change (c :: (n' ++ a ++ bs "/>" ++ r)) with ((c :: n') ++ (a ++ bs "/>" ++ r)). rewrite SU. rewrite (rte_self a r Na). exact IHr.
  - destruct TR as [TR Na]. assert (IHr : raw_loop f st r = true). { apply IH. rewrite !app_length in Hl. change (len (bs "</")) with 2 in Hl. lia. }
    change (bs "</" ++ n ++ w ++ bs ">" ++ r) with ("<"%char :: "/"%char :: (n ++ w ++ bs ">" ++ r)). change (Ascii.eqb "<" "<") with true. cbn iota. change (Ascii.eqb "/" "/") with true. cbn iota.
    rewrite span_until_app; [|exact Hn|right; destruct TR as [->|(x & y & -> & Hx)]; [exists ">"%char, r|exists x, (y ++ bs ">" ++ r)]; split; auto; [left; auto|right; auto]].
    rewrite bytes_eqb_refl. rewrite span_until_app; [exact IHr| |right; exists ">"%char, r; split; auto; left; auto]. intros c Hc [Hx|[]]. subst c. auto.
  - destruct TR as [TR Na]. change (bs "</" ++ n ++ w) with ("<"%char :: "/"%char :: (n ++ w)). change (Ascii.eqb "<" "<") with true. cbn iota. change (Ascii.eqb "/" "/") with true. cbn iota.
    rewrite span_until_app; [|exact Hn|destruct TR as [->|(x & y & -> & Hx)]; [left; auto|right; exists x, y; split; auto; right; auto]].
    rewrite bytes_eqb_refl. rewrite <- (app_nil_r w), span_until_app; [|intros c Hc [Hx|[]]; subst c; auto|left; auto]. cbn [snd next]. 
    destruct f; [cbn [List.length app bs] in Hl; rewrite !app_length in Hl; cbn in Hl; lia|reflexivity].
Qed.
Lemma validate_raw_spec : forall s, validate_raw s = true <-> fragment [] s.
Proof. intros s. split; [apply raw_sound|]. intros H. apply raw_complete; auto. Qed.
