(** The texts of the errors of SetRaw. *)
From Coq Require Import List Ascii String NArith ZArith Bool Lia.
From Verif Require Import GoStr ModelParser ModelPath ModelResult ModelQuery ModelValidate ModelBuilder ModelErrText SpecText SpecPath SpecTree SpecQuery SpecEdit SpecMod SpecRaw
  SpecError SpecOutcome SpecComplaint ProofBase ProofRaw.
Import ListNotations.
Local Notation len := (@List.length ascii).

Lemma raw_agree : forall f st s, (match raw_loop_t f st s with None => true | Some _ => false end) = raw_loop f st s.
Proof.
  induction f as [|f IH]; intros st s; [reflexivity|]. cbn [raw_loop raw_loop_t].
  destruct s as [|c s1]; [now destruct st|]. destruct (Ascii.eqb c "<"); [|apply IH]. destruct s1 as [|n s2]; [reflexivity|].
  destruct (Ascii.eqb n "/").
  - destruct (span_until (bs "> ") s2) as [name s3]. destruct st as [|top st]; [reflexivity|]. destruct (bytes_eqb top name); [apply IH|reflexivity].
  - destruct (Ascii.eqb n "!" || Ascii.eqb n "?").
    + destruct (Ascii.eqb (peek s2) "-").
      * destruct (find_after (bs "-->") (c :: n :: s2)) as [[a r]|]; [apply IH|reflexivity].
      * destruct (strip_prefix cdata_start (c :: n :: s2)) as [body|].
        -- destruct (find_after cdata_end body) as [[content r]|]; [|reflexivity]. destruct (find_after cdata_start content); [reflexivity|apply IH].
        -- destruct (has_prefix (bs "<!DOCTYPE") (c :: n :: s2)); [reflexivity|]. destruct (has_prefix (bs "<!ENTITY") (c :: n :: s2)); [reflexivity|]. cbn [orb].
           destruct (find_after (bs ">") (c :: n :: s2)) as [[a r]|]; [apply IH|reflexivity].
    + destruct (span_until (bs "> /") (n :: s2)) as [name s3]. destruct name; [reflexivity|]. destruct (raw_tag_end s3) as [self s4]. apply IH.
Qed.
Lemma objection_no : forall st m, ~ objection st [] m.
Proof.
  intros st m H. remember (@nil ascii) as s eqn:Q. destruct H; try discriminate. subst. destruct H as [(? & H)|(? & H)]; discriminate.
Qed.
Definition said (st : list bytes) (s : bytes) (g : failure) : Prop :=
  g = plain ErrInvalidValue \/ exists m, g = detailed ErrInvalidValue m /\ objection st s m.
Lemma said_step : forall st s st' s' g, (forall m, objection st' s' m -> objection st s m) -> said st' s' g -> said st s g.
Proof. intros st s st' s' g H [->|(m & -> & O)]; [now left|]. right. exists m. auto. Qed.
Lemma said_plain : forall st s g, Some (plain ErrInvalidValue) = Some g -> said st s g.
Proof. intros st s g H. injection H as <-. now left. Qed.
Lemma raw_sound_t : forall f st s g, raw_loop_t f st s = Some g -> said st s g.
Proof.
  induction f as [|f IH]; intros st s g H; [now apply said_plain|]. cbn [raw_loop_t] in H.
  destruct s as [|c s1]; [destruct st; [discriminate|now apply said_plain]|].
  destruct (Ascii.eqb c "<") eqn:Qc; [|apply (said_step _ _ st s1); [intros m; apply ob_text; now apply Ascii.eqb_neq|now apply IH]].
  apply Ascii.eqb_eq in Qc; subst c. destruct s1 as [|n s2]; [now apply said_plain|].
  destruct (Ascii.eqb n "/") eqn:Qn.
  - apply Ascii.eqb_eq in Qn; subst n. pose proof (span_until_cut (bs "> ") s2) as P. destruct (span_until (bs "> ") s2) as [name s3]. cbv zeta in P. cbn [fst snd] in P. destruct P as (P1 & P2 & P3).
    destruct st as [|top st']; [now apply said_plain|]. destruct (bytes_eqb top name) eqn:Q; [|now apply said_plain]. apply bytes_eqb_eq in Q; subst top.
    pose proof (span_until_cut (bs ">") s3) as R. destruct (span_until (bs ">") s3) as [w s4]. cbv zeta in R. cbn [fst snd] in *. destruct R as (R1 & R2 & R3).
    assert (T : tag_rest (bs " ") w).
    { split; [|intros Hx; apply (R2 _ Hx); left; auto]. destruct P3 as [P3|(c & r & P3 & Hc)].
      - left. destruct w; auto. rewrite P3 in R1. discriminate.
      - destruct w as [|c' w]; [left; auto|]. right. exists c', w. split; auto. rewrite P3 in R1. cbn [app] in R1. inversion R1; subst. destruct Hc as [<-|Hc]; [|exact Hc]. exfalso. apply (R2 ">"%char); left; auto. }
    destruct R3 as [R3|(c & r & R3 & Hc)].
    + subst s4 s3 s2. cbn [next] in H. apply IH in H. destruct H as [->|(m & _ & O)]; [now left|]. destruct (objection_no _ _ O).
    + destruct Hc as [<-|[]]. subst s4 s3 s2. cbn [next] in H. apply (said_step _ _ st' r); [intros m; exact (ob_close st' name w r m T P2)|now apply IH].
  - destruct (Ascii.eqb n "!" || Ascii.eqb n "?") eqn:Qb.
    + assert (Hn : In n (bs "!?")) by (apply orb_true_iff in Qb; destruct Qb as [Q|Q]; apply Ascii.eqb_eq in Q; subst; cbn; auto).
      destruct (Ascii.eqb (peek s2) "-") eqn:Qp.
      * destruct (find_after (bs "-->") ("<"%char :: n :: s2)) as [[a r]|] eqn:FA; [|now apply said_plain]. apply find_after_some in FA.
        apply (said_step _ _ st r); [intros m; refine (ob_comment st _ a r m _ FA)|now apply IH].
        destruct s2 as [|h s2]; [discriminate|]. cbn [peek] in Qp. apply Ascii.eqb_eq in Qp; subst h. destruct Hn as [<-|[<-|[]]]; [left|right]; exists s2; reflexivity.
      * destruct (strip_prefix cdata_start ("<"%char :: n :: s2)) as [body|] eqn:SP.
        -- apply strip_prefix_spec in SP. rewrite SP. destruct (find_after cdata_end body) as [[content r]|] eqn:FA.
           2:{ apply find_after_none in FA. injection H as <-. right. eexists. split; [reflexivity|]. now apply ob_open_cdata. }
           apply find_after_some in FA.
           destruct (find_after cdata_start content) as [[x y]|] eqn:FC.
           { apply find_after_some in FC. injection H as <-. right. eexists. split; [reflexivity|]. refine (ob_nested st body content r FA _). exists x, y. apply FC. }
           apply find_after_none in FC. apply (said_step _ _ st r); [intros m; exact (ob_cdata st body content r m FA FC)|now apply IH].
        -- destruct (has_prefix (bs "<!DOCTYPE") ("<"%char :: n :: s2)) eqn:HP1.
           { apply has_prefix_spec in HP1. destruct HP1 as (y & Hy). rewrite Hy. injection H as <-. right. eexists. split; [reflexivity|]. apply ob_doctype. }
           destruct (has_prefix (bs "<!ENTITY") ("<"%char :: n :: s2)) eqn:HP2.
           { apply has_prefix_spec in HP2. destruct HP2 as (y & Hy). rewrite Hy. injection H as <-. right. eexists. split; [reflexivity|]. apply ob_entity. }
           destruct (find_after (bs ">") ("<"%char :: n :: s2)) as [[a r]|] eqn:FA; [|now apply said_plain]. apply find_after_some in FA. destruct FA as [F1 F2].
           destruct a as [|c1 a]; [discriminate|]. destruct a as [|c2 b]; [exfalso; cbn [app] in F1; inversion F1; subst; destruct Hn as [Hn|[Hn|[]]]; discriminate|].
           cbn [app] in F1. inversion F1; subst c1 c2 s2.
           assert (NB : ~ In ">"%char b).
           { intros Hx. apply in_split in Hx. destruct Hx as (x & y & ->). assert (Q := F2 ("<"%char :: n :: x) (y ++ bs ">" ++ r)). cbn [List.length] in Q. rewrite app_length in Q. cbn [List.length] in Q.
             enough (S (S (len x + S (len y))) <= S (S (len x))) by lia. apply Q. cbn [app]. rewrite <- app_assoc. reflexivity. }
           apply (said_step _ _ st r); [|now apply IH]. intros m. refine (ob_other st n b r m Hn NB _ _ _ _).
           ++ intros (y & Hy). subst b. cbn in Qp. discriminate.
           ++ intros (y & Hy). apply (proj1 (strip_prefix_none _ _) SP y). change (cdata_start ++ y) with ("<"%char :: (bs "![CDATA[" ++ y)). f_equal. exact Hy.
           ++ intros (y & Hy). apply not_true_iff_false in HP1. apply HP1. apply has_prefix_spec. exists y. change (bs "<!DOCTYPE" ++ y) with ("<"%char :: (bs "!DOCTYPE" ++ y)). f_equal. exact Hy.
           ++ intros (y & Hy). apply not_true_iff_false in HP2. apply HP2. apply has_prefix_spec. exists y. change (bs "<!ENTITY" ++ y) with ("<"%char :: (bs "!ENTITY" ++ y)). f_equal. exact Hy.
    + apply orb_false_iff in Qb. destruct Qb as [Qb1 Qb2]. apply Ascii.eqb_neq in Qn, Qb1, Qb2.
      pose proof (span_until_cut (bs "> /") (n :: s2)) as P. destruct (span_until (bs "> /") (n :: s2)) as [name s3]. cbv zeta in P. cbn [fst snd] in P. destruct P as (P1 & P2 & P3).
      destruct name as [|n' name]; [now apply said_plain|]. cbn [app] in P1. inversion P1; subst n' s2.
      assert (TN : tag_name (n :: name)). { split; [|exact P2]. exists n, name. split; auto. intros [Q|[Q|[Q|[]]]]; congruence. }
      assert (TR : forall a x, s3 = a ++ x -> ~ In ">"%char a -> tag_rest (bs " /") a).
      { intros a x Q Na. split; auto. destruct a as [|c a]; [left; auto|]. right. exists c, a. split; auto. destruct P3 as [P3|(c' & r & P3 & Hc)]; [rewrite P3 in Q; discriminate|].
        rewrite P3 in Q. cbn [app] in Q. inversion Q; subst. destruct Hc as [<-|Hc]; [|exact Hc]. exfalso. apply Na. left. auto. }
      destruct (rte_cases s3) as [(a & r & Q & Na & Ne & R)|[(a & r & Q & Na & R)|R]]; rewrite R in H; apply IH in H.
      * rewrite Q. apply (said_step _ _ ((n :: name) :: st) r); [intros m; exact (ob_open st (n :: name) a r m TN (TR _ _ Q Na) Ne)|exact H].
      * rewrite Q. apply (said_step _ _ st r); [intros m; exact (ob_self st (n :: name) a r m TN (TR _ _ Q Na))|exact H].
      * destruct H as [->|(m & _ & O)]; [now left|]. destruct (objection_no _ _ O).
Qed.

Lemma raw_complete_t : forall st s m, objection st s m -> forall f, len s < f -> raw_loop_t f st s = Some (detailed ErrInvalidValue m).
Proof.
  intros st s m H. induction H as [st s Hn|st s a r Hf Hn|st s|st s|st c s m Hc H IH|st s a r m Hs Hf H IH|st s a r m Hf Hn H IH|st c b r m Hc Nb H1 H2 H3 H4 H IH|st n a r m TN TR Ne H IH|st n a r m TN TR H IH|st n w r m TR Hn H IH];
    intros f Hl; destruct f as [|f]; try lia; cbn [raw_loop_t].
  - apply find_after_no in Hn. change (bs "<![CDATA[" ++ s) with ("<"%char :: "!"%char :: (bs "[CDATA[" ++ s)). change (Ascii.eqb "<" "<") with true. cbn iota.
    change (Ascii.eqb "!" "/") with false. cbn iota. change (Ascii.eqb "!" "!" || Ascii.eqb "!" "?") with true. cbn iota. change (Ascii.eqb (peek (bs "[CDATA[" ++ s)) "-") with false. cbn iota.
    change ("<"%char :: "!"%char :: (bs "[CDATA[" ++ s)) with (cdata_start ++ s). rewrite strip_prefix_app. change cdata_end with (bs "]]>"). rewrite Hn. reflexivity.
  - apply find_after_first in Hf. change (bs "<![CDATA[" ++ s) with ("<"%char :: "!"%char :: (bs "[CDATA[" ++ s)). change (Ascii.eqb "<" "<") with true. cbn iota.
    change (Ascii.eqb "!" "/") with false. cbn iota. change (Ascii.eqb "!" "!" || Ascii.eqb "!" "?") with true. cbn iota. change (Ascii.eqb (peek (bs "[CDATA[" ++ s)) "-") with false. cbn iota.
    change ("<"%char :: "!"%char :: (bs "[CDATA[" ++ s)) with (cdata_start ++ s). rewrite strip_prefix_app. change cdata_end with (bs "]]>"). rewrite Hf.
    change cdata_start with (bs "<![CDATA["). destruct (find_after (bs "<![CDATA[") a) as [p|] eqn:FA; [reflexivity|]. apply find_after_none in FA. easy.
  - reflexivity.
  - reflexivity.
  - apply Ascii.eqb_neq in Hc. rewrite Hc. apply IH. cbn [List.length] in Hl. lia.
  - assert (Hlr : len r < len s) by (apply (first_cut_len (bs "-->") s a r); [discriminate|exact Hf]). apply find_after_first in Hf.
    assert (IHr : raw_loop_t f st r = Some (detailed ErrInvalidValue m)) by (apply IH; lia).
    destruct Hs as [(y & ->)|(y & ->)].
    + change (bs "<!-" ++ y) with ("<"%char :: "!"%char :: "-"%char :: y) in *. change (Ascii.eqb "<" "<") with true. cbn iota. change (Ascii.eqb "!" "/") with false. cbn iota.
      change (Ascii.eqb "!" "!" || Ascii.eqb "!" "?") with true. cbn iota. cbn [peek]. change (Ascii.eqb "-" "-") with true. cbn iota. rewrite Hf. exact IHr.
    + change (bs "<?-" ++ y) with ("<"%char :: "?"%char :: "-"%char :: y) in *. change (Ascii.eqb "<" "<") with true. cbn iota. change (Ascii.eqb "?" "/") with false. cbn iota.
      change (Ascii.eqb "?" "!" || Ascii.eqb "?" "?") with true. cbn iota. cbn [peek]. change (Ascii.eqb "-" "-") with true. cbn iota. rewrite Hf. exact IHr.
  - assert (Hlr : len r < len s) by (apply (first_cut_len (bs "]]>") s a r); [discriminate|exact Hf]). apply find_after_first in Hf. apply find_after_no in Hn.
    assert (IHr : raw_loop_t f st r = Some (detailed ErrInvalidValue m)) by (apply IH; rewrite app_length in Hl; lia).
    change (bs "<![CDATA[" ++ s) with ("<"%char :: "!"%char :: (bs "[CDATA[" ++ s)) at 1. change (Ascii.eqb "<" "<") with true. cbn iota. change (bs "<![CDATA[" ++ s) with ("<"%char :: "!"%char :: (bs "[CDATA[" ++ s)).
    cbn iota. change (Ascii.eqb "!" "/") with false. cbn iota.
    change (Ascii.eqb "!" "!" || Ascii.eqb "!" "?") with true. cbn iota. change (Ascii.eqb (peek (bs "[CDATA[" ++ s)) "-") with false. cbn iota.
    change ("<"%char :: "!"%char :: (bs "[CDATA[" ++ s)) with (cdata_start ++ s). rewrite strip_prefix_app. change cdata_end with (bs "]]>"). rewrite Hf. change cdata_start with (bs "<![CDATA["). rewrite Hn. exact IHr.
  - assert (IHr : raw_loop_t f st r = Some (detailed ErrInvalidValue m)). { apply IH. rewrite !app_length in Hl. cbn [List.length] in Hl. lia. }
    change (bs "<" ++ [c] ++ b ++ bs ">" ++ r) with ("<"%char :: c :: (b ++ bs ">" ++ r)). change (Ascii.eqb "<" "<") with true. cbn iota.
    assert (Q1 : Ascii.eqb c "/" = false) by (destruct Hc as [<-|[<-|[]]]; reflexivity). rewrite Q1.
    assert (Q2 : Ascii.eqb c "!" || Ascii.eqb c "?" = true) by (destruct Hc as [<-|[<-|[]]]; reflexivity). rewrite Q2.
    assert (Q3 : Ascii.eqb (peek (b ++ bs ">" ++ r)) "-" = false).
    { destruct b as [|h b]; [reflexivity|]. cbn [app peek]. apply Ascii.eqb_neq. intros ->. apply H1. exists b. reflexivity. }
    rewrite Q3.
    assert (Q4 : strip_prefix cdata_start ("<"%char :: c :: (b ++ bs ">" ++ r)) = None).
    { apply strip_prefix_none. intros y Hy. apply H2. exists y. change (cdata_start ++ y) with ("<"%char :: (bs "![CDATA[" ++ y)) in Hy. congruence. }
    rewrite Q4.
    assert (Q5 : has_prefix (bs "<!DOCTYPE") ("<"%char :: c :: (b ++ bs ">" ++ r)) = false).
    { apply not_true_iff_false. rewrite has_prefix_spec. intros (y & Hy). apply H3. exists y. change (bs "<!DOCTYPE" ++ y) with ("<"%char :: (bs "!DOCTYPE" ++ y)) in Hy. congruence. }
    assert (Q6 : has_prefix (bs "<!ENTITY") ("<"%char :: c :: (b ++ bs ">" ++ r)) = false).
    { apply not_true_iff_false. rewrite has_prefix_spec. intros (y & Hy). apply H4. exists y. change (bs "<!ENTITY" ++ y) with ("<"%char :: (bs "!ENTITY" ++ y)) in Hy. congruence. }
    rewrite Q5, Q6.
    rewrite (find_after_first (bs ">") _ ("<"%char :: c :: b) r); [exact IHr|]. split; [reflexivity|].
    intros a' r' Q. destruct (le_lt_dec (len ("<"%char :: c :: b)) (len a')) as [L|L]; auto. exfalso.
    assert (X : nth_error ("<"%char :: c :: b) (len a') = Some ">"%char).
    { rewrite <- (nth_error_app1 _ (bs ">" ++ r)) by exact L. change (("<"%char :: c :: b) ++ bs ">" ++ r) with ("<"%char :: c :: b ++ bs ">" ++ r). rewrite Q, nth_error_app2, Nat.sub_diag by lia. reflexivity. }
    apply nth_error_In in X. destruct X as [X|[X|X]]; [discriminate| |auto]. subst c. destruct Hc as [Hc|[Hc|[]]]; discriminate.
  - destruct TN as [(c & n' & -> & Hc) TN]. destruct TR as [TR Na].
    assert (IHr : raw_loop_t f ((c :: n') :: st) r = Some (detailed ErrInvalidValue m)). { apply IH. rewrite !app_length in Hl. cbn [List.length] in Hl. lia. }
    assert (SU : span_until (bs "> /") ((c :: n') ++ (a ++ bs ">" ++ r)) = (c :: n', a ++ bs ">" ++ r)).
    { apply span_until_app; auto. right. destruct TR as [->|(x & y & -> & Hx)]; [exists ">"%char, r|exists x, (y ++ bs ">" ++ r)]; split; cbn; auto. }
    change (bs "<" ++ (c :: n') ++ a ++ bs ">" ++ r) with ("<"%char :: c :: (n' ++ a ++ bs ">" ++ r)). change (Ascii.eqb "<" "<") with true. cbn iota.
    assert (Q1 : Ascii.eqb c "/" = false) by (apply Ascii.eqb_neq; intros ->; apply Hc; cbn; auto). rewrite Q1.
    assert (Q2 : Ascii.eqb c "!" = false) by (apply Ascii.eqb_neq; intros ->; apply Hc; cbn; auto). rewrite Q2.
    assert (Q3 : Ascii.eqb c "?" = false) by (apply Ascii.eqb_neq; intros ->; apply Hc; cbn; auto). rewrite Q3. cbn [orb].
    change (c :: (n' ++ a ++ bs ">" ++ r)) with ((c :: n') ++ (a ++ bs ">" ++ r)). rewrite SU. rewrite (rte_open a r Na Ne). exact IHr.
  - destruct TN as [(c & n' & -> & Hc) TN]. destruct TR as [TR Na].
    assert (IHr : raw_loop_t f st r = Some (detailed ErrInvalidValue m)). { apply IH. rewrite !app_length in Hl. cbn [List.length] in Hl. lia. }
    assert (SU : span_until (bs "> /") ((c :: n') ++ (a ++ bs "/>" ++ r)) = (c :: n', a ++ bs "/>" ++ r)).
    { apply span_until_app; auto. right. destruct TR as [->|(x & y & -> & Hx)]; [exists "/"%char, (">"%char :: r)|exists x, (y ++ bs "/>" ++ r)]; split; cbn; auto. }
    change (bs "<" ++ (c :: n') ++ a ++ bs "/>" ++ r) with ("<"%char :: c :: (n' ++ a ++ bs "/>" ++ r)). change (Ascii.eqb "<" "<") with true. cbn iota.
    assert (Q1 : Ascii.eqb c "/" = false) by (apply Ascii.eqb_neq; intros ->; apply Hc; cbn; auto). rewrite Q1.
    assert (Q2 : Ascii.eqb c "!" = false) by (apply Ascii.eqb_neq; intros ->; apply Hc; cbn; auto). rewrite Q2.
    assert (Q3 : Ascii.eqb c "?" = false) by (apply Ascii.eqb_neq; intros ->; apply Hc; cbn; auto). rewrite Q3. cbn [orb].
    change (c :: (n' ++ a ++ bs "/>" ++ r)) with ((c :: n') ++ (a ++ bs "/>" ++ r)). rewrite SU. rewrite (rte_self a r Na). exact IHr.
  - destruct TR as [TR Na]. assert (IHr : raw_loop_t f st r = Some (detailed ErrInvalidValue m)). { apply IH. rewrite !app_length in Hl. change (len (bs "</")) with 2 in Hl. lia. }
    change (bs "</" ++ n ++ w ++ bs ">" ++ r) with ("<"%char :: "/"%char :: (n ++ w ++ bs ">" ++ r)). change (Ascii.eqb "<" "<") with true. cbn iota. change (Ascii.eqb "/" "/") with true. cbn iota.
    rewrite span_until_app; [|exact Hn|right; destruct TR as [->|(x & y & -> & Hx)]; [exists ">"%char, r|exists x, (y ++ bs ">" ++ r)]; split; auto; [left; auto|right; auto]].
    rewrite bytes_eqb_refl. rewrite span_until_app; [exact IHr| |right; exists ">"%char, r; split; auto; left; auto]. intros c Hc [Hx|[]]. subst c. auto.
Qed.
Lemma validate_raw_says : forall s m, (exists g, validate_raw_t s = Some g /\ f_text g = m) <-> raw_says s m.
Proof.
  intros s m. pose proof (raw_agree (S (len s)) [] s) as A. fold (validate_raw_t s) (validate_raw s) in A.
  assert (C : forall k, objection [] s k -> validate_raw_t s = Some (detailed ErrInvalidValue k)) by (intros k O; apply raw_complete_t; auto). split.
  - intros (g & H & <-). pose proof (raw_sound_t _ _ _ _ H) as S. destruct S as [->|(k & -> & O)]; [|exact (raw_objects s k O)].
    cbn [plain f_text sentinel]. apply raw_unbalanced.
    + intros F. apply validate_raw_spec in F. rewrite H, F in A. discriminate.
    + intros k O. apply C in O. rewrite H in O. discriminate.
  - intros [k O|N O].
    + exists (detailed ErrInvalidValue k). split; auto.
    + destruct (validate_raw_t s) as [g|] eqn:V.
      * exists g. split; auto. destruct (raw_sound_t _ _ _ _ V) as [->|(k & -> & O')]; [reflexivity|destruct (O k O')].
      * exfalso. apply N. apply validate_raw_spec. congruence.
Qed.
Lemma validate_raw_none : forall s, validate_raw_t s = None <-> fragment [] s.
Proof.
  intros s. rewrite <- validate_raw_spec. pose proof (raw_agree (S (len s)) [] s) as A. fold (validate_raw_t s) (validate_raw s) in A.
  destruct (validate_raw_t s); split; congruence.
Qed.
