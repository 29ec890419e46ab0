(** The scanner recognises exactly what SpecScan describes: tags, places that are not
    elements, content. *)
From Coq Require Import List Ascii String NArith ZArith Bool Lia Permutation.
From Verif Require Import GoStr ModelParser SpecText SpecPath SpecTree SpecScan
  ProofBase ProofEscape ProofScan ProofTree ProofTree2 ProofFault ProofSight.
Import ListNotations.

(** ** Tags *)
Lemma maybe_of : forall c s, maybe c s (Ascii.eqb (peek s) c && negb (match s with [] => true | _ => false end))
  (if Ascii.eqb (peek s) c && negb (match s with [] => true | _ => false end) then next s else s).
Proof.
  intros c [|d s]; cbn [peek next]; rewrite ?andb_false_r, ?andb_true_r; [apply maybe_no; apply begins_nil|].
  destruct (Ascii.eqb_spec d c) as [->|N]; [apply maybe_yes|]. apply maybe_no. rewrite begins_head. auto.
Qed.
Lemma peek_is : forall c s, c <> nul -> Ascii.eqb (peek s) c = Ascii.eqb (peek s) c && negb (match s with [] => true | _ => false end).
Proof.
  intros c [|d s] N; cbn [peek]; rewrite ?andb_true_r; auto. rewrite andb_false_r. destruct (Ascii.eqb_spec nul c); congruence.
Qed.
Lemma maybe_det : forall c s b r, c <> nul -> maybe c s b r -> b = Ascii.eqb (peek s) c /\ r = if Ascii.eqb (peek s) c then next s else s.
Proof.
  intros c s b r N [r0|r0 H]; cbn [peek next]; [now rewrite Ascii.eqb_refl|]. destruct r0 as [|d r0]; cbn [peek].
  - destruct (Ascii.eqb_spec nul c); [congruence|auto].
  - rewrite begins_head in H. destruct (Ascii.eqb_spec d c); [contradiction|auto].
Qed.
Lemma attributes_all : forall s a r, parse_attributes s = (a, r) -> exists l, attributes 100 s l r /\ a = sets l [].
Proof.
  intros s a r. unfold parse_attributes. assert (K : MaxAttributes = 100%nat) by reflexivity. rewrite K. clear K.
  generalize 100%nat. intros k H. exact (attributes_of k s [] a r H).
Qed.
Lemma all_attributes : forall s l r, attributes 100 s l r -> parse_attributes s = (sets l [], r).
Proof.
  intros s l r. unfold parse_attributes. assert (K : MaxAttributes = 100%nat) by reflexivity. rewrite K. clear K.
  generalize 100%nat. intros k H. exact (read_attributes k s l r H []).
Qed.
Lemma tag_of : forall s n s1 a s2 m, read_until_any name_delims s = (n, s1) -> parse_attributes s1 = (a, s2) -> Permutation a m ->
  let self := Ascii.eqb (peek s2) "/" in let s3 := if self then next s2 else s2 in
  let gt := Ascii.eqb (peek s3) ">" in tag s n m self gt (if gt then next s3 else s3).
Proof.
  intros s n s1 a s2 m R A P self s3 gt. apply (cut_of _ _ _ _ _ name_delims_is) in R. apply attributes_all in A. destruct A as [l [B ->]].
  apply (tag_is s n s1 l s2 m self s3 gt); auto.
  - now apply settled_sets.
  - pose proof (maybe_of "/" s2) as M. rewrite <- peek_is in M by discriminate. exact M.
  - pose proof (maybe_of ">" s3) as M. rewrite <- peek_is in M by discriminate. exact M.
Qed.
Lemma tag_read : forall s n m self gt r, tag s n m self gt r -> exists s1 a s2,
  read_until_any name_delims s = (n, s1) /\ parse_attributes s1 = (a, s2) /\ Permutation a m /\
  self = Ascii.eqb (peek s2) "/" /\ gt = Ascii.eqb (peek (if self then next s2 else s2)) ">" /\
  r = if gt then next (if self then next s2 else s2) else if self then next s2 else s2.
Proof.
  intros s n m self gt r [s0 n0 s1 l s2 m0 self0 s3 gt0 r0 C A S M1 M2]. exists s1, (sets l []), s2.
  apply (maybe_det "/") in M1; [|discriminate]. apply (maybe_det ">") in M2; [|discriminate]. destruct M1 as [-> M1]. rewrite <- M1. destruct M2 as [-> ->].
  split; [exact (cut_read _ _ _ _ _ name_delims_is C)|]. split; [now apply all_attributes|]. repeat split; auto.
  destruct S as [N S]. destruct (settled_sets l (sets l []) (Permutation_refl _)) as [N2 S2].
  apply NoDup_Permutation; [now apply NoDup_map_inv in N2|now apply NoDup_map_inv in N|]. intros [x v]. rewrite S, S2. reflexivity.
Qed.

(** ** Document type declarations and comments *)
Lemma level_cons : forall c s, level (c :: s) = (level s + (if Ascii.eqb c "[" then 1 else 0) - (if Ascii.eqb c "]" then 1 else 0))%Z.
Proof.
  intros c s. unfold level, count. cbn [count_occ]. destruct (ascii_dec c "[") as [->|N1]; destruct (ascii_dec _ "]") as [E|N2]; try discriminate.
  - change (Ascii.eqb "[" "[") with true. change (Ascii.eqb "[" "]") with false. cbn iota. lia.
  - subst c. change (Ascii.eqb "]" "[") with false. change (Ascii.eqb "]" "]") with true. cbn iota. lia.
  - destruct (Ascii.eqb_spec c "["); [contradiction|]. destruct (Ascii.eqb_spec c "]"); [contradiction|]. lia.
Qed.
Definition open_at (d : Z) (s : bytes) : Prop := forall a b, s = a ++ ">"%char :: b -> (d + level a)%Z <> 0%Z.
Lemma open_cons : forall d c s, open_at (d + (if Ascii.eqb c "[" then 1 else 0) - (if Ascii.eqb c "]" then 1 else 0)) s ->
  (c = ">"%char -> d <> 0%Z) -> open_at d (c :: s).
Proof.
  intros d c s H K a b E. destruct a as [|x a]; injection E as -> ->.
  - change (level []) with 0%Z. rewrite Z.add_0_r. auto.
  - rewrite level_cons. specialize (H a b eq_refl). lia.
Qed.
Lemma doctype_cases : forall s d,
  (exists u, s = u ++ ">"%char :: skip_doctype d s /\ (d + level u = 0)%Z /\ open_at d u) \/ (skip_doctype d s = [] /\ open_at d s).
Proof.
  induction s as [|c s IH]; intros d; cbn [skip_doctype].
  { right. split; auto. intros a b H. now destruct a. }
  assert (NEXT : forall d', d' = (d + (if Ascii.eqb c "[" then 1 else 0) - (if Ascii.eqb c "]" then 1 else 0))%Z -> (c = ">"%char -> d <> 0%Z) ->
    (exists u, c :: s = u ++ ">"%char :: skip_doctype d' s /\ (d + level u = 0)%Z /\ open_at d u) \/ (skip_doctype d' s = [] /\ open_at d (c :: s))).
  { intros d' -> Hc. destruct (IH (d + (if Ascii.eqb c "[" then 1 else 0) - (if Ascii.eqb c "]" then 1 else 0))%Z) as [[u [E [L O]]]|[E O]].
    - left. exists (c :: u). split; [cbn [app]; now rewrite <- E|]. split; [rewrite level_cons; lia|]. now apply open_cons.
    - right. split; auto. now apply open_cons. }
  destruct (Ascii.eqb c "[") eqn:B1.
  { apply NEXT; [|intros ->; discriminate]. apply Ascii.eqb_eq in B1. subst c. change (Ascii.eqb "[" "]") with false. cbn iota. lia. }
  destruct (Ascii.eqb c "]") eqn:B2.
  { apply NEXT; [lia|intros ->; discriminate]. }
  destruct (Ascii.eqb c ">") eqn:B3; cbn [andb].
  - apply Ascii.eqb_eq in B3. subst c. destruct (Z.eqb_spec d 0) as [->|N].
    + left. exists []. split; auto. split; auto. intros a b H. now destruct a.
    + apply NEXT; auto. lia.
  - apply NEXT; [lia|]. intros ->. discriminate.
Qed.
Lemma doctype_of : forall s, doctype_rest s (skip_doctype 0 s).
Proof.
  intros s. destruct (doctype_cases s 0) as [[u [E [L O]]]|[E O]].
  - rewrite E at 1. apply doctype_closed; auto.
  - rewrite E. now apply doctype_open.
Qed.
Lemma prefix_split : forall (u v : bytes) c a b, u ++ c :: a = v ++ c :: b -> u = v \/ (exists w, u = v ++ c :: w) \/ (exists w, v = u ++ c :: w).
Proof.
  induction u as [|x u IH]; intros v c a b H; destruct v as [|y v]; auto; cbn [app] in H; injection H as -> H.
  - right. right. now exists v.
  - right. left. now exists u.
  - destruct (IH _ _ _ _ H) as [->|[[w ->]|[w ->]]]; auto; right; [left|right]; now exists w.
Qed.
Lemma doctype_read : forall s r, doctype_rest s r -> skip_doctype 0 s = r.
Proof.
  intros s r H. pose proof (doctype_of s) as K. revert H K. generalize (skip_doctype 0 s). intros r' H K.
  destruct H as [u r L O|s O].
  - inversion K as [u' r2 L' O' E|s' O']; subst.
    + destruct (prefix_split _ _ _ _ _ E) as [->|[[w ->]|[w ->]]].
      * apply app_inv_head in E. now injection E.
      * exfalso. exact (O' u w eq_refl L).
      * exfalso. exact (O u' w eq_refl L').
    + exfalso. exact (O' u r eq_refl L).
  - inversion K as [u' r2 L' O' E|s' O']; subst; auto. exfalso. exact (O u' r' eq_refl L').
Qed.
Lemma comment_cases : forall s, (2 <= len s)%nat ->
  (exists u, s = u ++ bs "-->" ++ skip_comment_body s /\ (forall a b, u ++ bs "--" <> a ++ bs "-->" ++ b)) \/
  (exists u x y, s = u ++ [x; y] /\ skip_comment_body s = [x; y] /\ forall a b, s <> a ++ bs "-->" ++ b).
Proof.
  induction s as [|x s IH]; intros L; [cbn in L; lia|]. destruct s as [|y s]; [cbn in L; lia|]. destruct s as [|z s].
  { right. exists [], x, y. repeat split. intros a b H. apply (f_equal (@len ascii)) in H. rewrite !app_length in H. cbn in H. lia. }
  replace (skip_comment_body (x :: y :: z :: s)) with (if Ascii.eqb x "-" && Ascii.eqb y "-" && Ascii.eqb z ">" then s else skip_comment_body (y :: z :: s)) by reflexivity.
  destruct (Ascii.eqb x "-" && Ascii.eqb y "-" && Ascii.eqb z ">") eqn:A.
  - apply andb_true_iff in A. destruct A as [A C]. apply andb_true_iff in A. destruct A as [A B]. apply Ascii.eqb_eq in A, B, C. subst x y z.
    left. exists []. split; auto. intros a b H. apply (f_equal (@len ascii)) in H. rewrite !app_length in H. cbn in H. lia.
  - assert (NX : forall b, x :: y :: z :: s <> bs "-->" ++ b).
    { intros b H. change (bs "-->" ++ b) with ("-"%char :: "-"%char :: ">"%char :: b) in H. injection H as -> -> -> ->. discriminate. }
    destruct IH as [[u [E O]]|[u [x' [y' [E [F O]]]]]]; [cbn [List.length]; lia| |].
    + left. exists (x :: u). split; [cbn [app]; now rewrite <- E|]. intros a b H. destruct a as [|c a].
      * cbn [app] in H. assert (exists b', u ++ bs "-->" ++ skip_comment_body (y :: z :: s) = bs "->" ++ b') as [b' K].
        { injection H as -> H. destruct u as [|u0 u]; [discriminate|]. cbn [app] in H. injection H as -> H. cbn [app]. destruct u as [|u1 u]; [discriminate|]. cbn [app] in *.
          injection H as -> H. eexists. reflexivity. }
        injection H as -> _. rewrite <- E in K. apply (NX b'). change (bs "-->" ++ b') with ("-"%char :: bs "->" ++ b'). now rewrite K.
      * cbn [app] in H. injection H as -> H. exact (O a b H).
    + right. exists (x :: u), x', y'. split; [cbn [app]; now rewrite <- E|]. split; auto. intros a b H. destruct a as [|c a]; [exact (NX b H)|].
      cbn [app] in H. injection H as -> H. exact (O a b H).
Qed.
Lemma comment_of : forall s, (2 <= len s)%nat -> comment_rest s (skip_comment_body s).
Proof.
  intros s L. destruct (comment_cases s L) as [[u [E O]]|[u [x [y [E [F O]]]]]].
  - rewrite E at 1. now apply comment_closed.
  - rewrite F. rewrite E. apply comment_open. intros a b H. rewrite <- E in H. exact (O a b H).
Qed.
Lemma arrow_split : forall (u v : bytes) a b, u ++ bs "-->" ++ a = v ++ bs "-->" ++ b ->
  (forall x y, u ++ bs "--" <> x ++ bs "-->" ++ y) -> (forall x y, v ++ bs "--" <> x ++ bs "-->" ++ y) -> u = v.
Proof.
  assert (W : forall (u v : bytes) a b, u ++ bs "-->" ++ a = v ++ bs "-->" ++ b -> (forall x y, u ++ bs "--" <> x ++ bs "-->" ++ y) -> (len u <= len v)%nat).
  { intros u v a b H O. destruct (Nat.le_gt_cases (len u) (len v)) as [L|L]; auto. exfalso.
    assert (exists w, u = v ++ w) as [w ->].
    { exists (skipn (len v) u). rewrite <- (firstn_skipn (len v) u) at 1. f_equal.
      apply (f_equal (firstn (len v))) in H. rewrite !firstn_app, firstn_all, Nat.sub_diag in H. replace (len v - len u)%nat with 0%nat in H by lia.
      rewrite !firstn_O, !app_nil_r in H. exact H. }
    rewrite app_length in L. rewrite <- app_assoc in H. apply app_inv_head in H. rewrite app_assoc in H.
    assert (exists t, w ++ bs "--" = bs "-->" ++ t) as [t K].
    { destruct w as [|w0 w]; [cbn in L; lia|]. rewrite <- app_assoc in H. cbn [app] in H. change (bs "-->" ++ b) with ("-"%char :: "-"%char :: ">"%char :: b) in H. injection H as -> H.
      destruct w as [|w1 w]; [discriminate|]. cbn [app] in H. injection H as -> H. destruct w as [|w2 w]; [discriminate|]. cbn [app] in H. injection H as -> H.
      exists (w ++ bs "--"). reflexivity. }
    apply (O v t). rewrite <- app_assoc, K. reflexivity. }
  intros u v a b H O1 O2. pose proof (W _ _ _ _ H O1) as L1. pose proof (W _ _ _ _ (eq_sym H) O2) as L2.
  apply (f_equal (firstn (len u))) in H. rewrite !firstn_app, firstn_all in H. replace (len u - len v)%nat with 0%nat in H by lia.
  replace (len u - len u)%nat with 0%nat in H by lia. rewrite !firstn_O, !app_nil_r in H. rewrite H. apply firstn_all2. lia.
Qed.
Lemma comment_read : forall s r, comment_rest s r -> skip_comment_body s = r.
Proof.
  intros s r H. assert (L : (2 <= len s)%nat) by (destruct H; rewrite !app_length; cbn; lia).
  pose proof (comment_cases s L) as K. destruct H as [u r O|u x y O].
  - destruct K as [[v [E O']]|[v [x [y [E [F O']]]]]]; [|exfalso; exact (O' u r eq_refl)].
    pose proof (arrow_split _ _ _ _ E O O') as U. rewrite <- U in E. do 2 apply app_inv_head in E. now symmetry.
  - destruct K as [[v [E O']]|[v [x' [y' [E [F O']]]]]]; [exfalso; exact (O _ _ E)|]. rewrite F. change [x; y] with ([x] ++ [y]) in E. change [x'; y'] with ([x'] ++ [y']) in E.
    rewrite !app_assoc in E. apply app_inj_tail in E. destruct E as [E ->]. apply app_inj_tail in E. now destruct E as [_ ->].
Qed.

(** ** The next start tag *)
Lemma lower_is : forall c, to_lower_char c = lower_case c.
Proof. reflexivity. Qed.
Lemma doctype_is : forall s, (8 <? blen s)%N && eq_fold_prefix (bs "<!DOCTYPE") s = true <-> exists d u, doctype d /\ s = d ++ u.
Proof.
  intros s. unfold eq_fold_prefix, doctype, blen. change (List.length (bs "<!DOCTYPE")) with 9%nat. change (map to_lower_char (bs "<!DOCTYPE")) with (bs "<!doctype").
  rewrite andb_true_iff, N.ltb_lt. split.
  - intros [L H]. exists (firstn 9 s), (skipn 9 s). split; [|symmetry; apply firstn_skipn].
    unfold has_prefix in H. destruct (strip_prefix _ _) as [r|] eqn:P; [|discriminate]. apply strip_prefix_spec in P.
    change (map lower_case (firstn 9 s)) with (map to_lower_char (firstn 9 s)). pose proof (f_equal (@len ascii) P) as Q. rewrite map_length, firstn_length, app_length in Q. cbn [List.length bs list_ascii_of_string] in Q.
    destruct r; [now rewrite app_nil_r in P|cbn [List.length] in Q; lia].
  - intros (d & u & D & ->). assert (Ld : len d = 9%nat) by (rewrite <- (map_length lower_case), D; reflexivity). split; [rewrite app_length; lia|].
    rewrite <- Ld, firstn_app, firstn_all, Nat.sub_diag. cbn [firstn]. rewrite app_nil_r. change (map to_lower_char d) with (map lower_case d). rewrite D. reflexivity.
Qed.
Lemma doctype_skip : forall d u, doctype d -> skipn 9 (d ++ u) = u.
Proof. intros d u D. assert (Ld : len d = 9%nat) by (rewrite <- (map_length lower_case), D; reflexivity). rewrite <- Ld, skipn_app, skipn_all, Nat.sub_diag. reflexivity. Qed.
Lemma bang_is : forall n, negb (Ascii.eqb n "!") && negb (Ascii.eqb n "?") && negb (Ascii.eqb n "/") = true <-> ~ In n (bs "!?/").
Proof.
  intros n. rewrite !andb_true_iff, !negb_true_iff, !Ascii.eqb_neq. cbn. split; [intros [[A B] C] [<-|[<-|[<-|[]]]]; congruence|].
  intros H. repeat split; intros ->; auto 6.
Qed.
Lemma leads_of : forall f s o, skip_next_loop f s = Some o -> leads s o.
Proof.
  induction f as [|f IH]; intros s o H; [discriminate|]. cbn [skip_next_loop] in H. destruct s as [|c s1]; [injection H as <-; constructor|].
  destruct (Ascii.eqb c "<") eqn:C; [|apply leads_on; auto; intros ->; discriminate]. apply Ascii.eqb_eq in C. subst c.
  destruct s1 as [|n s2]; [injection H as <-; apply leads_alone|].
  destruct (negb (Ascii.eqb n "!") && negb (Ascii.eqb n "?") && negb (Ascii.eqb n "/")) eqn:B.
  { injection H as <-. apply leads_tag. now apply bang_is. }
  destruct (Ascii.eqb n "!") eqn:N1.
  - apply Ascii.eqb_eq in N1. subst n. destruct ((8 <? blen ("<"%char :: "!"%char :: s2))%N && eq_fold_prefix (bs "<!DOCTYPE") ("<"%char :: "!"%char :: s2)) eqn:D.
    + apply doctype_is in D. destruct D as (d & u & D & E). rewrite E in *. rewrite (doctype_skip d u D) in H.
      eapply leads_doctype; eauto. apply doctype_of.
    + assert (ND : forall d u, doctype d -> bs "<!" ++ s2 <> d ++ u).
      { intros d u D1 E. assert (K : exists d u, doctype d /\ bs "<!" ++ s2 = d ++ u) by eauto. apply doctype_is in K. change (bs "<!" ++ s2) with ("<"%char :: "!"%char :: s2) in K. congruence. }
      destruct s2 as [|x [|y s2]].
      * change ("<"%char :: "!"%char :: []) with (bs "<!" ++ []). apply leads_bang; auto. intros u E. discriminate.
      * change ("<"%char :: "!"%char :: [x]) with (bs "<!" ++ [x]). apply leads_bang; auto. intros u E. discriminate.
      * destruct (Ascii.eqb x "-" && Ascii.eqb y "-") eqn:X.
        -- apply andb_true_iff in X. destruct X as [X Y]. apply Ascii.eqb_eq in X, Y. subst x y. change ("<"%char :: "!"%char :: "-"%char :: "-"%char :: s2) with (bs "<!--" ++ s2).
           eapply leads_comment; eauto. apply comment_of. cbn [app bs list_ascii_of_string List.length]. lia.
        -- change ("<"%char :: "!"%char :: x :: y :: s2) with (bs "<!" ++ x :: y :: s2). apply leads_bang; auto. intros u E. injection E as -> -> _. discriminate.
  - destruct (read_until ">" ("<"%char :: n :: s2)) as [t s3] eqn:R. apply (cut_of (fun c => c = ">"%char) _ _ _ _ (eqb_is ">")) in R. rewrite next_rest in H.
    eapply leads_past; eauto. cbn [negb andb] in B. destruct (Ascii.eqb_spec n "?") as [->|N2]; [cbn; auto|]. destruct (Ascii.eqb_spec n "/") as [->|N3]; [cbn; auto|]. discriminate.
Qed.
Lemma lower_plain : forall c d, lower_case c = d -> ~ ((97 <= N_of_ascii d <= 122)%N) -> c = d.
Proof.
  intros c d H N. unfold lower_case in H. destruct ((65 <=? N_of_ascii c)%N && (N_of_ascii c <=? 90)%N) eqn:B; auto. exfalso. apply N. rewrite <- H.
  apply andb_true_iff in B. destruct B as [B1 B2]. apply N.leb_le in B1, B2. rewrite N_ascii_embedding by lia. lia.
Qed.
Lemma leads_read : forall s o, leads s o -> exists f, skip_next_loop f s = Some o.
Proof.
  induction 1 as [|c s o N H [f IH]| |c s N|d s r o D R H [f IH]|s r o R H [f IH]|s o ND NC H [f IH]|c s t r o I C H [f IH]].
  - exists 1%nat. reflexivity.
  - exists (S f). cbn [skip_next_loop]. destruct (Ascii.eqb_spec c "<"); [contradiction|]. exact IH.
  - exists 1%nat. reflexivity.
  - exists 1%nat. cbn [skip_next_loop]. change (Ascii.eqb "<" "<") with true. cbn iota. apply bang_is in N. now rewrite N.
  - exists (S f). assert (E : exists u, d ++ s = "<"%char :: "!"%char :: u).
    { unfold doctype in D. destruct d as [|a [|b d]]; try discriminate. cbn [map] in D. change (bs "<!doctype") with ("<"%char :: "!"%char :: bs "doctype") in D. assert (D1 : lower_case a = "<"%char) by congruence. assert (D2 : lower_case b = "!"%char) by congruence.
      apply lower_plain in D1; [|vm_compute; intros [K _]; now apply K]. apply lower_plain in D2; [|vm_compute; intros [K _]; now apply K]. subst a b. eexists. reflexivity. }
    assert (K : exists d' u, doctype d' /\ d ++ s = d' ++ u) by eauto. apply doctype_is in K. destruct E as [u E]. rewrite E in K. 
    cbn [skip_next_loop]. rewrite E. change (Ascii.eqb "<" "<") with true. change (Ascii.eqb "!" "!") with true. cbn [negb andb]. cbn iota. rewrite K. rewrite <- E, (doctype_skip d s D), (doctype_read _ _ R). exact IH.
  - exists (S f). change (bs "<!--" ++ s) with ("<"%char :: "!"%char :: "-"%char :: "-"%char :: s). cbn [skip_next_loop]. change (Ascii.eqb "<" "<") with true. change (Ascii.eqb "!" "!") with true. cbn [negb andb]. cbn iota.
    destruct ((8 <? blen ("<"%char :: "!"%char :: "-"%char :: "-"%char :: s))%N && eq_fold_prefix (bs "<!DOCTYPE") ("<"%char :: "!"%char :: "-"%char :: "-"%char :: s)) eqn:Q.
    { apply andb_true_iff in Q. destruct Q as [_ Q]. exfalso. revert Q. vm_compute. discriminate. }
    change (Ascii.eqb "-" "-") with true. cbn [andb]. cbn iota. change ("-"%char :: "-"%char :: s) with (bs "--" ++ s). now rewrite (comment_read _ _ R).
  - exists (S f). change (bs "<!" ++ s) with ("<"%char :: "!"%char :: s) in *. cbn [skip_next_loop]. change (Ascii.eqb "<" "<") with true. change (Ascii.eqb "!" "!") with true. cbn [negb andb]. cbn iota.
    destruct ((8 <? blen ("<"%char :: "!"%char :: s))%N && eq_fold_prefix (bs "<!DOCTYPE") ("<"%char :: "!"%char :: s)) eqn:Q.
    { apply doctype_is in Q. destruct Q as (d & u & D & E). exfalso. exact (ND d u D E). }
    destruct s as [|x [|y s]]; auto. destruct (Ascii.eqb x "-" && Ascii.eqb y "-") eqn:X; auto.
    apply andb_true_iff in X. destruct X as [X Y]. apply Ascii.eqb_eq in X, Y. subst x y. exfalso. exact (NC s eq_refl).
  - exists (S f). cbn [skip_next_loop]. change (Ascii.eqb "<" "<") with true. cbn iota.
    assert (K : negb (Ascii.eqb c "!") && negb (Ascii.eqb c "?") && negb (Ascii.eqb c "/") = false /\ Ascii.eqb c "!" = false) by (destruct I as [<-|[<-|[]]]; auto).
    destruct K as [K1 K2]. rewrite K1, K2. unfold read_until. rewrite (cut_read (fun c => c = ">"%char) _ _ _ _ (eqb_is ">") C), next_rest. exact IH.
Qed.
