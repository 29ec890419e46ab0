(** The validator accepts exactly the documents of SpecValid. *)
From Coq Require Import List Ascii String NArith ZArith Bool Lia.
From Verif Require Import GoStr ModelParser ModelValidate SpecText SpecPath SpecTree SpecValid
  ProofBase ProofScan ProofTree.
Import ListNotations.

(** ** White space and tokens *)
Lemma ws_blank : forall c, is_ws c = true <-> blank c.
Proof.
  intros c. unfold is_ws, blank. rewrite !orb_true_iff, !Ascii.eqb_eq. cbn [In]. intuition.
Qed.
Lemma skip_ws_split : forall s, exists w, s = w ++ skip_ws s /\ blanks w.
Proof.
  induction s as [|c s [w [IH1 IH2]]]; [exists []; split; [reflexivity|constructor]|]. cbn [skip_ws]. destruct (is_ws c) eqn:Q.
  - exists (c :: w). split; [cbn [app]; congruence|]. constructor; auto. now apply ws_blank.
  - exists []. split; [reflexivity|constructor].
Qed.
Lemma skip_ws_app : forall w s, blanks w -> skip_ws (w ++ s) = skip_ws s.
Proof. intros w s H. induction H as [|c w H1 H2 IH]; auto. cbn [app skip_ws]. apply ws_blank in H1. now rewrite H1. Qed.
Lemma skip_ws_head : forall s c r, skip_ws s = c :: r -> ~ blank c.
Proof.
  induction s as [|x s IH]; intros c r H; [discriminate|]. cbn [skip_ws] in H. destruct (is_ws x) eqn:Q; eauto.
  injection H as <- <-. intros B. apply ws_blank in B. congruence.
Qed.
Lemma skip_ws_none : forall c s, ~ blank c -> skip_ws (c :: s) = c :: s.
Proof. intros c s H. cbn [skip_ws]. destruct (is_ws c) eqn:Q; auto. now apply ws_blank in Q. Qed.
Lemma read_loop_split : forall stop s n t r o, read_loop stop n s = (t, r, o) ->
  s = t ++ r /\ Forall (fun c => stop c = false) t /\
  (o = false -> forall c r', r = c :: r' -> stop c = true /\ (n + N.of_nat (len t) <= MaxTokenSize)%N).
Proof.
  intros stop. induction s as [|x s IH]; intros n t r o H; cbn [read_loop] in H.
  - injection H as <- <- <-. repeat split; auto; discriminate.
  - destruct (MaxTokenSize <? n)%N eqn:L.
    + injection H as <- <- <-. repeat split; auto; discriminate.
    + apply N.ltb_ge in L. destruct (stop x) eqn:Q.
      * injection H as <- <- <-. split; [reflexivity|]. split; [constructor|]. intros _ c r' E. injection E as <- <-. split; auto. cbn [List.length]. lia.
      * destruct (read_loop stop (n + 1) s) as [[t0 r0] o0] eqn:R. injection H as <- <- <-. destruct (IH _ _ _ _ R) as [-> [H2 H3]].
        split; [reflexivity|]. split; [constructor; auto|]. intros Ho c r' E. destruct (H3 Ho c r' E) as [H4 H5]. split; auto. cbn [List.length]. lia.
Qed.
Lemma name_char_byte : forall c, name_char c = true <-> name_byte c.
Proof.
  intros c. unfold name_char, name_byte, letter, digit, is_lower, is_upper, is_digit, in_range, code. rewrite !orb_true_iff, !andb_true_iff, !N.leb_le, mem_In. tauto.
Qed.
Lemma name_start_byte : forall c, name_start c = true <-> letter c \/ In c (bs "_:").
Proof.
  intros c. unfold name_start, letter, is_lower, is_upper, in_range, code. rewrite !orb_true_iff, !andb_true_iff, !N.leb_le, mem_In. tauto.
Qed.
Lemma validate_name_spec : forall n, small n -> (validate_name n = true <-> xml_name n).
Proof.
  intros n SM. unfold validate_name, xml_name. destruct n as [|c n].
  - split; [discriminate|]. intros [[c [r [H _]]] _]. discriminate.
  - rewrite andb_true_iff, name_start_byte, forallb_forall. split.
    + intros [H1 H2]. split; [exists c, n; auto|]. split; auto. intros x [<-|Hx]; [cbn [bs list_ascii_of_string In] in *; tauto|].
      apply name_char_byte. now apply H2.
    + intros [[c' [r [E H]]] [H2 _]]. injection E as <- <-. split; auto. intros x Hx. apply name_char_byte. apply H2. now right.
Qed.
Lemma v_read_name_sound : forall s n r, v_read_name s = (n, r) -> n <> [] -> s = n ++ r /\ Forall name_byte n /\
  forall c r', r = c :: r' -> small n /\ ~ name_byte c.
Proof.
  intros s n r H NE. unfold v_read_name, read_stop in H. destruct (read_loop _ 0 s) as [[t r0] o] eqn:R.
  destruct (read_loop_split _ _ _ _ _ _ R) as [-> [H2 H3]]. destruct o; injection H as <- <-; [contradiction|]. split; [reflexivity|]. split.
  - eapply Forall_impl; [|exact H2]. intros c Hc. apply negb_false_iff in Hc. now apply name_char_byte.
  - intros c r' E. destruct (H3 eq_refl c r' E) as [H4 H5]. split; [exact H5|]. intros B. apply name_char_byte in B. rewrite B in H4. discriminate.
Qed.
Lemma v_read_name_token : forall n c s, xml_name n -> ~ name_byte c -> v_read_name (n ++ c :: s) = (n, c :: s).
Proof.
  intros n c s Hn Hc. unfold v_read_name. apply read_stop_token; auto using name_small.
  - eapply Forall_impl; [|apply name_all; eauto]. intros x Hx. apply name_char_byte in Hx. now rewrite Hx.
  - destruct (name_char c) eqn:Q; auto. now apply name_char_byte in Q.
Qed.
Lemma v_skip_until_spec : forall d s r, v_skip_until d s = inr r <-> exists v, s = v ++ d :: r /\ ~ In d v /\ small v.
Proof.
  intros d s r. unfold v_skip_until. split.
  - destruct (read_loop (Ascii.eqb d) 0 s) as [[t r0] o] eqn:R. destruct (read_loop_split _ _ _ _ _ _ R) as [-> [H2 H3]].
    destruct o; [discriminate|]. destruct r0 as [|c r0]; [discriminate|]. intros H. injection H as <-. destruct (H3 eq_refl c r0 eq_refl) as [H4 H5].
    apply Ascii.eqb_eq in H4. subst c. exists t. split; [reflexivity|]. split; [|exact H5]. intros I. rewrite Forall_forall in H2. specialize (H2 _ I).
    rewrite Ascii.eqb_refl in H2. discriminate.
  - intros [v [-> [H1 H2]]]. rewrite read_loop_token; auto using Ascii.eqb_refl. apply Forall_forall. intros x Hx. apply ascii_eqb_false. intros <-. auto.
Qed.

(** ** Comments, CDATA and declarations *)
Lemma v_comment_spec : forall s r, v_comment s = inr r <->
  exists c, s = c ++ bs "-->" ++ r /\ forall x y, c ++ bs "-" <> x ++ bs "--" ++ y.
Proof.
  induction s as [|a s IH]; intros r.
  - split; [discriminate|]. intros [c [H _]]. destruct c; discriminate.
  - destruct s as [|b [|c s]].
    + split; [discriminate|]. intros [d [H _]]. destruct d as [|? [|? ?]]; discriminate.
    + split; [discriminate|]. intros [d [H _]]. destruct d as [|? [|? [|? ?]]]; discriminate.
    + assert (ST : v_comment (a :: b :: c :: s) = if Ascii.eqb a "-" && Ascii.eqb b "-" then
        (if Ascii.eqb c ">" then inr s else inl (mkVerr VDashDash (c :: s))) else v_comment (b :: c :: s)) by reflexivity.
      rewrite ST. clear ST. destruct (Ascii.eqb a "-" && Ascii.eqb b "-") eqn:Q.
      * apply andb_true_iff in Q. destruct Q as [Qa Qb]. apply Ascii.eqb_eq in Qa, Qb. subst a b. split.
        -- destruct (Ascii.eqb_spec c ">") as [->|N]; [|discriminate]. intros H. injection H as <-. exists []. split; [reflexivity|].
           intros x y H. apply (f_equal (@List.length ascii)) in H. rewrite !app_length in H. cbn in H. lia.
        -- intros [d [H1 H2]]. destruct d as [|d1 [|d2 d]].
           ++ injection H1 as -> <-. reflexivity.
           ++ injection H1 as <- _ _. exfalso. now apply (H2 [] []).
           ++ injection H1 as <- <- _. exfalso. now apply (H2 [] (d ++ bs "-")).
      * rewrite IH. split; intros [d [H1 H2]].
        -- exists (a :: d). split; [cbn [app]; now rewrite H1|]. intros x y H. destruct x as [|x0 x].
           ++ cbn in H. injection H as Ha H. subst a. destruct d as [|d0 d].
              ** injection H1 as Hb _. subst b. discriminate.
              ** injection H1 as <- _. cbn in H. injection H as -> _. discriminate.
           ++ injection H as _ H. exact (H2 _ _ H).
        -- destruct d as [|d0 d]; [injection H1 as -> -> _ _; discriminate|]. injection H1 as <- H1. exists d. split; auto.
           intros x y H. apply (H2 (a :: x) y). cbn [app]. now rewrite H.
Qed.
Lemma v_cdata_spec : forall s r, v_cdata s = inr r <->
  exists c, s = c ++ bs "]]>" ++ r /\ forall x y, c ++ bs "]]" <> x ++ bs "]]>" ++ y.
Proof.
  induction s as [|a s IH]; intros r.
  - split; [discriminate|]. intros [c [H _]]. destruct c; discriminate.
  - destruct s as [|b [|c s]].
    + split; [discriminate|]. intros [d [H _]]. destruct d as [|? [|? ?]]; discriminate.
    + split; [discriminate|]. intros [d [H _]]. destruct d as [|? [|? [|? ?]]]; discriminate.
    + assert (ST : v_cdata (a :: b :: c :: s) = if Ascii.eqb a "]" && Ascii.eqb b "]" && Ascii.eqb c ">" then inr s else v_cdata (b :: c :: s)) by reflexivity.
      rewrite ST. clear ST. destruct (Ascii.eqb a "]" && Ascii.eqb b "]" && Ascii.eqb c ">") eqn:Q.
      * rewrite !andb_true_iff, !Ascii.eqb_eq in Q. destruct Q as [[-> ->] ->]. split.
        -- intros H. injection H as <-. exists []. split; [reflexivity|].
           intros x y H. apply (f_equal (@List.length ascii)) in H. rewrite !app_length in H. cbn in H. lia.
        -- intros [d [H1 H2]]. destruct d as [|d1 [|d2 [|d3 d]]].
           ++ now injection H1 as <-.
           ++ injection H1 as <- H1 _. discriminate.
           ++ injection H1 as _ _ H1 _. discriminate.
           ++ injection H1 as <- <- <- _. exfalso. now apply (H2 [] (d ++ bs "]]")).
      * rewrite IH. split; intros [d [H1 H2]].
        -- exists (a :: d). split; [cbn [app]; now rewrite H1|]. intros x y H. destruct x as [|x0 x].
           ++ cbn in H. injection H as Ha H. subst a. destruct d as [|d0 [|d1 d]].
              ** discriminate.
              ** injection H1 as <- _ _. cbn in H. injection H as _ H _. discriminate.
              ** injection H1 as <- <- _. cbn in H. injection H as -> -> _. discriminate.
           ++ injection H as _ H. exact (H2 _ _ H).
        -- destruct d as [|d0 d]; [injection H1 as -> -> -> _; discriminate|]. injection H1 as <- H1. exists d. split; auto.
           intros x y H. apply (H2 (a :: x) y). cbn [app]. now rewrite H.
Qed.
Lemma v_doctype_spec : forall s d r, v_doctype d s = inr r <->
  exists b, s = b ++ ">"%char :: r /\ (d + brackets b = 0)%Z /\ forall x y, b = x ++ ">"%char :: y -> (d + brackets x <> 0)%Z.
Proof.
  induction s as [|c s IH]; intros d r; cbn [v_doctype].
  - split; [discriminate|]. intros [b [H _]]. destruct b; discriminate.
  - assert (STEP : forall d', (d' = d + (if Ascii.eqb c "[" then 1 else if Ascii.eqb c "]" then -1 else 0))%Z -> (c = ">"%char -> d <> 0%Z) ->
       (v_doctype d' s = inr r <-> exists b, c :: s = b ++ ">"%char :: r /\ (d + brackets b = 0)%Z /\ forall x y, b = x ++ ">"%char :: y -> (d + brackets x <> 0)%Z)).
    { intros d' -> Hgt. rewrite IH. split; intros [b [H1 [H2 H3]]].
      - exists (c :: b). split; [cbn [app]; now rewrite H1|]. cbn [brackets]. split; [lia|]. intros x y E. destruct x as [|x0 x].
        + injection E as -> _. cbn [brackets]. specialize (Hgt eq_refl). lia.
        + injection E as <- E. cbn [brackets]. specialize (H3 _ _ E). lia.
      - destruct b as [|b0 b]; [injection H1 as -> _; cbn [brackets] in H2; specialize (Hgt eq_refl); lia|]. injection H1 as <- H1.
        exists b. split; auto. cbn [brackets] in H2. split; [lia|]. intros x y E. specialize (H3 (c :: x) y). cbn [brackets app] in H3. rewrite E in H3.
        specialize (H3 eq_refl). lia. }
    destruct (Ascii.eqb_spec c "[") as [->|N1]; [apply STEP; [lia|discriminate]|].
    destruct (Ascii.eqb_spec c "]") as [->|N2]; [apply STEP; [lia|discriminate]|].
    destruct (Ascii.eqb_spec c ">") as [->|N3]; cbn [andb]; [|apply STEP; [lia|intros ->; contradiction]].
    destruct (Z.eqb_spec d 0) as [->|N4]; [|apply STEP; [lia|auto]].
    split.
    + intros H. injection H as <-. exists []. split; [reflexivity|]. split; [reflexivity|]. intros x y H. destruct x; discriminate.
    + intros [b [H1 [H2 H3]]]. destruct b as [|b0 b]; [injection H1 as <-; reflexivity|]. injection H1 as <- H1.
      exfalso. apply (H3 [] b); reflexivity.
Qed.

(** ** Tags *)
Lemma peek_head : forall s c, peek s = c -> c <> nul -> exists r, s = c :: r /\ next s = r.
Proof. intros [|x s] c H N; cbn [peek] in H; [congruence|]. exists s. subst. auto. Qed.
Definition tag_stop (s : bytes) : Prop := exists c r, s = c :: r /\ (c = ">"%char \/ c = "/"%char).
Lemma name_byte_blank : forall c, blank c -> ~ name_byte c.
Proof. intros c H N. unfold blank in H. apply (name_byte_not c c N); auto. cbn [In] in *. tauto. Qed.
Lemma blank_eq : forall c d, blank c -> In d (bs "=<>/") \/ d = dquote \/ d = squote -> c <> d.
Proof. intros c d H H2 ->. unfold blank in H. cbn [In bs list_ascii_of_string] in *. repeat (destruct H as [<-|H]; [intuition discriminate|]). exact H. Qed.

Lemma v_attributes_sound : forall n s0 s, v_attributes n s0 = inr s ->
  exists k a, k <= n /\ attributes k a /\ s0 = a ++ s /\ tag_stop s.
Proof.
  induction n as [|n IH]; intros s0 s H; cbn [v_attributes] in H; destruct (skip_ws_split s0) as [w [E0 W]]; remember (skip_ws s0) as s1; clear Heqs1; subst s0;
    destruct s1 as [|c r]; try discriminate; destruct (Ascii.eqb c ">" || Ascii.eqb c "/") eqn:Q.
  - injection H as <-. exists 0, w. repeat split; auto; [now constructor|]. exists c, r. split; auto. apply orb_true_iff in Q. rewrite !Ascii.eqb_eq in Q. auto.
  - discriminate.
  - injection H as <-. exists 0, w. repeat split; auto; [lia|now constructor|]. exists c, r. split; auto. apply orb_true_iff in Q. rewrite !Ascii.eqb_eq in Q. auto.
  - destruct (v_read_name (c :: r)) as [name s1] eqn:R. destruct name as [|n0 name]; [discriminate|].
    destruct (v_read_name_sound _ _ _ R ltac:(discriminate)) as [E1 [N1 N2]]. rewrite E1 in *. clear E1.
    destruct (validate_name (n0 :: name)) eqn:V; [|discriminate]. cbn [negb] in H.
    destruct (skip_ws_split s1) as [w2 [E2 W2]]. remember (skip_ws s1) as s2. clear Heqs2.
    destruct (Ascii.eqb_spec (peek s2) "=") as [P|]; [|discriminate]. cbn [negb] in H.
    destruct (peek_head _ _ P ltac:(discriminate)) as [r2 [-> E3]]. rewrite E3 in H. clear E3 P.
    destruct (skip_ws_split r2) as [w3 [E3 W3]]. remember (skip_ws r2) as s3. clear Heqs3.
    destruct (negb (Ascii.eqb (peek s3) dquote) && negb (Ascii.eqb (peek s3) squote)) eqn:QQ; [discriminate|].
    apply andb_false_iff in QQ. rewrite !negb_false_iff, !Ascii.eqb_eq in QQ.
    destruct (peek_head s3 (peek s3) eq_refl) as [r3 [E4 E5]]; [destruct QQ as [->| ->]; discriminate|]. rewrite E5 in H.
    destruct (v_skip_until (peek s3) r3) as [e|s4] eqn:SU; [discriminate|]. apply v_skip_until_spec in SU. destruct SU as [v [E6 [V1 V2]]].
    destruct (IH s4 s H) as [k [a [L [A [E7 T]]]]]. exists (S k), (w ++ (n0 :: name) ++ w2 ++ "="%char :: w3 ++ peek s3 :: v ++ peek s3 :: a).
    split; [lia|]. assert (SM : small (n0 :: name)).
    { destruct w2 as [|x w2]; [exact (proj1 (N2 _ _ E2))|exact (proj1 (N2 _ _ E2))]. }
    split; [constructor; auto; now apply validate_name_spec|]. split; auto.
    rewrite E2, E3, E4, E6, E7. cbn [peek]. repeat (rewrite <- app_assoc || rewrite <- app_comm_cons). reflexivity.
Qed.
Lemma stop_not_blank : forall s, tag_stop s -> skip_ws s = s.
Proof. intros s [c [r [-> H]]]. apply skip_ws_none. intros B. apply (blank_eq c c B); auto. destruct H as [->| ->]; cbn; tauto. Qed.
Lemma attr_name_end : forall w c s, blanks w -> ~ name_byte c -> exists d r, w ++ c :: s = d :: r /\ ~ name_byte d.
Proof.
  intros [|x w] c s W N; [exists c, s; auto|]. exists x, (w ++ c :: s). split; auto. inversion W; subst. now apply name_byte_blank.
Qed.
Lemma not_name : forall c, In c [" "%char; tab; lf; cr; "/"%char; ">"%char; "<"%char; "="%char; dquote; squote; "!"%char; "?"%char; "&"%char] -> ~ name_byte c.
Proof. intros c H N. now apply (name_byte_not c c N). Qed.
Lemma v_attributes_complete : forall k a, attributes k a -> forall n s, k <= n -> tag_stop s -> v_attributes n (a ++ s) = inr s.
Proof.
  induction 1 as [w W|k w1 n w2 w3 q v s0 W1 N W2 W3 Q V1 V2 A IH]; intros m s L T.
  - destruct m; cbn [v_attributes]; rewrite skip_ws_app, stop_not_blank by auto; destruct T as [c [r [-> [->| ->]]]]; reflexivity.
  - destruct m as [|m]; [lia|]. cbn [v_attributes].
    assert (E : (w1 ++ n ++ w2 ++ "="%char :: w3 ++ q :: v ++ q :: s0) ++ s = w1 ++ n ++ w2 ++ "="%char :: w3 ++ q :: v ++ q :: s0 ++ s).
    { rewrite <- !app_assoc. cbn [app]. rewrite <- !app_assoc. cbn [app]. now rewrite <- app_assoc. }
    rewrite E. clear E. rewrite skip_ws_app by auto. destruct (name_first n N) as [c [r [En Hc]]].
    assert (SK : forall x, skip_ws (n ++ x) = n ++ x) by (intros x; rewrite En; cbn [app]; now apply skip_ws_name). rewrite SK. clear SK.
    assert (HD : forall (x : bytes) (X : Type) (y z : X) , match n ++ x with [] => y | c0 :: _ => if Ascii.eqb c0 ">" || Ascii.eqb c0 "/" then z else
              match v_read_name (n ++ x) with _ => y end end = y).
    { intros. rewrite En. cbn [app]. rewrite (name_eqb c ">" Hc), (name_eqb c "/" Hc) by inlist. cbn [orb]. reflexivity. }
    clear HD. rewrite En at 1. cbn [app]. rewrite (name_eqb c ">" Hc), (name_eqb c "/" Hc) by inlist. cbn [orb].
    destruct (attr_name_end w2 "=" (w3 ++ q :: v ++ q :: s0 ++ s) W2) as [d [rr [E1 E2]]]; [apply not_name; cbn; tauto|].
    rewrite E1, v_read_name_token by auto. rewrite En at 1. rewrite (proj2 (validate_name_spec n (name_small n N)) N). cbn [negb].
    rewrite <- E1, skip_ws_app by auto. rewrite (skip_ws_none "="%char) by (intros B; apply (blank_eq _ "=" B); cbn; auto). cbn [peek next].
    change (negb (Ascii.eqb "=" "=")) with false. cbn iota. rewrite skip_ws_app by auto.
    rewrite (skip_ws_none q) by (intros B; apply (blank_eq _ q B); auto). cbn [peek next].
    assert (QQ : negb (Ascii.eqb q dquote) && negb (Ascii.eqb q squote) = false) by (destruct Q; subst; reflexivity). rewrite QQ.
    rewrite (proj2 (v_skip_until_spec q (v ++ q :: s0 ++ s) (s0 ++ s))) by eauto. apply IH; auto. lia.
Qed.

(** What the state says about the open elements. *)
Record inv (st : vstate) : Prop := {
  inv_open : v_stack st <> [] -> v_root_found st = true /\ v_root_closed st = false;
  inv_none : v_stack st = [] -> v_root_found st = true -> v_root_closed st = true;
  inv_start : v_root_found st = false -> v_root_closed st = false;
  inv_names : Forall xml_name (map fst (v_stack st))
}.
Notation open_names st := (map fst (v_stack st)).
(** One piece of markup. *)
Inductive piece (st : vstate) (x : bytes) (st' : vstate) : Prop :=
| pc_aside : aside x -> v_stack st' = v_stack st -> v_root_found st' = v_root_found st -> v_root_closed st' = v_root_closed st -> piece st x st'
| pc_open : forall n k a t, x = "<"%char :: n ++ a ++ [">"%char] -> xml_name n -> k <= 100 -> len (v_stack st) < 100 -> tag_attributes k a ->
    v_stack st' = (n, t) :: v_stack st -> v_root_found st' = true ->
    v_root_closed st' = (if v_root_found st && (match v_stack st with [] => true | _ => false end) && v_root_closed st then false else v_root_closed st) ->
    piece st x st'
| pc_self : forall n k a, x = "<"%char :: n ++ a ++ ["/"%char; ">"%char] -> xml_name n -> k <= 100 -> len (v_stack st) < 100 -> tag_attributes k a ->
    v_stack st' = v_stack st -> v_root_found st' = true ->
    v_root_closed st' = (if (match v_stack st with [] => true | _ => false end) then true else v_root_closed st) -> piece st x st'
| pc_close : forall n t w, x = "<"%char :: "/"%char :: n ++ w ++ [">"%char] -> blanks w -> v_stack st = (n, t) :: v_stack st' ->
    v_root_found st' = v_root_found st ->
    v_root_closed st' = (match v_stack st' with [] => true | _ => v_root_closed st end) -> piece st x st'.
Lemma piece_inv : forall st x st', piece st x st' -> inv st -> inv st'.
Proof.
  intros st x st' H [I1 I2 I0 I3]. destruct H as [A E1 E2 E3|n k a t Ex N K L A E1 E2 E3|n k a Ex N K L A E1 E2 E3|n t w Ex W E1 E2 E3].
  - constructor; rewrite ?E1, ?E2, ?E3; auto.
  - constructor; rewrite ?E1, ?E2, ?E3; try discriminate.
    + intros _. split; auto. destruct (v_stack st) as [|y l] eqn:Q.
      * destruct (v_root_found st) eqn:F; cbn [andb]; [now rewrite I2|]. auto.
      * rewrite andb_false_r. cbn [andb]. now apply I1.
    + cbn [map fst]. constructor; auto.
  - constructor; rewrite ?E1, ?E2, ?E3; try discriminate; auto.
    + intros NE. destruct (v_stack st); [contradiction|]. split; auto. now apply I1.
    + intros -> _. reflexivity.
  - assert (Q : v_root_found st = true /\ v_root_closed st = false) by (apply I1; rewrite E1; discriminate). destruct Q as [Q1 Q2].
    constructor; rewrite ?E2, ?E3, ?Q1, ?Q2; auto; try discriminate.
    + intros NE. destruct (v_stack st'); [contradiction|]. auto.
    + intros -> _. reflexivity.
    + rewrite E1 in I3. cbn [map fst] in I3. now inversion I3.
Qed.
Lemma max_depth : MaxNestingDepth = 100. Proof. reflexivity. Qed.
Lemma max_attrs : MaxAttributes = 100. Proof. reflexivity. Qed.
Lemma v_open_sound : forall st t s st', v_open st t s = inr st' -> exists x, "<"%char :: s = x ++ v_rest st' /\ piece st x st'.
Proof.
  intros st t s st' H. unfold v_open in H. rewrite max_depth, max_attrs in H. destruct (v_read_name s) as [name s1] eqn:R. destruct name as [|n0 name]; [discriminate|].
  destruct (v_read_name_sound _ _ _ R ltac:(discriminate)) as [-> [N1 N2]]. remember (n0 :: name) as n. clear Heqn.
  destruct (validate_name n) eqn:V; [|discriminate]. cbn [negb] in H. destruct (Nat.leb 100 (len (v_stack st))) eqn:L; [discriminate|].
  apply Nat.leb_gt in L. destruct (v_attributes 100 s1) as [e|s2] eqn:A; [discriminate|].
  destruct (v_attributes_sound _ _ _ A) as [k [a [K [At [E T]]]]]. rewrite (stop_not_blank s2 T) in H.
  assert (NS : xml_name n).
  { apply validate_name_spec; auto. destruct s1 as [|c r]; [|now apply (N2 c r)]. destruct T as [c [r [-> _]]]. destruct a; discriminate. }
  assert (TA : tag_attributes k a).
  { split; auto. destruct a as [|c a]; auto. right. exists c, a. split; auto. cbn [app] in E. destruct (N2 _ _ E) as [_ NB].
    inversion At as [w W|k0 w1 m w2 w3 q v s0 W1 N W2 W3 Q V1 V2 A0]; subst; [now inversion W|].
    destruct w1 as [|x w1]; [|cbn [app] in *; match goal with H : _ = c :: a |- _ => injection H as <- _ end; now inversion W1].
    destruct (name_first m N) as [d [rr [-> Hd]]]. cbn [app] in *. match goal with H : _ = c :: a |- _ => injection H as <- _ end. contradiction. }
  destruct T as [c [r [-> Tc]]]. cbn [peek next] in H. destruct Tc as [->| ->].
  - change (Ascii.eqb ">" "/") with false in H. cbn iota in H. cbn [peek] in H. change (negb (Ascii.eqb ">" ">")) with false in H. cbn iota in H. injection H as <-.
    exists ("<"%char :: n ++ a ++ [">"%char]). cbn [v_rest next]. split; [rewrite E; cbn [app]; rewrite <- !app_assoc; reflexivity|].
    eapply pc_open; eauto; reflexivity.
  - change (Ascii.eqb "/" "/") with true in H. cbn iota in H. destruct (Ascii.eqb_spec (peek r) ">") as [P|]; [|discriminate]. cbn [negb] in H. injection H as <-.
    destruct (peek_head _ _ P ltac:(discriminate)) as [r2 [-> E3]].
    exists ("<"%char :: n ++ a ++ ["/"%char; ">"%char]). cbn [v_rest next]. split; [rewrite E; cbn [app]; rewrite <- !app_assoc; reflexivity|].
    eapply pc_self; eauto. cbn [v_root_closed v_stack]. destruct (v_stack st); [reflexivity|]. rewrite andb_false_r. reflexivity.
Qed.
Lemma v_close_sound : forall st t s st', v_close st t s = inr st' -> exists x, "<"%char :: "/"%char :: s = x ++ v_rest st' /\ piece st x st'.
Proof.
  intros st t s st' H. unfold v_close in H. destruct (v_read_name s) as [name s1] eqn:R. destruct name as [|n0 name]; [discriminate|].
  destruct (v_read_name_sound _ _ _ R ltac:(discriminate)) as [-> [N1 N2]]. remember (n0 :: name) as n. clear Heqn.
  destruct (skip_ws_split s1) as [w [E W]]. remember (skip_ws s1) as s2. clear Heqs2.
  destruct (Ascii.eqb_spec (peek s2) ">") as [P|]; [|discriminate]. cbn [negb] in H. destruct (peek_head _ _ P ltac:(discriminate)) as [r2 [-> E3]]. rewrite E3 in H.
  destruct (v_stack st) as [|[o t0] stack'] eqn:ST; [discriminate|]. destruct (bytes_eqb o n) eqn:B; [|discriminate]. apply bytes_eqb_eq in B. subst o.
  cbn [negb] in H. injection H as <-. exists ("<"%char :: "/"%char :: n ++ w ++ [">"%char]). cbn [v_rest]. split; [rewrite E; cbn [app]; rewrite <- !app_assoc; reflexivity|].
  eapply pc_close; eauto.
Qed.
Lemma with_rest_inv : forall st r st', v_with_rest st r = inr st' -> exists s, r = inr s /\ v_rest st' = s /\ v_stack st' = v_stack st /\
  v_root_found st' = v_root_found st /\ v_root_closed st' = v_root_closed st.
Proof. intros st [e|s] st' H; [discriminate|]. injection H as <-. exists s. auto. Qed.
Lemma doctype_word : forall w s, w = bs "DOCTYPE" \/ w = bs "doctype" -> v_doctype 0 (w ++ s) = v_doctype 0 s.
Proof. intros w s [->| ->]; reflexivity. Qed.
Lemma v_tag_sound : forall st t s st', v_tag st t s = inr st' -> exists x, "<"%char :: s = x ++ v_rest st' /\ piece st x st'.
Proof.
  intros st t s st' H. unfold v_tag in H. destruct s as [|n s1]; [discriminate|].
  destruct (Ascii.eqb_spec n "?") as [->|N1].
  { apply with_rest_inv in H. destruct H as [r [H [E1 [E2 [E3 E4]]]]]. apply v_skip_until_spec in H. destruct H as [v [-> [V1 V2]]].
    exists (bs "<?" ++ v ++ bs ">"). rewrite E1. split; [change (bs "<?") with ["<"%char; "?"%char]; cbn [app]; rewrite <- app_assoc; reflexivity|].
    apply pc_aside; auto. now constructor. }
  destruct (Ascii.eqb_spec n "!") as [->|N2].
  { destruct (has_prefix (bs "DOCTYPE") s1 || has_prefix (bs "doctype") s1) eqn:D.
    { assert (X : exists w y, s1 = w ++ y /\ (w = bs "DOCTYPE" \/ w = bs "doctype")).
      { apply orb_true_iff in D. rewrite !has_prefix_spec in D. destruct D as [[y ->]|[y ->]]; eauto. }
      destruct X as [w [y [-> Hw]]]. rewrite doctype_word in H by auto.
      apply with_rest_inv in H. destruct H as [r [H [E1 [E2 [E3 E4]]]]]. apply v_doctype_spec in H. destruct H as [b [-> [B1 B2]]].
      exists (bs "<!" ++ w ++ b ++ bs ">"). rewrite E1. split; [change (bs "<!") with ["<"%char; "!"%char]; cbn [app]; rewrite <- !app_assoc; reflexivity|].
      apply pc_aside; auto. now constructor. }
    destruct (strip_prefix (bs "--") s1) as [s2|] eqn:P1.
    { apply strip_prefix_spec in P1. subst s1. apply with_rest_inv in H. destruct H as [r [H [E1 [E2 [E3 E4]]]]]. apply v_comment_spec in H. destruct H as [c [-> C]].
      exists (bs "<!--" ++ c ++ bs "-->"). rewrite E1. split; [|apply pc_aside; auto; now constructor].
      change (bs "<!--") with ["<"%char; "!"%char; "-"%char; "-"%char]. cbn [app]. rewrite <- app_assoc. reflexivity. }
    destruct (strip_prefix (bs "[CDATA[") s1) as [s2|] eqn:P2.
    { apply strip_prefix_spec in P2. subst s1. apply with_rest_inv in H. destruct H as [r [H [E1 [E2 [E3 E4]]]]]. apply v_cdata_spec in H. destruct H as [c [-> C]].
      exists (bs "<![CDATA[" ++ c ++ bs "]]>"). rewrite E1. split; [|apply pc_aside; auto; now constructor].
      rewrite <- !app_assoc. reflexivity. }
    apply with_rest_inv in H. destruct H as [r [H [E1 [E2 [E3 E4]]]]]. apply v_skip_until_spec in H. destruct H as [v [-> [V1 V2]]].
    exists (bs "<!" ++ v ++ bs ">"). rewrite E1. split; [rewrite <- !app_assoc; reflexivity|].
    apply pc_aside; auto. apply as_other; auto. intros w x Hw Q.
    assert (Q2 : v ++ ">"%char :: r = w ++ x ++ r) by (rewrite app_assoc, <- Q, <- app_assoc; reflexivity).
    apply orb_false_iff in D. destruct D as [D1 D2]. cbn [In] in Hw. destruct Hw as [<-|[<-|[<-|[<-|[]]]]].
    - rewrite (proj2 (has_prefix_spec _ _)) in D1; [discriminate|]. eauto.
    - rewrite (proj2 (has_prefix_spec _ _)) in D2; [discriminate|]. eauto.
    - rewrite strip_prefix_none in P1. exact (P1 _ Q2).
    - rewrite strip_prefix_none in P2. exact (P2 _ Q2). }
  destruct (Ascii.eqb_spec n "/") as [->|N3].
  - now apply v_close_sound in H.
  - now apply v_open_sound in H.
Qed.
Lemma accepted_blanks : forall found open w s, blanks w -> accepted found open s -> accepted found open (w ++ s).
Proof. intros found open w s H A. induction H; cbn [app]; auto using ac_blank. Qed.
Lemma piece_accepted : forall st x st' s, piece st x st' -> accepted (v_root_found st') (open_names st') s -> accepted (v_root_found st) (open_names st) (x ++ s).
Proof.
  intros st x st' s H A. destruct H as [D E1 E2 E3|n k a t Ex N K L D E1 E2 E3|n k a Ex N K L D E1 E2 E3|n t w Ex W E1 E2 E3].
  - apply ac_aside; auto. now rewrite <- E1, <- E2.
  - subst x. cbn [app]. rewrite <- !app_assoc. cbn [app]. rewrite E1, E2 in A. apply (ac_open _ _ n k a); auto. now rewrite map_length.
  - subst x. cbn [app]. rewrite <- !app_assoc. cbn [app]. rewrite E1, E2 in A. apply (ac_self _ _ n k a); auto. now rewrite map_length.
  - subst x. cbn [app]. rewrite <- !app_assoc. cbn [app]. rewrite E1. cbn [map fst]. rewrite E2 in A. now apply ac_close.
Qed.
Lemma v_loop_sound : forall f st st', v_loop f st = Some (inr st') -> v_stack st' = [] -> v_root_found st' = true -> inv st ->
  accepted (v_root_found st) (open_names st) (v_rest st).
Proof.
  induction f as [|f IH]; intros st st' H S F I; [discriminate|]. cbn [v_loop] in H.
  destruct (skip_ws_split (v_rest st)) as [w [E W]]. rewrite E. apply accepted_blanks; auto. remember (skip_ws (v_rest st)) as s. clear Heqs E.
  destruct s as [|c s1].
  - injection H as <-. cbn [v_stack v_root_found] in *. rewrite S, F. constructor.
  - destruct (Ascii.eqb_spec c "<") as [->|N].
    + destruct (v_tag st ("<"%char :: s1) s1) as [e|st1] eqn:T; [discriminate|]. destruct (v_tag_sound _ _ _ _ T) as [x [-> P]].
      eapply piece_accepted; eauto. eapply IH; eauto. eapply piece_inv; eauto.
    + destruct (negb (v_root_found st) || v_root_closed st) eqn:Q; [discriminate|]. apply orb_false_iff in Q. destruct Q as [Q1 Q2]. apply negb_false_iff in Q1.
      apply ac_text; auto.
      * intros K. apply map_eq_nil in K. destruct I as [_ I2 _ _]. rewrite I2 in Q2; auto. discriminate.
      * apply (IH _ st' H); auto. destruct I as [I1 I2 I3 I4]. constructor; auto.
Qed.

(** ** Completeness *)
Lemma prefix_before : forall (c : ascii) w b s x, ~ In c w -> b ++ c :: s = w ++ x -> exists y, b = w ++ y.
Proof.
  intros c. induction w as [|a w IH]; intros b s x N H; [exists b; reflexivity|]. destruct b as [|d b].
  - injection H as <- _. exfalso. apply N. now left.
  - injection H as -> H. destruct (IH b s x) as [y ->]; auto; [intros K; apply N; now right|]. now exists y.
Qed.
Lemma other_prefix : forall w b s, In w [bs "DOCTYPE"; bs "doctype"; bs "--"; bs "[CDATA["] ->
  (forall w x, In w [bs "DOCTYPE"; bs "doctype"; bs "--"; bs "[CDATA["] -> b ++ bs ">" <> w ++ x) -> forall r, b ++ ">"%char :: s <> w ++ r.
Proof.
  intros w b s Hw H r E. destruct (prefix_before ">" w b s r) as [y Ey]; auto.
  - cbn [In] in Hw. destruct Hw as [<-|[<-|[<-|[<-|[]]]]]; cbn; intuition discriminate.
  - apply (H w (y ++ bs ">") Hw). now rewrite Ey, <- app_assoc.
Qed.
Lemma no_prefix : forall p s, (forall r, s <> p ++ r) -> has_prefix p s = false.
Proof. intros p s H. destruct (has_prefix p s) eqn:Q; auto. apply has_prefix_spec in Q. destruct Q as [r E]. now apply H in E. Qed.
Lemma aside_head : forall m, aside m -> exists m', m = "<"%char :: m'.
Proof. intros m H. destruct H; eexists; reflexivity. Qed.
Lemma v_tag_aside : forall st t m s, aside ("<"%char :: m) ->
  v_tag st t (m ++ s) = inr (mkV s (v_stack st) (v_root_found st) (v_root_closed st)).
Proof.
  intros st t m s H. remember ("<"%char :: m) as M eqn:E. destruct H as [b B1 B2|c C|c C|w b W B1 B2|b B1 B2 B3].
  - assert (Em : m = "?"%char :: b ++ bs ">") by (symmetry; now injection E). clear E. subst m. cbn [app v_tag]. change (Ascii.eqb "?" "?") with true. cbn iota.
    rewrite <- app_assoc. change (bs ">" ++ s) with (">"%char :: s). rewrite (proj2 (v_skip_until_spec _ _ s)) by eauto. reflexivity.
  - assert (Em : m = "!"%char :: "-"%char :: "-"%char :: c ++ bs "-->") by (symmetry; now injection E). clear E. subst m. cbn [app v_tag].
    change (Ascii.eqb "!" "?") with false. change (Ascii.eqb "!" "!") with true. cbn iota.
    rewrite !no_prefix by (intros r K; discriminate). cbn [orb]. match goal with |- context [strip_prefix (bs "--") ?x] => change x with (bs "--" ++ (c ++ bs "-->") ++ s) end.
    rewrite strip_prefix_app, <- app_assoc. rewrite (proj2 (v_comment_spec _ s)) by eauto. reflexivity.
  - assert (Em : m = "!"%char :: bs "[CDATA[" ++ c ++ bs "]]>") by (symmetry; now injection E). clear E. subst m. cbn [app v_tag].
    change (Ascii.eqb "!" "?") with false. change (Ascii.eqb "!" "!") with true. cbn iota. rewrite <- !app_assoc.
    rewrite !no_prefix by (intros r K; discriminate). cbn [orb]. rewrite (proj2 (strip_prefix_none (bs "--") _)) by (intros r K; discriminate).
    match goal with |- context [strip_prefix (bs "[CDATA[") ?x] => change x with (bs "[CDATA[" ++ c ++ bs "]]>" ++ s) end.
    rewrite strip_prefix_app. rewrite (proj2 (v_cdata_spec _ s)) by eauto. reflexivity.
  - assert (Em : m = "!"%char :: w ++ b ++ bs ">") by (symmetry; now injection E). clear E. subst m. cbn [app v_tag].
    change (Ascii.eqb "!" "?") with false. change (Ascii.eqb "!" "!") with true. cbn iota. rewrite <- !app_assoc.
    assert (P : has_prefix (bs "DOCTYPE") (w ++ b ++ bs ">" ++ s) || has_prefix (bs "doctype") (w ++ b ++ bs ">" ++ s) = true).
    { apply orb_true_iff. rewrite !has_prefix_spec. destruct W as [->| ->]; eauto. }
    rewrite P, doctype_word by auto. change (bs ">" ++ s) with (">"%char :: s). rewrite (proj2 (v_doctype_spec _ _ s)) by eauto. reflexivity.
  - assert (Em : m = "!"%char :: b ++ bs ">") by (symmetry; now injection E). clear E. subst m. cbn [app v_tag].
    change (Ascii.eqb "!" "?") with false. change (Ascii.eqb "!" "!") with true. cbn iota. rewrite <- !app_assoc. change (bs ">" ++ s) with (">"%char :: s).
    rewrite !no_prefix by (apply other_prefix; auto; cbn [In]; tauto). cbn [orb].
    rewrite (proj2 (strip_prefix_none (bs "--") _)) by (apply other_prefix; auto; cbn [In]; tauto).
    rewrite (proj2 (strip_prefix_none (bs "[CDATA[") _)) by (apply other_prefix; auto; cbn [In]; tauto).
    rewrite (proj2 (v_skip_until_spec _ _ s)) by eauto. reflexivity.
Qed.
Lemma tag_char : forall n r, xml_name n -> forall st t, v_tag st t (n ++ r) = v_open st t (n ++ r).
Proof.
  intros n r N st t. destruct (name_first n N) as [c [x [-> H]]]. cbn [app v_tag].
  rewrite (name_eqb c "?" H), (name_eqb c "!" H), (name_eqb c "/" H) by inlist. reflexivity.
Qed.
Lemma tag_attributes_head : forall k a c s, tag_attributes k a -> ~ name_byte c -> exists d r, a ++ c :: s = d :: r /\ ~ name_byte d.
Proof.
  intros k a c s [_ [->|[x [a' [-> B]]]]] N; [exists c, s; auto|]. exists x, (a' ++ c :: s). split; auto. now apply name_byte_blank.
Qed.
Lemma v_open_complete : forall st t n k a (self : bool) s, xml_name n -> k <= 100 -> tag_attributes k a ->
  v_open st t (n ++ a ++ (if self then bs "/>" else bs ">") ++ s) =
  if Nat.leb 100 (len (v_stack st)) then inl (mkVerr VDepth t) else
  inr (if self then mkV s (v_stack st) true (match v_stack st with [] => true | _ => v_root_closed st end)
       else mkV s ((n, t) :: v_stack st) true
         (if v_root_found st && (match v_stack st with [] => true | _ => false end) && v_root_closed st then false else v_root_closed st)).
Proof.
  intros st t n k a self s N K T. unfold v_open. rewrite max_depth, max_attrs.
  assert (X : exists c r, (if self then bs "/>" else bs ">") ++ s = c :: r /\ (c = ">"%char \/ c = "/"%char)) by (destruct self; eexists _, _; split; try reflexivity; auto).
  destruct X as [c [r [E Hc]]]. destruct (tag_attributes_head k a c r T) as [d [r2 [E2 Hd]]]; [destruct Hc as [->| ->]; apply not_name; cbn; tauto|].
  rewrite E, E2, v_read_name_token by auto. destruct (name_first n N) as [n0 [n1 [En _]]]. rewrite En at 1.
  rewrite (proj2 (validate_name_spec n (name_small n N)) N). cbn [negb]. destruct (Nat.leb 100 (len (v_stack st))); [reflexivity|].
  assert (TS : tag_stop (c :: r)) by (exists c, r; auto).
  rewrite <- E2, (v_attributes_complete k a) by (auto; apply T). rewrite stop_not_blank by auto.
  destruct self.
  - change (bs "/>" ++ s) with ("/"%char :: ">"%char :: s) in E. injection E as <- <-. cbn [peek next]. change (Ascii.eqb "/" "/") with true. cbn iota.
    cbn [peek next]. change (negb (Ascii.eqb ">" ">")) with false. cbn iota. destruct (v_stack st); auto. rewrite andb_false_r. reflexivity.
  - change (bs ">" ++ s) with (">"%char :: s) in E. injection E as <- <-. cbn [peek next]. change (Ascii.eqb ">" "/") with false. cbn iota.
    cbn [peek next]. change (negb (Ascii.eqb ">" ">")) with false. cbn iota. reflexivity.
Qed.
Lemma v_close_complete : forall st t n t0 stack w s, xml_name n -> blanks w -> v_stack st = (n, t0) :: stack ->
  v_close st t (n ++ w ++ ">"%char :: s) = inr (mkV s stack (v_root_found st) (match stack with [] => true | _ => v_root_closed st end)).
Proof.
  intros st t n t0 stack w s N W E. unfold v_close. destruct (attr_name_end w ">" s W) as [d [r [E2 Hd]]]; [apply not_name; cbn; tauto|].
  rewrite E2, v_read_name_token by auto. destruct (name_first n N) as [n0 [n1 [En _]]]. rewrite En at 1.
  rewrite <- E2, skip_ws_app, (skip_ws_none ">"%char) by (auto; intros B; apply (blank_eq _ ">" B); cbn; auto). cbn [peek next].
  change (negb (Ascii.eqb ">" ">")) with false. cbn iota. rewrite E, bytes_eqb_refl. reflexivity.
Qed.
Lemma v_loop_more : forall f st x, v_loop f st = Some x -> v_loop (S f) st = Some x.
Proof.
  induction f as [|f IH]; intros st x H; [discriminate|]. remember (S f) as f1. cbn [v_loop]. subst f1. cbn [v_loop] in H.
  destruct (skip_ws (v_rest st)) as [|c s1]; auto. destruct (Ascii.eqb c "<").
  - destruct (v_tag st (c :: s1) s1); auto.
  - destruct (negb (v_root_found st) || v_root_closed st); auto.
Qed.
Lemma v_loop_mono : forall f f' st x, v_loop f st = Some x -> f <= f' -> v_loop f' st = Some x.
Proof. intros f f' st x H L. induction L; auto. now apply v_loop_more. Qed.
Lemma piece_nonempty : forall st x st', piece st x st' -> x <> [].
Proof. intros st x st' H E. subst x. destruct H; try discriminate. destruct (aside_head _ H). discriminate. Qed.
Lemma v_loop_total : forall f st, len (v_rest st) < f -> exists x, v_loop f st = Some x.
Proof.
  induction f as [|f IH]; intros st L; [lia|]. cbn [v_loop]. pose proof (skip_ws_le (v_rest st)) as W. destruct (skip_ws (v_rest st)) as [|c s1]; eauto.
  cbn [List.length] in W. destruct (Ascii.eqb_spec c "<") as [->|N].
  - destruct (v_tag st ("<"%char :: s1) s1) as [e|st1] eqn:T; eauto. destruct (v_tag_sound _ _ _ _ T) as [x [E P]]. apply piece_nonempty in P.
    apply IH. apply (f_equal (@List.length ascii)) in E. rewrite app_length in E. destruct x; [contradiction|]. cbn [List.length] in E. lia.
  - destruct (negb (v_root_found st) || v_root_closed st); eauto. apply IH. cbn [v_rest]. lia.
Qed.
(** What the loop yields, for any fuel that suffices. *)
Definition yields (st : vstate) (x : verr + vstate) : Prop := exists f, v_loop f st = Some x.
Lemma yields_eq : forall st x y f, yields st x -> v_loop f st = Some y -> y = x.
Proof.
  intros st x y f [f' H] H2. destruct (Nat.le_ge_cases f f') as [L|L].
  - rewrite (v_loop_mono _ _ _ _ H2 L) in H. now injection H.
  - rewrite (v_loop_mono _ _ _ _ H L) in H2. now injection H2.
Qed.
Lemma yields_blank : forall c s stack found closed x, blank c -> yields (mkV s stack found closed) x -> yields (mkV (c :: s) stack found closed) x.
Proof.
  intros c s stack found closed x B [f H]. exists f. destruct f as [|f]; [discriminate|]. cbn [v_loop v_rest] in *. cbn [skip_ws].
  rewrite (proj2 (ws_blank c) B). cbn [v_stack v_root_found v_root_closed] in *. exact H.
Qed.
Lemma v_tag_same : forall s stack found closed s' t r, v_tag (mkV s stack found closed) t r = v_tag (mkV s' stack found closed) t r.
Proof.
  intros. unfold v_tag, v_open, v_close, v_with_rest. cbn [v_stack v_root_found v_root_closed]. reflexivity.
Qed.
Lemma yields_tag : forall s stack found closed st' x, v_tag (mkV ("<"%char :: s) stack found closed) ("<"%char :: s) s = inr st' -> yields st' x ->
  yields (mkV ("<"%char :: s) stack found closed) x.
Proof.
  intros s stack found closed st' x H [f Y]. exists (S f). cbn [v_loop v_rest]. rewrite skip_ws_none by (intros B; apply (blank_eq _ "<" B); cbn; auto).
  change (Ascii.eqb "<" "<") with true. cbn iota. now rewrite H.
Qed.
Lemma yields_char : forall c s stack x, c <> "<"%char -> yields (mkV s stack true false) x -> yields (mkV (c :: s) stack true false) x.
Proof.
  intros c s stack x N Y. destruct (is_ws c) eqn:W; [apply yields_blank; auto; now apply ws_blank|]. destruct Y as [f Y]. exists (S f).
  cbn [v_loop v_rest]. rewrite skip_ws_none by (intros B; apply ws_blank in B; congruence). apply ascii_eqb_false in N. rewrite N. exact Y.
Qed.
Lemma v_loop_complete : forall found open s, accepted found open s -> forall stack closed, map fst stack = open -> inv (mkV s stack found closed) ->
  exists st', yields (mkV s stack found closed) (inr st') /\ v_stack st' = [] /\ v_root_found st' = true.
Proof.
  induction 1 as [|found open c s B A IH|found open c s NE NA A IH|found open m s M A IH|found open n k a s N K L T A IH|found open n k a s N K L T A IH|found open n w s W A IH];
    intros stack closed ST I; assert (I' := I); destruct I' as [I1 I2 I0 I3]; cbn [v_stack v_root_found v_root_closed] in *.
  - destruct stack; [|discriminate]. eexists. split; [exists 1; reflexivity|]. auto.
  - destruct (IH stack closed ST) as [st' [Y Q]]; [constructor; auto|]. exists st'. split; auto. now apply yields_blank.
  - destruct (IH stack closed ST) as [st' [Y Q]]; [constructor; auto|]. exists st'. split; auto.
    destruct I1 as [-> ->]; [intros ->; cbn [map] in ST; congruence|]. now apply yields_char.
  - destruct (IH stack closed ST) as [st' [Y Q]]; [constructor; auto|]. exists st'. split; auto. destruct (aside_head m M) as [m' ->].
    cbn [app]. eapply yields_tag; [apply v_tag_aside; exact M|]. exact Y.
  - assert (TG : v_tag (mkV ("<"%char :: n ++ a ++ ">"%char :: s) stack found closed) ("<"%char :: n ++ a ++ ">"%char :: s) (n ++ a ++ ">"%char :: s) =
      inr (mkV s ((n, "<"%char :: n ++ a ++ ">"%char :: s) :: stack) true (if found && (match stack with [] => true | _ => false end) && closed then false else closed))).
    { rewrite tag_char by auto. change (">"%char :: s) with (bs ">" ++ s) at 3. pose proof (v_open_complete (mkV ("<"%char :: n ++ a ++ ">"%char :: s) stack found closed)
        ("<"%char :: n ++ a ++ ">"%char :: s) n k a false s N K T) as V. cbn iota in V. rewrite V. cbn [v_stack v_root_found v_root_closed].
      rewrite (proj2 (Nat.leb_gt 100 (len stack))); [reflexivity|]. now rewrite <- (map_length fst), ST. }
    destruct (v_tag_sound _ _ _ _ TG) as [x [_ P]].
    edestruct IH as [st' [Y Q]]; [|exact (piece_inv _ _ _ P I)|]; [cbn [map fst]; now rewrite ST|]. exists st'. split; auto. eapply yields_tag; eauto.
  - assert (TG : v_tag (mkV ("<"%char :: n ++ a ++ "/"%char :: ">"%char :: s) stack found closed) ("<"%char :: n ++ a ++ "/"%char :: ">"%char :: s) (n ++ a ++ "/"%char :: ">"%char :: s) =
      inr (mkV s stack true (match stack with [] => true | _ => closed end))).
    { rewrite tag_char by auto. change ("/"%char :: ">"%char :: s) with (bs "/>" ++ s) at 3. pose proof (v_open_complete (mkV ("<"%char :: n ++ a ++ "/"%char :: ">"%char :: s) stack found closed)
        ("<"%char :: n ++ a ++ "/"%char :: ">"%char :: s) n k a true s N K T) as V. cbn iota in V. rewrite V. cbn [v_stack v_root_found v_root_closed].
      rewrite (proj2 (Nat.leb_gt 100 (len stack))); [reflexivity|]. now rewrite <- (map_length fst), ST. }
    destruct (v_tag_sound _ _ _ _ TG) as [x [_ P]].
    destruct (IH _ _ ST (piece_inv _ _ _ P I)) as [st' [Y Q]]. exists st'. split; auto. eapply yields_tag; eauto.
  - destruct stack as [|[o t0] stack]; [discriminate|]. cbn [map fst] in ST, I3. injection ST as -> ST. inversion I3 as [|? ? N N3]; subst.
    assert (TG : v_tag (mkV ("<"%char :: "/"%char :: n ++ w ++ ">"%char :: s) ((n, t0) :: stack) found closed) ("<"%char :: "/"%char :: n ++ w ++ ">"%char :: s) ("/"%char :: n ++ w ++ ">"%char :: s) =
      inr (mkV s stack found (match stack with [] => true | _ => closed end))).
    { cbn [v_tag]. change (Ascii.eqb "/" "?") with false. change (Ascii.eqb "/" "!") with false. change (Ascii.eqb "/" "/") with true. cbn iota.
      now apply v_close_complete with (t0 := t0). }
    destruct (v_tag_sound _ _ _ _ TG) as [x [_ P]].
    destruct (IH _ _ eq_refl (piece_inv _ _ _ P I)) as [st' [Y Q]]. exists st'. split; auto. eapply yields_tag; eauto.
Qed.
Lemma inv_init : forall s, inv (mkV s [] false false).
Proof. intros s. constructor; cbn [v_stack v_root_found v_root_closed map]; auto; try discriminate. Qed.
Lemma accepted_nonempty : ~ accepted false [] [].
Proof. intros H. inversion H; try discriminate. match goal with K : aside _ |- _ => destruct (aside_head _ K) as [m' ->] end. discriminate. Qed.
Lemma valid_accepted : forall s, valid s = true <-> accepted_document s.
Proof.
  intros s. unfold valid, validate, accepted_document. change MaxDocumentSize with 10485760%N. destruct (N.ltb_spec 10485760 (blen s)) as [L|L].
  { split; [discriminate|]. intros [_ H]. unfold blen in L. lia. }
  destruct s as [|c s].
  { split; [discriminate|]. intros [H _]. now apply accepted_nonempty in H. }
  remember (c :: s) as d. clear Heqd. destruct (v_loop_total (S (len d)) (mkV d [] false false)) as [x V]; [cbn [v_rest]; lia|]. rewrite V. split.
  - intros H. destruct x as [e|st]; [discriminate|]. unfold v_finish in H. destruct (v_stack st) as [|[n t] r] eqn:ST; [|discriminate].
    destruct (v_root_found st) eqn:F; [|discriminate]. split; [|exact L].
    exact (v_loop_sound _ _ _ V ST F (inv_init d)).
  - intros [A _]. destruct (v_loop_complete _ _ _ A [] false eq_refl (inv_init d)) as [st' [Y [ST F]]].
    rewrite (yields_eq _ _ _ _ Y V). unfold v_finish. now rewrite ST, F.
Qed.
