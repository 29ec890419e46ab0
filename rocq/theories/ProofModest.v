(** Lemmas for C79: what is true of the values in every answer. *)
From Coq Require Import List Ascii String NArith ZArith Bool Lia SpecFloat Permutation.
From Verif Require Import GoStr ModelParser ModelPath ModelResult SpecText SpecPath SpecTree SpecContent SpecFilter SpecGrammar SpecScan SpecAnswer SpecModest
  ProofBase ProofScan ProofFuel ProofPlain3 ProofShape.
Import ListNotations.

Section Values.
  Variable sight : bytes -> list elem -> Prop.
  Variable pf : bytes -> option f64.
  Variable mods : bytes -> option (result -> result).
  Variable P : result -> Prop.
  Definition seen (e : elem) : Prop := exists s es, sight s es /\ In e es.
  Definition single (r : result) : Prop := P r /\ r_type r <> RNull /\ r_type r <> RArray.
  Definition proper_answer (r : result) : Prop := r = null \/ single r \/ exists l, r = array l /\ Forall single l.
  Hypothesis Pattr : forall e y v, seen e -> In (y, v) (e_attrs e) -> P (attribute v).
  Hypothesis Pelem : forall e r, element_of e r -> P r.
  Hypothesis Ptext : forall e r, text_of e r -> P r.
  Hypothesis Ptrim : forall e t u, own_chars (e_content e) t -> Decodes (trim_space t) u -> P (mkR RString (trim_space t) u nil_num []).
  Hypothesis Pnum : forall n, 1 <= n <= 1000 -> P (number n).

  Lemma single_attr : forall e y v, seen e -> In (y, v) (e_attrs e) -> single (attribute v).
  Proof. intros e y v S I. split; [eapply Pattr; eauto|split; discriminate]. Qed.
  Lemma single_elem : forall e r, element_of e r -> single r.
  Proof. intros e r H. split; [eapply Pelem; eauto|]. destruct H as (t & u & _ & _ & ->). split; discriminate. Qed.
  Lemma single_text : forall e r, text_of e r -> single r.
  Proof. intros e r H. split; [eapply Ptext; eauto|]. destruct H as (t & u & _ & _ & ->). split; discriminate. Qed.
  Lemma proper_one : forall r, single r -> proper_answer r.
  Proof. intros r H. right. now left. Qed.
  Lemma proper_list : forall l, Forall single l -> proper_answer (array l).
  Proof. intros l H. right. right. eauto. Qed.
  Lemma proper_null : proper_answer null.
  Proof. now left. Qed.
  Lemma proper_bundle : forall l, Forall single l -> proper_answer (bundle l).
  Proof. intros [|x [|y l]] H; [apply proper_list; constructor|apply proper_one; now inversion H|now apply proper_list]. Qed.
  Lemma values_single : forall r, proper_answer r -> Forall single (values r).
  Proof.
    intros r [->|[S|(l & -> & F)]]; [constructor| |exact F]. destruct S as (p & N1 & N2). unfold values.
    destruct (r_type r) eqn:T; try congruence; constructor; auto; (split; [exact p|split; congruence]).
  Qed.
  Lemma modified_nil : forall r r', modified mods [] r r' -> r' = r.
  Proof. intros r r' H. inversion H as [r2 L T|L]; subst; [now inversion T|cbn in L; lia]. Qed.
  Lemma collected_proper : forall l r, Forall single l -> collected mods [] l r -> proper_answer r.
  Proof. intros l r F [[_ ->]|[_ M]]; [apply proper_null|]. apply modified_nil in M. subst. now apply proper_bundle. Qed.
  Lemma elements_single : forall l rs, Forall2 element_of l rs -> Forall single rs.
  Proof. induction 1; constructor; auto. eapply single_elem; eauto. Qed.
  Lemma texts_single : forall l rs, Forall2 text_of l rs -> Forall single rs.
  Proof. induction 1; constructor; auto. eapply single_text; eauto. Qed.
  Lemma only_in : forall A (Q : A -> Prop) l l', only Q l l' -> incl l' l.
  Proof. induction 1; intros y I; [exact I| |right; auto]. destruct I as [<-|I]; [now left|right; auto]. Qed.
  Lemma concat_single : forall ls, Forall (Forall single) ls -> Forall single (List.concat ls).
  Proof. induction 1; [constructor|]. cbn [List.concat]. apply Forall_app. auto. Qed.

  Section Dialect.
    Variable D : dialect.
    Variables below tested : bytes -> list (gstep * list bytes) -> result -> Prop.
    Definition bare (l : list (gstep * list bytes)) : Prop := Forall (fun st => snd st = []) l.
    Hypothesis IHb : forall s l r, bare l -> below s l r -> proper_answer r.
    Lemma plainly_nil : forall r r', modified_plainly mods D [] r r' -> r' = r.
    Proof. intros r r' H. unfold modified_plainly in H. destruct D; [now apply modified_nil|exact H]. Qed.
    Lemma attr_single : forall e x v, seen e -> has_attr D x e (Some v) -> single (attribute v).
    Proof. intros e x v S (y & I & _). eapply single_attr; eauto. Qed.
    Lemma attrs_single : forall l x vss, Forall seen l -> Forall2 (has_attrs D x) l vss -> Forall single (map attribute (List.concat vss)).
    Proof.
      intros l x vss S H. revert S. induction H as [|e vs l vss H F IH]; intros S; [constructor|]. inversion S; subst. cbn [List.concat]. rewrite map_app.
      apply Forall_app. split; [|auto]. destruct H as (m & m' & M1 & M2 & ->). apply Forall_forall. intros r I. apply in_map_iff in I as (v & <- & I).
      apply in_map_iff in I as ([y w] & <- & I). apply only_in in M2. apply M2 in I. eapply single_attr; [eassumption|].
      eapply Permutation_in; [apply Permutation_sym; exact M1|exact I].
    Qed.
    Lemma belows_single : forall rest l rs, bare rest -> Forall2 (fun e => below (e_content e) rest) l rs -> Forall single (List.concat (map values rs)).
    Proof.
      intros rest l rs B H. induction H as [|e r l rs H F IH]; [constructor|]. cbn [map List.concat]. apply Forall_app. split; auto. apply values_single. eapply IHb; eauto.
    Qed.
    Lemma field_single : forall f e rs, seen e -> field_values sight D f e rs -> Forall single rs.
    Proof.
      intros f e rs S H. destruct H as [x e o H|e t u H N Dc|e t H N|n e es l rs N1 N2 H O F].
      - destruct o as [v|]; [|constructor]. constructor; [|constructor]. eapply attr_single; eauto.
      - constructor; [|constructor]. split; [eapply Ptrim; eauto|split; discriminate].
      - constructor.
      - eapply elements_single; eauto.
    Qed.
    Lemma firstn_single : forall n l, Forall single l -> Forall single (firstn n l).
    Proof. intros n l H. apply Forall_forall. intros x I. rewrite Forall_forall in H. apply H. rewrite <- (firstn_skipn n l). apply in_or_app. now left. Qed.
    Lemma fields_proper : forall f l r, Forall seen l -> fields sight mods D f [] l r -> proper_answer r.
    Proof.
      intros f l r S H. inversion H as [rss F N|rss r' F N M]; subst; [apply proper_list; constructor|]. apply modified_nil in M. subst.
      apply proper_list, firstn_single, concat_single. clear N H. revert S. induction F as [|e rs l rss H F IH]; intros S; constructor; inversion S; subst; auto.
      eapply field_single; eauto.
    Qed.
    Lemma entry_proper : forall e x o, seen e -> has_attr D x e o -> proper_answer (entry_or_null o).
    Proof. intros e x [v|] S H; [apply proper_one; eapply attr_single; eauto|apply proper_null]. Qed.
    Lemma leaf_proper : forall e l r, seen e -> bare l -> leaf mods D e l r -> proper_answer r.
    Proof.
      intros e l r S B H. inversion H as [e' x ms o A r' N1 N2|e' x ms st more|e' ms more r1 r' T M]; subst; inversion B; cbn [snd] in *; subst.
      - destruct o as [v|]; [|rewrite (N1 eq_refl); apply proper_null]. assert (Q : Some v <> None) by discriminate. apply N2, plainly_nil in Q. subst.
        eapply entry_proper; eauto.
      - apply proper_null.
      - apply plainly_nil in M. subst. eapply proper_one, single_text; eauto.
    Qed.
    Lemma way_proper : forall rest l r, bare rest -> first_way below rest l r -> proper_answer r.
    Proof. intros rest l r B H. induction H; [apply proper_null|eapply IHb; eauto|auto]. Qed.
    Lemma one_proper : forall e l r, seen e -> bare l -> one sight mods D below [] e l r -> proper_answer r.
    Proof.
      intros e l r S B H.
      inversion H as [r1 r' A M|x ms' more o r' A N1 N2|ms' more r1 r' A M|f ms' more r' F|st ms' more r' Dp Bl]; subst; try (inversion B; cbn [snd] in *; subst).
      - apply modified_nil in M. subst. eapply proper_one, single_elem; eauto.
      - destruct o as [v|]; [|rewrite (N1 eq_refl); apply proper_null]. assert (Q : Some v <> None) by discriminate. apply N2, modified_nil in Q. subst. eapply entry_proper; eauto.
      - apply modified_nil in M. subst. eapply proper_one, single_text; eauto.
      - eapply fields_proper; [|exact F]. constructor; auto.
      - eapply IHb; [|exact Bl]. constructor; auto.
    Qed.
    Lemma every_proper : forall l rest r, Forall seen l -> bare rest -> every sight mods D below [] l rest r -> proper_answer r.
    Proof.
      intros l rest r S B H.
      inversion H as [rs r' A M|x ms' more vss r' A C|ms' more rs r' A C|f ms' more r' F|st ms' more rs r' Dp Bl C]; subst; try (inversion B; cbn [snd] in *; subst).
      - apply modified_nil in M. subst. apply proper_list. eapply elements_single; eauto.
      - eapply collected_proper; [|exact C]. eapply attrs_single; eauto.
      - eapply collected_proper; [|exact C]. eapply texts_single; eauto.
      - eapply fields_proper; eauto.
      - eapply collected_proper; [|exact C]. eapply belows_single; [|exact Bl]; constructor; auto.
    Qed.
    Lemma routed_proper : forall all rest l r, Forall seen l -> bare rest -> routed sight mods D below all [] rest l r -> proper_answer r.
    Proof.
      intros all rest l r S B H. inversion H as [|e l' r' A O|e l' r' A O]; subst; [apply proper_null| |].
      - inversion S; subst. eapply one_proper; eauto.
      - eapply every_proper; eauto.
    Qed.
    Lemma spread_proper : forall l rest r, Forall seen l -> bare rest -> spread mods D below [] l rest r -> proper_answer r.
    Proof.
      intros l rest r S B H.
      inversion H as [rs r' A M|x ms' vss r' A C|x ms' st more|ms' more rs r' A C|st ms' more rs r' Dp Bl N C|st ms' more rs W Dp Bl N X]; subst; try (inversion B; cbn [snd] in *; subst).
      - apply plainly_nil in M. subst. apply proper_bundle. eapply elements_single; eauto.
      - eapply collected_proper; [|exact C]. eapply attrs_single; eauto.
      - apply proper_null.
      - eapply collected_proper; [|exact C]. eapply texts_single; eauto.
      - eapply collected_proper; [|exact C]. eapply belows_single; [|exact Bl]; constructor; auto.
      - apply proper_list. constructor.
    Qed.
    Lemma adds_single : forall e rest rs, seen e -> bare rest -> adds sight mods D below e rest rs -> Forall single rs.
    Proof.
      intros e rest rs S B H.
      inversion H as [r A|x ms vs A|x ms st more|ms more r A|f ms more r W F|st ms more r Dp Bl]; subst; try (inversion B; cbn [snd] in *; subst).
      - constructor; [|constructor]. eapply single_elem; eauto.
      - assert (G : Forall2 (has_attrs D x) [e] [vs]) by (constructor; auto). apply attrs_single in G; [|constructor; auto]. cbn [List.concat] in G. now rewrite app_nil_r in G.
      - constructor.
      - constructor; [|constructor]. eapply single_text; eauto.
      - assert (Q : proper_answer r) by (eapply fields_proper; [|exact F]; constructor; auto). apply values_single in Q. unfold values in Q. destruct (r_type r); auto; constructor.
      - apply values_single. eapply IHb; [|exact Bl]. constructor; auto.
    Qed.
    Definition known (t : bytes + list elem) : Prop := match t with inl _ => True | inr es => Forall seen es end.
    Lemma search_single : forall st rest, bare rest ->
      (forall k t a b, search sight mods D below st rest k t a b -> known t -> Forall single (snd a) -> Forall single (snd b)) /\
      (forall k e a b, visited sight mods D below st rest k e a b -> seen e -> Forall single (snd a) -> Forall single (snd b)).
    Proof.
      intros st rest B. apply search_both; cbn [snd known]; intros; auto.
      - apply H3; auto. apply Forall_forall. intros e I. eexists _, _. eauto.
      - inversion H2; subst. eauto.
      - inversion H4; subst. eauto.
      - inversion H7; subst. apply H6; auto. apply Forall_app. split; [apply H0; auto|]. eapply adds_single; eauto.
      - inversion H5; subst. apply H4; auto.
    Qed.
    Lemma sifted_in : forall J n l l', sifted J n l l' -> incl l' l.
    Proof. induction 1; intros y I; auto; try (now destruct I); [right; auto|destruct I as [<-|I]; [now left|right; auto]]. Qed.
    Lemma numbered_proper : forall i l rest r, Forall seen l -> bare rest -> numbered mods D below i [] l rest r -> proper_answer r.
    Proof.
      intros i l rest r S B H.
      assert (G : forall e, at_place l i e -> seen e) by (intros e [_ I]; apply nth_error_In in I; rewrite Forall_forall in S; auto).
      inversion H as [more N|e r1 r' A O M|e x ms' o r' A Ho N1 N2|e x ms' st more o A Ho|e st ms' more r' A N Bl]; subst; [apply proper_null|..]; try (inversion B; cbn [snd] in *; subst).
      - apply plainly_nil in M. subst. eapply proper_one, single_elem; eauto.
      - destruct o as [v|]; [|rewrite (N1 eq_refl); apply proper_null]. assert (Q : Some v <> None) by discriminate. apply N2, plainly_nil in Q. subst. eapply entry_proper; eauto.
      - eapply entry_proper; eauto.
      - eapply IHb; [|exact Bl]. constructor; auto.
    Qed.
    Lemma roots_proper : forall i l rest r, Forall seen l -> bare rest -> root_numbered below i l rest r -> proper_answer r.
    Proof.
      intros i l rest r S B H.
      assert (G : forall e, at_place l i e -> seen e) by (intros e [_ I]; apply nth_error_In in I; rewrite Forall_forall in S; auto).
      inversion H as [more N|e r' A O|e x ms' more o A Ho|e ms' more r' A T|e st ms' more r' A N Bl]; subst; [apply proper_null|..]; try (inversion B; cbn [snd] in *; subst).
      - eapply proper_one, single_elem; eauto.
      - destruct o as [v|]; [|apply proper_null]. cbn [entry_or_null attr_exactly] in *. eapply proper_one, single_attr; eauto.
      - eapply proper_one, single_text; eauto.
      - eapply IHb; [|exact Bl]. constructor; auto.
    Qed.
    Lemma answer_proper : forall top s l r, bare l -> answer sight pf mods D below tested top s l r -> proper_answer r.
    Proof.
      intros top s l r B H.
      assert (K : forall es, sight s es -> Forall seen es) by (intros es S; apply Forall_forall; intros e I; exists s, es; auto).
      assert (KI : forall l l' : list elem, incl l' l -> Forall seen l -> Forall seen l') by (intros a b I F; rewrite Forall_forall in *; auto).
      assert (KF : forall n (l : list elem), Forall seen l -> Forall seen (firstn n l)).
      { intros n a F. eapply KI; [|exact F]. intros x I. rewrite <- (firstn_skipn n a). apply in_or_app. now left. }
      assert (KN : forall l : list elem, l <> [] -> 1 <= len (firstn 1000 l) <= 1000).
      { intros a N. rewrite firstn_length. destruct a; [congruence|]. cbn [List.length]. lia. }
      assert (KO : forall (Q : elem -> Prop) es l, sight s es -> only Q es l -> Forall seen l) by (intros Q es a S O; eapply KI; [eapply only_in; exact O|auto]).
      assert (KJ : forall J n l l', sifted J n l l' -> Forall seen l -> Forall seen l') by (intros J n a b F; apply KI; eapply sifted_in; exact F).
      assert (T : forall st (a : list (gstep * list bytes)), bare (st :: a) -> snd st = [] /\ bare a) by (intros st a F; inversion F; auto).
      destruct H as [|n ms rest es S F R|n ms es e l r r' S O E M|n ms st ms' more es e l r S O L|n ms st ms' more es l r S O K2 W
        |n ms all p op v ms' more es l l' r S O F R|n ms f ms' more es l r Tp S O F|n ms ms' more es l r Tp S O N1 N2|n ms i ms' more es l r Tp S O R
        |n ms st ms' more es Tp Sp S F|n ms f ms' more es l r Tp S O N F|n ms ms' more es l Tp S O N|n ms i ms' more es l r Tp S O N R
        |all p op v ms rest es l r S F R|f ms rest|st ms rest K2|ms rest S|ms rest es r S N R|ms|ms st ms' rest z R];
        repeat match goal with X : bare (_ :: _) |- _ => let a := fresh "B" in apply T in X as [a X]; cbn [snd] in a; subst end; try apply proper_null.
      - apply plainly_nil in M. subst. eapply proper_one, single_elem; eauto.
      - pose proof (KO _ _ _ S O) as G. inversion G; subst. eapply leaf_proper; [eassumption| |exact L]. constructor; auto.
      - eapply way_proper; [|exact W]. constructor; auto.
      - eapply routed_proper; [|exact B|exact R]. eapply KJ; [exact F|]. apply KF. eauto.
      - eapply fields_proper; [|exact F]. apply KF. eauto.
      - destruct l as [|e l]; [rewrite N1 by reflexivity; apply proper_null|]. assert (Q : e :: l <> []) by discriminate. specialize (N2 Q). apply plainly_nil in N2. subst.
        apply proper_one. split; [apply Pnum, KN, Q|split; discriminate].
      - eapply numbered_proper; [|exact B|exact R]. apply KF. eauto.
      - eapply fields_proper; [|exact F]. apply KF. eauto.
      - apply proper_one. split; [apply Pnum, KN, N|split; discriminate].
      - eapply roots_proper; [|exact B|exact R]. apply KF. eauto.
      - eapply routed_proper; [|exact B|exact R]. eapply KJ; [exact F|]. auto.
      - apply proper_list. constructor.
      - eapply spread_proper; [|exact B|exact R]. apply KF. auto.
      - pose proof (proj1 (search_single st rest B) _ _ _ _ R I (Forall_nil _)) as G. destruct (snd z) as [|x a]; [apply proper_null|]. apply proper_bundle. exact G.
    Qed.
  End Dialect.
  Lemma answers_proper : forall k D top s l r, bare l -> answers sight pf mods k D top s l r -> proper_answer r.
  Proof.
    induction k; intros D top s l r B H; [contradiction|]. cbn [answers] in H. eapply answer_proper; [|exact B|exact H]. intros s' l' r' B' H'. eapply IHk; eauto.
  Qed.
End Values.

(** ** Attributes *)
Lemma cut_len : forall P s t r, cut P s t r -> (N.of_nat (len t) <= 1048577)%N.
Proof. intros P s t r [t' r' _ L _|t' _ L|t' r' _ _ _]; cbn [List.length]; lia. Qed.
Lemma attributes_modest : forall k s l r, attributes k s l r -> len l <= k /\ Forall (fun a => (N.of_nat (len (snd a)) <= 1048577)%N) l.
Proof.
  induction 1 as [s r G|k s r G O|k s s1 r G N1 N2 C|k s s1 x s2 r G N1 C N2 G2 N3|k s s1 x s2 s3 q s4 v s5 d l r G N1 C N2 G2 G3 Q C2 D A [IH1 IH2]
    |k s s1 x s2 s3 s4 v s5 d l r G N1 C N2 G2 G3 Q C2 D A [IH1 IH2]]; cbn [List.length]; split; auto; try lia; constructor; auto; cbn [snd];
    apply cut_len in C2; apply decodes_length in D; unfold bytes in *; lia.
Qed.
Lemma settled_modest : forall l m, settled l m -> len m <= len l /\ forall a, In a m -> In a l.
Proof.
  intros l m [N H]. assert (G : forall a, In a m -> In a l).
  { intros [x v] I. apply H in I as (a & b & -> & _). apply in_or_app. right. now left. }
  split; [|exact G]. rewrite <- (map_length fst m), <- (map_length fst l). apply NoDup_incl_length; [exact N|].
  intros x I. apply in_map_iff in I as (a & <- & I). apply in_map. auto.
Qed.
Definition modest_elem (e : elem) : Prop :=
  len (e_attrs e) <= 100 /\ NoDup (map fst (e_attrs e)) /\ Forall (fun a => (N.of_nat (len (snd a)) <= 1048577)%N) (e_attrs e).
Lemma tag_modest : forall s n m self gt r, tag s n m self gt r ->
  len m <= 100 /\ NoDup (map fst m) /\ Forall (fun a => (N.of_nat (len (snd a)) <= 1048577)%N) m.
Proof.
  intros s n m self gt r [s' n' s1 l s2 m' self' s3 gt' r' C A S _ _]. apply attributes_modest in A as [A1 A2]. pose proof (settled_modest _ _ S) as [B1 B2].
  split; [eapply Nat.le_trans; eassumption|]. split; [apply S|]. rewrite Forall_forall in *. auto.
Qed.
Lemma sees_modest : forall s l, sees s l -> Forall modest_elem l.
Proof. induction 1 as [s L|s s1 n m gt r l L T S IH|s s1 n m gt r t r' l L T I S IH]; constructor; auto; apply tag_modest in T; exact T. Qed.

(** ** Text *)
Lemma chars_len : forall P p s t, chars P p s t -> len t <= len s.
Proof. induction 1; cbn [List.length]; lia. Qed.
Lemma text_len : forall P s t u, chars P [] s t -> Decodes (trim_space t) u -> len u <= len s.
Proof. intros P s t u H D. apply chars_len in H. apply decodes_length in D. pose proof (trim_space_len t). unfold bytes in *. lia. Qed.

(** ** Numbers *)
Definition float_b (n : nat) : bool :=
  match f64_of_Z (Z.of_nat n) with
  | S754_finite false m e => valid_binary 53 1024 (S754_finite false m e) && (Z.of_nat n * 2 ^ (Z.max 0 (- e)) =? Zpos m * 2 ^ (Z.max 0 e))%Z
  | _ => false
  end.
Lemma floats : forallb float_b (seq 1 1000) = true.
Proof. vm_compute. reflexivity. Qed.
Lemma float_of : forall n, 1 <= n <= 1000 -> is_float (f64_of_Z (Z.of_nat n)) (Z.of_nat n).
Proof.
  intros n L. pose proof floats as F. rewrite forallb_forall in F. specialize (F n). unfold float_b in F.
  assert (I : In n (seq 1 1000)) by (apply in_seq; lia). apply F in I. destruct (f64_of_Z (Z.of_nat n)) as [| | |s m e]; try discriminate.
  destruct s; [discriminate|]. apply andb_true_iff in I as [V I]. apply Z.eqb_eq in I. split; [exact V|]. exists m, e. auto.
Qed.

(** ** Answers *)
Lemma answers_modest : forall pf mods k D top s l r, bare l -> answers sees pf mods k D top s l r -> modest_answer r.
Proof.
  intros pf mods k D top s l r B H. apply answers_proper with (P := modest) in H; [| | | | | |exact B].
  - destruct H as [->|[(M & N1 & N2)|(a & -> & F)]]; cbn; auto.
    + unfold modest_answer. destruct (r_type r); auto; contradiction.
    + split; auto. eapply Forall_impl; [|exact F]. intros x (M & _). exact M.
  - intros e y v (t & es & S & I) J. apply sees_modest in S. rewrite Forall_forall in S. apply S in I as (_ & _ & F). rewrite Forall_forall in F. apply F in J. cbn. auto.
  - intros e x (t & u & C & Dc & ->). cbn. split; auto. eapply text_len; eauto.
  - intros e x (t & u & C & Dc & ->). cbn. split; auto. eapply text_len; eauto.
  - intros e t u C Dc. cbn. split; auto. now apply decodes_length.
  - intros n L. cbn. exists n. pose proof (float_of n L). apply conj; [exact L|]. apply conj; [reflexivity|]. auto.
Qed.

(** ** One element *)
Lemma first_same : forall D n es es', Forall2 same_elem es es' -> forall e l e' l', only (bears D n) es (e :: l) -> only (bears D n) es' (e' :: l') -> same_elem e e'.
Proof.
  intros D n es es' H. induction H as [|x y es es' H F IH]; intros e l e' l' O O'; [inversion O|].
  assert (W : bears D n x <-> bears D n y) by (destruct H as (N & _); unfold bears; rewrite N; tauto).
  inversion O; subst; inversion O'; subst; try tauto. eapply IH; eauto.
Qed.
Lemma attr_query : forall pf mods k s n x r, answers sees pf mods k Plain true s [(GName n, []); (GAttr x, [])] r -> r_type r <> RNull ->
  exists es e l, sees s es /\ only (bears Plain n) es (e :: l) /\ In x (map fst (e_attrs e)).
Proof.
  intros pf mods k s n x r H N. destruct k; [contradiction|]. cbn [answers] in H. inversion H; subst; try (cbn in N; congruence); try contradiction.
  match goal with X : leaf _ _ _ _ _ |- _ => inversion X; subst end. eexists _, _, _. split; [eassumption|]. split; [eassumption|].
  match goal with X : has_attr _ _ _ ?o |- _ => destruct o as [v|]; [destruct X as (y & I & Q)|exfalso] end.
  - cbn in Q. subst. apply in_map_iff. exists (x, v). auto.
  - apply N. match goal with X : None = None -> _ |- _ => rewrite X by reflexivity end. reflexivity.
Qed.

(** ** Conditions *)
Lemma condition_clean : forall e p op v, condition e (Test p op v) ->
  ~ In (ascii_of_N 0) p /\ (op <> OpExists -> ~ controlled p) /\ ~ controlled v.
Proof.
  intros e p op v H. inversion H; subst.
  - split; [intros I; apply trim_space_in in I; contradiction|]. split; [congruence|]. intros (c & [] & _).
  - assert (C : ~ controlled (trim_space p0)) by (intros (c & I & J); apply trim_space_in in I; match goal with X : ~ controlled p0 |- _ => apply X end; exists c; auto).
    split; [|auto]. intros I. apply C. exists (ascii_of_N 0). split; auto. now left.
Qed.
Lemma head_clean : forall h all p op v, head h (Meant (GWhere all p op v)) -> exists e, condition e (Test p op v).
Proof. intros h all p op v H. inversion H; subst; match goal with X : SpecGrammar.judged _ ?t = _ |- _ => destruct t; [injection X as <- <- <- <-|discriminate..] end; eauto. Qed.
Lemma steps_clean : forall l o, steps_of l o -> forall k, o = Some (Some k) -> forall all p op v ms, In (GWhere all p op v, ms) k -> exists e, condition e (Test p op v).
Proof.
  induction 1 as [|x ms l o P S IH|x ms l P|x ms l P|x st ms l o P S IH]; intros k Q all p op v ms' I; try discriminate.
  - injection Q as <-. destruct I.
  - eapply IH; eauto.
  - destruct o as [[k0|]|]; try discriminate. injection Q as <-. destruct I as [I|I]; [|eapply IH; eauto]. injection I as -> ->. inversion P; subst. eapply head_clean; eauto.
Qed.
Lemma extracted_where : forall l l', extracted l l' -> forall all p op v ms, In (GWhere all p op v, ms) l' -> In (GWhere all p op v, ms) l.
Proof.
  induction 1 as [|ms st ms' f l l' F X IH|st ms l l' N X IH]; intros all p op v m I; auto.
  - destruct I as [I|I]; [discriminate|]. right. right. eauto.
  - destruct I as [I|I]; [now left|right; eauto].
Qed.
Lemma path_clean : forall path l all p op v ms, path_means path (Steps l) -> In (GWhere all p op v, ms) l ->
  ~ In (ascii_of_N 0) p /\ (op <> OpExists -> ~ controlled p) /\ ~ controlled v.
Proof.
  intros path l all p op v ms H I. inversion H; subst. eapply extracted_where in I; [|eassumption]. eapply steps_clean in I as (e & C); [|eassumption|reflexivity].
  eapply condition_clean; eauto.
Qed.
