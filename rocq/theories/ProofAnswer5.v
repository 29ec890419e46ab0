(** [SpecAnswer] leaves no choice when attributes have a fixed order. *)
From Coq Require Import List Ascii String NArith ZArith Bool Lia SpecFloat Permutation.
From Verif Require Import GoStr ModelParser ModelPath ModelResult ModelQuery ModelBuilder ModelQueryOpts SpecText SpecPath SpecTree SpecContent
  SpecFilter SpecGrammar SpecScan SpecAnswer ProofBase ProofScan ProofEscape ProofPath ProofFilter ProofFuel ProofGrammar2 ProofSight ProofSight2 ProofSight3 ProofAnswer
  ProofAnswer2.
Import ListNotations.

Lemma only_det : forall A (P : A -> Prop) l m, only P l m -> forall m', only P l m' -> m' = m.
Proof. induction 1 as [|x l l' Px H IH|x l l' Nx H IH]; intros m' H'; inversion H'; subst; auto; try contradiction. f_equal; auto. Qed.
Lemma only_in : forall A (P : A -> Prop) l m, only P l m -> forall x, In x m <-> In x l /\ P x.
Proof.
  induction 1 as [|x l l' Px H IH|x l l' Nx H IH]; intros y; cbn [In]; rewrite ?IH; [tauto| |].
  - split; [intros [->|[? ?]]; auto|intros [[->|?] ?]; auto].
  - split; [intros [? ?]; auto|intros [[->|?] ?]; tauto].
Qed.
Lemma forall2_det : forall A B (P Q : A -> B -> Prop) (l : list A), (forall x y y', In x l -> P x y -> Q x y' -> y' = y) ->
  forall m m', Forall2 P l m -> Forall2 Q l m' -> m' = m.
Proof.
  induction l as [|x l IH]; intros H m m' A1 A2; inversion A1; inversion A2; subst; auto.
  f_equal; [eapply H; eauto; left; reflexivity|apply IH; auto]. intros z ya yb I. apply H. right; exact I.
Qed.
Lemma parted_det : forall n p l p' l', parted_name n p l -> parted_name n p' l' -> p' = p /\ l' = l.
Proof. intros n p l p' l' A B. apply parted_is in A. apply parted_is in B. rewrite A in B. injection B as -> ->. auto. Qed.
Lemma has_attr_det : forall D x e o o', strict D = true -> keyed e -> has_attr D x e o -> has_attr D x e o' -> o' = o.
Proof.
  intros D x e o o' S K A B. unfold has_attr in *.
  assert (FI : forall s, SpecAnswer.fold D s = s) by (intros s; rewrite fold_is, S; reflexivity).
  destruct o as [v|], o' as [v'|]; auto.
  - destruct A as (y & A1 & A2), B as (y' & B1 & B2). rewrite !FI in A2. rewrite !FI in B2. subst y y'.
    apply (ProofBase.map_get_nodup _ _ _ K) in A1. apply (ProofBase.map_get_nodup _ _ _ K) in B1. congruence.
  - destruct A as (y & A1 & A2). exfalso. exact (B _ _ A1 A2).
  - destruct B as (y & A1 & A2). exfalso. exact (A _ _ A1 A2).
Qed.
Lemma attr_exactly_det : forall x e o o', keyed e -> attr_exactly x e o -> attr_exactly x e o' -> o' = o.
Proof.
  intros x e o o' K A B. unfold attr_exactly in *. destruct o as [v|], o' as [v'|]; auto.
  - apply (ProofBase.map_get_nodup _ _ _ K) in A. apply (ProofBase.map_get_nodup _ _ _ K) in B. congruence.
  - exfalso. apply B. apply in_map_iff. exists (x, v). auto.
  - exfalso. apply A. apply in_map_iff. exists (x, v'). auto.
Qed.
Lemma has_attrs_det : forall D x e vs vs', strict D = true -> keyed e -> has_attrs D x e vs -> has_attrs D x e vs' -> vs' = vs.
Proof.
  intros D x e vs vs' S K. assert (X : forall vs, has_attrs D x e vs -> vs = match map_get x (e_attrs e) with Some v => [v] | None => [] end).
  { clear vs vs'. intros vs (m & m' & P & O & ->).
    assert (O' : only (fun a => fst a = x) m m').
    { eapply only_ext; [|exact O]. intros a. rewrite !fold_is, S. reflexivity. }
    assert (K' : NoDup (map fst m)) by (eapply Permutation_NoDup; [apply Permutation_map; exact P|exact K]).
    pose proof (only_det _ _ _ _ O' _ (only_key x m K')) as Q. subst m'.
    replace (map_get x (e_attrs e)) with (map_get x m). { destruct (map_get x m); reflexivity. }
    symmetry. apply ProofBase.map_get_perm; auto. }
  intros A B. rewrite (X _ A). now apply X.
Qed.

Section Det.
  Variable sight : bytes -> list elem -> Prop.
  Hypothesis sight_det : forall s l l', sight s l -> sight s l' -> l' = l.
  Hypothesis sight_keyed : forall s l, sight s l -> Forall keyed l.
  Variable pf : bytes -> option f64.
  Variable mods : bytes -> option (result -> result).

  Lemma through_det : forall ms r r1, through mods ms r r1 -> forall r2, through mods ms r r2 -> r2 = r1.
  Proof. induction 1; intros r2 H'; inversion H'; subst; auto; try congruence. apply IHthrough. congruence. Qed.
  Lemma modified_det : forall ms r r1 r2, modified mods ms r r1 -> modified mods ms r r2 -> r2 = r1.
  Proof. intros ms r r1 r2 A B. inversion A; inversion B; subst; auto; try lia. eapply through_det; eauto. Qed.

  Variable D : dialect.
  Hypothesis SD : strict D = true.
  Lemma plainly_det : forall ms r r1 r2, modified_plainly mods D ms r r1 -> modified_plainly mods D ms r r2 -> r2 = r1.
  Proof. intros ms r r1 r2. unfold modified_plainly. destruct D; [apply modified_det|congruence]. Qed.
  Lemma field_values_det : forall f e rs rs', keyed e -> field_values sight D f e rs -> field_values sight D f e rs' -> rs' = rs.
  Proof.
    intros f e rs rs' K A B. destruct A as [x e o A|e t u O N U|e t O N|n e es l rs N1 N2 S O F];
      inversion B as [x' e' o' A'|e' t' u' O' N' U'|e' t' O' N'|n' e' es' l' rs0 N1' N2' S' O' F']; subst;
      try discriminate; try (exfalso; eauto; congruence);
      try (pose proof (chars_det _ _ _ _ O _ O'); subst t'); try contradiction.
    - f_equal. exact (has_attr_det _ _ _ _ _ SD K A A').
    - now rewrite (decodes_fun _ _ U _ U').
    - reflexivity.
    - pose proof (sight_det _ _ _ S S'). subst es'. pose proof (only_det _ _ _ _ O _ O'). subst l'.
      eapply (forall2_det _ _ element_of element_of); [|exact F|exact F']. intros x y y' _. apply element_det.
  Qed.
  Lemma fields_det : forall f ms l r r', Forall keyed l -> fields sight mods D f ms l r -> fields sight mods D f ms l r' -> r' = r.
  Proof.
    intros f ms l r r' K A B.
    assert (X : forall a b, Forall2 (field_values sight D f) l a -> Forall2 (field_values sight D f) l b -> b = a).
    { apply forall2_det. intros x y y' I. apply field_values_det. exact (proj1 (Forall_forall _ _) K x I). }
    inversion A as [rss F E|rss r0 F E M]; inversion B as [rss' F' E'|rss' r0' F' E' M']; subst; auto;
      pose proof (X _ _ F F'); subst rss'; try congruence. eapply modified_det; eauto.
  Qed.
  Lemma collected_det : forall ms l r r', collected mods ms l r -> collected mods ms l r' -> r' = r.
  Proof. intros ms l r r' [[A1 A2]|[A1 A2]] [[B1 B2]|[B1 B2]]; try congruence. eapply modified_det; eauto. Qed.

  Variables B B' T T' : bytes -> steps -> result -> Prop.
  Hypothesis HB : forall s l r r', B s l r -> B' s l r' -> r' = r.
  Hypothesis HT : forall s l r r', T s l r -> T' s l r' -> r' = r.

  Lemma judged_det : forall p op v e b b', keyed e -> SpecAnswer.judged pf T p op v e b -> SpecAnswer.judged pf T' p op v e b' -> b' = b.
  Proof.
    intros p op v e b b' K A C.
    assert (X : forall P, (b = true <-> P) -> (b' = true <-> P) -> b' = b).
    { intros P [P1 P2] [P3 P4]. destruct b, b'; auto; first [tauto|symmetry; tauto]. }
    destruct A as [x o b P A Q|l r b N M A Q]; destruct C as [x' o' b' P' A' Q'|l' r' b' N' M' A' Q']; try (exfalso; eapply N; eauto; fail); try (exfalso; eapply N'; eauto; fail).
    - rewrite P in P'. injection P' as ->. pose proof (attr_exactly_det _ _ _ _ K A A'). subst o'. eapply X; eauto.
    - assert (L : l' = l).
      { destruct M as [M|[M ->]], M' as [M'|[M' ->]]; auto; pose proof (path_means_unique _ _ _ M M'); congruence. }
      subst l'. pose proof (HT _ _ _ _ A A'). subst r'. eapply X; eauto.
  Qed.
  Lemma sifted_det : forall (J J' : elem -> bool -> Prop) n l m, (forall e b b', In e l -> J e b -> J' e b' -> b' = b) -> sifted J n l m -> forall m', sifted J' n l m' -> m' = m.
  Proof.
    intros J J' n l m Q H. induction H as [n|l|n e l l' H1 H IH|n e l l' H1 H IH]; intros m' H'.
    - inversion H'; subst; reflexivity.
    - inversion H' as [| |n0 e l0 l1 A1 A2|]; subst; auto.
      assert (G : forall a b, sifted J' 0 a b -> b = []) by (clear; intros a b; remember 0%nat as k; induction 1; auto; try discriminate).
      eapply G; eauto.
    - inversion H' as [| |? ? ? ? A1 A2|? ? ? ? A1 A2]; subst.
      + assert (G : forall a b, sifted J 0 a b -> b = []) by (clear; intros a b; remember 0%nat as k; induction 1; auto; try discriminate).
        symmetry. eapply G; eauto.
      + apply IH; auto. intros; eapply Q; eauto. right; auto.
      + pose proof (Q e _ _ (or_introl eq_refl) H1 A1). discriminate.
    - inversion H' as [| |? ? ? ? A1 A2|? ? ? ? A1 A2]; subst.
      + pose proof (Q e _ _ (or_introl eq_refl) H1 A1). discriminate.
      + f_equal. apply IH; auto. intros; eapply Q; eauto. right; auto.
  Qed.
  Lemma each_det : forall rest l a b, Forall2 (fun e => B (e_content e) rest) l a -> Forall2 (fun e => B' (e_content e) rest) l b -> b = a.
  Proof. intros rest l. apply forall2_det. intros x y y' _. apply HB. Qed.
  Lemma elements_det : forall l a b, Forall2 element_of l a -> Forall2 element_of l b -> b = a.
  Proof. intros l. apply forall2_det. intros x y y' _. apply element_det. Qed.
  Lemma texts_det : forall l a b, Forall2 text_of l a -> Forall2 text_of l b -> b = a.
  Proof. intros l. apply forall2_det. intros x y y' _. apply text_det. Qed.
  Lemma attrs_det : forall x l a b, Forall keyed l -> Forall2 (has_attrs D x) l a -> Forall2 (has_attrs D x) l b -> b = a.
  Proof. intros x l a b K. apply forall2_det. intros e y y' I. apply has_attrs_det; auto. exact (proj1 (Forall_forall _ _) K e I). Qed.

  Ltac same := repeat match goal with
    | H : Forall2 (has_attrs D ?x) ?l ?a, K : Forall2 (has_attrs D ?x) ?l ?b |- _ => first [constr_eq a b; clear K | pose proof (attrs_det _ _ _ _ ltac:(eassumption) H K); subst b]
    | H : element_of ?e ?a, K : element_of ?e ?b |- _ => first [constr_eq a b; clear K | pose proof (element_det _ _ _ H K); subst b]
    | H : text_of ?e ?a, K : text_of ?e ?b |- _ => first [constr_eq a b; clear K | pose proof (text_det _ _ _ H K); subst b]
    | H : Forall2 element_of ?l ?a, K : Forall2 element_of ?l ?b |- _ => first [constr_eq a b; clear K | pose proof (elements_det _ _ _ H K); subst b]
    | H : Forall2 text_of ?l ?a, K : Forall2 text_of ?l ?b |- _ => first [constr_eq a b; clear K | pose proof (texts_det _ _ _ H K); subst b]
    | H : Forall2 (fun e => B (e_content e) ?rest) ?l ?a, K : Forall2 (fun e => B' (e_content e) ?rest) ?l ?b |- _ => first [constr_eq a b; clear K | pose proof (each_det _ _ _ _ H K); subst b]
    | H : has_attr D ?x ?e ?a, K : has_attr D ?x ?e ?b |- _ => first [constr_eq a b; clear K | pose proof (has_attr_det D _ _ _ _ SD ltac:(eassumption) H K); subst b]
    | H : attr_exactly ?x ?e ?a, K : attr_exactly ?x ?e ?b |- _ => first [constr_eq a b; clear K | pose proof (attr_exactly_det _ _ _ _ ltac:(eassumption) H K); subst b]
    | H : sight ?s ?a, K : sight ?s ?b |- _ => first [constr_eq a b; clear K | pose proof (sight_det _ _ _ H K); subst b]
    | H : only ?P ?l ?a, K : only ?P ?l ?b |- _ => first [constr_eq a b; clear K | let Q := fresh in pose proof (only_det _ _ _ _ H _ K) as Q; first [subst b | subst a | (injection Q; clear Q; intros; subst)]]
    | H : B ?s ?l ?a, K : B' ?s ?l ?b |- _ => first [constr_eq a b; clear K | pose proof (HB _ _ _ _ H K); subst b]
    | H : at_place ?l ?i ?a, K : at_place ?l ?i ?b |- _ => first [constr_eq a b; clear K | assert (b = a) by (destruct H, K; congruence); subst b]
    end.
  Ltac finish := first [reflexivity | congruence | eapply modified_det; eassumption | eapply plainly_det; eassumption | eapply collected_det; eassumption
    | eapply fields_det; eassumption | contradiction | (exfalso; eauto; congruence) | idtac].

  Lemma option_cases : forall (o : option bytes) r r' (P : result -> Prop), (o = None -> r = null) -> (o = None -> r' = null) ->
    (o <> None -> P r) -> (o <> None -> P r') -> (forall a b, P a -> P b -> b = a) -> r' = r.
  Proof. intros o r r' P A1 A2 B1 B2 C. destruct o; [apply C; [apply B1|apply B2]; discriminate|]. rewrite A1, A2; auto. Qed.

  Lemma leaf_det : forall e l r r', keyed e -> leaf mods D e l r -> leaf mods D e l r' -> r' = r.
  Proof.
    intros e l r r' K A C. inversion A; subst; inversion C; subst; same; finish.
    eapply (option_cases o r r' (modified_plainly mods D ms (entry_or_null o))); eauto. apply plainly_det.
  Qed.
  Lemma way_det : forall rest l r, first_way B rest l r -> forall r', first_way B' rest l r' -> r' = r.
  Proof. induction 1; intros r' C; inversion C; subst; same; finish. auto. Qed.
  Lemma one_det : forall ms e l r r', keyed e -> one sight mods D B ms e l r -> one sight mods D B' ms e l r' -> r' = r.
  Proof.
    intros ms e l r r' K A C. assert (K1 : Forall keyed [e]) by (constructor; auto).
    inversion A; subst; inversion C; subst; cbn [deeper] in *; try contradiction; same; finish.
    eapply (option_cases o r r' (modified mods ms' (entry_or_null o))); eauto. apply modified_det.
  Qed.
  Lemma every_det : forall ms es l r r', Forall keyed es -> every sight mods D B ms es l r -> every sight mods D B' ms es l r' -> r' = r.
  Proof. intros ms es l r r' K A C. inversion A; subst; inversion C; subst; cbn [deeper] in *; try contradiction; same; finish. Qed.
  Lemma routed_det : forall all ms rest l r r', Forall keyed l -> routed sight mods D B all ms rest l r -> routed sight mods D B' all ms rest l r' -> r' = r.
  Proof.
    intros all ms rest l r r' K A C. inversion A; subst; inversion C; subst; try discriminate; finish.
    - inversion K; subst. eapply one_det; eauto.
    - eapply every_det; eauto.
  Qed.
  Lemma spread_det : forall ms es l r r', Forall keyed es -> spread mods D B ms es l r -> spread mods D B' ms es l r' -> r' = r.
  Proof.
    intros ms es l r r' K A C. inversion A; subst; inversion C; subst;
      try (match goal with H : deeper (GAttr _) \/ _ |- _ => destruct H as [[]|[? ?]]; discriminate end);
      try (match goal with H : deeper GText \/ _ |- _ => destruct H as [[]|[? ?]]; discriminate end); same; finish.
    - exfalso. match goal with H : _ \/ _ \/ _ |- _ => destruct H as [H|[H|H]] end; auto.
    - exfalso. match goal with H : List.concat _ <> [] \/ _ \/ _ |- _ => destruct H as [H|[H|H]] end; auto.
  Qed.
  Lemma adds_det : forall e l rs rs', keyed e -> adds sight mods D B e l rs -> adds sight mods D B' e l rs' -> rs' = rs.
  Proof.
    intros e l rs rs' K A C. assert (K1 : Forall keyed [e]) by (constructor; auto). inversion A; subst; inversion C; subst; 
      try (match goal with H : deeper (GAttr _) \/ _ |- _ => destruct H as [[]|[? [? ?]]]; discriminate end);
      try (match goal with H : deeper GText \/ _ |- _ => destruct H as [[]|[? [? ?]]]; discriminate end);
      try (match goal with H : deeper (GField _) \/ _ |- _ => destruct H as [[]|[? [? ?]]]; congruence end); same; finish.
    - f_equal. eapply has_attrs_det; eauto.
    - match goal with H : fields sight mods _ ?f ?m [e] ?a, H' : fields sight mods _ ?f ?m [e] ?b |- match r_type ?b with _ => _ end = _ => now rewrite (fields_det _ _ _ _ _ K1 H H') end.
  Qed.
  Scheme search_mind := Induction for search Sort Prop with visited_mind := Induction for visited Sort Prop.
  Lemma search_det : forall st rest n x a z, search sight mods D B st rest n x a z ->
    match x with inr es => Forall keyed es | _ => True end -> forall z', search sight mods D B' st rest n x a z' -> z' = z.
  Proof.
    intros st rest.
    apply (search_mind sight mods D B st rest
      (fun n x a z _ => match x with inr es => Forall keyed es | _ => True end -> forall z', search sight mods D B' st rest n x a z' -> z' = z)
      (fun n e a z _ => keyed e -> forall z', visited sight mods D B' st rest n e a z' -> z' = z)).
    - intros s ops acc _ z' C. inversion C; subst; auto.
    - intros k s ops acc L _ z' C. inversion C; subst; auto; lia.
    - intros k s es ops acc z L1 L2 S H IH _ z' C. inversion C; subst; try lia. same. apply IH; auto. eapply sight_keyed; eauto.
    - intros k a _ z' C. inversion C; subst; auto.
    - intros k e es a b V IV L K z' C. inversion K; subst. inversion C; subst; match goal with H : visited _ _ _ _ _ _ _ _ _ _ |- _ => apply IV in H; [|auto]; subst; auto; lia end.
    - intros k e es a b V IV L1 TG L2 K z' C. inversion K; subst. inversion C; subst; match goal with H : visited _ _ _ B' _ _ _ _ _ _ |- _ => apply IV in H; [|auto]; subst; auto; try lia; try contradiction end.
    - intros k e es a b rs z V IV L1 TG L2 AD H IH K z' C. inversion K as [|? ? K1 K2]; subst. inversion C; subst; match goal with H : visited _ _ _ B' _ _ _ _ _ _ |- _ => apply IV in H; [|auto]; subst; auto; try lia; try contradiction end.
      match goal with H : adds _ _ _ B' _ _ ?q |- _ => pose proof (adds_det _ _ _ _ K1 AD H); subst q end. apply IH; auto.
    - intros k e es a b z V IV L1 TG H IH K z' C. inversion K as [|? ? K1 K2]; subst. inversion C; subst; match goal with H : visited _ _ _ B' _ _ _ _ _ _ |- _ => apply IV in H; [|auto]; subst; auto; try lia; try contradiction end.
    - intros k e a Q K z' C. inversion C; subst; auto; contradiction.
    - intros k e a b Q S IS K z' C. inversion C; subst; auto; contradiction.
  Qed.
  Lemma at_no : forall l i e, at_place l i e -> no_place l i -> False.
  Proof. intros l i e [A1 A2] [H|H]; [lia|]. assert (nth_error l (Z.to_nat i) <> None) by congruence. apply nth_error_Some in H0. lia. Qed.
  Lemma at_keyed : forall l i e, Forall keyed l -> at_place l i e -> keyed e.
  Proof. intros l i e K [_ A]. apply nth_error_In in A. exact (proj1 (Forall_forall _ _) K e A). Qed.
  Lemma numbered_det : forall i ms l more r r', Forall keyed l -> numbered mods D B i ms l more r -> numbered mods D B' i ms l more r' -> r' = r.
  Proof.
    intros i ms l more r r' K A C. inversion A; subst; inversion C; subst; try (exfalso; eapply at_no; eauto; fail);
      try (match goal with H : forall x, GAttr _ <> GAttr x |- _ => exfalso; eapply H; reflexivity end);
      try (match goal with H : at_place l i ?e |- _ => assert (KE : keyed e) by (eapply at_keyed; eauto) end); same; finish.
    eapply (option_cases o r r' (modified_plainly mods D ms' (entry_or_null o))); eauto. apply plainly_det.
  Qed.
  Lemma root_det : forall i l more r r', Forall keyed l -> root_numbered B i l more r -> root_numbered B' i l more r' -> r' = r.
  Proof.
    intros i l more r r' K A C. inversion A; subst; inversion C; subst; try (exfalso; eapply at_no; eauto; fail);
      try (match goal with H : deeper (GAttr _) \/ _ |- _ => destruct H as [[]|[? ?]]; discriminate end);
      try (match goal with H : deeper GText \/ _ |- _ => destruct H as [[]|[? ?]]; discriminate end);
      try (match goal with H : at_place l i ?e |- _ => assert (KE : keyed e) by (eapply at_keyed; eauto) end); same; finish.
  Qed.
  Lemma only_keyed : forall P l m, only P l m -> Forall keyed l -> Forall keyed m.
  Proof. induction 1; intros K; auto; inversion K; subst; auto. Qed.
  Lemma firstn_keyed : forall n l, Forall keyed l -> Forall keyed (firstn n l).
  Proof.
    intros n l K. apply Forall_forall. intros x I. apply (proj1 (Forall_forall _ _) K). rewrite <- (firstn_skipn n). apply in_or_app; auto.
  Qed.
  Lemma sift_keyed : forall J n l l', sifted J n l l' -> Forall keyed l -> Forall keyed l'.
  Proof. induction 1; intros K; auto; inversion K; subst; auto. Qed.
  Lemma none_only : forall (P : elem -> Prop) l m, Forall (fun e => ~ P e) l -> only P l m -> m = [].
  Proof. intros P l m N O. induction O as [|x l l' Px H IH|x l l' Nx H IH]; auto; inversion N; subst; [contradiction|auto]. Qed.

  Lemma judge_list : forall p op v es, Forall keyed es -> forall e b b', In e es -> SpecAnswer.judged pf T p op v e b -> SpecAnswer.judged pf T' p op v e b' -> b' = b.
  Proof. intros p op v es K e b b' I. apply judged_det. exact (proj1 (Forall_forall _ _) K e I). Qed.
  Lemma answer_det : forall top s l r r', answer sight pf mods D B T top s l r -> answer sight pf mods D B' T' top s l r' -> r' = r.
  Proof.
    intros top s l r r' A C.
    inversion A; subst; inversion C; subst;
      repeat match goal with
        | H : [] = [] \/ _ |- _ => clear H
        | H : _ :: _ = [] \/ (exists st ms' more, _) |- _ => destruct H as [H|(? & ? & ? & H & ? & ?)]; [discriminate H|injection H; clear H; intros; subst]
        | H : special _ |- _ => cbn [special] in H
        | H : ~ special _ |- _ => cbn [special] in H
        | H : ~ True |- _ => exfalso; exact (H Logic.I)
        | H : forall all p op v, GWhere _ _ _ _ <> GWhere all p op v |- _ => exfalso; eapply H; reflexivity
        end; try contradiction; try congruence; try (exfalso; tauto); try (exfalso; congruence).
    all: same.
    all: do 6 try match goal with
        | H : sight ?q ?es |- _ => lazymatch goal with K : Forall keyed es |- _ => fail | _ => pose proof (sight_keyed _ _ H) end
        | H : only ?P ?l ?m, K : Forall keyed ?l |- _ => lazymatch goal with K : Forall keyed m |- _ => fail | _ => pose proof (only_keyed _ _ _ H K) end
        | H : context [firstn ?n ?l], K : Forall keyed ?l |- _ => lazymatch goal with K : Forall keyed (firstn n l) |- _ => fail | _ => pose proof (firstn_keyed n _ K) end
        | H : sifted ?J ?n ?l ?m, K : Forall keyed ?l |- _ => lazymatch goal with K : Forall keyed m |- _ => fail | _ => pose proof (sift_keyed _ _ _ _ H K) end
        | H : Forall (fun e => ~ bears D ?n e) ?l, K : only (bears D ?n) ?l ?m |- _ => pose proof (none_only _ _ _ H K); clear H; subst
        | H : Forall (fun e => ~ exactly ?n e) ?l, K : only (exactly ?n) ?l ?m |- _ => pose proof (none_only _ _ _ H K); clear H; subst
        end.
    all: repeat match goal with
        | H : sifted (SpecAnswer.judged pf T ?p ?op ?v) ?n ?l ?a, K : sifted (SpecAnswer.judged pf T' ?p ?op ?v) ?n ?l ?b |- _ =>
            first [constr_eq a b; clear K | pose proof (sifted_det _ _ _ _ _ (judge_list p op v l ltac:(eassumption)) H _ K); subst b]
        end.
    all: try discriminate; try congruence; try (exfalso; congruence); try contradiction.
    all: try (eapply plainly_det; eassumption).
    all: try (eapply fields_det; eassumption).
    all: try (eapply way_det; eassumption).
    all: try (eapply routed_det; [|eassumption|eassumption]; eassumption).
    all: try (eapply numbered_det; [|eassumption|eassumption]; eassumption).
    all: try (eapply root_det; [|eassumption|eassumption]; eassumption).
    all: try (eapply spread_det; [|eassumption|eassumption]; eassumption).
    all: try match goal with H : leaf mods D ?e ?l ?a, K : leaf mods D ?e ?l ?b, Q : Forall keyed (?e :: _) |- _ => exact (leaf_det _ _ _ _ (Forall_inv Q) H K) end.
    all: try (match goal with H : first_way _ _ [] _ |- _ => inversion H; subst; reflexivity end).
    all: try (match goal with H : leaf mods D ?e _ _ |- _ => inversion H; subst; cbn [special] in *; solve [contradiction|discriminate] end).
    all: try (exfalso; match goal with H : special ?st, K : match ?st with GName _ => _ | _ => _ end |- _ => destruct st; contradiction end).
    all: try (match goal with H : search _ _ _ B _ _ _ _ _ ?z, K : search _ _ _ B' _ _ _ _ _ ?y |- _ => now rewrite (search_det _ _ _ _ _ _ H Logic.I _ K) end).
    all: match goal with H2 : ?l = [] -> ?r = null, H3 : ?l <> [] -> modified_plainly _ _ _ _ ?r,
                        H4 : ?l = [] -> ?r' = null, H5 : ?l <> [] -> modified_plainly _ _ _ _ ?r' |- ?r' = ?r =>
           destruct l as [|e0 l1]; [now rewrite H2, H4|eapply plainly_det; [apply H3|apply H5]; discriminate] end.
  Qed.
End Det.

Lemma answers_det : forall (sight : bytes -> list elem -> Prop) pf mods,
  (forall s a b, sight s a -> sight s b -> b = a) -> (forall s l, sight s l -> Forall keyed l) ->
  forall k k' D top s l r r', strict D = true -> answers sight pf mods k D top s l r -> answers sight pf mods k' D top s l r' -> r' = r.
Proof.
  intros sight pf mods SD SK. induction k as [|k IH]; intros k' D top s l r r' ST A C; [destruct A|].
  destruct k' as [|k']; [destruct C|]. cbn [answers] in A, C.
  assert (HB : forall s l r r', answers sight pf mods k D false s l r -> answers sight pf mods k' D false s l r' -> r' = r) by (intros; eapply IH; eauto).
  assert (HT : forall s l r r', answers sight pf mods k Plain true s l r -> answers sight pf mods k' Plain true s l r' -> r' = r) by (intros; eapply (IH k' Plain); eauto).
  eapply answer_det with (4 := HB) (5 := HT); eauto.
Qed.
