(** Documents followed by more text, and documents cut short. *)
From Coq Require Import List Ascii String NArith ZArith Bool Lia.
From Verif Require Import GoStr ModelParser ModelValidate SpecText SpecPath SpecTree SpecQuery SpecEdit SpecValid
  ProofBase ProofPath ProofScan ProofSyntax ProofTree ProofTree2 ProofEdit ProofValid ProofValid2 ProofValid3.
Import ListNotations.

(** ** A text that may follow leaves the state between two documents *)
Lemma after_passes : forall found open s, accepted found open s -> forall t stack closed, map fst stack = open -> inv (mkV (s ++ t) stack found closed) ->
  passes (mkV (s ++ t) stack found closed) (mkV t [] true true).
Proof.
  induction 1 as [|found open c s B A IH|found open c s NE NA A IH|found open m s M A IH|found open n k a s N K L T A IH|found open n k a s N K L T A IH|found open n w s W A IH];
    intros t stack closed ST I; assert (I' := I); destruct I' as [I1 I2 I0 I3]; cbn [v_stack v_root_found v_root_closed] in *; intros x X.
  - destruct stack; [|discriminate]. rewrite (I2 eq_refl eq_refl). exact X.
  - cbn [app]. apply yields_blank; auto. apply (IH t stack closed); auto. constructor; auto.
  - cbn [app]. destruct I1 as [-> ->]; [intros ->; cbn [map] in ST; congruence|]. apply yields_char; auto. apply (IH t stack false); auto. constructor; cbn; auto.
  - rewrite <- app_assoc. apply yields_aside; auto. apply (IH t stack closed); auto. constructor; auto.
  - cbn [app]. rewrite <- !app_assoc. cbn [app]. set (s' := s ++ t).
    assert (TG : v_tag (mkV ("<"%char :: n ++ a ++ ">"%char :: s') stack found closed) ("<"%char :: n ++ a ++ ">"%char :: s') (n ++ a ++ ">"%char :: s') =
      inr (mkV s' ((n, "<"%char :: n ++ a ++ ">"%char :: s') :: stack) true (if found && (match stack with [] => true | _ => false end) && closed then false else closed))).
    { rewrite tag_char by auto. change (">"%char :: s') with (bs ">" ++ s') at 3. pose proof (v_open_complete (mkV ("<"%char :: n ++ a ++ ">"%char :: s') stack found closed)
        ("<"%char :: n ++ a ++ ">"%char :: s') n k a false s' N K T) as V. cbn iota in V. rewrite V. cbn [v_stack v_root_found v_root_closed].
      rewrite (proj2 (Nat.leb_gt 100 (len stack))); [reflexivity|]. now rewrite <- (map_length fst), ST. }
    assert (I4 : inv (mkV ("<"%char :: n ++ a ++ ">"%char :: s') stack found closed)) by (constructor; auto).
    destruct (v_tag_sound _ _ _ _ TG) as [y [_ P]]. eapply yields_tag; [exact TG|]. apply IH; auto; [cbn [map fst]; now rewrite ST|]. exact (piece_inv _ _ _ P I4).
  - cbn [app]. rewrite <- !app_assoc. cbn [app]. set (s' := s ++ t).
    assert (TG : v_tag (mkV ("<"%char :: n ++ a ++ "/"%char :: ">"%char :: s') stack found closed) ("<"%char :: n ++ a ++ "/"%char :: ">"%char :: s') (n ++ a ++ "/"%char :: ">"%char :: s') =
      inr (mkV s' stack true (match stack with [] => true | _ => closed end))).
    { rewrite tag_char by auto. change ("/"%char :: ">"%char :: s') with (bs "/>" ++ s') at 3. pose proof (v_open_complete (mkV ("<"%char :: n ++ a ++ "/"%char :: ">"%char :: s') stack found closed)
        ("<"%char :: n ++ a ++ "/"%char :: ">"%char :: s') n k a true s' N K T) as V. cbn iota in V. rewrite V. cbn [v_stack v_root_found v_root_closed].
      rewrite (proj2 (Nat.leb_gt 100 (len stack))); [reflexivity|]. now rewrite <- (map_length fst), ST. }
    assert (I4 : inv (mkV ("<"%char :: n ++ a ++ "/"%char :: ">"%char :: s') stack found closed)) by (constructor; auto).
    destruct (v_tag_sound _ _ _ _ TG) as [y [_ P]]. eapply yields_tag; [exact TG|]. apply IH; auto. exact (piece_inv _ _ _ P I4).
  - cbn [app]. rewrite <- !app_assoc. cbn [app]. set (s' := s ++ t). destruct stack as [|[o t0] stack]; [discriminate|]. cbn [map fst] in ST, I3. injection ST as -> ST. inversion I3 as [|? ? N N3]; subst.
    assert (TG : v_tag (mkV ("<"%char :: "/"%char :: n ++ w ++ ">"%char :: s') ((n, t0) :: stack) found closed) ("<"%char :: "/"%char :: n ++ w ++ ">"%char :: s') ("/"%char :: n ++ w ++ ">"%char :: s') =
      inr (mkV s' stack found (match stack with [] => true | _ => closed end))).
    { cbn [v_tag]. change (Ascii.eqb "/" "?") with false. change (Ascii.eqb "/" "!") with false. change (Ascii.eqb "/" "/") with true. cbn iota.
      now apply v_close_complete with (t0 := t0). }
    assert (I4 : inv (mkV ("<"%char :: "/"%char :: n ++ w ++ ">"%char :: s') ((n, t0) :: stack) found closed)) by (constructor; auto).
    destruct (v_tag_sound _ _ _ _ TG) as [y [_ P]]. eapply yields_tag; [exact TG|]. apply IH; auto. exact (piece_inv _ _ _ P I4).
Qed.
Lemma valid_passes : forall x t, valid x = true -> passes (mkV (x ++ t) [] false false) (mkV t [] true true).
Proof. intros x t H. apply valid_accepted in H. destruct H as [H _]. apply (after_passes false []); auto using inv_init. Qed.
(** What is found in a text that follows a document. *)
Definition later (t : bytes) (r : option verr) : Prop :=
  exists y, yields (mkV t [] true true) y /\
    r = match y with inl e => Some e | inr st => match v_stack st with (n, a) :: _ => Some (mkVerr (VUnclosedTag n) a) | [] => None end end.
Lemma found_stays : forall st x st', piece st x st' -> v_root_found st = true -> v_root_found st' = true.
Proof. intros st x st' H F. destruct H; congruence. Qed.
Lemma loop_found : forall f st st', v_loop f st = Some (inr st') -> v_root_found st = true -> v_root_found st' = true.
Proof.
  induction f as [|f IH]; intros st st' H F; [discriminate|]. cbn [v_loop] in H. destruct (skip_ws (v_rest st)) as [|c s1]; [injection H as <-; exact F|].
  destruct (Ascii.eqb_spec c "<") as [->|N].
  - destruct (v_tag st ("<"%char :: s1) s1) as [e|st1] eqn:T; [discriminate|]. destruct (v_tag_sound _ _ _ _ T) as [y [_ P]]. eapply IH; eauto using found_stays.
  - destruct (negb (v_root_found st) || v_root_closed st); [discriminate|]. eapply IH; eauto.
Qed.
Lemma later_some : forall t, exists r, later t r.
Proof.
  intros t. destruct (v_loop_total (S (len t)) (mkV t [] true true)) as [y V]; [cbn [v_rest]; lia|]. eexists. exists y. split; [|reflexivity]. eexists. exact V.
Qed.
Lemma later_at : forall t e, later t (Some e) -> suffix (ve_at e) t.
Proof.
  intros t e [y [[f Y] E]]. pose proof (loop_errs f t _ _ Y) as K. assert (SI : stack_in t (mkV t [] true true)) by (split; cbn; [exists []; reflexivity|constructor]). specialize (K SI).
  destruct y as [e0|st]; [injection E as ->; exact K|]. destruct (v_stack st) as [|[n a] l]; [discriminate|]. injection E as ->. inversion K; subst; auto.
Qed.
Lemma validate_later : forall x t r, valid x = true -> (N.of_nat (len (x ++ t)) <= 10485760)%N -> later t r -> validate (x ++ t) = Some r.
Proof.
  intros x t r V L [y [Y ->]]. assert (Y0 := Y). apply (valid_passes x t V) in Y. unfold validate. change MaxDocumentSize with 10485760%N. rewrite (proj2 (N.ltb_ge 10485760 (blen (x ++ t))) L).
  destruct (x ++ t) as [|c d0] eqn:E. { apply app_eq_nil in E. destruct E as [-> _]. discriminate. } rewrite <- E in *. clear c d0 E.
  destruct (v_loop_total (S (len (x ++ t))) (mkV (x ++ t) [] false false)) as [z VL]; [cbn [v_rest]; lia|]. rewrite VL. rewrite (yields_eq _ _ _ _ Y VL).
  destruct y as [e|st]; [reflexivity|]. unfold v_finish. destruct (v_stack st) as [|[n a] l]; [|reflexivity]. destruct Y0 as [f Y0]. now rewrite (loop_found _ _ _ Y0 eq_refl).
Qed.
Lemma append_report : forall x y t, valid x = true -> valid y = true ->
  (N.of_nat (len (x ++ t)) <= 10485760)%N -> (N.of_nat (len (y ++ t)) <= 10485760)%N ->
  (validate_with_error (x ++ t) = None /\ validate_with_error (y ++ t) = None) \/
  exists p q m l c l' c', t = p ++ q /\
    validate_with_error (x ++ t) = Some (l, c, m) /\ l = 1 + newlines (x ++ p) /\ last_line (x ++ p) c /\
    validate_with_error (y ++ t) = Some (l', c', m) /\ l' = 1 + newlines (y ++ p) /\ last_line (y ++ p) c'.
Proof.
  intros x y t VX VY LX LY. destruct (later_some t) as [r R]. unfold validate_with_error. rewrite (validate_later x t r), (validate_later y t r) by auto.
  destruct r as [e|]; [right|left; auto]. destruct (later_at _ _ R) as [p E]. 
  assert (Q : forall z, line_col (z ++ t) (ve_at e) = fold_left advance_lc (z ++ p) (1, 0)) by (intros z; rewrite E at 1; rewrite app_assoc; apply line_col_prefix).
  rewrite !Q. destruct (line_col_spec (x ++ p)) as [A1 A2], (line_col_spec (y ++ p)) as [B1 B2].
  destruct (fold_left advance_lc (x ++ p) (1, 0)) as [l c], (fold_left advance_lc (y ++ p) (1, 0)) as [l' c']. cbn [fst snd] in *.
  exists p, (ve_at e), (ve_msg e), l, c, l', c'. repeat split; auto.
Qed.
Lemma append_valid : forall x y t, valid x = true -> valid y = true ->
  (N.of_nat (len (x ++ t)) <= 10485760)%N -> (N.of_nat (len (y ++ t)) <= 10485760)%N -> valid (x ++ t) = valid (y ++ t).
Proof.
  intros x y t VX VY LX LY. destruct (later_some t) as [r R]. unfold valid. rewrite (validate_later x t r), (validate_later y t r) by auto. reflexivity.
Qed.
Lemma accepted_found : forall found open s, accepted found open s -> accepted true open s.
Proof.
  induction 1 as [| | | |found open n k a s N K L T A IH|found open n k a s N K L T A IH|]; [apply ac_end|apply ac_blank|apply ac_text|apply ac_aside|apply (ac_open _ _ n k a)|apply (ac_self _ _ n k a)|apply ac_close]; auto.
Qed.
Lemma concat_valid : forall x y, valid x = true -> valid y = true -> (N.of_nat (len (x ++ y)) <= 10485760)%N -> valid (x ++ y) = true.
Proof.
  intros x y VX VY L. apply valid_accepted in VY. destruct VY as [VY _]. apply accepted_found in VY.
  destruct (v_loop_complete _ _ _ VY [] true eq_refl) as [st [Y [ST F]]].
  { constructor; cbn; auto; try discriminate. intros H. now elim H. }
  unfold valid. rewrite (validate_later x y None); auto. exists (inr st). split; auto. now rewrite ST.
Qed.

(** ** One piece of markup *)
Inductive hop (found : bool) (open : list bytes) : bytes -> bool -> list bytes -> Prop :=
| hp_aside : forall m, aside m -> hop found open m found open
| hp_open : forall n k a, xml_name n -> k <= 100 -> len open < 100 -> tag_attributes k a -> hop found open ("<"%char :: n ++ a ++ [">"%char]) true (n :: open)
| hp_self : forall n k a, xml_name n -> k <= 100 -> len open < 100 -> tag_attributes k a -> hop found open ("<"%char :: n ++ a ++ ["/"%char; ">"%char]) true open
| hp_close : forall n w rest, open = n :: rest -> blanks w -> hop found open ("<"%char :: "/"%char :: n ++ w ++ [">"%char]) found rest.
Lemma accepted_cases : forall found open s, accepted found open s ->
  (s = [] /\ found = true /\ open = []) \/
  (exists c s', s = c :: s' /\ c <> "<"%char /\ (blank c \/ open <> []) /\ accepted found open s') \/
  (exists x s' found' open', s = x ++ s' /\ hop found open x found' open' /\ accepted found' open' s').
Proof.
  intros found open s H. destruct H as [|found open c s B A|found open c s NE NA A|found open m s M A|found open n k a s N K L T A|found open n k a s N K L T A|found open n w s W A].
  - auto.
  - right. left. exists c, s. repeat split; auto. apply (blank_eq c "<"); auto. cbn. auto.
  - right. left. exists c, s. auto.
  - right. right. exists m, s, found, open. repeat split; auto. now constructor.
  - right. right. exists ("<"%char :: n ++ a ++ [">"%char]), s, true, (n :: open). repeat split; auto; [cbn [app]; now rewrite <- !app_assoc|]. now apply (hp_open found open n k a).
  - right. right. exists ("<"%char :: n ++ a ++ ["/"%char; ">"%char]), s, true, open. repeat split; auto; [cbn [app]; now rewrite <- !app_assoc|]. now apply (hp_self found open n k a).
  - right. right. exists ("<"%char :: "/"%char :: n ++ w ++ [">"%char]), s, found, open. repeat split; auto; [cbn [app]; now rewrite <- !app_assoc|]. eapply hp_close; eauto.
Qed.
Lemma hop_head : forall found open x found' open', hop found open x found' open' -> exists x', x = "<"%char :: x'.
Proof. intros found open x found' open' H. destruct H; eauto. now apply aside_head. Qed.
Lemma hop_tag : forall found open x found' open', hop found open ("<"%char :: x) found' open' -> Forall xml_name open ->
  forall st t s, map fst (v_stack st) = open -> v_root_found st = found ->
  exists st', v_tag st t (x ++ s) = inr st' /\ v_rest st' = s /\ map fst (v_stack st') = open' /\ v_root_found st' = found'.
Proof.
  intros found open x found' open' H NM st t s ST F. remember ("<"%char :: x) as y eqn:E.
  destruct H as [m M|n k a N K L T|n k a N K L T|n w rest O W]; try (injection E as <-).
  - subst m. eexists. split; [apply v_tag_aside; exact M|]. auto.
  - rewrite <- !app_assoc. cbn [app]. rewrite tag_char by auto. change (">"%char :: s) with (bs ">" ++ s).
    pose proof (v_open_complete st t n k a false s N K T) as V. cbn iota in V. rewrite V.
    rewrite (proj2 (Nat.leb_gt 100 (len (v_stack st)))) by (now rewrite <- (map_length fst), ST).
    eexists. split; [reflexivity|]. cbn [v_rest v_stack v_root_found map fst]. now rewrite ST.
  - rewrite <- !app_assoc. cbn [app]. rewrite tag_char by auto. change ("/"%char :: ">"%char :: s) with (bs "/>" ++ s).
    pose proof (v_open_complete st t n k a true s N K T) as V. cbn iota in V. rewrite V.
    rewrite (proj2 (Nat.leb_gt 100 (len (v_stack st)))) by (now rewrite <- (map_length fst), ST).
    eexists. split; [reflexivity|]. cbn [v_rest v_stack v_root_found]. auto.
  - subst open. destruct (v_stack st) as [|[n0 t0] stack] eqn:Q; [discriminate|]. cbn [map fst] in ST. injection ST as -> ST.
    cbn [app v_tag]. change (Ascii.eqb "/" "?") with false. change (Ascii.eqb "/" "!") with false. change (Ascii.eqb "/" "/") with true. cbn iota.
    inversion NM; subst. rewrite <- !app_assoc. cbn [app]. rewrite (v_close_complete st t n t0 stack) by auto. eexists. split; [reflexivity|]. auto.
Qed.
Definition stacked (open : list bytes) : list (bytes * bytes) := map (fun n => (n, [])) open.
Lemma stacked_names : forall open, map fst (stacked open) = open.
Proof. intros open. unfold stacked. rewrite map_map. cbn. apply map_id. Qed.
Lemma hop_det : forall found open x f1 o1 y f2 o2 r q, hop found open x f1 o1 -> hop found open y f2 o2 -> Forall xml_name open -> x ++ r = y ++ q ->
  x = y /\ r = q /\ f1 = f2 /\ o1 = o2.
Proof.
  intros found open x f1 o1 y f2 o2 r q H1 H2 N E. destruct (hop_head _ _ _ _ _ H1) as [x' ->], (hop_head _ _ _ _ _ H2) as [y' ->].
  cbn [app] in E. injection E as E. set (st := mkV [] (stacked open) found false).
  destruct (hop_tag _ _ _ _ _ H1 N st [] r (stacked_names open) eq_refl) as [s1 [A1 [A2 [A3 A4]]]].
  destruct (hop_tag _ _ _ _ _ H2 N st [] q (stacked_names open) eq_refl) as [s2 [B1 [B2 [B3 B4]]]].
  rewrite E, B1 in A1. injection A1 as <-. assert (RQ : r = q) by congruence. rewrite RQ in E. apply app_inv_tail in E. repeat split; congruence.
Qed.
Lemma hop_start : forall found open x f1 o1 n a self r q, hop found open x f1 o1 -> Forall xml_name open -> xml_name n -> good_attrs a ->
  x ++ r = start_tag n a self ++ q -> x = start_tag n a self /\ r = q /\ f1 = true /\ o1 = (if self then open else n :: open).
Proof.
  intros found open x f1 o1 n a self r q H NM N A E.
  assert (L : len open < 100).
  { destruct (hop_head _ _ _ _ _ H) as [x' ->]. set (st := mkV [] (stacked open) found false).
    destruct (hop_tag _ _ _ _ _ H NM st [] r (stacked_names open) eq_refl) as [s1 [A1 _]].
    rewrite start_tag_split in E. cbn [app] in E. injection E as E. rewrite E, <- !app_assoc, tag_char in A1 by auto.
    pose proof (v_open_complete st [] n (len a) (attrs_text a) self q N (ga_count a A) (tag_attributes_text a A)) as V.
    change (v_open st [] (n ++ attrs_text a ++ (if self then bs "/>" else bs ">") ++ q) = inr s1) in A1. rewrite V in A1. destruct (Nat.leb_spec 100 (len (v_stack st))) as [Q|Q]; [discriminate|]. cbn in Q. unfold stacked in Q. now rewrite map_length in Q. }
  assert (HS : hop found open (start_tag n a self) true (if self then open else n :: open)).
  { rewrite start_tag_split. destruct self; [apply (hp_self found open n (len a))|apply (hp_open found open n (len a))]; auto using ga_count, tag_attributes_text. }
  destruct (hop_det _ _ _ _ _ _ _ _ _ _ H HS NM E) as [E1 [E2 [E3 E4]]]. auto.
Qed.

(** ** Inside an open element only a whole node leads on *)
Definition leads_over (x : bytes) : Prop := forall open e1 e2 r, open <> [] -> Forall xml_name open -> accepted true open e1 -> e1 ++ e2 = x ++ r ->
  exists e, e1 = x ++ e /\ e ++ e2 = r /\ accepted true open e.
Lemma over_nil : leads_over [].
Proof. intros open e1 e2 r NE N A E. exists e1. auto. Qed.
Lemma over_app : forall x y, leads_over x -> leads_over y -> leads_over (x ++ y).
Proof.
  intros x y X Y open e1 e2 r NE N A E. rewrite <- app_assoc in E. destruct (X _ _ _ _ NE N A E) as [e [-> [E2 A2]]].
  destruct (Y _ _ _ _ NE N A2 E2) as [e' [-> [E3 A3]]]. exists e'. rewrite app_assoc. auto.
Qed.
Lemma over_text : forall t, ~ In "<"%char t -> leads_over t.
Proof.
  induction t as [|c t IH]; intros H; [apply over_nil|]. change (c :: t) with ([c] ++ t). apply over_app; [|apply IH; intros K; apply H; now right].
  intros open e1 e2 r NE N A E. destruct (accepted_cases _ _ _ A) as [[_ [_ ->]]|[[d [s [-> [D [_ A2]]]]]|[x [s [f [o [-> [HP A2]]]]]]]].
  - now elim NE.
  - cbn [app] in E. injection E as -> E. exists s. auto.
  - destruct (hop_head _ _ _ _ _ HP) as [x' ->]. cbn [app] in E. injection E as E _. elim H. now left.
Qed.
Lemma over_aside : forall m, aside m -> leads_over m.
Proof.
  intros m M open e1 e2 r NE N A E. destruct (accepted_cases _ _ _ A) as [[_ [_ ->]]|[[d [s [-> [D [_ A2]]]]]|[x [s [f [o [-> [HP A2]]]]]]]].
  - now elim NE.
  - destruct (aside_head m M) as [m' ->]. cbn [app] in E. injection E as -> _. now elim D.
  - rewrite <- app_assoc in E. destruct (hop_det _ _ _ _ _ _ _ _ _ _ HP (hp_aside true open m M) N E) as [-> [E2 [-> ->]]]. exists s. auto.
Qed.
Lemma start_first : forall found open e1 e2 n a self r, Forall xml_name open -> xml_name n -> good_attrs a -> accepted found open e1 -> e1 <> [] ->
  e1 ++ e2 = start_tag n a self ++ r ->
  exists e, e1 = start_tag n a self ++ e /\ e ++ e2 = r /\ accepted true (if self then open else n :: open) e.
Proof.
  intros found open e1 e2 n a self r NM N A AC NE E. destruct (accepted_cases _ _ _ AC) as [[-> _]|[[d [s [-> [D [_ A2]]]]]|[x [s [f [o [-> [HP A2]]]]]]]].
  - now elim NE.
  - rewrite start_tag_split in E. cbn [app] in E. injection E as -> _. now elim D.
  - rewrite <- app_assoc in E. destruct (hop_start _ _ _ _ _ _ _ _ _ _ HP NM N A E) as [-> [E2 [-> ->]]]. exists s. auto.
Qed.
Lemma end_first : forall open e1 e2 n r, Forall xml_name (n :: open) -> accepted true (n :: open) e1 -> e1 ++ e2 = end_tag n ++ r ->
  exists e, e1 = end_tag n ++ e /\ e ++ e2 = r /\ accepted true open e.
Proof.
  intros open e1 e2 n r NM AC E. assert (HE : hop true (n :: open) (end_tag n) true open) by exact (hp_close true (n :: open) n [] open eq_refl (Forall_nil _)).
  destruct (accepted_cases _ _ _ AC) as [[_ [_ K]]|[[d [s [-> [D [_ A2]]]]]|[x [s [f [o [-> [HP A2]]]]]]]]; [discriminate| |].
  - cbn [app] in E. injection E as -> _. now elim D.
  - rewrite <- app_assoc in E. destruct (hop_det _ _ _ _ _ _ _ _ _ _ HP HE NM E) as [-> [E2 [-> ->]]]. exists s. auto.
Qed.
Lemma over_node : forall nd, good nd -> leads_over (node_text nd).
Proof.
  induction nd as [n a self kids IH|t|b] using node_ind'; intros G.
  - inversion G as [? ? ? ? N A S K| |]; subst. intros open e1 e2 r NE NM AC E. cbn [node_text] in *.
    assert (NE1 : e1 <> []) by (intros ->; destruct (accepted_cases _ _ _ AC) as [[_ [_ Q]]|[[d [s [Q _]]]|[x [s [f [o [Q [HP _]]]]]]]]; [now elim NE|discriminate|destruct (hop_head _ _ _ _ _ HP) as [x' ->]; discriminate]).
    rewrite <- app_assoc in E. destruct (start_first _ _ _ _ _ _ _ _ NM N A AC NE1 E) as [e [-> [E2 A2]]]. destruct self.
    + exists e. rewrite app_nil_r. auto.
    + assert (OK : leads_over (forest_text kids)).
      { clear - IH K. unfold forest_text. induction kids as [|k kids IHk]; [apply over_nil|]. cbn [flat_map]. inversion K; subst. inversion IH; subst. apply over_app; auto. }
      rewrite <- app_assoc in E2. destruct (OK (n :: open) e e2 _ ltac:(discriminate) (Forall_cons _ N NM) A2 E2) as [e' [-> [E3 A3]]].
      destruct (end_first _ _ _ _ _ (Forall_cons _ N NM) A3 E3) as [e'' [-> [E4 A4]]]. exists e''. rewrite <- !app_assoc. auto.
  - inversion G; subst. cbn [node_text]. apply over_text. intros I. now apply H0 in I.
  - inversion G; subst. cbn [node_text]. apply over_aside. now apply misc_aside.
Qed.
Lemma over_forest : forall F, Forall good F -> leads_over (forest_text F).
Proof. intros F G. unfold forest_text. induction G; [apply over_nil|]. cbn [flat_map]. apply over_app; auto. now apply over_node. Qed.
(** An element is taken whole or not at all. *)
Lemma cut_element : forall found n a self K e1 e2, good (Elem n a self K) -> accepted found [] e1 -> e1 <> [] -> e1 ++ e2 = node_text (Elem n a self K) -> e2 = [].
Proof.
  intros found n a self K e1 e2 G AC NE E. inversion G as [? ? ? ? N A S GK| |]; subst. cbn [node_text] in E.
  destruct (start_first _ _ _ _ _ _ _ _ (Forall_nil _) N A AC NE E) as [e [-> [E2 A2]]]. destruct self; [now apply app_eq_nil in E2|].
  destruct (over_forest K GK [n] e e2 (end_tag n) ltac:(discriminate) (Forall_cons _ N (Forall_nil _)) A2 E2) as [e' [-> [E3 A3]]].
  rewrite <- (app_nil_r (end_tag n)) in E3. destruct (end_first [] _ _ _ _ (Forall_cons _ N (Forall_nil _)) A3 E3) as [e'' [-> [E4 A4]]]. now apply app_eq_nil in E4.
Qed.

Lemma valid_rest : forall p F s, strict_prolog p -> Forall good F -> Forall top_node F -> valid (p ++ forest_text F ++ s) = true -> exists found, accepted found [] s.
Proof.
  intros p F s P G T V. pose proof (prolog_passes p P (forest_text F ++ s)) as PP.
  assert (VD : verdict F s [] false).
  { apply forest_yields; auto; try (now rewrite <- Forall_forall); try discriminate; cbn; auto; [|lia].
    intros nd Hn. apply node_yields. now apply (proj1 (Forall_forall _ _) G). }
  unfold valid, validate in V. destruct (MaxDocumentSize <? blen (p ++ forest_text F ++ s))%N; [discriminate|].
  destruct (p ++ forest_text F ++ s) as [|c d0]; [discriminate|]. remember (c :: d0) as d. clear Heqd c d0.
  destruct (v_loop (S (len d)) (mkV d [] false false)) as [x|] eqn:VL; [|discriminate]. destruct VD as [[D [e X]]|[D X]].
  - apply PP in X. rewrite (yields_eq _ _ _ _ X VL) in V. discriminate.
  - destruct (v_loop_total (S (len s)) (st_of s [] (false || existsb is_elem F))) as [y VY]; [cbn [v_rest st_of]; lia|].
    assert (Y : yields (st_of s [] (false || existsb is_elem F)) y) by (eexists; exact VY). apply X, PP in Y. rewrite (yields_eq _ _ _ _ Y VL) in V.
    destruct y as [e|st]; [discriminate|]. unfold v_finish in V. destruct (v_stack st) as [|[n t] l] eqn:ST; [|discriminate]. destruct (v_root_found st) eqn:FD; [|discriminate].
    eexists. apply (v_loop_sound _ _ _ VY ST FD). constructor; cbn; auto; try discriminate. intros H. now elim H.
Qed.
Lemma cut_invalid : forall p F nd e1 e2, strict_prolog p -> Forall good F -> Forall top_node F -> good nd -> is_elem nd = true ->
  node_text nd = e1 ++ e2 -> e1 <> [] -> e2 <> [] -> valid (p ++ forest_text F ++ e1) = false.
Proof.
  intros p F nd e1 e2 P G T GN EL E N1 N2. destruct (valid (p ++ forest_text F ++ e1)) eqn:V; auto. destruct (valid_rest _ _ _ P G T V) as [f A].
  destruct nd as [n a self K| |]; try discriminate. elim N2. eapply cut_element; eauto.
Qed.

(** ** Before the first element *)
Inductive opening : bytes -> Prop :=
| op_nil : opening []
| op_blank : forall c s, blank c -> opening s -> opening (c :: s)
| op_aside : forall m s, aside m -> opening s -> opening (m ++ s).
Lemma opening_blanks : forall x s, blanks x -> opening s -> opening (x ++ s).
Proof. intros x s H O. induction H; cbn [app]; auto using op_blank. Qed.
Lemma opening_app : forall x s, opening x -> opening s -> opening (x ++ s).
Proof. intros x s H O. induction H; cbn [app]; auto using op_blank. rewrite <- app_assoc. now apply op_aside. Qed.
Lemma prolog_opening : forall p, strict_prolog p -> opening p.
Proof.
  induction 1 as [|x p B P IH|b p B1 B2 P IH|c p C P IH|x p D P IH|x y z p D1 D2 P IH].
  - constructor.
  - now apply opening_blanks.
  - replace (bs "<?" ++ b ++ bs "?>" ++ p) with ((bs "<?" ++ (b ++ ["?"%char]) ++ bs ">") ++ p)
      by (rewrite <- !app_assoc; reflexivity).
    apply op_aside; [|exact IH]. constructor.
    + intros K. apply in_app_iff in K. destruct K as [K|K]; auto. cbn in K. intuition discriminate.
    + unfold small in *. rewrite !app_length in *. change (len (bs "<?")) with 2 in *. change (len (bs "?")) with 1 in *. cbn [List.length] in *. lia.
  - replace (bs "<!--" ++ c ++ bs "-->" ++ p) with ((bs "<!--" ++ c ++ bs "-->") ++ p)
      by (rewrite <- !app_assoc; reflexivity).
    apply op_aside; [|exact IH]. now constructor.
  - replace (bs "<!DOCTYPE" ++ x ++ bs ">" ++ p) with ((bs "<!" ++ bs "DOCTYPE" ++ x ++ bs ">") ++ p)
      by (rewrite <- !app_assoc; reflexivity).
    apply op_aside; [|exact IH]. constructor; auto.
    + apply brackets_none. intros c Hc. specialize (D c Hc). cbn in D. split; intros ->; tauto.
    + intros u v E. exfalso. apply (D ">"%char); [rewrite E; apply in_elt|cbn; tauto].
  - replace (bs "<!DOCTYPE" ++ x ++ bs "[" ++ y ++ bs "]" ++ z ++ bs ">" ++ p)
      with ((bs "<!" ++ bs "DOCTYPE" ++ (x ++ bs "[" ++ y ++ bs "]" ++ z) ++ bs ">") ++ p)
      by (rewrite <- !app_assoc; reflexivity).
    assert (X0 : brackets x = 0%Z) by (apply brackets_none; intros c Hc; specialize (D1 c (in_or_app _ _ _ (or_introl Hc))); cbn in D1; split; intros ->; tauto).
    assert (Z0 : brackets z = 0%Z) by (apply brackets_none; intros c Hc; specialize (D1 c (in_or_app _ _ _ (or_intror Hc))); cbn in D1; split; intros ->; tauto).
    assert (Y0 : forall u v, y = u ++ v -> brackets u = 0%Z).
    { intros u v ->. apply brackets_none; intros c Hc; specialize (D2 c (in_or_app _ _ _ (or_introl Hc))); cbn in D2; split; intros ->; tauto. }
    apply op_aside; [|exact IH]. constructor; auto.
    + rewrite !brackets_app, X0, Z0, (Y0 y []) by (now rewrite app_nil_r). reflexivity.
    + intros u v E. destruct (cut_at ">" x _ u v E) as [u1 [-> E1]]; [intros K; apply (D1 _ (in_or_app _ _ _ (or_introl K))); cbn; tauto|].
      destruct u1 as [|c u1]; [discriminate|]. change (bs "[" ++ y ++ bs "]" ++ z) with ("["%char :: y ++ bs "]" ++ z) in E1. injection E1 as <- E1.
      rewrite brackets_app, X0. cbn [brackets]. change (Ascii.eqb "[" "[") with true. cbn iota.
      assert (B : brackets u1 = 0%Z).
      { clear - E1 Y0 D1 D2. revert y E1 Y0 D2. induction u1 as [|c u1 IHu]; intros y E1 Y0 D2; [reflexivity|]. destruct y as [|c' y].
        - change (bs "]" ++ z) with ("]"%char :: z) in E1. cbn [app] in E1. injection E1 as <- E1. exfalso. apply (D1 ">"%char); [|cbn; tauto].
          apply in_or_app. right. rewrite E1. apply in_elt.
        - cbn [app] in E1. injection E1 as <- E1. cbn [brackets]. rewrite (IHu y E1).
          + pose proof (Y0 [c'] y eq_refl) as Q. cbn [brackets] in Q. lia.
          + intros a b ->. pose proof (Y0 (c' :: a) b eq_refl) as Q. pose proof (Y0 [c'] (a ++ b) eq_refl) as Q2. cbn [brackets] in Q, Q2. lia.
          + intros d Hd. apply D2. now right. }
      rewrite B. discriminate.
Qed.
Lemma forest_opening : forall F, Forall good F -> Forall top_node F -> (forall nd, In nd F -> is_elem nd = false) -> opening (forest_text F).
Proof.
  intros F G T E. unfold forest_text. induction F as [|nd F IH]; [constructor|]. cbn [flat_map]. inversion G as [|? ? G1 G2]; inversion T as [|? ? T1 T2]; subst.
  specialize (IH G2 T2 (fun x H => E x (or_intror H))). pose proof (E nd (or_introl eq_refl)) as E1. destruct nd as [n a s K|t|b]; [discriminate| |].
  - apply opening_blanks; auto.
  - apply op_aside; auto. inversion G1; subst. now apply misc_aside.
Qed.
Lemma opening_over : forall x, opening x -> forall e1 e2 r, accepted false [] e1 -> e1 ++ e2 = x ++ r -> exists e, e1 = x ++ e /\ e ++ e2 = r /\ accepted false [] e.
Proof.
  induction 1 as [|c x B O IH|m x M O IH]; intros e1 e2 r A E.
  - exists e1. auto.
  - destruct (accepted_cases _ _ _ A) as [[_ [K _]]|[[d [s [-> [D [_ A2]]]]]|[y [s [f [o [-> [HP A2]]]]]]]]; [discriminate| |].
    + cbn [app] in E. injection E as -> E. destruct (IH _ _ _ A2 E) as [e [-> [E2 A3]]]. exists e. auto.
    + destruct (hop_head _ _ _ _ _ HP) as [y' ->]. cbn [app] in E. injection E as <- _. elim (blank_eq "<"%char "<"%char B); cbn; auto.
  - rewrite <- app_assoc in E. destruct (accepted_cases _ _ _ A) as [[_ [K _]]|[[d [s [-> [D [_ A2]]]]]|[y [s [f [o [-> [HP A2]]]]]]]]; [discriminate| |].
    + destruct (aside_head m M) as [m' ->]. cbn [app] in E. injection E as -> _. now elim D.
    + rewrite <- app_assoc in E. destruct (hop_det _ _ _ _ _ _ _ _ _ _ HP (hp_aside false [] m M) (Forall_nil _) E) as [-> [E2 [-> ->]]].
      destruct (IH _ _ _ A2 E2) as [e [-> [E3 A3]]]. exists e. rewrite app_assoc. auto.
Qed.
Lemma one_root : forall p F nd y t, strict_prolog p -> Forall good F -> Forall top_node F -> (forall x, In x F -> is_elem x = false) -> good nd -> is_elem nd = true ->
  y ++ t = p ++ forest_text F ++ node_text nd -> t <> [] -> valid y = false.
Proof.
  intros p F nd y t P G T NE GN EL E NT. destruct (valid y) eqn:V; auto. apply valid_accepted in V. destruct V as [V _]. rewrite app_assoc in E.
  destruct (opening_over (p ++ forest_text F) (opening_app _ _ (prolog_opening p P) (forest_opening F G T NE)) _ _ _ V E) as [e [-> [E2 A]]].
  destruct nd as [n a self K| |]; try discriminate. elim NT. apply (cut_element false n a self K e t GN A); auto. intros ->. now apply accepted_nonempty in A.
Qed.
