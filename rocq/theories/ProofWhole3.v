(** What the built-in modifiers do to replies. *)
From Coq Require Import List Ascii String NArith ZArith Bool Lia Permutation.
From Verif Require Import GoStr ModelPretty ModelParser ModelPath ModelResult ModelQuery SpecText SpecPath SpecTree SpecQuery SpecEdit SpecContent SpecFilter SpecLang SpecMod SpecWhole
  ProofBase ProofPath ProofScan ProofSyntax ProofMod ProofMod3.
Import ListNotations.

Lemma last_value : forall (P : result -> Prop) l x, P x -> Forall P l -> P (last l x).
Proof. intros P l. induction l as [|y l IH]; intros x Hx H; auto. inversion H; subst. destruct l as [|z l]; auto. change (P (last (z :: l) x)). now apply IH. Qed.
Definition tame : list bytes := [bs "reverse"; bs "sort"; bs "first"; bs "last"; bs "flatten"; bs "ugly"; bs "pretty"].
Lemma flatten_values : forall l, Forall value l -> flat_map (fun x => if r_is_array x then r_results x else [x]) l = l.
Proof.
  intros l H. induction H as [|x l [_ Hx] H IH]; auto. cbn [flat_map]. rewrite IH. unfold r_is_array. destruct (r_type x); try reflexivity. contradiction.
Qed.
Lemma tame_workable : forall E m r, (forall lt l, Permutation l (e_sort E lt l)) -> In m tame -> workable r ->
  exists f, get_modifier E m = Some f /\ workable (f r).
Proof.
  intros E m r Hs Hm W. unfold tame in Hm. cbn [In] in Hm.
  assert (SV : r_is_array r = false -> value r -> forall f, f r = r -> workable (f r)) by (intros _ V f ->; exact (or_introl V)).
  assert (PV : forall l l', l <> [] -> Forall value l -> Permutation l l' -> workable (r_array l')).
  { intros l l' N F P. right. repeat split; auto; cbn [r_array r_results]; [intros ->; apply Permutation_sym, Permutation_nil in P; contradiction|].
    rewrite Forall_forall in *. intros x Hx. apply F. now apply (Permutation_in _ (Permutation_sym P)). }
  destruct W as [V|[T [R [N F]]]].
  - assert (A : r_is_array r = false) by (unfold r_is_array; destruct V as [_ V]; destruct (r_type r); auto; contradiction).
    repeat (destruct Hm as [<-|Hm]; [eexists; split; [reflexivity|]; unfold mod_reverse, mod_sort, mod_first, mod_last, mod_flatten; rewrite ?A; left; auto|]); [| |contradiction].
    + unfold mod_ugly. destruct (r_raw r); auto.
    + unfold mod_pretty. destruct (r_raw r); auto. destruct (pretty_text _ _); auto.
  - assert (A : r_is_array r = true) by (unfold r_is_array; now rewrite T).
    assert (W : workable r) by (right; auto).
    destruct Hm as [<-|[<-|[<-|[<-|[<-|[<-|[<-|[]]]]]]]]; (eexists; split; [reflexivity|]); unfold mod_reverse, mod_sort, mod_first, mod_last, mod_flatten, mod_ugly, mod_pretty; rewrite ?A.
    + destruct (r_results r) as [|x l] eqn:L; [contradiction|]. apply (PV (x :: l)); auto. apply Permutation_rev.
    + destruct (r_results r) as [|x [|y l]] eqn:L; [contradiction|auto|].
      destruct (forallb (sort_numeric E) (x :: y :: l)); apply (PV (x :: y :: l)); auto.
    + destruct (r_results r) as [|x l] eqn:L; [contradiction|]. left. now inversion F.
    + destruct (r_results r) as [|x l] eqn:L; [contradiction|]. left. inversion F; subst. now apply last_value.
    + rewrite flatten_values by auto. destruct (r_results r) as [|x l] eqn:L; [contradiction|]. apply (PV (x :: l)); auto.
    + rewrite R. exact W.
    + rewrite R. exact W.
Qed.
Lemma tame_keep : forall E ms r, (forall lt l, Permutation l (e_sort E lt l)) -> Forall (fun m => In m tame) ms -> len ms <= 20 ->
  workable r -> r_exists (apply_modifiers E r ms) = true.
Proof.
  intros E ms r Hs H L. unfold apply_modifiers, MaxModifierChainDepth. rewrite (proj2 (Nat.ltb_ge _ _)) by lia. clear L.
  assert (X : forall r, workable r -> r_exists r = true).
  { intros x [[V _]|[V _]]; unfold r_exists; [destruct (r_type x); auto; contradiction|now rewrite V]. }
  revert r. induction H as [|m ms Hm H IH]; intros r W; [now apply X|]. cbn [apply_loop].
  destruct (tame_workable E m r Hs Hm W) as (f & -> & W'). cbv zeta. pose proof (X _ W') as K. unfold r_exists in K. apply negb_true_iff in K.
  unfold is_null. rewrite K. now apply IH.
Qed.
Lemma tame_plain : forall ms, Forall (fun m => In m tame) ms -> Forall plain_mod ms.
Proof.
  intros ms H. eapply Forall_impl; [|exact H]. intros m Hm. unfold tame in Hm. cbn [In] in Hm.
  assert (V : forall c, (33 <= N_of_ascii c <= 126)%N -> visible c) by (intros c Hc; unfold visible; lia).
  assert (PM : forall r c, forallb (fun x => negb (existsb (Ascii.eqb x) ["|"%char; "."%char; backslash])) (r ++ [c]) = true -> (33 <= N_of_ascii c <= 126)%N -> plain_mod (r ++ [c])).
  { intros r c FB Hc. rewrite forallb_forall in FB.
    assert (Q : forall x, In x ["|"%char; "."%char; backslash] -> ~ In x (r ++ [c])).
    { intros x Hx Hi. specialize (FB x Hi). apply negb_true_iff in FB. assert (T : existsb (Ascii.eqb x) ["|"%char; "."%char; backslash] = true).
      { apply existsb_exists. exists x. split; auto. apply Ascii.eqb_refl. } congruence. }
    split; [split; [apply Q; cbn; auto|right; exists r, c; auto]|split; apply Q; cbn; auto]. }
  repeat (destruct Hm as [<-|Hm]; [
    match goal with |- plain_mod ?s => let v := eval vm_compute in s in change s with v end;
    match goal with |- plain_mod ?s => let i := eval vm_compute in (removelast s) in let c := eval vm_compute in (last s " "%char) in change s with (i ++ [c]) end;
    apply PM; [reflexivity|vm_compute; split; discriminate] |]). destruct Hm.
Qed.

(** ** Replies *)
Lemma item_value : forall i r, item_is i r -> value r.
Proof. intros [k|v|k|n] r H; cbn in H; [destruct H as [H _]|destruct H as [H _]|destruct H as [H _]|destruct H as [[H _] _]]; split; rewrite H; discriminate. Qed.
Lemma items_value : forall l rs, Forall2 item_is l rs -> Forall value rs.
Proof. induction 1; constructor; eauto using item_value. Qed.
Definition told_list (r : result) : Prop := r_type r = RArray -> r_raw r = [].
Lemma says_cases : forall r a, says r a -> (exists i l, a = Many (i :: l)) \/ r_type r = RNull \/ (r_type r = RArray /\ r_results r = []) \/ value r.
Proof.
  intros r [|i|[|i l]] H; cbn in H; eauto.
  - right. right. right. eapply item_value; eauto.
  - destruct H as [T H]. inversion H. auto.
Qed.
Definition calm : list bytes := [bs "reverse"; bs "first"; bs "last"; bs "flatten"].
Lemma says_act : forall E m r a, In m calm -> says r a -> exists f, get_modifier E m = Some f /\
  (says (f r) (act m a) \/ (r_type r = RArray /\ r_results r = [])).
Proof.
  intros E m r a Hm H. destruct (says_cases r a H) as [(i & l & ->)|D].
  - cbn [says] in H. destruct H as [T H]. inversion H as [|? x ? rs H1 H2 Q1 Q2]; subst. assert (A : r_is_array r = true) by (unfold r_is_array; now rewrite T).
    unfold calm in Hm. cbn [In] in Hm. destruct Hm as [<-|[<-|[<-|[<-|[]]]]]; (eexists; split; [reflexivity|]); left;
      unfold mod_reverse, mod_first, mod_last, mod_flatten; rewrite A; rewrite <- Q2.
    + change (act (bs "reverse") (Many (i :: l))) with (Many (rev (i :: l))). split; [reflexivity|]. cbn [r_array r_results].
      clear - H1 H2. assert (G : Forall2 item_is (i :: l) (x :: rs)) by now constructor. revert G. generalize (i :: l) (x :: rs).
      induction 1 as [|a b l1 l2 Hab G IH]; [constructor|]. cbn [rev]. apply Forall2_app; auto.
    + change (act (bs "first") (Many (i :: l))) with (One i). exact H1.
    + change (act (bs "last") (Many (i :: l))) with (One (last l i)). cbn [says]. clear - H1 H2. revert i x H1.
      induction H2 as [|a b l1 l2 Hab G IH]; intros i x H1; auto. destruct G as [|a' b' l1 l2 Hab' G]; auto.
      change (item_is (last (a' :: l1) i) (last (b' :: l2) x)). now apply IH.
    + change (act (bs "flatten") (Many (i :: l))) with (Many (i :: l)). rewrite flatten_values by (apply (items_value (i :: l)); now constructor).
      split; auto. cbn [r_array r_results]. now constructor.
  - assert (AE : act m a = a \/ exists i l, a = Many (i :: l)) by (destruct a as [| |[|]]; eauto).
    assert (EX : exists f, get_modifier E m = Some f /\ (f r = r \/ (r_type r = RArray /\ r_results r = []))).
    { destruct D as [D|[[D1 D2]|D]].
      - unfold calm in Hm. cbn [In] in Hm. assert (A : r_is_array r = false) by (unfold r_is_array; now rewrite D).
        destruct Hm as [<-|[<-|[<-|[<-|[]]]]]; (eexists; split; [reflexivity|left]); unfold mod_reverse, mod_first, mod_last, mod_flatten; now rewrite A.
      - unfold calm in Hm. cbn [In] in Hm. destruct Hm as [<-|[<-|[<-|[<-|[]]]]]; (eexists; split; [reflexivity|right; auto]).
      - unfold calm in Hm. cbn [In] in Hm. assert (A : r_is_array r = false) by (unfold r_is_array; destruct D as [_ D]; destruct (r_type r); auto; contradiction).
        destruct Hm as [<-|[<-|[<-|[<-|[]]]]]; (eexists; split; [reflexivity|left]); unfold mod_reverse, mod_first, mod_last, mod_flatten; now rewrite A. }
    destruct EX as (f & -> & [K|K]); exists f; split; auto. rewrite K. destruct AE as [->|(i & l & ->)]; auto.
    exfalso. cbn [says] in H. destruct H as [T H]. inversion H as [|? x ? rs H1 H2 Q1 Q2]. destruct D as [D|[[D1 D2]|[_ D]]]; congruence.
Qed.
Lemma nonempty_act : forall E m r f, In m calm -> get_modifier E m = Some f -> workable r -> workable (f r).
Proof.
  intros E m r f Hm Hf W.
  set (E' := mkEnv (e_ord E) (e_parse_float E) (fun _ l => l) (e_codec E) (e_to_lower E) (e_custom E)).
  assert (G : get_modifier E' m = Some f). { rewrite <- Hf. unfold calm in Hm. cbn [In] in Hm. destruct Hm as [<-|[<-|[<-|[<-|[]]]]]; reflexivity. }
  destruct (tame_workable E' m r) as (g & Hg & K); auto.
  - unfold calm in Hm. unfold tame. cbn [In] in *. tauto.
  - congruence.
Qed.
Lemma says_acts : forall E ms r a, Forall (fun m => In m calm) ms -> len ms <= 20 -> says r a -> nothing r = true \/ workable r ->
  says (if nothing r then r else apply_modifiers E r ms) (acts ms a).
Proof.
  intros E ms r a H L S R. destruct (nothing r) eqn:N.
  - assert (A : forall ms, acts ms a = a).
    { intros ms0. induction ms0 as [|m ms0 IH]; auto. cbn [acts fold_left] in *. replace (act m a) with a; auto.
      destruct a as [| |[|i l]]; auto. cbn in S. destruct S as [T S]. unfold nothing in N. rewrite T in N. inversion S as [|? ? ? ? ? ? Q1 Q2]. rewrite <- Q2 in N. discriminate. }
    rewrite A. exact S.
  - assert (W : workable r) by (destruct R; [congruence|auto]).
    unfold apply_modifiers, MaxModifierChainDepth. rewrite (proj2 (Nat.ltb_ge _ _)) by lia. clear L N R.
    revert r a S W. induction H as [|m ms Hm H IH]; intros r a S W; [exact S|]. cbn [apply_loop acts fold_left].
    destruct (says_act E m r a Hm S) as (f & Hf & [K|[K1 K2]]).
    + rewrite Hf. cbv zeta. pose proof (nonempty_act E m r f Hm Hf W) as W'.
      assert (NN : is_null (f r) = false) by (unfold is_null; destruct W' as [[V _]|[V _]]; [destruct (r_type (f r)); auto; contradiction|now rewrite V]).
      rewrite NN. now apply IH.
    + exfalso. destruct W as [[_ V]|(_ & _ & V & _)]; contradiction.
Qed.
Lemma f2_flip : forall (A B : Type) (P : A -> B -> Prop) l m, Forall2 P l m -> Forall2 (fun b a => P a b) m l.
Proof. induction 1; constructor; auto. Qed.
