(** C111: a program cannot tell a document from its tree. *)
From Coq Require Import List Ascii String NArith ZArith Bool Lia Permutation.
From Verif Require Import GoStr ModelParser ModelPath ModelResult ModelQuery ModelValidate ModelBuilder SpecText SpecPath SpecTree SpecQuery SpecEdit SpecContent SpecValid SpecHistory SpecLaid SpecActor
  ProofBase ProofEscape ProofTree ProofTree8 ProofEdit ProofEdit2 ProofEdit5 ProofEdit8 ProofEdit9 ProofEdit10 ProofEdit11 ProofNotation ProofNotation2 ProofLaid ProofLaid6 ProofActor PropTree PropValid PropHistory PropLaid PropStore.
Import ListNotations.
Open Scope nat_scope.

(** C111. Any program that asks with paths (elements, attributes, texts, counts and children,
    by names and by indexes) and makes edits (of contents, attributes, new entries, fragments
    and removals), each chosen by the answers so far.  Run on a document, in the notation of
    its author, it ends as it does on the tree; no call fails; the document is then the tree
    it leaves, in such a notation. *)
Theorem C111_actor : forall E fmt_g p F s x A (P : actor A) a F',
  (forall k l, Permutation l (e_ord E k l)) -> prolog p -> strict_prolog p ->
  Forall good F -> Forall top_node F -> shallow F -> spacious p s F -> laid_all true s F x -> played (spacious p s) P F a F' ->
  exists G y, plays E fmt_g P (p ++ x) = Ok (Some a, p ++ y) /\ Forall2 same F' G /\ laid_all true s G y /\ valid (p ++ y) = true.
Proof.
  intros E g p F s x A P a F' Ho Hp SP HG HT HS HE HL H.
  destruct (actor_ok E g Ho p Hp SP s A P F a F' H F x HG HT HS HE (same_all_refl F) HL) as (G & y & C & S & L & G' & T' & S' & E'). exists G, y.
  split; [exact C|]. split; [exact S|]. split; [exact L|]. apply (laid_valid p G y s); auto; [eapply same_good_all; eauto|eapply same_top; eauto|eapply same_shallow; eauto|eapply same_spacious; eauto].
Qed.
Print Assumptions C111_actor.
(** On the text of the tree. *)
Lemma played_mono : forall A (ok ok' : list node -> Prop) (P : actor A) F a F', (forall F, ok F -> ok' F) -> played ok P F a F' -> played ok' P F a F'.
Proof. intros A ok ok' P F a F' M H. induction H; [constructor|econstructor; eauto|econstructor; eauto]. Qed.
Theorem C111_plain : forall E fmt_g p F A (P : actor A) a F',
  (forall k l, Permutation l (e_ord E k l)) -> prolog p -> strict_prolog p ->
  Forall good F -> Forall top_node F -> shallow F -> room p F -> played (room p) P F a F' ->
  exists G y, plays E fmt_g P (p ++ forest_text F) = Ok (Some a, p ++ y) /\ Forall2 same F' G /\ laid_all true 0 G y /\ valid (p ++ y) = true.
Proof.
  intros E g p F A P a F' Ho Hp SP HG HT HS HR H.
  assert (M : forall F, room p F -> spacious p 0 F) by (intros F0 [R1 R2]; split; [exact R1|]; rewrite app_length in R2; now rewrite Nat.add_0_r).
  exact (C111_actor E g p F 0 (forest_text F) A P a F' Ho Hp SP HG HT HS (M _ HR) (forest_laid F HG true 0) (played_mono A _ _ P F a F' M H)).
Qed.
Print Assumptions C111_plain.
(** Two documents of the same tree, after different prologs and in different notations: no
    program tells them apart. *)
Theorem C111_notations : forall E E' fmt_g fmt_g' p p' F s s' x x' A (P : actor A) a F',
  (forall k l, Permutation l (e_ord E k l)) -> (forall k l, Permutation l (e_ord E' k l)) -> prolog p -> strict_prolog p -> prolog p' -> strict_prolog p' ->
  Forall good F -> Forall top_node F -> shallow F -> spacious p s F -> spacious p' s' F -> laid_all true s F x -> laid_all true s' F x' ->
  played (fun G => spacious p s G /\ spacious p' s' G) P F a F' ->
  exists d d', plays E fmt_g P (p ++ x) = Ok (Some a, d) /\ plays E' fmt_g' P (p' ++ x') = Ok (Some a, d').
Proof.
  intros E E' g g' p p' F s s' x x' A P a F' Ho Ho' Hp SP Hp' SP' HG HT HS HE HE' HL HL' H.
  destruct (C111_actor E g p F s x A P a F' Ho Hp SP HG HT HS HE HL) as (G & y & C & _); [eapply played_mono; [|exact H]; intros F0 HF; exact (proj1 HF)|].
  destruct (C111_actor E' g' p' F s' x' A P a F' Ho' Hp' SP' HG HT HS HE' HL') as (G' & y' & C' & _); [eapply played_mono; [|exact H]; intros F0 HF; exact (proj2 HF)|]. eauto.
Qed.
Print Assumptions C111_notations.
(** On the tree every question has exactly one answer. *)
Theorem C111_answers : forall a, exists n, tells a n /\ forall m, tells a m -> m = n.
Proof. intros a. destruct (tells_some a) as [n T]. exists n. split; [exact T|]. intros m T'. now apply (tells_fun a). Qed.
Print Assumptions C111_answers.

(** If there are two items, the name of the second is noted and the item is removed; the
    program tells how many are left. *)
Definition items := by_name [bs "shop"; bs "item"].
Definition at_note := by_name [bs "shop"; bs "log"; bs "sold"].
Definition sell : actor news :=
  Query items TheCount (fun n =>
    match n with
    | Amount 2 => Query at_name TheElement (fun m =>
        match m with
        | Said t => Perform (SetText at_note t) (Perform (Remove at_item) (Query items TheCount (fun k => Stop k)))
        | _ => Stop Absent
        end)
    | _ => Stop n
    end).
Definition sold : bytes := bs "<shop by = 'A>B'" ++ [lf] ++ bs ">" ++ [lf] ++ bs "  <item id='1' k=""x""/><!-- two --><log><sold>pen &amp; ink</sold></log></shop>".
Example C111_example :
  Forall good shop /\ Forall top_node shop /\ shallow shop /\ spacious sample_prolog 20 shop /\ laid_all true 20 shop shop_text /\
  (exists F', played (spacious sample_prolog 20) sell shop (Amount 1) F') /\
  plays env0 (fun _ => []) sell (sample_prolog ++ shop_text) = Ok (Some (Amount 1), sample_prolog ++ sold).
Proof.
  destruct C71_example as (A1 & A2 & A3 & _). destruct C71_history_example as (B1 & B2 & _). do 5 (split; [assumption|]). split; [|vm_compute; reflexivity].
  assert (SP : forall F, existsb is_elem F = true -> (N.of_nat (List.length sample_prolog + List.length (forest_text F) + 20) <=? 10485760)%N = true -> spacious sample_prolog 20 F).
  { intros F X Y. split; [|now apply N.leb_le]. apply existsb_exists in X. destruct X as [[n a sf k| |] [IN K]]; try discriminate. now exists n, a, sf, k. }
  eexists. unfold sell.
  apply (played_query _ items TheCount _ shop (Amount 2)); [apply tpath_b_ok; vm_compute; reflexivity|exact (tells_count 2)|].
  apply (played_query _ at_name TheElement _ shop (Said (bs "pen & ink"))); [apply tpath_b_ok; vm_compute; reflexivity| |].
  { apply (tells_element [Text (bs "pen &amp; ink")]). unfold text_of. change (bs "pen & ink") with (unescape_xml (trim_space (all_text [Text (bs "pen &amp; ink")]))). apply unescape_decodes. }
  eapply played_perform; [legal_op|vm_compute; reflexivity|apply SP; vm_compute; reflexivity|].
  eapply played_perform; [legal_op|vm_compute; reflexivity|apply SP; vm_compute; reflexivity|].
  eapply (played_query _ items TheCount _ _ (Amount 1)); [apply tpath_b_ok; vm_compute; reflexivity|exact (tells_count 1)|]. constructor.
Qed.
