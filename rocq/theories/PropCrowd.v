(** C112: any number of programs that share a document. *)
From Coq Require Import List Ascii String NArith ZArith Bool Lia Permutation.
From Verif Require Import GoStr ModelParser ModelPath ModelResult ModelQuery ModelValidate ModelBuilder SpecText SpecPath SpecTree SpecQuery SpecEdit SpecContent SpecValid SpecMod SpecHistory SpecTable SpecStore SpecBudget SpecFill SpecLayer SpecAgent SpecWeave SpecCrowd
  ProofBase ProofTree ProofTree8 ProofStore ProofBudget ProofLayer ProofSync ProofAgent ProofWeave ProofCrowd PropTree PropStore PropBudget PropLayer PropAgent.
Import ListNotations.
Open Scope nat_scope.

(** C112, for any number of programs. They take turns on one document, call by call, in any
    order; no two have a key in common.  No call fails; each ends with the answer with which
    it ends alone, and leaves under its keys the values that it leaves alone. *)
Theorem C112_many : forall E fmt_g p F (J : nat -> list bytes -> Prop) D A (Ps : list (agent A)) turns,
  (forall k l, Permutation l (e_ord E k l)) -> prolog p -> strict_prolog p ->
  Forall good F -> Forall top_node F -> shallow F -> has_element F ->
  (forall i j k, J i k -> J j k -> i = j) ->
  keys (fun k => exists i, i < List.length Ps /\ J i k) -> stores (fun k => exists i, i < List.length Ps /\ J i k) F D ->
  (forall i P, nth_error Ps i = Some P -> keeps_to (J i) P D) ->
  Forall (fun o => legal (store_edit o)) (flat_map (fun P => deeds P D) Ps) -> Forall (fun o => forall n, o <> Forget [n]) (flat_map (fun P => deeds P D) Ps) ->
  most F + marks (flat_map (fun P => deeds P D) Ps) <= 100 ->
  (N.of_nat (List.length p + full F + spend_all (map store_edit (flat_map (fun P => deeds P D) Ps))) <= 10485760)%N ->
  exists d, on_document E fmt_g (interleave turns Ps) (p ++ forest_text F) = Ok (Some (map (fun P => fst (on_map P D)) Ps), d) /\ valid d = true /\
    forall i P q, nth_error Ps i = Some P -> J i (place_key q) -> good_place q -> exists r, get E d (place_path q) = Ok r /\
      match value_at (snd (on_map P D)) q with Some v => r_exists r = true /\ r_string r = v | None => r_exists r = false end.
Proof.
  intros E g p F J D A Ps turns Ho Hp SP HG HT HS HE DJ HK ST KT LG NF MO Z. set (K := fun k => exists i, i < List.length Ps /\ J i k) in *.
  destruct (interleave_ok turns Ps J (fun _ => D) D DJ) as (W1 & W2 & W3 & W4); [intros i P Q; split; [intros k _; reflexivity|now apply KT]|].
  assert (AD : all_deeds Ps (fun _ => D) = flat_map (fun P => deeds P D) Ps) by (clear; induction Ps as [|P Ps IH]; cbn [all_deeds flat_map]; [reflexivity|now rewrite IH]). rewrite AD in W4.
  rewrite (marks_perm _ _ W4) in MO. rewrite (spend_perm _ _ (Permutation_map store_edit W4)) in Z.
  destruct (C110_agent E g p F K D (list A) (interleave turns Ps) Ho Hp SP HG HT HS HE HK ST W3 (Permutation_Forall W4 LG) (Permutation_Forall W4 NF) MO Z) as (d & C & V & R).
  assert (AN : fst (on_map (interleave turns Ps) D) = map (fun P => fst (on_map P D)) Ps).
  { clear - W1 W2. revert W1 W2. generalize (snd (on_map (interleave turns Ps) D)) as D'. generalize (fst (on_map (interleave turns Ps) D)) as l. intros l D' W1 W2.
    assert (X : forall i P, nth_error Ps i = Some P -> nth_error l i = Some (fst (on_map P D))) by (intros i P Q; now apply (W2 i P Q)). clear W2. revert l W1 X. induction Ps as [|P Ps IH]; intros [|a l] W1 X; try discriminate; [reflexivity|].
    cbn [map]. f_equal; [specialize (X 0 P eq_refl); now injection X|]. apply IH; [now injection W1|]. intros i P' Q. exact (X (S i) P' Q). }
  exists d. rewrite AN in C. split; [exact C|]. split; [exact V|]. intros i P q Q Jq Gq. destruct (W2 i P Q) as [_ AG]. rewrite <- (agrees_value (J i) _ _ q AG Jq). apply R; [|exact Gq].
  exists i. split; [apply nth_error_Some; congruence|exact Jq].
Qed.
Print Assumptions C112_many.

(** Four programs, each of which adds a sign to its own value. *)
Definition bump (k : list bytes) : agent (option bytes) :=
  Ask (Content k) (fun v => Do (Give k (match v with Some t => t ++ bs "+" | None => bs "+" end)) (Finish v)).
Definition crowd_keys : list (list bytes) := [k_host; k_port; k_mode; k_file].
Definition crowd : list (agent (option bytes)) := map bump crowd_keys.
Definition own (i : nat) (k : list bytes) : Prop := nth_error crowd_keys i = Some k.
Example C112_many_example :
  (forall i j k, own i k -> own j k -> i = j) /\ keys (fun k => exists i, i < List.length crowd /\ own i k) /\ stores (fun k => exists i, i < List.length crowd /\ own i k) defaults s_defaults /\
  (forall i P, nth_error crowd i = Some P -> keeps_to (own i) P s_defaults) /\
  Forall (fun o => legal (store_edit o)) (flat_map (fun P => deeds P s_defaults) crowd) /\ Forall (fun o => forall n, o <> Forget [n]) (flat_map (fun P => deeds P s_defaults) crowd) /\
  most defaults + marks (flat_map (fun P => deeds P s_defaults) crowd) <= 100 /\
  (N.of_nat (full defaults + spend_all (map store_edit (flat_map (fun P => deeds P s_defaults) crowd))) <= 10485760)%N /\
  on_document env0 (fun _ => []) (interleave [3; 1; 0; 7; 1; 2; 1; 0] crowd) (forest_text defaults) =
    Ok (Some [Some (bs "localhost"); Some (bs "80"); Some (bs "safe"); None], bs "<cfg><net><host tls=""no"">localhost+</host><port>80+</port></net> <mode>safe+</mode><log><file>+</file></log></cfg>").
Proof.
  destruct C107_example as (A1 & A2 & A3 & A4 & A5 & A6 & _).
  assert (S : forall k, (exists i, i < List.length crowd /\ own i k) -> cfg_keys k) by (intros k (i & _ & O); unfold own in O; apply nth_error_In in O; exact O).
  assert (ND : NoDup crowd_keys) by (repeat (apply NoDup_cons; [intros I; cbn in I; intuition discriminate|]); apply NoDup_nil).
  split. { intros i j k Q1 Q2. unfold own in *. rewrite NoDup_nth_error in ND. apply ND; [apply nth_error_Some; congruence|congruence]. }
  split. { destruct A5 as [B1 B2]. split; [intros k Hk; now apply B1, S|intros k z Hk Hz; apply (B2 k z); now apply S]. }
  split. { intros k Hk. now apply A6, S. }
  assert (GP : forall k, cfg_keys k -> good_place (Content k)) by (intros k I; repeat (destruct I as [<-|I]; [cbn [good_place]; apply tpath_b_ok; vm_compute; reflexivity|]); destruct I).
  split. { intros i P Q. unfold crowd in Q. rewrite nth_error_map in Q. destruct (nth_error crowd_keys i) as [k|] eqn:QK; [|discriminate]. injection Q as <-. unfold bump. cbn [keeps_to place_key key_of]. split; [exact QK|]. split; [apply GP; exact (nth_error_In _ _ QK)|]. split; [exact QK|exact I]. }
  split.
  { match goal with |- Forall _ ?l => let y := eval vm_compute in l in change l with y end. repeat (constructor; [cbn [store_edit]; legal_op|]). constructor. }
  split; [match goal with |- Forall _ ?l => let y := eval vm_compute in l in change l with y end; repeat (constructor; [intros n; discriminate|]); constructor|]. split; [vm_compute; lia|]. split; [vm_compute; discriminate|]. vm_compute; reflexivity.
Qed.
