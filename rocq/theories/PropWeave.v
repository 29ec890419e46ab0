(** C112: programs that share a document. *)
From Coq Require Import List Ascii String NArith ZArith Bool Lia Permutation.
From Verif Require Import GoStr ModelParser ModelPath ModelResult ModelQuery ModelValidate ModelBuilder SpecText SpecPath SpecTree SpecQuery SpecEdit SpecContent SpecValid SpecMod SpecHistory SpecTable SpecStore SpecBudget SpecFill SpecLayer SpecAgent SpecWeave
  ProofBase ProofTree ProofTree8 ProofStore ProofBudget ProofLayer ProofSync ProofAgent ProofWeave PropTree PropStore PropBudget PropLayer PropAgent.
Import ListNotations.
Open Scope nat_scope.

(** C112. Two programs take turns on one document, call by call, in any order; they have no
    key in common.  No call fails; each ends with the answer with which it ends alone, and
    leaves under its keys the values that it leaves alone. *)
Theorem C112_sessions : forall E fmt_g p F K1 K2 D A B (P : agent A) (Q : agent B) turns,
  (forall k l, Permutation l (e_ord E k l)) -> prolog p -> strict_prolog p ->
  Forall good F -> Forall top_node F -> shallow F -> has_element F ->
  keys (fun k => K1 k \/ K2 k) -> (forall k, K1 k -> K2 k -> False) -> stores (fun k => K1 k \/ K2 k) F D -> keeps_to K1 P D -> keeps_to K2 Q D ->
  Forall (fun o => legal (store_edit o)) (deeds P D ++ deeds Q D) -> Forall (fun o => forall n, o <> Forget [n]) (deeds P D ++ deeds Q D) ->
  most F + marks (deeds P D ++ deeds Q D) <= 100 ->
  (N.of_nat (List.length p + full F + spend_all (map store_edit (deeds P D ++ deeds Q D))) <= 10485760)%N ->
  exists d, on_document E fmt_g (weave turns P Q) (p ++ forest_text F) = Ok (Some (fst (on_map P D), fst (on_map Q D)), d) /\ valid d = true /\
    (forall q, K1 (place_key q) -> good_place q -> exists r, get E d (place_path q) = Ok r /\
      match value_at (snd (on_map P D)) q with Some v => r_exists r = true /\ r_string r = v | None => r_exists r = false end) /\
    (forall q, K2 (place_key q) -> good_place q -> exists r, get E d (place_path q) = Ok r /\
      match value_at (snd (on_map Q D)) q with Some v => r_exists r = true /\ r_string r = v | None => r_exists r = false end).
Proof.
  intros E g p F K1 K2 D A B P Q turns Ho Hp SP HG HT HS HE HK K12 ST T1 T2 LG NF MO Z. set (K := fun k => K1 k \/ K2 k) in *.
  destruct (weave_ok K1 K2 K12 turns P Q D D D (fun _ _ => eq_refl) (fun _ _ => eq_refl) T1 T2) as (W1 & W2 & W3 & W4 & W5). apply Permutation_sym in W5.
  assert (W6 := Permutation_map store_edit W5).
  rewrite (marks_perm _ _ W5) in MO. rewrite (spend_perm _ _ W6) in Z.
  destruct (C110_agent E g p F K D (A * B) (weave turns P Q) Ho Hp SP HG HT HS HE HK ST W4 (Permutation_Forall W5 LG) (Permutation_Forall W5 NF) MO Z) as (d & C & V & R).
  exists d. rewrite W1 in C. split; [exact C|]. split; [exact V|]. split; intros q Kq Gq.
  - rewrite <- (agrees_value K1 _ _ q W2 Kq). apply R; [now left|exact Gq].
  - rewrite <- (agrees_value K2 _ _ q W3 Kq). apply R; [now right|exact Gq].
Qed.
Print Assumptions C112_sessions.

(** Two programs: one moves the port of the host into an attribute of the host, the other one
    counts, in the mode, how often it was here. *)
Definition net_keys (k : list bytes) : Prop := In k [k_host; k_port].
Definition own_keys (k : list bytes) : Prop := In k [k_mode; k_file].
Definition mover : agent bool :=
  Ask (Content k_port) (fun v => match v with Some t => Do (Mark k_host (bs "port") t) (Do (Forget k_port) (Finish true)) | None => Finish false end).
Definition toucher : agent (option bytes) :=
  Ask (Content k_mode) (fun v => Do (Give k_mode (match v with Some t => t ++ bs "+" | None => bs "+" end)) (Do (Mark k_file (bs "seen") (bs "yes")) (Finish v))).
Definition woven : bytes := bs "<cfg><net><host port=""80"" tls=""no"">localhost</host></net> <mode>safe+</mode><log><file seen=""yes""></file></log></cfg>".
Example C112_example :
  Forall good defaults /\ Forall top_node defaults /\ shallow defaults /\ has_element defaults /\ keys (fun k => net_keys k \/ own_keys k) /\ (forall k, net_keys k -> own_keys k -> False) /\
  stores (fun k => net_keys k \/ own_keys k) defaults s_defaults /\ keeps_to net_keys mover s_defaults /\ keeps_to own_keys toucher s_defaults /\
  Forall (fun o => legal (store_edit o)) (deeds mover s_defaults ++ deeds toucher s_defaults) /\
  Forall (fun o => forall n, o <> Forget [n]) (deeds mover s_defaults ++ deeds toucher s_defaults) /\
  most defaults + marks (deeds mover s_defaults ++ deeds toucher s_defaults) <= 100 /\
  (N.of_nat (full defaults + spend_all (map store_edit (deeds mover s_defaults ++ deeds toucher s_defaults))) <= 10485760)%N /\
  on_document env0 (fun _ => []) (weave [true; false; true; false; false; true] mover toucher) (forest_text defaults) = Ok (Some (true, Some (bs "safe")), woven).
Proof.
  destruct C107_example as (A1 & A2 & A3 & A4 & A5 & A6 & _). do 4 (split; [assumption|]).
  assert (S : forall k, net_keys k \/ own_keys k -> cfg_keys k) by (intros k; unfold net_keys, own_keys, cfg_keys; cbn [In]; tauto).
  split. { destruct A5 as [B1 B2]. split; [intros k Hk; now apply B1, S|intros k z Hk Hz; apply (B2 k z); now apply S]. }
  split. { intros k H1 H2. cbn [net_keys own_keys In] in *. destruct H1 as [<-|[<-|[]]], H2 as [H2|[H2|[]]]; vm_compute in H2; discriminate H2. }
  split. { intros k Hk. now apply A6, S. }
  assert (GP : forall k, cfg_keys k -> good_place (Content k)) by (intros k I; repeat (destruct I as [<-|I]; [cbn [good_place]; apply tpath_b_ok; vm_compute; reflexivity|]); destruct I).
  split.
  { unfold mover. cbn [keeps_to place_key]. split; [unfold net_keys; cbn [In]; tauto|]. split; [apply GP; unfold cfg_keys; cbn [In]; tauto|].
    replace (value_at s_defaults (Content k_port)) with (Some (bs "80")) by (vm_compute; reflexivity). cbn [keeps_to key_of]. unfold net_keys; cbn [In]; tauto. }
  split.
  { unfold toucher. cbn [keeps_to place_key key_of]. split; [unfold own_keys; cbn [In]; tauto|]. split; [apply GP; unfold cfg_keys; cbn [In]; tauto|]. unfold own_keys; cbn [In]; tauto. }
  assert (Q : deeds mover s_defaults ++ deeds toucher s_defaults = [Mark k_host (bs "port") (bs "80"); Forget k_port; Give k_mode (bs "safe+"); Mark k_file (bs "seen") (bs "yes")]) by (vm_compute; reflexivity).
  rewrite Q. split.
  { match goal with |- Forall _ ?l => let y := eval vm_compute in l in change l with y end.
    repeat (constructor; [cbn [store_edit]; legal_op|]). constructor. }
  split; [repeat (constructor; [intros n; discriminate|]); constructor|]. split; [vm_compute; lia|]. split; [vm_compute; discriminate|]. vm_compute; reflexivity.
Qed.
(** Programs that share a key are not so: between Get and Set another program may have
    written, whose value is then lost. *)
Definition touch : agent (option bytes) :=
  Ask (Content k_mode) (fun v => Do (Give k_mode (match v with Some t => t ++ bs "+" | None => bs "+" end)) (Finish v)).
Theorem C112_shared_refuted : exists d d1 d2, d = bs "<cfg><mode>a</mode></cfg>" /\
  on_document env0 (fun _ => []) (weave [true; true; false; false] touch touch) d = Ok (Some (Some (bs "a"), Some (bs "a+")), d1) /\ d1 = bs "<cfg><mode>a++</mode></cfg>" /\
  on_document env0 (fun _ => []) (weave [true; false; true; false] touch touch) d = Ok (Some (Some (bs "a"), Some (bs "a")), d2) /\ d2 = bs "<cfg><mode>a+</mode></cfg>".
Proof. eexists _, _, _. split; [reflexivity|]. split; [vm_compute; reflexivity|]. split; [vm_compute; reflexivity|]. split; vm_compute; reflexivity. Qed.
Print Assumptions C112_shared_refuted.
