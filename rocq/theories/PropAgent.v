(** C110: a program cannot tell a document from a map. *)
From Coq Require Import List Ascii String NArith ZArith Bool Lia Permutation.
From Verif Require Import GoStr ModelParser ModelPath ModelResult ModelQuery ModelValidate ModelBuilder SpecText SpecPath SpecTree SpecQuery SpecEdit SpecContent SpecValid SpecMod SpecHistory SpecTable SpecStore SpecBudget SpecFill SpecLayer SpecAgent
  ProofBase ProofTree ProofTree8 ProofStore ProofBudget ProofLayer ProofSync ProofAgent PropTree PropStore PropBudget PropLayer.
Import ListNotations.
Open Scope nat_scope.

(** C110. A document that holds values under keys of which none leads through another, and any
    program that asks for values and makes edits, the next question or edit depending in any
    way on the answers so far.  As long as the documents on the way stay within the limits,
    no call fails, the program ends with the answer with which it ends on the map, and the
    document then holds the values of the map. *)
Theorem C110_history : forall E fmt_g p F K D A (P : agent A) F',
  (forall k l, Permutation l (e_ord E k l)) -> prolog p -> strict_prolog p ->
  Forall good F -> Forall top_node F -> shallow F -> room p F ->
  keys K -> stores K F D -> keeps_to K P D -> history p (map store_edit (deeds P D)) F F' ->
  exists d, on_document E fmt_g P (p ++ forest_text F) = Ok (Some (fst (on_map P D)), d) /\ valid d = true /\
    forall q, K (place_key q) -> good_place q -> exists r, get E d (place_path q) = Ok r /\
      match value_at (snd (on_map P D)) q with Some v => r_exists r = true /\ r_string r = v | None => r_exists r = false end.
Proof.
  intros E g p F K D A P F' Ho Hp SP HG HT HS HR HK ST KT H.
  destruct (agent_ok E g Ho p Hp SP F HG HT HS HR K HK D ST A P [] F' (p ++ forest_text F) (Forall_nil _) KT H eq_refl) as (d & C & V & R).
  exists d. split; [exact C|]. split; [exact V|]. intros q Kq Gq. now apply (reads_value E d K).
Qed.
Print Assumptions C110_history.

(** The same with a budget for the edits, which are those made on the map. *)
Theorem C110_agent : forall E fmt_g p F K D A (P : agent A),
  (forall k l, Permutation l (e_ord E k l)) -> prolog p -> strict_prolog p ->
  Forall good F -> Forall top_node F -> shallow F -> has_element F ->
  keys K -> stores K F D -> keeps_to K P D ->
  Forall (fun o => legal (store_edit o)) (deeds P D) -> Forall (fun o => forall n, o <> Forget [n]) (deeds P D) ->
  most F + marks (deeds P D) <= 100 ->
  (N.of_nat (List.length p + full F + spend_all (map store_edit (deeds P D))) <= 10485760)%N ->
  exists d, on_document E fmt_g P (p ++ forest_text F) = Ok (Some (fst (on_map P D)), d) /\ valid d = true /\
    forall q, K (place_key q) -> good_place q -> exists r, get E d (place_path q) = Ok r /\
      match value_at (snd (on_map P D)) q with Some v => r_exists r = true /\ r_string r = v | None => r_exists r = false end.
Proof.
  intros E g p F K D A P Ho Hp SP HG HT HS HE HK ST KT LG NF MO Z.
  destruct (store_leads K _ F D HK ST HG HT (deeds_keys A K P D KT) LG NF HE MO) as [F' L]. pose proof (full_ge F) as Y. assert (R : room p F) by (split; [exact HE|rewrite app_length; lia]).
  exact (C110_history E g p F K D A P F' Ho Hp SP HG HT HS R HK ST KT (leads_history _ _ _ _ L Z)).
Qed.
Print Assumptions C110_agent.

(** Two documents with the same values, however they are laid out, in whatever order, with
    whatever else in them, and whatever the order in which maps are gone through: no program
    tells them apart, by its answer or by what can be asked afterwards. *)
Theorem C110_indistinguishable : forall E E' fmt_g fmt_g' p p' F F' K D A (P : agent A) G G',
  (forall k l, Permutation l (e_ord E k l)) -> (forall k l, Permutation l (e_ord E' k l)) -> prolog p -> strict_prolog p -> prolog p' -> strict_prolog p' ->
  Forall good F -> Forall top_node F -> shallow F -> room p F -> Forall good F' -> Forall top_node F' -> shallow F' -> room p' F' ->
  keys K -> stores K F D -> stores K F' D -> keeps_to K P D ->
  history p (map store_edit (deeds P D)) F G -> history p' (map store_edit (deeds P D)) F' G' ->
  exists a d d', on_document E fmt_g P (p ++ forest_text F) = Ok (Some a, d) /\ on_document E' fmt_g' P (p' ++ forest_text F') = Ok (Some a, d') /\
    forall q, K (place_key q) -> good_place q -> exists r r', get E d (place_path q) = Ok r /\ get E' d' (place_path q) = Ok r' /\ r_exists r = r_exists r' /\ (r_exists r = true -> r_string r = r_string r').
Proof.
  intros E E' g g' p p' F F' K D A P G G' Ho Ho' Hp SP Hp' SP' HG HT HS HR HG' HT' HS' HR' HK ST ST' KT H H'.
  destruct (C110_history E g p F K D A P G Ho Hp SP HG HT HS HR HK ST KT H) as (d & C & _ & R). destruct (C110_history E' g' p' F' K D A P G' Ho' Hp' SP' HG' HT' HS' HR' HK ST' KT H') as (d' & C' & _ & R').
  exists (fst (on_map P D)), d, d'. split; [exact C|]. split; [exact C'|]. intros q Kq Gq. destruct (R q Kq Gq) as (r & G1 & B). destruct (R' q Kq Gq) as (r' & G2 & B'). exists r, r'. split; [exact G1|]. split; [exact G2|].
  destruct (value_at (snd (on_map P D)) q); [destruct B as [-> ->], B' as [-> ->]; now split|rewrite B, B'; now split].
Qed.
Print Assumptions C110_indistinguishable.

(** Asked whether it runs in safe mode, the program switches to fast; otherwise it takes the
    host out; then it notes in an attribute what it found, and tells the port. *)
Definition toggle : agent (option bytes) :=
  Ask (Content k_mode) (fun m =>
    match m with
    | Some v => if bytes_eqb v (bs "safe") then Do (Give k_mode (bs "fast & loose")) (Do (Mark k_file (bs "was") v) (Ask (Named k_host (bs "tls")) (fun t => Finish t)))
                else Do (Forget k_host) (Do (Unmark k_file (bs "keep")) (Ask (Content k_host) (fun h => Finish h)))
    | None => Finish None
    end).
Definition toggle_safe : bytes := bs "<cfg><net><host tls=""no"">localhost</host><port>80</port></net> <mode>fast &amp; loose</mode><log><file was=""safe""></file></log></cfg>".
Definition toggle_slow : bytes := bs "<cfg><mode>slow</mode><log><file></file></log></cfg>".
Definition deeds_ok (F : list node) (D : store) : Prop :=
  keeps_to cfg_keys toggle D /\ Forall (fun o => legal (store_edit o)) (deeds toggle D) /\ Forall (fun o => forall n, o <> Forget [n]) (deeds toggle D) /\
  most F + marks (deeds toggle D) <= 100 /\ (N.of_nat (full F + spend_all (map store_edit (deeds toggle D))) <= 10485760)%N.
Example C110_example :
  Forall good defaults /\ Forall top_node defaults /\ shallow defaults /\ has_element defaults /\ keys cfg_keys /\ stores cfg_keys defaults s_defaults /\ deeds_ok defaults s_defaults /\
  fst (on_map toggle s_defaults) = Some (bs "no") /\ on_document env0 (fun _ => []) toggle (forest_text defaults) = Ok (Some (Some (bs "no")), toggle_safe) /\
  Forall good user /\ Forall top_node user /\ shallow user /\ stores cfg_keys user s_user /\ deeds_ok user s_user /\
  fst (on_map toggle s_user) = None /\ on_document env0 (fun _ => []) toggle (forest_text user) = Ok (Some None, toggle_slow).
Proof.
  assert (OK : forall F D, keeps_to cfg_keys toggle D -> Forall (fun o => legal (store_edit o)) (deeds toggle D) -> Forall (fun o => forall n, o <> Forget [n]) (deeds toggle D) ->
    most F + marks (deeds toggle D) <= 100 -> (N.of_nat (full F + spend_all (map store_edit (deeds toggle D))) <= 10485760)%N -> deeds_ok F D) by (intros; unfold deeds_ok; tauto).
  assert (GP : forall k, cfg_keys k -> good_place (Content k)) by (intros k I; repeat (destruct I as [<-|I]; [cbn [good_place]; apply tpath_b_ok; vm_compute; reflexivity|]); destruct I).
  assert (KK : cfg_keys k_host /\ cfg_keys k_port /\ cfg_keys k_mode /\ cfg_keys k_file) by (unfold cfg_keys, In; tauto). destruct KK as (K1 & K2 & K3 & K4).
  destruct C107_example as (A1 & A2 & A3 & A4 & A5 & A6 & A7 & _). inversion A7 as [|? ? _ A8]; subst. inversion A8 as [|? ? (_ & _ & B1 & B2 & B3 & _ & B4) _]; subst. do 6 (split; [assumption|]).
  split.
  { assert (Q : deeds toggle s_defaults = [Give k_mode (bs "fast & loose"); Mark k_file (bs "was") (bs "safe")]) by (vm_compute; reflexivity).
    apply OK; rewrite ?Q.
    - unfold toggle. cbn [keeps_to]. split; [exact K3|]. split; [now apply GP|]. replace (value_at s_defaults (Content k_mode)) with (Some (bs "safe")) by (vm_compute; reflexivity). rewrite bytes_eqb_refl. cbn [keeps_to key_of place_key].
      split; [exact K3|]. split; [exact K4|]. split; [exact K1|]. split; [cbn [good_place]; apply tpath_b_ok; vm_compute; reflexivity|exact I].
    - match goal with |- Forall _ ?l => let y := eval vm_compute in l in change l with y end. repeat (constructor; [cbn [store_edit]; legal_op|]). constructor.
    - repeat (constructor; [intros n; discriminate|]); constructor.
    - vm_compute; lia.
    - vm_compute; discriminate. }
  split; [vm_compute; reflexivity|]. split; [vm_compute; reflexivity|]. do 4 (split; [assumption|]). split.
  { assert (Q : deeds toggle s_user = [Forget k_host; Unmark k_file (bs "keep")]) by (vm_compute; reflexivity).
    apply OK; rewrite ?Q.
    - unfold toggle. cbn [keeps_to]. split; [exact K3|]. split; [now apply GP|]. replace (value_at s_user (Content k_mode)) with (Some (bs "slow")) by (vm_compute; reflexivity).
      change (bytes_eqb (bs "slow") (bs "safe")) with false. cbn [keeps_to key_of place_key].
      split; [exact K1|]. split; [exact K4|]. split; [exact K1|]. split; [now apply GP|exact I].
    - match goal with |- Forall _ ?l => let y := eval vm_compute in l in change l with y end. repeat (constructor; [cbn [store_edit]; legal_op|]). constructor.
    - repeat (constructor; [intros n; discriminate|]); constructor.
    - vm_compute; lia.
    - vm_compute; discriminate. }
  split; vm_compute; reflexivity.
Qed.
