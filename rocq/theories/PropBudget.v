(** C96: a size budget for sequences of edits. *)
From Coq Require Import List Ascii String NArith ZArith Bool Lia Permutation.
From Verif Require Import GoStr ModelParser ModelPath ModelResult ModelQuery ModelValidate ModelBuilder SpecText SpecPath SpecTree SpecQuery SpecEdit SpecContent SpecValid SpecHistory SpecTable SpecStore SpecBudget
  ProofBase ProofTree ProofTree5 ProofTree8 ProofEdit ProofEdit5 ProofEdit8 ProofEdit9 ProofEdit11 ProofStore ProofBudget PropTree PropEdit PropHistory PropStore.
Import ListNotations.
Open Scope nat_scope.

(** Written with two tags for every element, a forest is at most twice as long. *)
Theorem C96_twice : forall F, Forall good F -> List.length (forest_text F) <= full F <= 2 * List.length (forest_text F).
Proof. intros F G. split; [apply full_ge|now apply full_le]. Qed.
Print Assumptions C96_twice.

(** C96: if the document and what the edits may add stay within 10 MiB, no call fails for
    the size of a document, and the result is within the budget. *)
Theorem C96_budget : forall E fmt_g p F ops F',
  (forall k l, Permutation l (e_ord E k l)) -> prolog p -> strict_prolog p ->
  Forall good F -> Forall top_node F -> shallow F -> has_element F ->
  leads ops F F' -> (N.of_nat (List.length p + full F + spend_all ops) <= 10485760)%N ->
  exists d, calls E fmt_g ops (p ++ forest_text F) = Ok (d, None) /\ valid d = true /\
    List.length d <= List.length p + full F + spend_all ops /\
    forall steps fin, good_tpath steps fin -> exists r, get E d (tpath steps fin) = Ok r /\ describes r (query true steps fin F').
Proof.
  intros E g p F ops F' Ho Hp SP HG HT HS HE L Z. pose proof (leads_history p ops F F' L Z) as H. pose proof (full_ge F) as Y.
  assert (R : room p F) by (split; [exact HE|rewrite app_length; lia]).
  destruct (C47_history E g p F ops F' Ho Hp SP HG HT HS R H) as (G & C & S & V & Q). exists (p ++ forest_text G). split; [exact C|]. split; [exact V|]. split; [|exact Q].
  rewrite app_length, <- (same_length_all _ _ S). pose proof (full_ge F'). pose proof (leads_size _ _ _ L). lia.
Qed.
Print Assumptions C96_budget.

(** For the store of C93 everything is known beforehand: with keys of two names or more, at
    most 100 attributes in all and a budget within 10 MiB no operation fails.  An attribute
    set any number of times is counted once: [marks] counts the different names. *)
Theorem C96_store : forall E fmt_g p F K D ops,
  (forall k l, Permutation l (e_ord E k l)) -> prolog p -> strict_prolog p ->
  Forall good F -> Forall top_node F -> shallow F -> has_element F ->
  keys K -> stores K F D -> Forall (fun o => K (key_of o)) ops -> Forall (fun o => legal (store_edit o)) ops ->
  Forall (fun o => forall n, o <> Forget [n]) ops -> most F + marks ops <= 100 ->
  (N.of_nat (List.length p + full F + spend_all (map store_edit ops)) <= 10485760)%N ->
  exists d, calls E fmt_g (map store_edit ops) (p ++ forest_text F) = Ok (d, None) /\ valid d = true /\
    List.length d <= List.length p + full F + spend_all (map store_edit ops) /\ reads_store E d K (do_all ops D).
Proof.
  intros E g p F K D ops Ho Hp SP HG HT HS HE HK ST KO LG NF MO Z. destruct (store_leads K ops F D HK ST HG HT KO LG NF HE MO) as [F' L].
  destruct (C96_budget E g p F _ F' Ho Hp SP HG HT HS HE L Z) as (d & C & V & B & _). exists d. split; [exact C|]. split; [exact V|]. split; [exact B|].
  pose proof (full_ge F) as Y. assert (R : room p F) by (split; [exact HE|rewrite app_length; lia]).
  destruct (C93_store E g p F K D ops F' Ho Hp SP HG HT HS R HK ST KO (leads_history _ _ _ _ L Z)) as (d' & C' & _ & RS). rewrite C in C'. now injection C' as <-.
Qed.
Print Assumptions C96_store.

(** A round of operations made any number of times: only the size limit can be met, since
    attributes set again take no further place. *)
Theorem C96_rounds : forall E fmt_g p F K D ops n,
  (forall k l, Permutation l (e_ord E k l)) -> prolog p -> strict_prolog p ->
  Forall good F -> Forall top_node F -> shallow F -> has_element F ->
  keys K -> stores K F D -> Forall (fun o => K (key_of o)) ops -> Forall (fun o => legal (store_edit o)) ops ->
  Forall (fun o => forall n, o <> Forget [n]) ops -> most F + marks ops <= 100 ->
  (N.of_nat (List.length p + full F + n * spend_all (map store_edit ops)) <= 10485760)%N ->
  exists d, calls E fmt_g (map store_edit (List.concat (repeat ops n))) (p ++ forest_text F) = Ok (d, None) /\ valid d = true /\
    reads_store E d K (do_all (List.concat (repeat ops n)) D).
Proof.
  intros E g p F K D ops n Ho Hp SP HG HT HS HE HK ST KO LG NF MO Z.
  assert (AL : forall P : store_op -> Prop, Forall P ops -> Forall P (List.concat (repeat ops n))) by (intros P H; clear - H; induction n as [|n IH]; cbn [repeat List.concat]; [constructor|apply Forall_app; now split]).
  assert (MA : marks (List.concat (repeat ops n)) <= marks ops).
  { unfold marks. apply NoDup_incl_length; [apply NoDup_nodup|]. intros x I. apply nodup_In. apply nodup_In in I. clear - I. induction n as [|n IH]; [destruct I|].
    unfold mark_names in *. cbn [repeat List.concat] in I. rewrite flat_map_app in I. apply in_app_or in I as [I|I]; auto. }
  assert (SA : spend_all (map store_edit (List.concat (repeat ops n))) = n * spend_all (map store_edit ops)).
  { clear. induction n as [|n IH]; [reflexivity|]. cbn [repeat List.concat]. rewrite map_app. unfold spend_all in *. rewrite map_app, list_sum_app, IH. lia. }
  destruct (C96_store E g p F K D (List.concat (repeat ops n)) Ho Hp SP HG HT HS HE HK ST (AL _ KO) (AL _ LG) (AL _ NF)) as (d & C & V & _ & R); [lia|now rewrite SA|]. exists d. now split.
Qed.
Print Assumptions C96_rounds.

(** The operations of the example of C93 may add 356 bytes; they add 53. *)
Example C96_example :
  has_element options_file /\ stores config_keys options_file config_store /\ Forall (fun o => legal (store_edit o)) config_ops /\
  Forall (fun o => forall n, o <> Forget [n]) config_ops /\ most options_file + marks config_ops = 3 /\
  List.length (forest_text options_file) = 113 /\ full options_file = 118 /\ spend_all (map store_edit config_ops) = 356 /\
  calls env0 (fun _ => []) (map store_edit config_ops) (forest_text options_file) = Ok (config_text, None) /\ List.length config_text = 166.
Proof.
  destruct C93_example as (_ & _ & _ & _ & ST & _).
  split; [eexists _, _, _, _; left; reflexivity|]. split; [exact ST|].
  split; [unfold config_ops; repeat (apply Forall_cons; [cbn [store_edit]; legal_op|]); apply Forall_nil|].
  split; [unfold config_ops; repeat (apply Forall_cons; [intros n; discriminate|]); apply Forall_nil|].
  repeat (apply conj; [vm_compute; reflexivity|]). vm_compute; reflexivity.
Qed.
Example C96_leads_example : exists F', leads [SetText [(bs "r", None); (bs "a", None)] (bs "1"); Append [(bs "r", None)] (bs "b") (AsInt 7)] [Elem (bs "r") [] true []] F' /\
  forest_text F' = bs "<r><a>1</a><b>7</b></r>" /\ has_element [Elem (bs "r") [] true []].
Proof.
  eexists. split; [|split; [|eexists _, _, _, _; left; reflexivity]].
  - repeat (eapply leads_cons; [legal_op|vm_compute; reflexivity|eexists _, _, _, _; left; reflexivity|]). apply leads_nil.
  - vm_compute. reflexivity.
Qed.
(** The operations of C93's example made a thousand times over. *)
Example C96_rounds_example : exists d, calls env0 (fun _ => []) (map store_edit (List.concat (repeat config_ops 1000))) (forest_text options_file) = Ok (d, None) /\ valid d = true /\
  reads_store env0 d config_keys (do_all (List.concat (repeat config_ops 1000)) config_store).
Proof.
  destruct C93_example as (G & T & SH & HK & ST & KO & _). destruct C96_example as (HE & _ & LG & NF & MO & _ & FU & SA & _).
  refine (C96_rounds env0 (fun _ => []) [] options_file config_keys config_store config_ops 1000 _ _ _ G T SH HE HK ST KO LG NF _ _).
  - intros k l. apply Permutation_refl.
  - constructor.
  - constructor.
  - rewrite MO. lia.
  - rewrite FU, SA. vm_compute. discriminate.
Qed.
