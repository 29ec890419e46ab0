(** C109: a document brought into agreement with another one. *)
From Coq Require Import List Ascii String NArith ZArith Bool Lia Permutation.
From Verif Require Import GoStr ModelParser ModelPath ModelResult ModelQuery ModelValidate ModelBuilder SpecText SpecPath SpecTree SpecQuery SpecEdit SpecContent SpecValid SpecMod SpecHistory SpecTable SpecStore SpecBudget SpecFill SpecLayer SpecSync
  ProofBase ProofTree ProofTree8 ProofStore ProofBudget ProofLayer ProofSync PropTree PropStore PropBudget PropLayer.
Import ListNotations.
Open Scope nat_scope.

(** C109. A document and a target, both of which hold values under keys of which none leads
    through another.  A program goes through a list of places, asks both, and sets what
    differs or is missing and deletes what the target does not have.  No call fails; the
    result is valid; at every place of the list it has what the target has, and nothing
    where the target has nothing; under keys that are not in the list it has what it had.
    Going through the same list once more, the program returns the same text. *)
Theorem C109_sync : forall E fmt_g p F K D target T ps,
  (forall k l, Permutation l (e_ord E k l)) -> prolog p -> strict_prolog p ->
  Forall good F -> Forall top_node F -> shallow F -> has_element F ->
  keys K -> stores K F D -> layer_ok K target -> ly_store target = T -> Forall (fun q => K (place_key q) /\ good_place q) ps ->
  Forall (fun o => legal (store_edit o)) (adjustments T ps D) -> Forall (fun o => forall n, o <> Forget [n]) (adjustments T ps D) ->
  most F + marks (adjustments T ps D) <= 100 ->
  (N.of_nat (List.length p + full F + spend_all (map store_edit (adjustments T ps D))) <= 10485760)%N ->
  exists d, sync E fmt_g (layer_text target) ps (p ++ forest_text F) = Ok (d, None) /\ valid d = true /\
    (forall q, In q ps -> exists r, get E d (place_path q) = Ok r /\
       match value_at T q with Some v => r_exists r = true /\ r_string r = v | None => r_exists r = false end) /\
    (forall q, K (place_key q) -> good_place q -> ~ In (place_key q) (map place_key ps) -> exists r, get E d (place_path q) = Ok r /\
       match value_at D q with Some v => r_exists r = true /\ r_string r = v | None => r_exists r = false end) /\
    sync E fmt_g (layer_text target) ps d = Ok (d, None).
Proof.
  intros E g p F K D target T ps Ho Hp SP HG HT HS HE HK ST LO <- FP LG NF MO Z. set (T := ly_store target) in *.
  assert (RT : reads_store E (layer_text target) K T) by (now apply layer_reads).
  assert (KO : Forall (fun o => K (key_of o)) (adjustments T ps D)).
  { apply Forall_forall. intros o I. apply adjustments_key in I. apply in_map_iff in I as (q & <- & I). rewrite Forall_forall in FP. now apply FP. }
  destruct (store_leads K _ F D HK ST HG HT KO LG NF HE MO) as [F' L]. pose proof (full_ge F) as Y. assert (R : room p F) by (split; [exact HE|rewrite app_length; lia]).
  destruct (sync_ok E g Ho p Hp SP F HG HT HS R K HK D ST (layer_text target) T RT ps F' FP (leads_history _ _ _ _ L Z)) as (d & S & _ & V & RD). exists d.
  assert (A : forall q, In q ps -> value_at (do_all (adjustments T ps D) D) q = value_at T q) by (intros q I; apply all_adjusted; now left).
  split; [exact S|]. split; [exact V|]. split; [|split].
  - intros q I. rewrite Forall_forall in FP. destruct (FP q I) as [Kq Gq]. destruct (reads_value E d K _ q RD Kq Gq) as (r & G & B). exists r. split; [exact G|]. rewrite (A q I) in B. exact B.
  - intros q Kq Gq N. destruct (reads_value E d K _ q RD Kq Gq) as (r & G & B). exists r. split; [exact G|].
    assert (X : do_all (adjustments T ps D) D (place_key q) = D (place_key q)).
    { apply do_all_other. intros I. apply in_map_iff in I as (o & Q & I). apply N. rewrite <- Q. now apply (adjustments_key T ps D). }
    unfold value_at in *. rewrite X in B. exact B.
  - now apply (sync_quiet E g K (layer_text target) T ps d (do_all (adjustments T ps D) D)).
Qed.
Print Assumptions C109_sync.

(** At most one edit is made for each place, and none where the two agree. *)
Theorem C109_edits : forall T ps D, List.length (adjustments T ps D) <= List.length ps /\ ((forall q, In q ps -> value_at D q = value_at T q) -> adjustments T ps D = []).
Proof.
  intros T ps D. split; [|apply nothing_left]. revert D. induction ps as [|q ps IH]; intros D; [cbn; lia|]. cbn [adjustments List.length]. rewrite app_length. specialize (IH (do_all (adjustment T q D) D)).
  assert (X : List.length (adjustment T q D) <= 1) by (unfold adjustment; destruct (value_at T q), (value_at D q); try destruct (bytes_eqb _ _); cbn; lia). lia.
Qed.
Print Assumptions C109_edits.

(** The defaults, brought into agreement with those of a user. *)
Definition sync_places : list place := [Content k_host; Named k_host (bs "tls"); Content k_mode; Content k_file; Named k_file (bs "keep")].
Definition sync_result : bytes := bs "<cfg><net><port>80</port></net> <mode>slow</mode><log><file keep=""7""></file></log></cfg>".
Example C109_example :
  Forall good defaults /\ Forall top_node defaults /\ shallow defaults /\ has_element defaults /\ keys cfg_keys /\ stores cfg_keys defaults s_defaults /\
  layer_ok cfg_keys (mkLayer [] user s_user) /\ Forall (fun q => cfg_keys (place_key q) /\ good_place q) sync_places /\
  adjustments s_user sync_places s_defaults = [Forget k_host; Give k_mode (bs "slow"); Give k_file []; Mark k_file (bs "keep") (bs "7")] /\
  Forall (fun o => legal (store_edit o)) (adjustments s_user sync_places s_defaults) /\
  Forall (fun o => forall n, o <> Forget [n]) (adjustments s_user sync_places s_defaults) /\
  most defaults + marks (adjustments s_user sync_places s_defaults) <= 100 /\
  (N.of_nat (full defaults + spend_all (map store_edit (adjustments s_user sync_places s_defaults))) <= 10485760)%N /\
  sync env0 (fun _ => []) (forest_text user) sync_places (forest_text defaults) = Ok (sync_result, None).
Proof.
  destruct C107_example as (A1 & A2 & A3 & A4 & A5 & A6 & A7 & _). do 6 (split; [assumption|]). split; [now inversion A7 as [|? ? _ A8]; inversion A8|].
  split.
  { repeat (constructor; [split; [cbv [cfg_keys place_key In]; repeat (try (left; reflexivity); right)|cbn [good_place]; apply tpath_b_ok; vm_compute; reflexivity]|]). constructor. }
  assert (Q : adjustments s_user sync_places s_defaults = [Forget k_host; Give k_mode (bs "slow"); Give k_file []; Mark k_file (bs "keep") (bs "7")]) by (vm_compute; reflexivity).
  rewrite Q. split; [reflexivity|]. split.
  { match goal with |- Forall _ ?l => let y := eval vm_compute in l in change l with y end.
    repeat (constructor; [cbn [store_edit]; legal_op|]). constructor. }
  split; [repeat (constructor; [intros n; discriminate|]); constructor|]. split; [vm_compute; lia|]. split; [vm_compute; discriminate|]. vm_compute; reflexivity.
Qed.
(** Delete removes one element: where a document has several under a key, one pass leaves
    the others, and every further pass removes one more. *)
Theorem C109_repeated_refuted : exists target d0 d1 d2 q, q = Content (path_of ["cfg"; "log"]%string) /\ target = bs "<cfg></cfg>" /\ d0 = bs "<cfg><log>1</log><log>2</log></cfg>" /\
  sync env0 (fun _ => []) target [q] d0 = Ok (d1, None) /\ d1 = bs "<cfg><log>2</log></cfg>" /\ sync env0 (fun _ => []) target [q] d1 = Ok (d2, None) /\ d2 <> d1.
Proof. eexists _, _, _, _, _. split; [reflexivity|]. split; [reflexivity|]. split; [reflexivity|]. split; [vm_compute; reflexivity|]. split; [vm_compute; reflexivity|]. split; [vm_compute; reflexivity|]. vm_compute. discriminate. Qed.
Print Assumptions C109_repeated_refuted.
