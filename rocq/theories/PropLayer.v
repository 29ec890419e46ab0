(** C107: values of several documents laid over one another. *)
From Coq Require Import List Ascii String NArith ZArith Bool Lia Permutation.
From Verif Require Import GoStr ModelParser ModelPath ModelResult ModelQuery ModelValidate ModelBuilder SpecText SpecPath SpecTree SpecQuery SpecEdit SpecContent SpecValid SpecMod SpecHistory SpecTable SpecStore SpecBudget SpecFill SpecLayer
  ProofBase ProofTree ProofTree8 ProofStore ProofLayer PropTree PropStore PropBudget.
Import ListNotations.
Open Scope nat_scope.

(** C107. A base document and any number of layers, all of which hold values under keys of
    which none leads through another.  A program goes through the layers and through a list
    of places, and sets in the base what the layer has there.  No call fails; the result is
    valid, and at every place reads the value of the last layer that has it, or else what
    the base had: nothing else is added, lost or changed. *)
Theorem C107_layers : forall E fmt_g p F K D (Ls : list layer) ps,
  (forall k l, Permutation l (e_ord E k l)) -> prolog p -> strict_prolog p ->
  Forall good F -> Forall top_node F -> shallow F -> has_element F ->
  keys K -> stores K F D -> Forall (layer_ok K) Ls -> Forall (fun q => K (place_key q) /\ good_place q) ps ->
  Forall (fun o => legal (store_edit o)) (all_writings ps (map ly_store Ls)) ->
  most F + marks (all_writings ps (map ly_store Ls)) <= 100 ->
  (N.of_nat (List.length p + full F + spend_all (map store_edit (all_writings ps (map ly_store Ls)))) <= 10485760)%N ->
  exists d, lay_all E fmt_g (map layer_text Ls) ps (p ++ forest_text F) = Ok (d, None) /\ valid d = true /\
    forall q, K (place_key q) -> good_place q -> exists r, get E d (place_path q) = Ok r /\
      match outcome D (map ly_store Ls) ps q with Some v => r_exists r = true /\ r_string r = v | None => r_exists r = false end.
Proof.
  intros E g p F K D Ls ps Ho Hp SP HG HT HS HE HK ST LO FP LG MO Z. set (Ds := map ly_store Ls) in *.
  assert (RS : Forall2 (fun over L => reads_store E over K L) (map layer_text Ls) Ds).
  { unfold Ds. clear - Ho HK LO. induction LO as [|l Ls L1 _ IH]; cbn [map]; constructor; [now apply layer_reads|exact IH]. }
  assert (KO : Forall (fun o => K (key_of o)) (all_writings ps Ds)).
  { apply Forall_forall. intros o I. destruct (all_writings_in _ _ _ I) as (q & v & Iq & ->). rewrite Forall_forall in FP. destruct (FP q Iq) as [Kq _]. now destruct q. }
  assert (NF : Forall (fun o => forall n, o <> Forget [n]) (all_writings ps Ds)).
  { apply Forall_forall. intros o I n ->. destruct (all_writings_in _ _ _ I) as (q & v & _ & Q). now destruct q. }
  destruct (C96_store E g p F K D _ Ho Hp SP HG HT HS HE HK ST KO LG NF MO Z) as (d & C & V & _ & R). exists d.
  split; [rewrite (lay_all_calls E g K _ Ds ps _ RS FP); exact C|]. split; [exact V|]. intros q Kq Gq. destruct (reads_value E d K _ q R Kq Gq) as (r & G & A). exists r. split; [exact G|].
  now rewrite outcome_store in A.
Qed.
Print Assumptions C107_layers.

(** Laying the same layers over the result once more changes no answer. *)
Theorem C107_again : forall D Ls ps q, outcome D (Ls ++ Ls) ps q = outcome D Ls ps q.
Proof.
  intros D Ls ps q. assert (A : forall A B j, latest (A ++ B) j = match latest B j with Some v => Some v | None => latest A j end).
  { induction A as [|L A IH]; intros B j; cbn [app latest]; [now destruct (latest B j)|]. rewrite IH. now destruct (latest B j). }
  assert (T : forall j, latest (Ls ++ Ls) j = latest Ls j) by (intros j; rewrite A; now destruct (latest Ls j)).
  assert (M : forall k, brought (Ls ++ Ls) ps k = brought Ls ps k).
  { intros k. unfold brought. induction ps as [|j ps IH]; cbn [existsb]; [reflexivity|]. rewrite IH. destruct j as [k'|k' x]; [reflexivity|]. now rewrite T. }
  unfold outcome. rewrite T. destruct q as [k|k x]; [|reflexivity]. now rewrite M.
Qed.
Print Assumptions C107_again.
(** Layers of which no two have a value for the same place can be laid in any order. *)
Theorem C107_any_order : forall D Ls Ls' ps q, Permutation Ls Ls' ->
  (forall j A L B, Ls = A ++ L :: B -> value_at L j <> None -> Forall (fun M => value_at M j = None) (A ++ B)) ->
  outcome D Ls ps q = outcome D Ls' ps q.
Proof.
  intros D Ls Ls' ps q P H.
  assert (N : forall Ls j, latest Ls j = None <-> Forall (fun M => value_at M j = None) Ls).
  { clear. induction Ls as [|L Ls IH]; intros j; cbn [latest]; split; intros H; [constructor|reflexivity| |].
    - destruct (latest Ls j) eqn:Q; [discriminate|]. constructor; [exact H|now apply IH].
    - inversion H as [|? ? H1 H2]; subst. now rewrite (proj2 (IH j) H2). }
  assert (O : forall Ls A L B j v, Ls = A ++ L :: B -> value_at L j = Some v -> Forall (fun M => value_at M j = None) (A ++ B) -> latest Ls j = Some v).
  { clear - N. intros Ls A. revert Ls. induction A as [|M A IH]; intros Ls L B j v -> Q FA; cbn [app latest] in *.
    - now rewrite (proj2 (N _ _) FA).
    - inversion FA as [|? ? F1 F2]; subst. now rewrite (IH _ L B j v eq_refl Q F2). }
  assert (T : forall j, latest Ls j = latest Ls' j).
  { intros j. destruct (latest Ls j) as [v|] eqn:Q.
    - assert (X : exists L, In L Ls /\ value_at L j <> None).
      { clear - Q. induction Ls as [|L Ls IH]; [discriminate|]. cbn [latest] in Q. destruct (latest Ls j) as [u|]; [destruct (IH Q) as (M & I & V); exists M; split; [now right|exact V]|]. exists L. split; [now left|congruence]. }
      destruct X as (L & I & V). destruct (value_at L j) as [u|] eqn:VL; [|contradiction]. apply in_split in I as (A & B & SL).
      pose proof (H j A L B SL ltac:(congruence)) as FA. pose proof (O Ls A L B j u SL VL FA) as Q'. rewrite Q in Q'. injection Q' as ->.
      assert (I' : In L Ls') by (apply (Permutation_in _ P); rewrite SL; apply in_or_app; right; now left). apply in_split in I' as (A' & B' & SL').
      symmetry. apply (O Ls' A' L B' j u SL' VL). rewrite SL, SL' in P. apply Permutation_app_inv in P. now apply (Permutation_Forall P).
    - symmetry. apply N. apply N in Q. now apply (Permutation_Forall P). }
  assert (M : forall k, brought Ls ps k = brought Ls' ps k).
  { intros k. unfold brought. clear - T. induction ps as [|j ps IH]; cbn [existsb]; [reflexivity|]. rewrite IH. destruct j as [k'|k' x]; [reflexivity|]. now rewrite T. }
  unfold outcome. rewrite T. destruct q as [k|k x]; [|reflexivity]. now rewrite M.
Qed.
Print Assumptions C107_any_order.

(** Defaults, settings of a site and settings of a user. *)
Definition defaults : list node :=
  [Elem (bs "cfg") [] false [Elem (bs "net") [] false [Elem (bs "host") [(bs "tls", bs "no")] false [Text (bs "localhost")]; Elem (bs "port") [] false [Text (bs "80")]]; Text (bs " ");
     Elem (bs "mode") [] false [Text (bs "safe")]]].
Definition site : list node :=
  [Elem (bs "cfg") [] false [Elem (bs "mode") [] false [Text (bs "fast")]; Elem (bs "net") [] false [Elem (bs "host") [(bs "tls", bs "yes")] false [Text (bs " a&amp;b ")]]]].
Definition user : list node :=
  [Elem (bs "cfg") [] false [Elem (bs "mode") [] false [Text (bs "slow")]; Elem (bs "log") [] false [Elem (bs "file") [(bs "keep", bs "7")] false []]]].
Definition one (v : string) (a : bytes -> option bytes) : option entry := Some (mkEntry (bs v) a).
Definition no_marks : bytes -> option bytes := fun _ => None.
Definition k_host := path_of ["cfg"; "net"; "host"]%string.
Definition k_port := path_of ["cfg"; "net"; "port"]%string.
Definition k_mode := path_of ["cfg"; "mode"]%string.
Definition k_file := path_of ["cfg"; "log"; "file"]%string.
Definition cfg_keys (k : list bytes) : Prop := In k [k_host; k_port; k_mode; k_file].
Definition s_defaults : store := fun k =>
  if same_key k k_host then one "localhost" (put_mark (bs "tls") (Some (bs "no")) no_marks) else if same_key k k_port then one "80" no_marks else if same_key k k_mode then one "safe" no_marks else None.
Definition s_site : store := fun k =>
  if same_key k k_host then one " a&b " (put_mark (bs "tls") (Some (bs "yes")) no_marks) else if same_key k k_mode then one "fast" no_marks else None.
Definition s_user : store := fun k =>
  if same_key k k_mode then one "slow" no_marks else if same_key k k_file then one "" (put_mark (bs "keep") (Some (bs "7")) no_marks) else None.
Definition cfg_places : list place := [Content k_host; Named k_host (bs "tls"); Content k_port; Content k_mode; Named k_file (bs "keep")].
Definition cfg_layers : list layer := [mkLayer [] site s_site; mkLayer [] user s_user].
Definition cfg_result : bytes := bs "<cfg><net><host tls=""yes"">a&amp;b</host><port>80</port></net> <mode>slow</mode><log><file keep=""7""></file></log></cfg>".
Ltac stored := intros k I; repeat (destruct I as [<-|I]; [|]); [..|destruct I]; vm_compute;
  first [ eexists _, _, _; split; [repeat (first [apply sole_here; vm_compute; reflexivity|eapply sole_down; [vm_compute; reflexivity|]])|split; [first [left; vm_compute; reflexivity|right; vm_compute; split; reflexivity]|intros x; reflexivity]]
        | repeat (first [apply missing_here; vm_compute; reflexivity|eapply missing_below; [vm_compute; reflexivity|]]) ].
Example C107_example :
  Forall good defaults /\ Forall top_node defaults /\ shallow defaults /\ has_element defaults /\ keys cfg_keys /\ stores cfg_keys defaults s_defaults /\ Forall (layer_ok cfg_keys) cfg_layers /\
  Forall (fun q => cfg_keys (place_key q) /\ good_place q) cfg_places /\
  Forall (fun o => legal (store_edit o)) (all_writings cfg_places (map ly_store cfg_layers)) /\
  most defaults + marks (all_writings cfg_places (map ly_store cfg_layers)) <= 100 /\
  (N.of_nat (full defaults + spend_all (map store_edit (all_writings cfg_places (map ly_store cfg_layers)))) <= 10485760)%N /\
  lay_all env0 (fun _ => []) (map layer_text cfg_layers) cfg_places (forest_text defaults) = Ok (cfg_result, None) /\
  map (outcome s_defaults (map ly_store cfg_layers) cfg_places) (Content k_file :: cfg_places) = [Some []; Some (bs "a&b"); Some (bs "yes"); Some (bs "80"); Some (bs "slow"); Some (bs "7")].
Proof.
  split; [apply forest_b_ok; vm_compute; reflexivity|]. split; [repeat constructor|]. split; [repeat constructor|]. split; [eexists _, _, _, _; left; reflexivity|]. split.
  { split.
    - intros k I. repeat (destruct I as [<-|I]; [split; [discriminate|repeat constructor]|]). destruct I.
    - intros k z I J. repeat (destruct I as [<-|I]; [destruct z as [|y z]; [reflexivity|exfalso; cbn in J; intuition discriminate]|]). destruct I. }
  split; [stored|]. split.
  { constructor; [|constructor; [|constructor]]; (split; [constructor|]; split; [constructor|]; split; [apply forest_b_ok; vm_compute; reflexivity|]; split; [repeat constructor|]; split; [repeat constructor|]; split; [split; [eexists _, _, _, _; left; reflexivity|vm_compute; discriminate]|]; stored). }
  split.
  { repeat (constructor; [split; [cbv [cfg_keys place_key In]; repeat (try (left; reflexivity); right)|cbn [good_place]; apply tpath_b_ok; vm_compute; reflexivity]|]). constructor. }
  split.
  { match goal with |- Forall _ ?l => let y := eval vm_compute in l in change l with y end.
    repeat (constructor; [cbn [store_edit]; legal_op|]). constructor. }
  split; [vm_compute; lia|]. split; [vm_compute; discriminate|]. split; vm_compute; reflexivity.
Qed.
(** A layer is asked place by place: a key whose element has further elements inside arrives
    as the text inside them, without the elements. *)
Theorem C107_nested_refuted : exists over base d, over = bs "<cfg><net><host>h</host><port>1</port></net></cfg>" /\ base = bs "<cfg><net>n</net></cfg>" /\
  lay_all env0 (fun _ => []) [over] [Content (path_of ["cfg"; "net"]%string)] base = Ok (d, None) /\ d = bs "<cfg><net>h1</net></cfg>" /\
  get env0 d (bs "cfg.net.host") = Ok r_null.
Proof. eexists _, _, _. split; [reflexivity|]. split; [reflexivity|]. split; [vm_compute; reflexivity|]. split; vm_compute; reflexivity. Qed.
Print Assumptions C107_nested_refuted.
