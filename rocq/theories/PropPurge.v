(** C113: deleting elements takes stretches out of the text, and comes to an end. *)
From Coq Require Import List Ascii String NArith ZArith Bool Lia Permutation.
From Verif Require Import GoStr ModelParser ModelPath ModelResult ModelQuery ModelValidate ModelBuilder SpecText SpecPath SpecTree SpecQuery SpecEdit SpecContent SpecValid SpecHistory SpecPurge
  ProofBase ProofScan ProofTree ProofTree8 ProofEdit ProofEdit8 ProofEdit9 ProofPurge PropTotal PropTree PropValid PropEdit.
Import ListNotations.
Open Scope nat_scope.

(** C113. Whatever the text, the options and the path (without an attribute): what Delete
    returns without an error is the text given, or the text given without one stretch of it.
    Nothing is added, moved or rewritten. *)
Theorem C113_delete : forall E o xml path d, ~ In "@"%char path ->
  delete_opts E o xml path = Ok (d, None) ->
  d = xml \/ exists a c b, xml = a ++ c ++ b /\ d = a ++ b /\ c <> [].
Proof. exact delete_cut. Qed.
Print Assumptions C113_delete.
(** The same for Set with nil. *)
Theorem C113_set_nil : forall E fmt_g o xml path d, ~ In "@"%char path ->
  set_opts E fmt_g o xml path VNil = Ok (d, None) ->
  d = xml \/ exists a c b, xml = a ++ c ++ b /\ d = a ++ b /\ c <> [].
Proof.
  intros E g o xml path d NA H. unfold set_opts in H. destruct (_ <? _)%N; [discriminate|]. destruct (match xml with [] => false | _ :: _ => negb (valid xml) end); [discriminate|].
  eapply delete_cut; eauto.
Qed.
Print Assumptions C113_set_nil.
(** DeleteMany takes any number of stretches out. *)
Theorem C113_delete_many : forall E xml paths d, Forall (fun p => ~ In "@"%char p) paths ->
  delete_many E xml paths = Ok (d, None) ->
  left_of xml d /\ (d = xml \/ List.length d < List.length xml).
Proof.
  intros E xml paths d F H. unfold delete_many in H. destruct (_ <? _)%N; [discriminate|]. eapply each_left; [|exact H].
  rewrite Forall_forall in *. intros p I. apply F. eapply dedupe_in; eauto.
Qed.
Print Assumptions C113_delete_many.
(** Deletions that change something cannot go on for ever, however paths and options are
    chosen: each takes a byte at least. *)
Theorem C113_few : forall E l xml d, deletions E l xml d -> Forall (fun x => ~ In "@"%char (snd x)) l ->
  List.length l + List.length d <= List.length xml /\ left_of xml d.
Proof. exact deletions_few. Qed.
Print Assumptions C113_few.
(** The loop "delete until the text no longer changes" ends for every text, path and options
    within as many rounds as the text has bytes, and one: with a crash of Delete (see
    C14), or with a text that Delete returns unchanged, with the same error or none. *)
Theorem C113_ends : forall E o path xml n, ~ In "@"%char path -> List.length xml < n ->
  purge E o n path xml = Panic \/
  exists d e, purge E o n path xml = Ok (d, e) /\ left_of xml d /\ delete_opts E o d path = Ok (d, e).
Proof. intros E o path xml n NA L. now apply purge_ends. Qed.
Print Assumptions C113_ends.
(** More rounds make no difference. *)
Theorem C113_rounds : forall E o path xml n m, ~ In "@"%char path -> List.length xml < n -> List.length xml < m ->
  purge E o n path xml = purge E o m path xml.
Proof.
  intros E o path xml n m NA. revert xml m. induction n as [|n IH]; intros xml m L1 L2; [lia|]. destruct m as [|m]; [lia|]. cbn [purge].
  destruct (delete_opts E o xml path) as [[d [e|]]| |] eqn:D; cbn [bind fst snd]; auto. destruct (bytes_eqb d xml) eqn:Q; auto.
  destruct (delete_left _ _ _ _ _ NA D) as [_ [->|LS]]; [assert (X : bytes_eqb xml xml = true) by (now apply bytes_eqb_eq); congruence|]. apply IH; lia.
Qed.
Print Assumptions C113_rounds.
(** On a canonical document, with a path to an element below the top, the loop does not crash
    or fail: it ends with a valid document in which nothing is at the place. *)
Theorem C113_document : forall E p F steps n,
  (forall k l, Permutation l (e_ord E k l)) -> prolog p -> strict_prolog p ->
  Forall good F -> Forall top_node F -> shallow F -> room p F ->
  good_tpath steps TheElement -> (forall s, steps <> [s]) -> List.length (forest_text F) < n ->
  exists G, purge E default_options n (tpath steps TheElement) (p ++ forest_text F) = Ok (p ++ forest_text G, None) /\
    valid (p ++ forest_text G) = true /\ Forall good G /\ left_of (forest_text F) (forest_text G) /\
    forall A nd B, ~ located steps G A nd B.
Proof.
  intros E p F steps n Ho Hp SP HG HT HS [HE HZ] GT NS L.
  destruct (purge_document E Ho p Hp SP steps GT NS n F) as (G & P & GG & TG & FG & LO & NL); auto; [repeat split; auto|].
  exists G. repeat (split; [solve [auto | now apply state_valid]|]). exact NL.
Qed.
Print Assumptions C113_document.
(** Deleting an attribute is not like this: the others are written anew, and the document
    may become longer. *)
Theorem C113_attribute_refuted : exists xml path d,
  delete env0 xml path = Ok (d, None) /\ valid xml = true /\ List.length xml < List.length d.
Proof.
  exists (bs "<a b='>>>' c=""1""/>"), (bs "a.@c"), (bs "<a b=""&gt;&gt;&gt;""/>"). split; [vm_compute; reflexivity|]. split; [vm_compute; reflexivity|]. apply Nat.ltb_lt. vm_compute. reflexivity.
Qed.
Print Assumptions C113_attribute_refuted.
(** A document of one element only stays, so that the loop may end with the element there. *)
Theorem C113_gone_refuted : exists xml path n d r,
  purge env0 default_options n path xml = Ok (d, None) /\ get env0 d path = Ok r /\ r_exists r = true.
Proof.
  exists (bs "<i/>"), (bs "i"), 5, (bs "<i/>"). eexists. split; [vm_compute; reflexivity|]. split; [vm_compute; reflexivity|]. reflexivity.
Qed.
Print Assumptions C113_gone_refuted.

Definition shelf : list node :=
  [Elem (bs "r") [] false [Elem (bs "i") [] false [Text (bs "1")]; Elem (bs "j") [] true []; Elem (bs "i") [(bs "x", bs "2")] true []]].
Example C113_document_example :
  Forall good shelf /\ Forall top_node shelf /\ shallow shelf /\ room [] shelf /\ good_tpath [(bs "r", None); (bs "i", None)] TheElement /\
  purge env0 default_options 60 (tpath [(bs "r", None); (bs "i", None)] TheElement) (forest_text shelf) = Ok (bs "<r><j/></r>", None) /\
  Nat.ltb (List.length (forest_text shelf)) 60 = true.
Proof.
  split; [apply forest_b_ok; vm_compute; reflexivity|]. split; [repeat constructor|]. split; [repeat constructor|].
  split; [split; [eexists _, _, _, _; left; reflexivity|vm_compute; discriminate]|]. split; [apply tpath_b_ok; vm_compute; reflexivity|].
  split; vm_compute; reflexivity.
Qed.
Definition stock : bytes := bs "<?v?><r><i>1</i><!-- c --><j/><i x='2'/>t<i><i/></i></r>".
Example C113_example :
  ~ In "@"%char (bs "r.i") /\
  delete_opts env0 default_options stock (bs "r.i") = Ok (bs "<?v?><r><!-- c --><j/><i x='2'/>t<i><i/></i></r>", None) /\
  stock = bs "<?v?><r>" ++ bs "<i>1</i>" ++ bs "<!-- c --><j/><i x='2'/>t<i><i/></i></r>" /\
  purge env0 default_options 60 (bs "r.i") stock = Ok (bs "<?v?><r><!-- c --><j/>t</r>", None) /\
  Nat.ltb (List.length stock) 60 = true /\
  delete_many env0 stock [bs "r.j"; bs "r.i.1"; bs "r.j"] = Ok (bs "<?v?><r><i>1</i><!-- c -->t<i><i/></i></r>", None) /\
  deletions env0 [(default_options, bs "r.j"); (default_options, bs "r.i.0")] stock (bs "<?v?><r><!-- c --><i x='2'/>t<i><i/></i></r>").
Proof.
  split; [vm_compute; intros H; repeat destruct H as [H|H]; try discriminate; exact H|].
  split; [vm_compute; reflexivity|]. split; [vm_compute; reflexivity|]. split; [vm_compute; reflexivity|]. split; [vm_compute; reflexivity|]. split; [vm_compute; reflexivity|].
  apply (dl_one _ _ _ _ _ (bs "<?v?><r><i>1</i><!-- c --><i x='2'/>t<i><i/></i></r>")); [vm_compute; reflexivity|vm_compute; discriminate|].
  apply (dl_one _ _ _ _ _ (bs "<?v?><r><!-- c --><i x='2'/>t<i><i/></i></r>")); [vm_compute; reflexivity|vm_compute; discriminate|]. apply dl_none.
Qed.
