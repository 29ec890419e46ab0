(** C15: every operation terminates. C14: when queries panic. *)
From Coq Require Import List Ascii String NArith ZArith Bool Lia.
From Verif Require Import GoStr ModelParser ModelPath ModelResult ModelQuery ModelValidate ModelBuilder
  ModelQueryOpts ModelApi SpecPath SpecGrammar ProofBase ProofFuel ProofFuel2 ProofGrammar ProofGrammar2.
Import ListNotations.

(** C15. No query runs out of the fuel that bounds its loops and recursive calls:
    it returns or panics. *)
Theorem C15_get_terminates : forall E xml path, get E xml path <> OutOfFuel.
Proof. exact get_fin. Qed.
Print Assumptions C15_get_terminates.
Theorem C15_get_many_terminates : forall E xml paths, get_many E xml paths <> OutOfFuel.
Proof. exact get_many_fin. Qed.
Print Assumptions C15_get_many_terminates.
Theorem C15_get_with_options_terminates : forall E o xml path, get_opts E o xml path <> OutOfFuel.
Proof. exact get_opts_fin. Qed.
Print Assumptions C15_get_with_options_terminates.
Theorem C15_result_get_terminates : forall E o r path,
  r_get E r path <> OutOfFuel /\ r_get_opts E o r path <> OutOfFuel.
Proof. intros E o r path. exact (conj (r_get_fin E path r) (r_get_opts_fin E o path r)). Qed.
Print Assumptions C15_result_get_terminates.
Theorem C15_result_map_returns : forall E o r, exists m, r_map_opts E o r = Ok m.
Proof. exact r_map_opts_ok. Qed.
Print Assumptions C15_result_map_returns.
Theorem C15_set_terminates : forall E fmt_g o xml path v, set_opts E fmt_g o xml path v <> OutOfFuel.
Proof. exact set_opts_fin. Qed.
Print Assumptions C15_set_terminates.
Theorem C15_set_raw_terminates : forall E fmt_g xml path raw, set_raw E fmt_g xml path raw <> OutOfFuel.
Proof. exact set_raw_fin. Qed.
Print Assumptions C15_set_raw_terminates.
Theorem C15_delete_terminates : forall E o xml path, delete_opts E o xml path <> OutOfFuel.
Proof. exact delete_opts_fin. Qed.
Print Assumptions C15_delete_terminates.
Theorem C15_batch_terminates : forall E fmt_g xml paths values,
  set_many E fmt_g xml paths values <> OutOfFuel /\ delete_many E xml paths <> OutOfFuel.
Proof. intros E g xml paths vs. exact (conj (set_many_fin E g xml paths vs) (delete_many_fin E xml paths)). Qed.
Print Assumptions C15_batch_terminates.
(** The statements are not vacuous: the model really evaluates nested filters and
    recursive wildcards on malformed input. *)
Example C15_example :
  (match get env0 (bs "<a><b><c>1</c></b><b x='<'><c>2</b") (bs "**.b.#(c)#.c") with
   | OutOfFuel => false | _ => true end) = true /\
  (match get env0 (bs "<a><b><c>1</c></b><b x='<'><c>2</b") (bs "a.b.#(c==1).c") with
   | Ok r => bytes_eqb (r_string r) (bs "1") | _ => false end) = true.
Proof. split; vm_compute; reflexivity. Qed.

(** C14. A query panics only if a step of the path is a filter whose literal is one
    quote character ([lone_quote_step]); evaluation itself never panics. *)
Theorem C14_get_panics_only_on_lone_quote : forall E xml path, get E xml path = Panic ->
  exists pieces step, cuts path pieces /\ In step pieces /\ lone_quote_step step.
Proof.
  intros E xml path H. apply get_panic_iff in H. destruct (parse_path_panic _ (proj2 H)) as [x [X1 X2]].
  assert (N : path <> []) by (intros ->; exact X1). pose proof (cuts_split _ path (le_n _)) as C.
  eexists. exists x. split; [exact C|]. rewrite (cuts_path _ _ N C) in X1. auto.
Qed.
Print Assumptions C14_get_panics_only_on_lone_quote.
Theorem C14_get_without_quotes_returns : forall E xml path,
  ~ In squote path -> ~ In dquote path -> exists r, get E xml path = Ok r.
Proof.
  intros E xml path H1 H2. destruct (get E xml path) as [r| |] eqn:G; [eauto| |].
  - apply get_panic_iff in G. exfalso. exact (parse_path_no_quote _ H1 H2 (proj2 G)).
  - exfalso. exact (get_fin _ _ _ G).
Qed.
Print Assumptions C14_get_without_quotes_returns.
Theorem C14_get_panic_depends_on_path_only : forall E xml path,
  get E xml path = Panic <-> (blen xml <= 10485760)%N /\ path_means path Fatal.
Proof. intros E xml path. rewrite <- path_means_panic. exact (get_panic_iff E xml path). Qed.
Print Assumptions C14_get_panic_depends_on_path_only.
(** The promised absence of panics is false. *)
Theorem C14_get_no_panic_refuted : exists xml path, get env0 xml path = Panic.
Proof. exists (bs "<a><b>1</b></a>"), (bs "a.#(b==')"). vm_compute. reflexivity. Qed.
Print Assumptions C14_get_no_panic_refuted.
(** Set panics on a document accepted by Valid: an attribute in single quotes holding
    double quotes is longer once re-serialised, and the offsets of the following
    element lie beyond the end of the document. *)
Theorem C14_set_no_panic_refuted : exists xml path,
  valid xml = true /\ set env0 (fun _ => []) xml path (VStr (bs "v")) = Panic.
Proof. exists (bs "<r><a x='""""""""""""""""""""'/><b>t</b></r>"), (bs "r.b"). vm_compute. auto. Qed.
Print Assumptions C14_set_no_panic_refuted.
Theorem C14_delete_no_panic_refuted : exists xml path,
  valid xml = true /\ delete env0 xml path = Panic.
Proof. exists (bs "<r><a x='""""""""""""""""""""'/><b>t</b></r>"), (bs "r.b"). vm_compute. auto. Qed.
Print Assumptions C14_delete_no_panic_refuted.
Example C14_example : ~ In squote (bs "a.#(b==1)#.c|@first") /\ ~ In dquote (bs "a.#(b==1)#.c|@first").
Proof. vm_compute. intuition discriminate. Qed.
