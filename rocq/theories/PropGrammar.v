(** C64: what every text given as a path means. *)
From Coq Require Import List Ascii String NArith ZArith Bool Lia.
From Verif Require Import GoStr ModelParser ModelPath ModelResult ModelQuery ModelValidate ModelBuilder ModelQueryOpts
  SpecPath SpecGrammar ProofBase ProofFuel ProofFuel2 ProofMono ProofGrammar ProofGrammar2.
Import ListNotations.

(** Every text means something, and one thing only. *)
Theorem C64_one_meaning : forall path, exists o, path_means path o /\ forall o', path_means path o' -> o' = o.
Proof.
  intros path. destruct (path_means_ex path) as [o P]. exists o. split; auto. intros o' P'. exact (path_means_unique _ _ _ P' P).
Qed.
Print Assumptions C64_one_meaning.
(** The parser computes it. *)
Theorem C64_parsed : forall path o, path_means path o -> parse_path path = meaning_res o.
Proof. exact path_means_res. Qed.
Print Assumptions C64_parsed.

(** Texts with one meaning are interchangeable, in queries and in edits. *)
Theorem C64_same_answers : forall E xml p q o, path_means p o -> path_means q o -> get E xml p = get E xml q.
Proof.
  intros E xml p q o P Q. pose proof (path_means_res _ _ P) as RP. pose proof (path_means_res _ _ Q) as RQ.
  destruct (N.leb_spec (blen xml) 10485760) as [L|L].
  - destruct (meaning_res o) as [[|sg segs]| |] eqn:M.
    + unfold get. rewrite RP, RQ. reflexivity.
    + destruct (parse_path_cost _ _ RP) as [C _].
      rewrite (get_exec E xml p (sg :: segs) (S (cost (sg :: segs)))), (get_exec E xml q (sg :: segs) (S (cost (sg :: segs)))); auto; discriminate || lia.
    + unfold get. rewrite RP, RQ. reflexivity.
    + unfold get. rewrite RP, RQ. reflexivity.
  - unfold get. change MaxDocumentSize with 10485760%N. rewrite (proj2 (N.ltb_lt _ _) L). reflexivity.
Qed.
Print Assumptions C64_same_answers.
Theorem C64_same_edits : forall E fmt_g opts xml p q o v, path_means p o -> path_means q o ->
  set_opts E fmt_g opts xml p v = set_opts E fmt_g opts xml q v /\
  delete_opts E opts xml p = delete_opts E opts xml q.
Proof.
  intros E g opts xml p q o v P Q. pose proof (path_means_res _ _ P) as RP. pose proof (path_means_res _ _ Q) as RQ.
  assert (D : delete_opts E opts xml p = delete_opts E opts xml q) by (unfold delete_opts, parse_path_opts; now rewrite RP, RQ).
  split; auto. unfold set_opts, parse_path_opts. now rewrite RP, RQ, D.
Qed.
Print Assumptions C64_same_edits.

(** A path without steps, or one that is refused, answers nothing on every document. *)
Theorem C64_no_steps : forall E opts xml path, path_means path Unusable \/ path_means path (Steps []) ->
  get E xml path = Ok r_null /\ get_opts E opts xml path = Ok r_null.
Proof.
  intros E opts xml path H. apply path_means_none in H. unfold get, get_opts, parse_path_opts. rewrite H. cbn [bind].
  split; [now destruct (_ <? _)%N|]. destruct (_ <? _)%N; auto. destruct (is_default_options opts); auto. destruct (o_case opts); reflexivity.
Qed.
Print Assumptions C64_no_steps.
(** A query brings the program down exactly on the paths that mean so. *)
Theorem C64_crash : forall E xml path,
  get E xml path = Panic <-> (blen xml <= 10485760)%N /\ path_means path Fatal.
Proof. intros E xml path. rewrite <- path_means_panic. exact (get_panic_iff E xml path). Qed.
Print Assumptions C64_crash.

Example C64_example :
  path_means (bs "a\.b.#(@k >= 'x y' )#|@first| @last |no.#.c.-07") (Steps
    [(GName (bs "a.b"), []); (GWhere true (bs "@k") OpGe (bs "x y"), [bs "first"; bs "last"]); (GField (bs "c"), []); (GNth (-7), [])]) /\
  path_means (bs "a.#(b<)") Unusable /\ path_means (bs "a.#(b==')") Fatal /\ path_means (bs "..#().#(") (Steps []).
Proof.
  split; [apply path_means_stored; [discriminate|vm_compute; reflexivity]|].
  split; [|split].
  - destruct (proj1 (path_means_none (bs "a.#(b<)"))) as [H|H]; [vm_compute; reflexivity|exact H|]. exfalso.
    inversion H as [|p parts l l' A B D X| |]; subst. apply cuts_fun in A. vm_compute in A. subst parts.
    inversion X; subst. apply steps_res_of in D. vm_compute in D. discriminate.
  - apply path_means_panic. vm_compute. reflexivity.
  - destruct (proj1 (path_means_none (bs "..#().#("))) as [H|H]; [vm_compute; reflexivity| |exact H]. exfalso.
    inversion H as [p parts A B| |p parts A B D|]; subst; apply cuts_fun in A; vm_compute in A; subst parts.
    + cbn [List.length] in B. lia.
    + apply steps_res_of in D. vm_compute in D. discriminate.
Qed.
