(** C110 for programs that are stopped on the way and continued. *)
From Coq Require Import List Ascii String NArith ZArith Bool Lia Permutation.
From Verif Require Import GoStr ModelParser ModelPath ModelResult ModelQuery ModelValidate ModelBuilder SpecText SpecPath SpecTree SpecQuery SpecEdit SpecContent SpecValid SpecMod SpecHistory SpecTable SpecStore SpecBudget SpecFill SpecLayer SpecAgent SpecPause
  ProofBase ProofTree ProofTree8 ProofStore ProofBudget ProofLedger ProofLayer ProofSync ProofAgent PropTree PropStore PropBudget PropLayer PropAgent.
Import ListNotations.
Open Scope nat_scope.

Lemma first_keeps : forall A K n (P : agent A) D, keeps_to K P D -> keeps_to K (first_calls n P) D.
Proof. intros A K. induction n as [|n IH]; intros P D H; [exact I|]. destruct P as [a|q next|o next]; cbn [first_calls keeps_to] in *; [exact I|destruct H as (H0 & H1 & H2)|destruct H as (H0 & H2)]; auto. Qed.
Lemma first_deeds : forall A n (P : agent A) D, deeds P D = deeds (first_calls n P) D ++ deeds (fst (on_map (first_calls n P) D)) (snd (on_map (first_calls n P) D)).
Proof. intros A. induction n as [|n IH]; intros P D; [reflexivity|]. destruct P as [a|q next|o next]; cbn [first_calls deeds on_map fst snd app]; [reflexivity|apply IH|f_equal; apply IH]. Qed.
(** C110. Stopped after any number of calls, the program leaves a valid document, which holds
    the values of the map after as many calls. *)
Theorem C110_any_time : forall E fmt_g p F K D A (P : agent A) F' n,
  (forall k l, Permutation l (e_ord E k l)) -> prolog p -> strict_prolog p ->
  Forall good F -> Forall top_node F -> shallow F -> room p F ->
  keys K -> stores K F D -> keeps_to K P D -> history p (map store_edit (deeds P D)) F F' ->
  exists d, on_document E fmt_g (first_calls n P) (p ++ forest_text F) = Ok (Some (fst (on_map (first_calls n P) D)), d) /\ valid d = true /\
    forall q, K (place_key q) -> good_place q -> exists r, get E d (place_path q) = Ok r /\
      match value_at (snd (on_map (first_calls n P) D)) q with Some v => r_exists r = true /\ r_string r = v | None => r_exists r = false end.
Proof.
  intros E g p F K D A P F' n Ho Hp SP HG HT HS HR HK ST KT H. rewrite (first_deeds A n P D), map_app in H. destruct (history_app _ _ _ _ _ H) as (F1 & H1 & _).
  exact (C110_history E g p F K D _ (first_calls n P) F1 Ho Hp SP HG HT HS HR HK ST (first_keeps A K n P D KT) H1).
Qed.
Print Assumptions C110_any_time.
(** Continued, on the document as it is then, it ends as if it had not been stopped; this
    holds of every text. *)
Theorem C110_continued : forall E fmt_g A n (P : agent A) d,
  on_document E fmt_g P d =
  (let* x := on_document E fmt_g (first_calls n P) d in
   match x with
   | (Some R, d') => on_document E fmt_g R d'
   | (None, d') => Ok (None, d')
   end).
Proof.
  intros E g A. induction n as [|n IH]; intros P d; [reflexivity|]. destruct P as [a|q next|o next]; cbn [first_calls on_document]; [reflexivity| |].
  - destruct (get E d (place_path q)) as [r| |]; cbn [bind]; [apply IH|reflexivity|reflexivity].
  - destruct (call E g (store_edit o) d) as [[d' [e|]]| |]; cbn [bind]; [reflexivity|apply IH|reflexivity|reflexivity].
Qed.
Print Assumptions C110_continued.
Example C110_pause_example :
  on_document env0 (fun _ => []) (first_calls 2 toggle) (forest_text defaults) =
    Ok (Some (Do (Mark k_file (bs "was") (bs "safe")) (Ask (Named k_host (bs "tls")) (fun t => Finish t))),
        bs "<cfg><net><host tls=""no"">localhost</host><port>80</port></net> <mode>fast &amp; loose</mode></cfg>").
Proof. vm_compute. reflexivity. Qed.
