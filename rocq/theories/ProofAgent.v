(** Lemmas for C110. *)
From Coq Require Import List Ascii String NArith ZArith Bool Lia Permutation.
From Verif Require Import GoStr ModelParser ModelPath ModelResult ModelQuery ModelValidate ModelBuilder SpecText SpecPath SpecTree SpecQuery SpecEdit SpecContent SpecValid SpecMod SpecHistory SpecTable SpecStore SpecBudget SpecFill SpecLayer SpecAgent
  ProofBase ProofStore ProofUndo ProofLedger ProofLayer ProofSync PropStore.
Import ListNotations.
Open Scope nat_scope.

Lemma deeds_keys : forall A K (P : agent A) D, keeps_to K P D -> Forall (fun o => K (key_of o)) (deeds P D).
Proof. intros A K. induction P as [a|q next IH|o next IH]; intros D H; cbn [deeds keeps_to] in *; [constructor|apply IH; tauto|constructor; [tauto|apply IH; tauto]]. Qed.
Lemma deeds_map : forall A (P : agent A) D, snd (on_map P D) = do_all (deeds P D) D.
Proof. intros A. induction P as [a|q next IH|o next IH]; intros D; cbn [deeds on_map]; [reflexivity|apply IH|]. rewrite IH. reflexivity. Qed.

Section Agent.
  Variable E : env.
  Variable fmt_g : f64 -> bytes.
  Hypothesis Hord : forall k l, Permutation l (e_ord E k l).
  Variable p : bytes.
  Hypothesis Hp : prolog p.
  Hypothesis SP : strict_prolog p.
  Variable F : list node.
  Hypothesis HG : Forall good F.
  Hypothesis HT : Forall top_node F.
  Hypothesis HS : shallow F.
  Hypothesis HR : room p F.
  Variable K : list bytes -> Prop.
  Hypothesis HK : keys K.
  Variable D : store.
  Hypothesis ST : stores K F D.
  Lemma agent_ok : forall A (P : agent A) before F' d,
    Forall (fun o => K (key_of o)) before -> keeps_to K P (do_all before D) ->
    history p (map store_edit (before ++ deeds P (do_all before D))) F F' ->
    calls E fmt_g (map store_edit before) (p ++ forest_text F) = Ok (d, None) ->
    exists d', on_document E fmt_g P d = Ok (Some (fst (on_map P (do_all before D))), d') /\ valid d' = true /\ reads_store E d' K (snd (on_map P (do_all before D))).
  Proof.
    intros A. induction P as [a|q next IH|o next IH]; intros before F' d KB KT H C; cbn [deeds keeps_to on_document on_map fst snd] in *.
    - rewrite app_nil_r in H. destruct (C93_store E fmt_g p F K D before F' Hord Hp SP HG HT HS HR HK ST KB H) as (d' & C' & V & R). rewrite C in C'. injection C' as <-. exists d. now split.
    - destruct KT as (Kq & Gq & KT). assert (HB := H). rewrite map_app in HB. destruct (history_app _ _ _ _ _ HB) as (F1 & H1 & _).
      destruct (C93_store E fmt_g p F K D before F1 Hord Hp SP HG HT HS HR HK ST KB H1) as (d' & C' & V & R). rewrite C in C'. injection C' as <-.
      destruct (reads_value E d K _ q R Kq Gq) as (r & G & B). rewrite G. cbn [bind].
      assert (X : (if r_exists r then Some (r_string r) else None) = value_at (do_all before D) q) by (destruct (value_at (do_all before D) q); [destruct B as [-> ->]|rewrite B]; reflexivity).
      rewrite X. now apply (IH _ before F').
    - destruct KT as [Ko KT]. assert (DA : do_all (before ++ [o]) D = do_store o (do_all before D)) by (rewrite do_all_app; reflexivity).
      assert (L : before ++ o :: deeds next (do_store o (do_all before D)) = (before ++ [o]) ++ deeds next (do_all (before ++ [o]) D)) by (rewrite DA, <- app_assoc; reflexivity).
      rewrite L in H. assert (HB := H). rewrite map_app in HB. destruct (history_app _ _ _ _ _ HB) as (F1 & H1 & _).
      assert (KB' : Forall (fun o => K (key_of o)) (before ++ [o])) by (apply Forall_app; split; [exact KB|constructor; [exact Ko|constructor]]).
      destruct (C93_store E fmt_g p F K D (before ++ [o]) F1 Hord Hp SP HG HT HS HR HK ST KB' H1) as (d' & C' & V & R).
      assert (C'' := C'). rewrite map_app, calls_app, C in C''. cbn [map bind] in C''. rewrite one_call in C''. rewrite C''. cbn [bind].
      rewrite <- DA in *. now apply (IH (before ++ [o]) F').
  Qed.
End Agent.
