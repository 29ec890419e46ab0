(** C89: sequences of edits in which every edit has its own options. *)
From Coq Require Import List Ascii String NArith ZArith Bool Lia Permutation.
From Verif Require Import GoStr ModelParser ModelPath ModelResult ModelQuery ModelValidate ModelBuilder ModelQueryOpts SpecText SpecPath SpecTree SpecQuery SpecEdit SpecContent SpecValid SpecHistory SpecFilter SpecLang SpecCase SpecOptions SpecSession
  ProofBase ProofPath ProofTree ProofTree2 ProofTree4 ProofTree5 ProofTree8 ProofEdit5 ProofEdit8 ProofEdit9 ProofLang ProofLang3 ProofLang4 ProofCase3 ProofCase4 ProofValid2 ProofSession ProofSession2 ProofSession3 ProofSession4 PropTree PropLang PropCase PropOptions.
Import ListNotations.

(** C89. After any sequence of edits, each with its own way of comparing names and its own
    indentation, the document is the text of the tree the edits lead to; it is valid; every
    query answers from that tree, with and without options. *)
Theorem C89_session : forall E fmt_g p F ops F',
  (forall k l, Permutation l (e_ord E k l)) -> prolog p -> strict_prolog p ->
  Forall good F -> Forall top_node F -> shallow F -> room p F -> session p ops F F' ->
  exists G, calls_under E fmt_g ops (p ++ forest_text F) = Ok (p ++ forest_text G, None) /\ Forall2 same F' G /\
    valid (p ++ forest_text G) = true /\
    (forall steps fin, good_tpath steps fin ->
      exists r, get E (p ++ forest_text G) (tpath steps fin) = Ok r /\ describes r (query true steps fin F')) /\
    (forall o sat qs e, o_case o = false -> apart F' -> (elements F' < 9999)%N ->
      (forall c nd, good nd -> (sat c nd = true <-> true_of (e_parse_float E) c nd)) -> good_query qs e ->
      exists r, get_opts E o (p ++ forest_text G) (query_text qs e) = Ok r /\ says r (ask_ci sat e qs F')).
Proof.
  intros E fmt_g p F ops F' Ho Hp SP HG HT HS [HE HZ] HH.
  destruct (session_ok E fmt_g Ho p ops F F' Hp SP HH F HG HT (conj HE (conj HS HZ)) (same_all_refl F)) as [G [C [S [G' [T' FT]]]]].
  exists G. split; [exact C|]. split; [exact S|].
  assert (V : valid (p ++ forest_text G) = true).
  { apply state_valid; auto; [eapply same_good_all; eauto|eapply same_top; eauto|eapply same_fits; eauto]. }
  split; [exact V|]. split.
  - intros steps fin GT. destruct (get_query_text E Ho p F' G steps fin Hp S G' (valid_size _ V) GT) as [r [R1 R2]]. exists r. split; auto.
    apply denotes_describes; auto. now apply query_good.
  - intros o sat qs e OC AP EL HS2 GQ. eapply get_ask_ci; eauto; [intros f ->; apply (gq_end _ _ GQ)| |exact (valid_size _ V)].
    split; auto. split; [|split; auto; apply FT]. apply reads_text; auto using skippable_prolog.
Qed.
Print Assumptions C89_session.

(** Indentation adds white space only: the same edits with other indentations lead to the
    same tree apart from white space between tags, and attributes and counts are the same. *)
Theorem C89_layout : forall E fmt_g p p' F1 F1' F2 F2' ops ops',
  (forall k l, Permutation l (e_ord E k l)) -> prolog p -> strict_prolog p -> prolog p' -> strict_prolog p' ->
  Forall good F1 -> Forall top_node F1 -> shallow F1 -> room p F1 -> session p ops F1 F1' ->
  Forall good F2 -> Forall top_node F2 -> shallow F2 -> room p' F2 -> session p' ops' F2 F2' ->
  Forall2 (fun x y => o_case (fst x) = o_case (fst y) /\ snd x = snd y) ops ops' -> tidy F1 = tidy F2 ->
  tidy F1' = tidy F2' /\
  exists d d', calls_under E fmt_g ops (p ++ forest_text F1) = Ok (d, None) /\ calls_under E fmt_g ops' (p' ++ forest_text F2) = Ok (d', None) /\
    forall steps fin, good_tpath steps fin -> match fin with TheAttribute _ | TheCount => True | _ => False end ->
      exists r r' a, get E d (tpath steps fin) = Ok r /\ get E d' (tpath steps fin) = Ok r' /\ describes r a /\ describes r' a.
Proof.
  intros E fmt_g p p' F1 F1' F2 F2' ops ops' Ho Hp SP Hp' SP' G1 T1 S1 R1 H1 G2 T2 S2 R2 H2 FA T.
  pose proof (session_tidy p p' ops ops' F1 F1' H1 FA F2 F2' H2 T) as TT. split; [exact TT|].
  destruct (C89_session E fmt_g p F1 ops F1' Ho Hp SP G1 T1 S1 R1 H1) as [K1 [C1 [_ [_ [Q1 _]]]]].
  destruct (C89_session E fmt_g p' F2 ops' F2' Ho Hp' SP' G2 T2 S2 R2 H2) as [K2 [C2 [_ [_ [Q2 _]]]]].
  exists (p ++ forest_text K1), (p' ++ forest_text K2). split; [exact C1|]. split; [exact C2|]. intros steps fin GT ST.
  destruct (Q1 steps fin GT) as [r [A1 A2]]. destruct (Q2 steps fin GT) as [r' [B1 B2]]. exists r, r', (query true steps fin F1'). repeat apply conj; auto.
  rewrite <- (query_tidy fin ST), TT, (query_tidy fin ST). exact B2.
Qed.
Print Assumptions C89_layout.

(** With CaseSensitive and no indentation the edits are those of C47. *)
Theorem C89_plain : forall e F, Forall good F ->
  (forall steps c, e = SetContent steps c \/ (exists m, e = Append steps m c) -> exists v, c = AsText v) ->
  apply_under true [] e F = apply_edit e F.
Proof. exact apply_plain. Qed.
Print Assumptions C89_plain.

Definition cs4 : options := mkOpts true (bs "    ") true None.
Definition cs0 : options := mkOpts true [] true None.
Definition ci0 : options := mkOpts false [] true None.
Definition mixed : list (options * edit) :=
  [ (ci2, SetText [(bs "SHOP", None); (bs "item", Some (bs "1")); (bs "NAME", None)] (bs "a<b"));
    (cs4, SetText (by_name [bs "Shop"; bs "Owner"; bs "name"]) (bs "Kim"));
    (ci2, SetAttr (by_name [bs "shop"; bs "ITEM"]) (bs "id") (bs "9"));
    (ci2, Append [(bs "shop", None)] (bs "iTEM") (AsText (bs "new")));
    (cs0, Remove [(bs "Shop", None); (bs "box", None)]);
    (ci0, RemoveAttr (by_name [bs "shop"; bs "item"; bs "zzz"]) (bs "id")) ].
Definition mixed0 : list (options * edit) := map (fun x => (mkOpts (o_case (fst x)) [] true None, snd x)) mixed.
Fixpoint run_under (l : list (options * edit)) (F : list node) : option (list node) :=
  match l with [] => Some F | (o, e) :: l' => match apply_under (o_case o) (o_indent o) e F with Some F' => run_under l' F' | None => None end end.
Fixpoint legal_under (l : list (options * edit)) (F : list node) : Prop :=
  match l with
  | [] => True
  | (o, e) :: l' => forallb (fun c => existsb (Ascii.eqb c) [" "%char; tab; lf; cr]) (o_indent o) = true /\ legal e /\
      match apply_under (o_case o) (o_indent o) e F with
      | Some F' => existsb is_elem F' = true /\ (N.of_nat (List.length (sample_prolog ++ forest_text F')) <=? 10485760)%N = true /\ legal_under l' F'
      | None => False end
  end.
Lemma run_session : forall l F F', run_under l F = Some F' -> legal_under l F -> session sample_prolog l F F'.
Proof.
  induction l as [|[o e] l IH]; intros F F' R L; cbn [run_under] in R; cbn [legal_under] in L; [injection R as <-; constructor|]. destruct L as [L0 [L1 L2]].
  destruct (apply_under _ _ e F) as [F1|] eqn:Q; [|discriminate]. destruct L2 as [L2 [L3 L4]]. econstructor; eauto.
  - apply Forall_forall. intros c I. rewrite forallb_forall in L0. apply L0 in I. apply existsb_exists in I. destruct I as [c' [I EQ]]. apply Ascii.eqb_eq in EQ. now subst.
  - split; [|now apply N.leb_le]. apply existsb_exists in L2. destruct L2 as [[n a s k| |] [IN K]]; try discriminate. now exists n, a, s, k.
Qed.
Ltac legal_session :=
  repeat match goal with
  | |- True => exact I
  | |- context [apply_under ?x ?i ?o ?F] => let y := eval vm_compute in (apply_under x i o F) in change (apply_under x i o F) with y; cbv iota
  | |- _ = true /\ _ => split; [vm_compute; reflexivity|]
  | |- legal _ /\ _ => split
  | |- legal _ => cbn [legal]
  | |- _ /\ _ => split
  | |- good_tpath _ _ => apply tpath_b_ok; vm_compute; reflexivity
  | |- xml_name _ => apply xml_name_b_ok; vm_compute; reflexivity
  | |- Forall good_tstep _ => eapply (fun l H => gt_steps l TheElement H); apply tpath_b_ok; vm_compute; reflexivity
  | |- Forall _ (_ :: _) => apply Forall_cons
  | |- Forall _ [] => apply Forall_nil
  | |- Forall xml_name _ => cbn [map fst by_name]
  | |- _ < _ => vm_compute; lia
  | |- (_ <= _)%nat => vm_compute; lia
  | |- good_content _ => split; cbn [content_nodes]
  | |- good _ => apply good_b_ok; vm_compute; reflexivity
  | |- (_ <= _)%N => vm_compute; discriminate
  | |- small _ => vm_compute; discriminate
  end.
Definition mixed_text : bytes :=
  bs "<Shop><ITEM ID=""9""><Name>pen</Name><price>3</price></ITEM><s:Item Id=""2""><name>a&lt;b</name><price>12</price></s:Item>" ++ lf ::
  bs "  <item>new</item>" ++ lf :: bs "<Owner>" ++ lf :: bs "    <name>Kim</name></Owner></Shop>".
Example C89_example :
  exists F', run_under mixed stock = Some F' /\ forest_text F' = mixed_text /\ session sample_prolog mixed stock F' /\
  calls_under env0 (fun _ => []) mixed (sample_prolog ++ forest_text stock) = Ok (sample_prolog ++ mixed_text, None).
Proof.
  destruct (run_under mixed stock) as [F'|] eqn:R; [|vm_compute in R; discriminate R]. exists F'. split; [reflexivity|].
  assert (T : forest_text F' = mixed_text) by (revert R; vm_compute; intros R; injection R as <-; reflexivity). split; [exact T|]. split.
  - apply run_session; auto. clear F' R T. unfold mixed, legal_under. legal_session.
  - vm_compute. reflexivity.
Qed.
Example C89_layout_example :
  exists F' F0, run_under mixed stock = Some F' /\ run_under mixed0 stock = Some F0 /\ session sample_prolog mixed0 stock F0 /\ F' <> F0 /\ tidy F' = tidy F0 /\
  Forall2 (fun x y => o_case (fst x) = o_case (fst y) /\ snd x = snd y) mixed mixed0.
Proof.
  destruct (run_under mixed stock) as [F'|] eqn:R; [|vm_compute in R; discriminate R]. destruct (run_under mixed0 stock) as [F0|] eqn:R0; [|vm_compute in R0; discriminate R0].
  exists F', F0. split; [reflexivity|]. split; [reflexivity|]. split.
  - apply run_session; auto. clear. unfold mixed0, mixed. cbn [map fst snd o_case]. unfold legal_under. legal_session.
  - split; [revert R R0; vm_compute; intros R R0; injection R as <-; injection R0 as <-; discriminate|]. split; [revert R R0; vm_compute; intros R R0; injection R as <-; injection R0 as <-; reflexivity|].
    repeat constructor.
Qed.
