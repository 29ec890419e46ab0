(** C102: edits can be taken back: a client that notes for every edit how it is undone gets
    back to the document it began with, or to any state between. *)
From Coq Require Import List Ascii String NArith ZArith Bool Lia Permutation.
From Verif Require Import GoStr ModelParser ModelPath ModelResult ModelQuery ModelValidate ModelBuilder SpecText SpecPath SpecTree SpecQuery SpecEdit SpecContent SpecValid SpecFilter SpecLang SpecHistory SpecFrame SpecLoop SpecLaid SpecNotation SpecUndo
  ProofBase ProofScan ProofTree ProofTree8 ProofEdit8 ProofEdit9 ProofFrame4 ProofEdit11 ProofLang2 ProofNotation ProofTree2 ProofTree3 ProofTree4 ProofTree5 ProofLaid ProofLaid6 ProofList ProofUndo ProofEdit ProofEdit2 ProofEdit5 PropTree PropValid PropLang PropLaid PropStore.
Import ListNotations.
Open Scope nat_scope.

(** The edits are made and then taken back, the last one first: all calls succeed, the
    document is again one of the old tree, as long as before, valid, and every query answers
    as before. *)
Theorem C102_rollback : forall E fmt_g p F ops undos F2,
  (forall k l, Permutation l (e_ord E k l)) -> prolog p -> strict_prolog p ->
  Forall good F -> Forall top_node F -> shallow F -> room p F -> journal p F ops undos F2 ->
  exists G2 G, calls E fmt_g ops (p ++ forest_text F) = Ok (p ++ forest_text G2, None) /\ Forall2 same F2 G2 /\
    calls E fmt_g undos (p ++ forest_text G2) = Ok (p ++ forest_text G, None) /\ Forall2 same F G /\
    List.length (forest_text G) = List.length (forest_text F) /\ valid (p ++ forest_text G) = true /\
    ((elements F < 9999)%N -> same_answers E (p ++ forest_text F) (p ++ forest_text G)).
Proof.
  intros E fmt_g p F ops undos F2 Ho Hp SP HG HT HS HR J. assert (FT : fits p F) by (destruct HR; split; [|split]; assumption).
  destruct (history_ok E fmt_g Ho p ops F F2 Hp SP (journal_history p F ops undos F2 J) F HG HT FT (same_all_refl F)) as (G2 & C2 & S2 & _).
  destruct (rollback_ok E fmt_g Ho p Hp SP F ops undos F2 J (conj HG (conj HT FT)) G2 S2) as (G & C & S). exists G2, G.
  pose proof (same_fits p F G S FT) as FG. split; [exact C2|]. split; [exact S2|]. split; [exact C|]. split; [exact S|]. split; [symmetry; now apply same_length_all|]. split.
  - apply state_valid; auto; [eapply same_good_all; eauto|eapply same_top; eauto].
  - intros EL. apply (texts_alike E Ho p Hp F F G); auto. apply same_all_refl.
Qed.
Print Assumptions C102_rollback.
(** Where no element has more than one attribute, the old document comes back to the byte. *)
Theorem C102_bytes : forall E fmt_g p F ops undos F2,
  (forall k l, Permutation l (e_ord E k l)) -> prolog p -> strict_prolog p ->
  Forall good F -> Forall top_node F -> shallow F -> room p F -> journal p F ops undos F2 -> Forall few_attrs F ->
  calls E fmt_g (ops ++ undos) (p ++ forest_text F) = Ok (p ++ forest_text F, None).
Proof.
  intros E fmt_g p F ops undos F2 Ho Hp SP HG HT HS HR J FA. destruct (C102_rollback E fmt_g p F ops undos F2 Ho Hp SP HG HT HS HR J) as (G2 & G & C2 & _ & C & S & _).
  rewrite (calls_then E fmt_g _ _ _ _ C2), C, (same_few_all F G S FA). reflexivity.
Qed.
Print Assumptions C102_bytes.
(** Back to a state between: of the edits [ops1 ++ ops2] only the last ones are taken back;
    the document is then one of the tree the first ones make. *)
Theorem C102_savepoint : forall E fmt_g p F ops1 F1 ops2 undos2 F2,
  (forall k l, Permutation l (e_ord E k l)) -> prolog p -> strict_prolog p ->
  Forall good F -> Forall top_node F -> shallow F -> room p F -> history p ops1 F F1 -> journal p F1 ops2 undos2 F2 ->
  exists G1 G, calls E fmt_g ops1 (p ++ forest_text F) = Ok (p ++ forest_text G1, None) /\
    calls E fmt_g (ops1 ++ ops2 ++ undos2) (p ++ forest_text F) = Ok (p ++ forest_text G, None) /\ Forall2 same F1 G1 /\ Forall2 same F1 G /\
    ((elements F1 < 9999)%N -> same_answers E (p ++ forest_text G1) (p ++ forest_text G)).
Proof.
  intros E fmt_g p F ops1 F1 ops2 undos2 F2 Ho Hp SP HG HT HS HR H J. assert (FT : fits p F) by (destruct HR; split; [|split]; assumption).
  destruct (history_ok E fmt_g Ho p ops1 F F1 Hp SP H F HG HT FT (same_all_refl F)) as (G1 & C1 & S1 & GD1 & T1 & FT1).
  destruct (history_ok E fmt_g Ho p ops2 F1 F2 Hp SP (journal_history p F1 ops2 undos2 F2 J) G1 GD1 T1 FT1 S1) as (G2 & C2 & S2 & _).
  destruct (rollback_ok E fmt_g Ho p Hp SP F1 ops2 undos2 F2 J (conj GD1 (conj T1 FT1)) G2 S2) as (G & C & S). exists G1, G. split; [exact C1|]. split.
  - now rewrite (calls_then E fmt_g _ _ _ _ C1), (calls_then E fmt_g _ _ _ _ C2).
  - split; [exact S1|]. split; [exact S|]. intros EL. apply (texts_alike E Ho p Hp F1 G1 G); auto; [apply FT1| |]; eapply same_fits; eauto.
Qed.
Print Assumptions C102_savepoint.
(** The same in documents in other notations (C71): the author's way to write the tags and the
    prolog stays where nothing was edited, and every path finds in the end what it found first. *)
Theorem C102_notation : forall E fmt_g p F s x ops undos F2,
  (forall k l, Permutation l (e_ord E k l)) -> prolog p -> strict_prolog p ->
  Forall good F -> Forall top_node F -> shallow F -> spacious p s F -> laid_all true s F x -> journal p F ops undos F2 -> laid_history p s ops F F2 ->
  exists G y, calls E fmt_g (ops ++ undos) (p ++ x) = Ok (p ++ y, None) /\ Forall2 same F G /\ laid_all true s G y /\ valid (p ++ y) = true /\
    forall steps fin, good_tpath steps fin ->
      exists r, get E (p ++ y) (tpath steps fin) = Ok r /\ describes r (query true steps fin F).
Proof.
  intros E fmt_g p F s x ops undos F2 Ho Hp SP HG HT HS HE HL J LH.
  destruct (laid_history_ok E fmt_g Ho p s ops F F2 Hp SP LH F x HG HT HS HE (same_all_refl F) HL) as (G2 & y2 & C2 & S2 & L2 & _).
  destruct (laid_rollback E fmt_g Ho p Hp SP F ops undos F2 J s LH HG HT HS HE G2 y2 S2 L2) as (G & y & C & S & L). exists G, y.
  split; [now rewrite (calls_then E fmt_g _ _ _ _ C2)|]. split; [exact S|]. split; [exact L|]. pose proof (same_good_all F G S HG) as GG.
  assert (V : valid (p ++ y) = true) by (apply (laid_valid p G y s); auto; [eapply same_top; eauto|eapply same_shallow; eauto|eapply same_spacious; eauto]).
  split; [exact V|]. intros steps fin GT.
  destruct (get_query E Ho (p ++ y) F steps fin) as [r [R1 R2]]; auto.
  - apply (reads_same E F G); auto. apply reads_written; auto. eapply all_written; eauto.
  - now apply valid_size.
  - exists r. split; auto. apply denotes_describes; auto. now apply query_good.
Qed.
Print Assumptions C102_notation.
(** Setting a value inside a self-closing element and deleting it leaves two tags: that pair
    of edits is not in the claim. *)
Theorem C102_self_closing_refuted : exists d path v d1 d2,
  set env0 (fun _ => []) d path v = Ok (d1, None) /\ delete env0 d1 path = Ok (d2, None) /\ List.length d2 <> List.length d.
Proof.
  exists (bs "<r><a/></r>"), (bs "r.a.b"), (VStr (bs "x")), (bs "<r><a><b>x</b></a></r>"), (bs "<r><a></a></r>"). repeat split; vm_compute; try reflexivity. discriminate.
Qed.
Print Assumptions C102_self_closing_refuted.
(** With several attributes the bytes can differ: their order is not kept. *)
Theorem C102_attributes_refuted : exists d path v d1 d2,
  set env0 (fun _ => []) d path v = Ok (d1, None) /\ delete env0 d1 path = Ok (d2, None) /\ d2 <> d /\ List.length d2 = List.length d.
Proof.
  exists (bs "<r b=""1"" a=""2"">x</r>"), (bs "r.@c"), (VStr (bs "3")), (bs "<r a=""2"" b=""1"" c=""3"">x</r>"), (bs "<r a=""2"" b=""1"">x</r>"). repeat split; vm_compute; try reflexivity. discriminate.
Qed.
Print Assumptions C102_attributes_refuted.

Definition conf : list node :=
  [Elem (bs "conf") [] false
     [Elem (bs "db") [(bs "host", bs "a")] false [Elem (bs "port") [] false [Text (bs "1")]];
      Elem (bs "users") [] false [Elem (bs "u") [] false [Text (bs "x")]; Elem (bs "end") [] true []]]].
Definition conf_ops : list edit :=
  [SetText (by_name [bs "conf"; bs "db"; bs "port"]) (bs "2");
   SetAttr (by_name [bs "conf"; bs "db"]) (bs "host") (bs "b");
   SetText (by_name [bs "conf"] ++ by_name [bs "log"; bs "level"]) (bs "debug");
   Append (by_name [bs "conf"; bs "users"]) (bs "u") (AsText (bs "y"));
   RemoveAttr (by_name [bs "conf"; bs "db"]) (bs "host");
   SetAttr (by_name [bs "conf"; bs "users"]) (bs "open") (bs "no")].
Definition conf_undos : list edit :=
  [RemoveAttr (by_name [bs "conf"; bs "users"]) (bs "open");
   SetAttr (by_name [bs "conf"; bs "db"]) (bs "host") (bs "b");
   Remove (item (by_name [bs "conf"; bs "users"]) (bs "u") 1);
   Remove (by_name [bs "conf"] ++ [(bs "log", None)]);
   SetAttr (by_name [bs "conf"; bs "db"]) (bs "host") (bs "a");
   SetContent (by_name [bs "conf"; bs "db"; bs "port"]) (AsForest [Text (bs "1")])].
Definition conf_after : bytes := bs "<conf><db><port>2</port></db><users open=""no""><u>x</u><u>y</u><end/></users><log><level>debug</level></log></conf>".
Ltac down_to n K := eapply (loc_down n None _ K); [vm_compute; reflexivity|vm_compute; reflexivity|].
Ltac last_at n K := eapply (loc_here n None K); vm_compute; reflexivity.
Fixpoint run_conf (ops : list edit) (F : list node) : option (list node) :=
  match ops with [] => Some F | o :: ops' => match apply_edit o F with Some F' => run_conf ops' F' | None => None end end.
Example C102_example :
  Forall good conf /\ Forall top_node conf /\ shallow conf /\ room [] conf /\ Forall few_attrs conf /\
  (exists F2, journal [] conf conf_ops conf_undos F2 /\ forest_text F2 = conf_after) /\
  calls env0 (fun _ => []) conf_ops (forest_text conf) = Ok (conf_after, None) /\
  calls env0 (fun _ => []) conf_undos conf_after = Ok (forest_text conf, None).
Proof.
  split; [apply forest_b_ok; vm_compute; reflexivity|]. split; [apply Forall_cons; [exact I|apply Forall_nil]|]. split; [apply Forall_cons; [vm_compute; lia|apply Forall_nil]|].
  split; [split; [eexists _, _, _, _; left; reflexivity|vm_compute; discriminate]|]. split; [apply Forall_cons; [cbn; repeat split; lia|apply Forall_nil]|]. split; [|split; vm_compute; reflexivity].
  destruct (run_conf conf_ops conf) as [F2|] eqn:R; [|vm_compute in R; discriminate R]. exists F2. split; [|revert R; vm_compute; intros R; injection R as <-; reflexivity].
  vm_compute in R. injection R as <-.
  change conf_undos with (((((([] ++ [nth 0 conf_undos (Remove [])]) ++ [nth 1 conf_undos (Remove [])]) ++ [nth 2 conf_undos (Remove [])]) ++ [nth 3 conf_undos (Remove [])]) ++ [nth 4 conf_undos (Remove [])]) ++ [nth 5 conf_undos (Remove [])]).
  cbn [nth conf_undos].
  eapply jo_cons; [legal_op|legal_op| |vm_compute; reflexivity|split; [eexists _, _, _, _; left; reflexivity|vm_compute; discriminate]|].
  { eapply ub_content; [|apply same_all_refl]. down_to (bs "conf") (@nil node). down_to (bs "db") (@nil node). last_at (bs "port") (@nil node). }
  eapply jo_cons; [legal_op|legal_op| |vm_compute; reflexivity|split; [eexists _, _, _, _; left; reflexivity|vm_compute; discriminate]|].
  { eapply ub_attr_old; [|]. down_to (bs "conf") (@nil node). last_at (bs "db") (@nil node). vm_compute. reflexivity. }
  eapply jo_cons; [legal_op|legal_op| |vm_compute; reflexivity|split; [eexists _, _, _, _; left; reflexivity|vm_compute; discriminate]|].
  { eapply ub_new; [last_at (bs "conf") (@nil node)|vm_compute; reflexivity]. }
  eapply jo_cons; [legal_op|legal_op| |vm_compute; reflexivity|split; [eexists _, _, _, _; left; reflexivity|vm_compute; discriminate]|].
  { eapply (ub_append _ _ (bs "u") _ _ _ _ [Elem (bs "u") [] false [Text (bs "x")]; Elem (bs "end") [] true []]). down_to (bs "conf") (@nil node). eapply (loc_here (bs "users") None [_]); vm_compute; reflexivity. }
  eapply jo_cons; [legal_op|legal_op| |vm_compute; reflexivity|split; [eexists _, _, _, _; left; reflexivity|vm_compute; discriminate]|].
  { eapply ub_attr_gone; [|]. down_to (bs "conf") (@nil node). last_at (bs "db") (@nil node). vm_compute. reflexivity. }
  eapply jo_cons; [legal_op|legal_op| |vm_compute; reflexivity|split; [eexists _, _, _, _; left; reflexivity|vm_compute; discriminate]|].
  { eapply ub_attr_new; [|]. down_to (bs "conf") (@nil node). eapply (loc_here (bs "users") None [_]); vm_compute; reflexivity. vm_compute. reflexivity. }
  apply jo_nil.
Qed.
(** The same document with apostrophes and white space of its author's choice. *)
Definition conf_own : bytes := bs "<conf" ++ [lf] ++ bs "><db host='a'><port>1</port></db><users><u>x</u><end/></users></conf>".
Lemma host_tag : tag_as [(bs "host", bs "a")] (bs " host='a'").
Proof. tag_ok. attr_ok (bs "host") (bs "a") (@nil (bytes * bytes)) (bs " ") (@nil ascii) (@nil ascii) squote (bs "a") (@nil ascii). constructor. apply blank_ok. reflexivity. Qed.
Lemma conf_tag : tag_as [] [lf].
Proof. split; [constructor; apply blank_ok; reflexivity|]. right. exists lf, []. split; [reflexivity|]. pose proof (blank_ok [lf] eq_refl) as B. now inversion B. Qed.
Example C102_notation_example :
  spacious [] 1 conf /\ laid_all true 1 conf conf_own /\ conf_own <> forest_text conf /\ (exists F2, laid_history [] 1 conf_ops conf F2) /\
  calls env0 (fun _ => []) (conf_ops ++ conf_undos) conf_own = Ok (bs "<conf" ++ [lf] ++ bs "><db host=""a""><port>1</port></db><users><u>x</u><end/></users></conf>", None).
Proof.
  split; [split; [eexists _, _, _, _; left; reflexivity|vm_compute; discriminate]|]. split; [|split; [vm_compute; discriminate|split]].
  - change conf_own with ((opening (bs "conf") [lf] false ++ ((opening (bs "db") (bs " host='a'") false ++ bs "<port>1</port>" ++ end_tag (bs "db")) ++ bs "<users><u>x</u><end/></users>") ++ end_tag (bs "conf")) ++ []).
    apply (ls_cons true 1 0); [|constructor]. apply la_elem; [apply conf_tag|by_len|discriminate|]. apply (ls_cons false 0 0).
    + apply la_elem; [apply host_tag|by_len|reflexivity|]. apply (forest_laid [Elem (bs "port") [] false [Text (bs "1")]]). apply forest_b_ok. vm_compute. reflexivity.
    + apply (forest_laid [Elem (bs "users") [] false [Elem (bs "u") [] false [Text (bs "x")]; Elem (bs "end") [] true []]]). apply forest_b_ok. vm_compute. reflexivity.
  - eexists. repeat (eapply lh_cons; [legal_op|vm_compute; reflexivity|split; [eexists _, _, _, _; left; reflexivity|vm_compute; discriminate]|]). apply lh_nil.
  - vm_compute. reflexivity.
Qed.
