(** C98: loops over numbered elements. *)
From Coq Require Import List Ascii String NArith ZArith Bool Lia Permutation.
From Verif Require Import GoStr ModelParser ModelPath ModelResult ModelQuery ModelValidate ModelBuilder SpecText SpecPath SpecTree SpecQuery SpecEdit SpecContent SpecValid SpecHistory SpecList SpecLoop
  ProofBase ProofEscape ProofTree ProofTree5 ProofTree8 ProofEdit ProofEdit2 ProofEdit5 ProofEdit9 ProofList ProofLoop PropTree PropStore.
Import ListNotations.
Open Scope nat_scope.

(** C98: the loop that sets every element of a name, by its number, to a function of what it
    (or one of its attributes) says, changes exactly the contents of these elements; the
    number of rounds is the count read from the document. *)
Theorem C98_update_all : forall E fmt_g p F s A n a kids B m fin f kids',
  (forall k l, Permutation l (e_ord E k l)) -> prolog p -> strict_prolog p ->
  Forall good F -> Forall top_node F -> shallow F -> room p F -> readable s F ->
  located s F A (Elem n a false kids) B -> called (selects m) kids <> [] -> List.length (called (selects m) kids) <= 1000 ->
  good_tpath (s ++ [(m, None)]) TheCount -> good_tpath (item s m 0) fin -> updated m fin f kids kids' ->
  (forall x t, In x (called (selects m) kids) -> says fin x t -> legal (SetContent (item s m 0) (AsText (f t)))) ->
  (N.of_nat (List.length (p ++ forest_text F) + List.length (forest_text kids')) <= 10485760)%N ->
  let new := p ++ A ++ node_text (Elem n a false kids') ++ B in
  update_all E fmt_g s m fin f (p ++ forest_text F) = Ok (new, None) /\ valid new = true.
Proof.
  intros E g p F s A n a kids B m fin f kids' Ho Hp SP HG HT HS [HE HZ] RD L NE LE GC GT U LG SZ new.
  assert (ST : ProofList.state p F) by (repeat split; auto).
  destruct (update_from E g Ho p Hp SP s m fin f _ F A n a [] kids kids' B 0 ST L RD eq_refl eq_refl LE GT U LG SZ) as (F' & C & (G & T & FT) & L' & _).
  pose proof (located_text _ _ _ _ _ L') as TX. cbn [app] in TX. unfold update_all.
  rewrite (counted_ok E Ho p Hp F s A n a kids B m _ ST L RD NE LE GC), C, TX. split; [reflexivity|]. unfold new. rewrite <- TX. now apply state_valid.
Qed.
Print Assumptions C98_update_all.

(** The loop that deletes, from the last to the first, the elements that say something a test
    accepts removes exactly these. *)
Theorem C98_delete_where : forall E p F s A n a kids B m fin P kids',
  (forall k l, Permutation l (e_ord E k l)) -> prolog p -> strict_prolog p ->
  Forall good F -> Forall top_node F -> shallow F -> room p F -> readable s F ->
  located s F A (Elem n a false kids) B -> called (selects m) kids <> [] -> List.length (called (selects m) kids) <= 1000 ->
  good_tpath (s ++ [(m, None)]) TheCount -> good_tpath (item s m 0) fin -> swept m fin P kids kids' ->
  let new := p ++ A ++ node_text (Elem n a false kids') ++ B in
  delete_where E s m fin P (p ++ forest_text F) = Ok (new, None) /\ valid new = true.
Proof.
  intros E p F s A n a kids B m fin P kids' Ho Hp SP HG HT HS [HE HZ] RD L NE LE GC GT W new.
  assert (ST : ProofList.state p F) by (repeat split; auto).
  assert (GE : good_tpath (item s m 0) TheElement).
  { destruct GT as [G1 G2 G3]. split; auto; [cbn [good_final]; unfold item; intros H; apply app_eq_nil in H as [_ H]; discriminate|]. unfold tpath_steps in *. rewrite app_length in *. cbn [final_steps List.length]. lia. }
  assert (L0 : located s F A (Elem n a false (kids ++ [])) B) by now rewrite app_nil_r.
  destruct (sweep_from E Ho p Hp SP s m fin P _ F A n a kids kids' [] B ST L0 RD eq_refl LE GT GE W) as (F' & C & (G & T & FT) & L' & _).
  pose proof (located_text _ _ _ _ _ L') as TX. rewrite app_nil_r in TX. unfold delete_where.
  rewrite (counted_ok E Ho p Hp F s A n a kids B m _ ST L RD NE LE GC), C, TX. split; [reflexivity|]. unfold new. rewrite <- TX. now apply state_valid.
Qed.
Print Assumptions C98_delete_where.

(** Both outcomes are determined, and there is one if every element of the name can answer
    (and, for updates, has two tags). *)
Theorem C98_outcomes : forall m fin kids,
  (forall f K1 K2, updated m fin f kids K1 -> updated m fin f kids K2 -> K1 = K2) /\
  (forall P K1 K2, swept m fin P kids K1 -> swept m fin P kids K2 -> K1 = K2) /\
  ((forall x, In x (called (selects m) kids) -> exists t, says fin x t) ->
    (forall P, exists K, swept m fin P kids K) /\
    ((forall e b sc k, In (Elem e b sc k) (called (selects m) kids) -> sc = false) -> forall f, exists K, updated m fin f kids K)).
Proof.
  intros m fin kids. assert (SF : forall x t u, says fin x t -> says fin x u -> t = u).
  { intros x t u. destruct fin; cbn [says]; try contradiction; [intros; eapply decodes_fun; eauto|congruence]. }
  split; [|split].
  - intros f K1 K2 H. revert K2. induction H as [|x K K' N H IH|e b k t K K' N S H IH]; intros K2 H2; inversion H2; subst; auto.
    + f_equal; auto.
    + cbn [named] in N. congruence.
    + cbn [named] in *. congruence.
    + match goal with HK : updated m fin f K _, HS : says fin _ ?u |- _ = _ :: _ => rewrite (IH _ HK), (SF _ _ _ S HS); reflexivity end.
  - intros P K1 K2 H. revert K2. induction H as [|x K K' N H IH|x t K K' N S Q H IH|x t K K' N S Q H IH]; intros K2 H2; inversion H2; subst; auto; try congruence; try (f_equal; auto; fail);
      match goal with H1 : says fin x ?u, Q1 : P ?u = _ |- _ => rewrite (SF _ _ _ S H1) in Q; try congruence end.
  - intros SY. split.
    + intros P. induction kids as [|x kids IH]; [exists []; constructor|]. rewrite called_cons in SY. destruct (named (selects m) x) eqn:N.
      * destruct (SY x (or_introl eq_refl)) as [t S]. destruct IH as [K IH]; [intros y I; apply SY; now right|]. destruct (P t) eqn:Q; [exists K; econstructor 4; eauto|exists (x :: K); econstructor 3; eauto].
      * destruct (IH SY) as [K H]. exists (x :: K). now constructor.
    + intros TW f. induction kids as [|x kids IH]; [exists []; constructor|]. rewrite called_cons in SY, TW. destruct (named (selects m) x) eqn:N.
      * destruct (SY x (or_introl eq_refl)) as [t S]. destruct IH as [K IH]; [intros y I; apply SY; now right|intros e b sc k I; eapply TW; right; exact I|].
        destruct x as [e b sc k| |]; try discriminate. pose proof (TW e b sc k (or_introl eq_refl)) as ->. eexists. eapply up_item; eauto.
      * destruct (IH SY TW) as [K H]. exists (x :: K). now constructor.
Qed.
Print Assumptions C98_outcomes.

Definition wares : list node :=
  [Elem (bs "shop") [] false
     [Elem (bs "i") [(bs "k", bs "old")] false [Text (bs "a &amp; b")]; Text (bs " ");
      Elem (bs "j") [] true [];
      Elem (bs "p:i") [(bs "k", bs "new")] false [Elem (bs "u") [] false [Text (bs "c")]];
      Elem (bs "i") [(bs "k", bs "old")] false []]].
Definition stock : list node := match wares with [Elem _ _ _ k] => k | _ => [] end.
Definition marked (t : bytes) : bytes := t ++ bs "<!>".
Definition stock_marked : list node :=
  [Elem (bs "i") [(bs "k", bs "old")] false [Text (bs "a &amp; b&lt;!&gt;")]; Text (bs " ");
   Elem (bs "j") [] true [];
   Elem (bs "p:i") [(bs "k", bs "new")] false [Text (bs "c&lt;!&gt;")];
   Elem (bs "i") [(bs "k", bs "old")] false [Text (bs "&lt;!&gt;")]].
Definition is_old (t : bytes) : bool := bytes_eqb t (bs "old").
Example C98_example :
  Forall good wares /\ Forall top_node wares /\ shallow wares /\ room [] wares /\ readable [(bs "shop", None)] wares /\
  located [(bs "shop", None)] wares [] (Elem (bs "shop") [] false stock) [] /\
  List.length (called (selects (bs "i")) stock) = 3 /\ good_tpath ([(bs "shop", None)] ++ [(bs "i", None)]) TheCount /\
  good_tpath (item [(bs "shop", None)] (bs "i") 0) TheElement /\ good_tpath (item [(bs "shop", None)] (bs "i") 0) (TheAttribute (bs "k")) /\
  updated (bs "i") TheElement marked stock stock_marked /\
  (forall x t, In x (called (selects (bs "i")) stock) -> says TheElement x t -> legal (SetContent (item [(bs "shop", None)] (bs "i") 0) (AsText (marked t)))) /\
  update_all env0 (fun _ => []) [(bs "shop", None)] (bs "i") TheElement marked (forest_text wares) = Ok (bs "<shop>" ++ forest_text stock_marked ++ bs "</shop>", None) /\
  swept (bs "i") (TheAttribute (bs "k")) is_old stock [Text (bs " "); Elem (bs "j") [] true []; Elem (bs "p:i") [(bs "k", bs "new")] false [Elem (bs "u") [] false [Text (bs "c")]]] /\
  delete_where env0 [(bs "shop", None)] (bs "i") (TheAttribute (bs "k")) is_old (forest_text wares) = Ok (bs "<shop> <j/><p:i k=""new""><u>c</u></p:i></shop>", None).
Proof.
  split; [apply forest_b_ok; vm_compute; reflexivity|]. split; [repeat constructor|]. split; [repeat constructor; vm_compute; lia|].
  split; [split; [eexists _, _, _, _; left; reflexivity|vm_compute; discriminate]|]. split; [split; [repeat constructor|exact I]|].
  split; [apply (loc_here (bs "shop") None [] _ []); reflexivity|]. split; [vm_compute; reflexivity|].
  split; [apply tpath_b_ok; vm_compute; reflexivity|]. split; [apply tpath_b_ok; vm_compute; reflexivity|]. split; [apply tpath_b_ok; vm_compute; reflexivity|].
  split.
  { unfold stock, wares, stock_marked.
    apply (up_item (bs "i") TheElement marked (bs "i") [(bs "k", bs "old")] [Text (bs "a &amp; b")] (bs "a & b")); [reflexivity|exact (unescape_decodes (bs "a &amp; b"))|].
    apply up_other; [reflexivity|]. apply up_other; [reflexivity|].
    apply (up_item (bs "i") TheElement marked (bs "p:i") _ _ (bs "c")); [reflexivity|exact (unescape_decodes (bs "c"))|].
    apply (up_item (bs "i") TheElement marked (bs "i") _ _ []); [reflexivity|exact (unescape_decodes [])|]. constructor. }
  split.
  { intros x t IX SY. change (called (selects (bs "i")) stock) with [nth 0 stock (Text []); nth 3 stock (Text []); nth 4 stock (Text [])] in IX. cbn [says] in SY.
    assert (Q : t = unescape_xml (trim_space (all_text (kids_of x)))) by (eapply decodes_fun; [exact SY|apply unescape_decodes]).
    destruct IX as [<-|[<-|[<-|[]]]]; vm_compute in Q; subst t; legal_op. }
  split; [vm_compute; reflexivity|].
  split.
  { unfold stock, wares. apply sw_drop with (t := bs "old"); [reflexivity|reflexivity|reflexivity|]. apply sw_other; [reflexivity|]. apply sw_other; [reflexivity|].
    apply sw_keep with (t := bs "new"); [reflexivity|reflexivity|reflexivity|]. apply sw_drop with (t := bs "old"); [reflexivity|reflexivity|reflexivity|]. constructor. }
  vm_compute. reflexivity.
Qed.

(** Deleting from the first to the last with numbers counted beforehand passes over every
    second element: the numbers move up. *)
Theorem C98_forward_refuted : exists xml d1 d2, xml = bs "<r><i>1</i><i>2</i></r>" /\
  delete env0 xml (bs "r.i.0") = Ok (d1, None) /\ delete env0 d1 (bs "r.i.1") = Ok (d2, None) /\ d2 = bs "<r><i>2</i></r>".
Proof. eexists _, _, _. split; [reflexivity|]. split; [vm_compute; reflexivity|]. split; vm_compute; reflexivity. Qed.
Print Assumptions C98_forward_refuted.
