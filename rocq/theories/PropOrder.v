(** C101: the entries of a list in another order. *)
From Coq Require Import List Ascii String NArith ZArith Bool Lia Permutation Sorted.
From Verif Require Import GoStr ModelParser ModelPath ModelResult ModelQuery ModelValidate ModelBuilder SpecText SpecPath SpecTree SpecQuery SpecEdit SpecContent SpecValid SpecHistory SpecOptions SpecTail SpecLoop SpecQueue SpecOrder
  ProofBase ProofEscape ProofTree ProofTree5 ProofTree8 ProofEdit ProofEdit2 ProofEdit5 ProofEdit9 ProofList ProofLoop ProofMod3 ProofOrder PropTree PropStore.
Import ListNotations.
Open Scope nat_scope.

Lemma early_readable : forall s F, Forall early s -> match s with (_, Some _) :: _ => False | _ => True end -> readable s F.
Proof. intros s F EY SS. split; [exact EY|]. destruct s as [|[x [y|]] s]; auto. contradiction. Qed.
Lemma holds_all : forall l, Forall2 holds (map kids_of l) l.
Proof. induction l as [|x l IH]; constructor; auto. apply same_all_refl. Qed.

(** C101. Exchanging entries with Get, Raw and SetRaw, and taking entries to the end with
    SetRaw(path.-1) and Delete, in any number, rearranges the contents as it would rearrange
    a list: the other children and every byte around the parent stay, the document stays
    valid, and what is asked below an entry is answered from the content that is there now. *)
Theorem C101_rearrange : forall E fmt_g p F s A n a kids B m ops,
  (forall k l, Permutation l (e_ord E k l)) -> prolog p -> strict_prolog p ->
  Forall good F -> Forall top_node F -> shallow F -> has_element F -> (N.of_nat (List.length (p ++ forest_text F)) <= 5242880)%N ->
  located s F A (Elem n a false kids) B -> Forall early s -> match s with (_, Some _) :: _ => False | _ => True end ->
  good_tpath (item s m 0) TheElement -> Forall xml_name (map fst (item s m 0)) ->
  let entries := called (selects m) kids in
  Forall two_tags entries -> List.length entries <= 1000 -> Forall (numbers_below (List.length entries)) ops ->
  let l := all_moved [] ops (map kids_of entries) in
  exists kids', let d := p ++ A ++ node_text (Elem n a false kids') ++ B in
    rearrange E fmt_g s m ops (p ++ forest_text F) = Ok (d, None) /\ valid d = true /\
    others m kids' = others m kids /\ Forall2 holds l (called (selects m) kids') /\
    forall i rest fin, i < List.length entries -> good_tpath (item s m i ++ rest) fin -> (rest = [] -> forall x, fin <> TheAttribute x) ->
      inside rest fin (Elem [] [] false (nth i l [])) <> Nothing ->
      exists r, get E d (tpath (item s m i ++ rest) fin) = Ok r /\ describes r (inside rest fin (Elem [] [] false (nth i l []))).
Proof.
  intros E g p F s A n a kids B m ops Ho Hp SP HG HT HS HE SZ L EY SS GT XN entries TT LE NB l.
  assert (ST : ProofList.state p F) by (repeat split; auto; lia).
  assert (KP : kept p s m F A n a kids B (map kids_of entries)) by (split; [exact ST|split; [exact L|split; [now apply early_readable|split; [exact TT|apply holds_all]]]]).
  assert (LM : List.length (map kids_of entries) = List.length entries) by apply map_length.
  destruct (moves_ok E g Ho p Hp SP s m GT XN ops F A n a kids B _ KP) as (F' & kids' & R & K' & O); try rewrite LM; auto.
  pose proof K' as (ST' & L' & _ & _ & HL). exists kids'. cbv zeta. rewrite <- (located_text _ _ _ _ _ L'). split; [exact R|]. split; [destruct ST' as (G & T & FT); now apply state_valid|].
  split; [exact O|]. split; [exact HL|]. intros i rest fin LI GP NA NI.
  assert (LL : List.length l = List.length entries) by (unfold l; rewrite all_moved_len; rewrite LM; auto).
  eapply (kept_read E Ho p Hp s m GT XN F' A n a kids' B l i rest fin K'); auto; lia.
Qed.
Print Assumptions C101_rearrange.

(** Every order can be had, with exchanges alone. *)
Theorem C101_any_order : forall (A : Type) (d : A) l l', Permutation l l' ->
  exists ops, Forall (numbers_below (List.length l)) ops /\ (forall o, In o ops -> exists i j, o = Exchange i j) /\ all_moved d ops l = l'.
Proof.
  intros A d l l' P. induction P as [|x l l' P IH|x y l|l l1 l2 P1 IH1 P2 IH2].
  - exists []. repeat split; auto. intros o [].
  - destruct IH as (ops & NB & EX & AM). exists (map (fun o => match o with Exchange i j => Exchange (S i) (S j) | ToEnd i => ToEnd (S i) end) ops). split; [|split].
    + apply Forall_forall. intros o I. apply in_map_iff in I. destruct I as (o' & <- & I). rewrite Forall_forall in NB. specialize (NB o' I). destruct o'; cbn [numbers_below List.length] in *; lia.
    + intros o I. apply in_map_iff in I. destruct I as (o' & <- & I). destruct (EX o' I) as (i & j & ->). eauto.
    + subst l'. clear P NB. revert l. induction ops as [|o ops IH]; intros l; [reflexivity|]. destruct (EX o (or_introl eq_refl)) as (i & j & ->).
      cbn [map all_moved fold_left]. change (fold_left (fun l o => moved d o l) ?u ?v) with (all_moved d u v). rewrite <- IH; [reflexivity|]. intros o I. apply EX. now right.
  - exists [Exchange 0 1]. split; [|split; [|reflexivity]].
    + constructor; [|constructor]. cbn [numbers_below List.length]. lia.
    + intros o [<-|[]]. eauto.
  - destruct IH1 as (o1 & N1 & E1 & A1). destruct IH2 as (o2 & N2 & E2 & A2). exists (o1 ++ o2). split; [|split].
    + apply Forall_app. split; auto. now rewrite (Permutation_length P1).
    + intros o I. apply in_app_or in I. destruct I; auto.
    + unfold all_moved in *. now rewrite fold_left_app, A1.
Qed.
Print Assumptions C101_any_order.

(** Sorting a list in a document: insertion by exchanges, with keys read with Get(...).String()
    from the entries or from below them.  The contents are a rearrangement of those before,
    none comes before a lesser one, and contents with equivalent keys keep their order. *)
Theorem C101_sort : forall E fmt_g less p F s A n a kids B m rest fin key,
  (forall k l, Permutation l (e_ord E k l)) -> prolog p -> strict_prolog p ->
  Forall good F -> Forall top_node F -> shallow F -> has_element F -> (N.of_nat (List.length (p ++ forest_text F)) <= 5242880)%N ->
  located s F A (Elem n a false kids) B -> Forall early s -> match s with (_, Some _) :: _ => False | _ => True end ->
  good_tpath (item s m 0) TheElement -> Forall xml_name (map fst (item s m 0)) ->
  good_tpath (s ++ [(m, None)]) TheCount -> good_tpath (item s m 0 ++ rest) fin ->
  let entries := called (selects m) kids in
  entries <> [] -> Forall two_tags entries -> List.length entries <= 1000 ->
  (forall x, In x entries -> keyed rest fin (kids_of x) (key (kids_of x))) ->
  (forall a b c, less a b = false -> less b c = false -> less a c = false) -> (forall a b, less a b = true -> less b a = false) ->
  exists l kids', let d := p ++ A ++ node_text (Elem n a false kids') ++ B in
    sort_entries E fmt_g less s m rest fin (p ++ forest_text F) = Ok (d, None) /\ valid d = true /\
    others m kids' = others m kids /\ Forall2 holds l (called (selects m) kids') /\
    Permutation (map kids_of entries) l /\ StronglySorted (fun c c' => less (key c') (key c) = false) l /\
    (forall P, (forall c c', P c = true -> P c' = true -> less (key c) (key c') = false) -> filter P l = filter P (map kids_of entries)) /\
    forall i r f, i < List.length entries -> good_tpath (item s m i ++ r) f -> (r = [] -> forall x, f <> TheAttribute x) ->
      inside r f (Elem [] [] false (nth i l [])) <> Nothing ->
      exists x, get E d (tpath (item s m i ++ r) f) = Ok x /\ describes x (inside r f (Elem [] [] false (nth i l []))).
Proof.
  intros E g less p F s A n a kids B m rest fin key Ho Hp SP HG HT HS HE SZ L EY SS GT XN GC GP entries NE TT LE KY LT LA.
  assert (ST : ProofList.state p F) by (repeat split; auto; lia).
  assert (KP : kept p s m F A n a kids B (map kids_of entries)) by (split; [exact ST|split; [exact L|split; [now apply early_readable|split; [exact TT|apply holds_all]]]]).
  assert (LM : List.length (map kids_of entries) = List.length entries) by apply map_length.
  destruct (sort_from_ok E g Ho p Hp SP s m GT XN less rest fin key EY SS GP (map kids_of entries) [] F A n a kids B) as (F' & kids' & R & K' & O & _); cbn [rev app]; try rewrite LM; auto.
  { intros c I. apply in_map_iff in I. destruct I as (x & <- & I). now apply KY. }
  pose proof K' as (ST' & L' & _ & _ & HL). set (l := rev (sort_rev less key [] (map kids_of entries))) in *.
  pose proof (sort_perm less key (map kids_of entries) []) as PM. cbn [rev app] in PM. fold l in PM.
  exists l, kids'. cbv zeta. rewrite <- (located_text _ _ _ _ _ L'). split.
  { unfold sort_entries. rewrite (counted_ok E Ho p Hp F s A n a kids B m _ ST L (early_readable s F EY SS) NE LE GC). fold entries. rewrite LM in R. exact R. }
  split; [destruct ST' as (G & T & FT); now apply state_valid|]. split; [exact O|]. split; [exact HL|]. split; [exact PM|]. split; [|split].
  - apply (sorted_rev (fun c c' => less (key c) (key c') = false)). apply sort_sorted; auto. constructor.
  - intros P HP. unfold l. rewrite (sort_stable less key P HP). reflexivity.
  - intros i r f LI GQ NA NI. assert (LL : List.length l = List.length entries) by (rewrite <- (Permutation_length PM); exact LM).
    eapply (kept_read E Ho p Hp s m GT XN F' A n a kids' B l i r f K'); auto; lia.
Qed.
Print Assumptions C101_sort.

Definition members : list node :=
  [Elem (bs "club") [] false
     [Elem (bs "list") [(bs "of", bs "members")] false
        [Text (bs " "); Elem (bs "who") [(bs "id", bs "1")] false [Elem (bs "name") [] false [Text (bs "Zo&amp;e")]; Elem (bs "since") [(bs "year", bs "1990")] true []];
         Elem (bs "rule") [] true [];
         Elem (bs "who") [] false [Elem (bs "name") [] false [Text (bs "Ann")]; Elem (bs "since") [(bs "year", bs "2001")] true []];
         Elem (bs "x:who") [] false [Elem (bs "name") [] false [Text (bs " Ann ")]; Elem (bs "since") [(bs "year", bs "1985")] true []]]]].
Definition member_list : node := match members with [Elem _ _ _ [x]] => x | _ => Text [] end.
Definition by_the_name (c : list node) : bytes :=
  match c with Elem _ _ _ [Text t] :: _ => unescape_xml (trim_space t) | _ => [] end.
Example C101_example :
  let s := by_name [bs "club"; bs "list"] in let who := bs "who" in let entries := called (selects who) (kids_of member_list) in
  let rest := by_name [bs "name"] in
  Forall good members /\ Forall top_node members /\ shallow members /\ has_element members /\
  (exists A B, located s members A member_list B) /\ Forall early s /\ good_tpath (item s who 0) TheElement /\ Forall xml_name (map fst (item s who 0)) /\
  good_tpath (s ++ [(who, None)]) TheCount /\ good_tpath (item s who 0 ++ rest) TheElement /\
  List.length entries = 3 /\ Forall two_tags entries /\ (forall x, In x entries -> keyed rest TheElement (kids_of x) (by_the_name (kids_of x))) /\
  rearrange env0 (fun _ => []) s who [ToEnd 0; Exchange 0 1] (forest_text members) =
    Ok (bs "<club><list of=""members""> <rule/><who><name> Ann </name><since year=""1985""/></who><x:who><name>Ann</name><since year=""2001""/></x:who><who><name>Zo&amp;e</name><since year=""1990""/></who></list></club>", None) /\
  sort_entries env0 (fun _ => []) bytes_ltb s who rest TheElement (forest_text members) =
    Ok (bs "<club><list of=""members""> <who id=""1""><name>Ann</name><since year=""2001""/></who><rule/><who><name> Ann </name><since year=""1985""/></who><x:who><name>Zo&amp;e</name><since year=""1990""/></x:who></list></club>", None).
Proof.
  cbv zeta. split; [apply forest_b_ok; vm_compute; reflexivity|]. split; [repeat constructor|]. split; [repeat constructor; vm_compute; lia|]. split; [eexists _, _, _, _; left; reflexivity|].
  split; [eexists _, _; apply (loc_down (bs "club") None [(bs "list", None)] []); [reflexivity|reflexivity|]; apply (loc_here (bs "list") None []); reflexivity|].
  split; [repeat constructor|]. split; [apply tpath_b_ok; vm_compute; reflexivity|].
  split; [repeat (apply Forall_cons; [apply xml_name_b_ok; vm_compute; reflexivity|]); apply Forall_nil|].
  split; [apply tpath_b_ok; vm_compute; reflexivity|]. split; [apply tpath_b_ok; vm_compute; reflexivity|]. split; [reflexivity|].
  split; [change (called (selects (bs "who")) (kids_of member_list)) with (filter (named (selects (bs "who"))) (kids_of member_list)); repeat constructor|].
  split; [|split; vm_compute; reflexivity].
  intros x I. assert (Q : In x [nth 1 (kids_of member_list) (Text []); nth 3 (kids_of member_list) (Text []); nth 4 (kids_of member_list) (Text [])]) by exact I.
  destruct Q as [<-|[<-|[<-|[]]]]; (split; [discriminate|]); apply unescape_decodes.
Qed.
(** The order of byte strings is one the sorting theorem can be used with. *)
Theorem C101_less : (forall a b c, bytes_ltb a b = false -> bytes_ltb b c = false -> bytes_ltb a c = false) /\ (forall a b, bytes_ltb a b = true -> bytes_ltb b a = false).
Proof.
  split.
  - intros a b c H1 H2. destruct (bytes_ltb a c) eqn:Q; auto. destruct (bytes_ltb b a) eqn:R.
    + rewrite (bytes_ltb_trans _ _ _ R Q) in H2. discriminate.
    + rewrite (bytes_ltb_total _ _ H1 R) in Q. congruence.
  - intros a b H. destruct (bytes_ltb b a) eqn:R; auto. pose proof (bytes_ltb_trans _ _ _ H R) as X. now rewrite bytes_ltb_irrefl in X.
Qed.
Print Assumptions C101_less.

(** Attributes of the entries stay where they are. *)
Theorem C101_attributes_refuted : exists xml d, xml = bs "<r><i k=""1"">a</i><i k=""2"">b</i></r>" /\ d = bs "<r><i k=""1"">b</i><i k=""2"">a</i></r>" /\
  rearrange env0 (fun _ => []) (by_name [bs "r"]) (bs "i") [Exchange 0 1] xml = Ok (d, None).
Proof. exists (bs "<r><i k=""1"">a</i><i k=""2"">b</i></r>"), (bs "<r><i k=""1"">b</i><i k=""2"">a</i></r>"). vm_compute. repeat split; reflexivity. Qed.
Print Assumptions C101_attributes_refuted.
(** Entries written with one tag cannot take part: the content is put after the tag, next to
    the entry, and no error is reported. *)
Theorem C101_self_closing_refuted : exists xml d, xml = bs "<r><i>a</i><i/></r>" /\ valid xml = true /\
  rearrange env0 (fun _ => []) (by_name [bs "r"]) (bs "i") [Exchange 0 1] xml = Ok (d, None) /\ d = bs "<r><i></i><i/>a</r>".
Proof. exists (bs "<r><i>a</i><i/></r>"), (bs "<r><i></i><i/>a</r>"). vm_compute. repeat split; reflexivity. Qed.
Print Assumptions C101_self_closing_refuted.
