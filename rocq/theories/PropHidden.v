(** C85: markup inside comments is invisible to queries. *)
From Coq Require Import List Ascii String NArith ZArith Bool Lia Permutation.
From Verif Require Import GoStr ModelParser ModelPath ModelResult ModelQuery ModelValidate SpecText SpecPath SpecTree SpecQuery SpecFilter SpecLang SpecValid SpecEdit SpecContent SpecHidden
  ProofBase ProofPath ProofTree ProofTree2 ProofTree4 ProofTree5 ProofTree8 ProofLang ProofLang2 ProofLang3 PropTree PropLang ProofHidden ProofHidden2 ProofHidden3.
Import ListNotations.

(** ** C85. On documents with markup inside comments every path finds what it designates
    in the tree, in which a comment has no elements. *)
Theorem C85_paths : forall E p F steps fin,
  (forall k l, Permutation l (e_ord E k l)) -> prolog p -> Forall fair F ->
  (blen (p ++ forest_text F) <= 10485760)%N -> good_tpath steps fin ->
  exists r, get E (p ++ forest_text F) (tpath steps fin) = Ok r /\ sketches r (query true steps fin F).
Proof.
  intros E p F steps fin Ho Hp HF HL HQ.
  destruct (get_fair E Ho (p ++ forest_text F) F steps fin) as [r [R1 R2]]; auto.
  - apply reads_text; auto using skippable_prolog. apply varied_all_refl.
  - exists r. split; auto. now apply denotes_sketches.
Qed.
Print Assumptions C85_paths.

(** The same for the whole language, conditions on attributes, counts and presence. *)
Theorem C85_language : forall E sat p F steps e,
  (forall k l, Permutation l (e_ord E k l)) ->
  (forall c nd, structural c -> fair nd -> (sat c nd = true <-> true_of (e_parse_float E) c nd)) ->
  prolog p -> Forall fair F -> shallow F -> (elements F < 9999)%N ->
  (blen (p ++ forest_text F) <= 10485760)%N ->
  good_query steps e -> Forall structural_step steps -> e <> EField FieldText ->
  exists r, get E (p ++ forest_text F) (query_text steps e) = Ok r /\ hints r (ask sat e true steps F).
Proof.
  intros E sat p F steps e Ho Hs Hp HG H1 H2 HL HQ HST HE. eapply get_ask; eauto.
  - intros f ->. pose proof (gq_end _ _ HQ) as [K _]. destruct f; cbn in *; auto.
  - split; [|split; auto]. apply reads_text; auto using skippable_prolog. apply varied_all_refl.
Qed.
Print Assumptions C85_language.

(** Attributes and counts are the same without the comments. *)
Definition kin (x y : node) : Prop := name_of x = name_of y /\ attrs_of x = attrs_of y /\ bare (kids_of x) (kids_of y).
Lemma bare_called : forall f F F', bare F F' -> Forall2 kin (called f F) (called f F').
Proof.
  intros f F F' H. unfold called. induction H as [|K F F' H IH|m F F' H IH|t F F' H IH|n a self kids kids' F F' H1 IH1 H2 IH2]; cbn [elems comment_of filter]; auto.
  cbn [name_of]. destruct (f n); auto. constructor; auto. split; [reflexivity|]. split; [reflexivity|exact H1].
Qed.
Lemma first_answer_kin : forall g g' l l', Forall2 kin l l' -> (forall x y, kin x y -> g x = g' y) -> first_answer g l = first_answer g' l'.
Proof. intros g g' l l' H HG. induction H as [|x y l l' H1 H2 IH]; auto. cbn [first_answer]. rewrite (HG x y H1), IH. reflexivity. Qed.
Lemma query_bare : forall fin, fin = TheCount \/ (exists x, fin = TheAttribute x) -> forall steps top F F', bare F F' ->
  query top steps fin F = query top steps fin F'.
Proof.
  intros fin HF.
  assert (FA : forall x y, kin x y -> final_answer fin x = final_answer fin y).
  { intros x y [_ [H _]]. destruct HF as [->|[n ->]]; cbn [final_answer]; [reflexivity|]. now rewrite H. }
  induction steps as [|[n idx] rest IH]; intros top F F' H; [destruct HF as [->|[x ->]]; reflexivity|].
  rewrite !query_cons. cbv zeta. pose proof (bare_called (selects n) F F' H) as C.
  set (f := if top then bytes_eqb n else selects n). pose proof (bare_called f F F' H) as X. apply (f2_firstn _ _ _ 1000) in X.
  assert (AT : forall x y, kin x y -> (if is_last rest fin then final_answer fin x else query false rest fin (kids_of x)) =
    (if is_last rest fin then final_answer fin y else query false rest fin (kids_of y))).
  { intros x y K. destruct (is_last rest fin); [now apply FA|]. apply IH, K. }
  destruct idx as [ds|].
  - revert X. generalize (firstn 1000 (called f F)), (firstn 1000 (called f F')), (N.to_nat (decimal_value ds)). clear - AT. intros l l' m X. revert m.
    induction X as [|x y l l' X1 X2 IHX]; intros [|m]; cbn [nth_error]; auto.
  - destruct (is_last rest fin).
    + replace (List.length (firstn 1000 (called f F'))) with (List.length (firstn 1000 (called f F))) by (clear - X; induction X; cbn [List.length]; congruence). destruct fin; try reflexivity; inversion C as [|x y l l' K]; subst; auto.
    + now apply first_answer_kin.
Qed.
Lemma bare_fair : forall F F', bare F F' -> Forall fair F -> Forall fair F'.
Proof.
  intros F F' H. induction H as [|K F F' H IH|m F F' H IH|t F F' H IH|n a self kids kids' F F' H1 IH1 H2 IH2]; intros G; [constructor|..]; inversion G as [|? ? G1 G2]; subst; auto.
  constructor; auto. inversion G1; subst. constructor; auto. intros ->. match goal with K : true = true -> _ |- _ => rewrite (K eq_refl) in H1 end. now inversion H1.
Qed.
Lemma forest_cons : forall x F, forest_text (x :: F) = node_text x ++ forest_text F. Proof. reflexivity. Qed.
Lemma bare_shorter : forall F F', bare F F' -> (blen (forest_text F') <= blen (forest_text F))%N.
Proof.
  intros F F' H. induction H as [|K F F' H IH|m F F' H IH|t F F' H IH|n a self kids kids' F F' H1 IH1 H2 IH2]; rewrite ?forest_cons; unfold blen in *; rewrite ?app_length; try lia.
  assert (K : List.length (node_text (Elem n a self kids')) <= List.length (node_text (Elem n a self kids))); [|lia].
  destruct self; cbn [node_text]; [lia|]. fold (forest_text kids) (forest_text kids'). rewrite !app_length. lia.
Qed.
Theorem C85_without_comments : forall E1 E2 p F F' steps fin,
  (forall k l, Permutation l (e_ord E1 k l)) -> (forall k l, Permutation l (e_ord E2 k l)) -> prolog p -> Forall fair F -> bare F F' ->
  (blen (p ++ forest_text F) <= 10485760)%N -> good_tpath steps fin -> fin = TheCount \/ (exists x, fin = TheAttribute x) ->
  get E1 (p ++ forest_text F) (tpath steps fin) = get E2 (p ++ forest_text F') (tpath steps fin).
Proof.
  intros E1 E2 p F F' steps fin H1 H2 Hp HF HB HL HQ HS.
  assert (HL' : (blen (p ++ forest_text F') <= 10485760)%N).
  { pose proof (bare_shorter _ _ HB). unfold blen in *. rewrite app_length in *. lia. }
  pose proof (bare_fair _ _ HB HF) as HF'.
  destruct (get_fair E1 H1 (p ++ forest_text F) F steps fin) as [r [R1 R2]]; auto.
  { apply reads_text; auto using skippable_prolog. apply varied_all_refl. }
  destruct (get_fair E2 H2 (p ++ forest_text F') F' steps fin) as [r' [R1' R2']]; auto.
  { apply reads_text; auto using skippable_prolog. apply varied_all_refl. }
  rewrite R1, R1'. f_equal. rewrite <- (query_bare fin HS steps true F F' HB) in R2'. pose proof (query_simple fin HS steps true F) as Q.
  destruct (query true steps fin F); try contradiction; cbn [denotes] in R2, R2'; congruence.
Qed.
Print Assumptions C85_without_comments.

(** An order with two elements commented out, and a text with ">". *)
Definition retired : list node :=
  [Text (bs " old: "); Elem (bs "item") [(bs "id", bs "7")] false [Elem (bs "name") [] false [Text (bs "a > b")]]; Elem (bs "note") [] true []].
Definition listing (l : list node) : list node :=
  [Elem (bs "r") [(bs "k", bs "1")] false
    (l ++ [Elem (bs "item") [(bs "id", bs "1")] false (Text (bs "x > y") :: l); Misc (bs "[CDATA[p]]"); Elem (bs "item") [(bs "id", bs "2")] false [Text (bs "z")]])].
Lemma retired_fair : fair (comment_of retired).
Proof.
  apply fair_comment; [|apply dash_arrow; vm_compute; discriminate].
  repeat (constructor; try (apply xml_name_b_ok; vm_compute; reflexivity); try (apply attrs_b_ok; vm_compute; reflexivity); try discriminate; try (vm_compute; intuition discriminate)).
Qed.
Lemma listing_fair : Forall fair (listing [comment_of retired]).
Proof.
  assert (T : forall t, existsb (Ascii.eqb "<") t = false -> ~ In "<"%char t).
  { intros t H K. assert (existsb (Ascii.eqb "<") t = true); [|congruence]. apply existsb_exists. exists "<"%char. split; auto. }
  constructor; [|constructor]. constructor; [apply xml_name_b_ok; reflexivity|apply attrs_b_ok; vm_compute; reflexivity|discriminate|].
  constructor; [apply retired_fair|]. constructor.
  { constructor; [apply xml_name_b_ok; reflexivity|apply attrs_b_ok; vm_compute; reflexivity|discriminate|].
    constructor; [apply fair_text, T; reflexivity|]. constructor; [apply retired_fair|constructor]. }
  constructor; [apply (fair_cdata (bs "p")), T; reflexivity|]. constructor; [|constructor].
  constructor; [apply xml_name_b_ok; reflexivity|apply attrs_b_ok; vm_compute; reflexivity|discriminate|]. constructor; [apply fair_text, T; reflexivity|constructor].
Qed.
Definition numbered : condition := mkCond (OfAttr (bs "id")) OpGt (bs "1").
Example C85_example :
  let F := listing [comment_of retired] in
  let q1 := [Child (bs "r") Leading; Child (bs "item") (Where numbered true)] in
  let q2 := [Descendant (Some (bs "name"))] in
  forest_text F = bs "<r k=""1""><!-- old: <item id=""7""><name>a > b</name></item><note/>--><item id=""1"">x > y<!-- old: <item id=""7""><name>a > b</name></item><note/>--></item><![CDATA[p]]><item id=""2"">z</item></r>" /\
  Forall fair F /\ bare F (listing []) /\ shallow F /\ (elements F <? 9999)%N = true /\
  good_tpath [(bs "r", None); (bs "item", None)] TheCount /\
  get env0 (forest_text F) (tpath [(bs "r", None); (bs "item", None)] TheCount) = Ok (r_count 2) /\
  good_query q1 EElement /\ Forall structural_step q1 /\ ask (decide_sat env0) EElement true q1 F = Many [AnElement [Text (bs "z")]] /\
  good_query q2 EElement /\ Forall structural_step q2 /\ ask (decide_sat env0) EElement true q2 F = NoReply /\
  valid (forest_text F) = true.
Proof.
  cbv zeta. split; [vm_compute; reflexivity|]. split; [apply listing_fair|].
  split; [unfold listing; cbn [app]; repeat constructor|].
  split; [repeat constructor|]. split; [vm_compute; reflexivity|].
  split; [apply tpath_b_ok; vm_compute; reflexivity|]. split; [vm_compute; reflexivity|].
  split; [query_ok|]. split; [repeat constructor|]. split; [vm_compute; reflexivity|].
  split; [query_ok|]. split; [repeat constructor|]. split; vm_compute; reflexivity.
Qed.

(** The text of an element is not: words of a commented-out element turn up in it. *)
Theorem C85_text_refuted : exists x, valid x = true /\
  x = forest_text [Elem (bs "r") [] false [comment_of [Text (bs " "); Elem (bs "b") [] false [Text (bs "x")]; Text (bs " ")]; Elem (bs "a") [] false [Text (bs "t")]]] /\
  (let* r := get env0 x (bs "r") in Ok (r_string r)) = Ok (bs "x --t") /\
  (let* r := get env0 x (bs "r.%") in Ok (r_string r)) = Ok (bs "--") /\ get env0 x (bs "r.b") = Ok r_null.
Proof.
  exists (bs "<r><!-- <b>x</b> --><a>t</a></r>"). split; [vm_compute; reflexivity|]. split; [vm_compute; reflexivity|].
  split; [vm_compute; reflexivity|]. split; vm_compute; reflexivity.
Qed.
Print Assumptions C85_text_refuted.
