(** C71: edits of documents in ordinary notation. *)
From Coq Require Import List Ascii String NArith ZArith Bool Lia Permutation.
From Verif Require Import GoStr ModelParser ModelPath ModelResult ModelQuery ModelValidate ModelBuilder SpecText SpecPath SpecTree SpecQuery SpecEdit SpecContent SpecValid SpecNotation SpecHistory SpecLaid SpecRaw
  ProofRaw ProofBase ProofPath ProofTree ProofTree2 ProofTree3 ProofTree4 ProofTree5 ProofTree8 ProofEdit ProofEdit2 ProofEdit8 ProofEdit9 ProofEdit11 ProofLang ProofLang2 ProofNotation ProofNotation2 ProofLaid ProofLaid6 ProofRaw2 ProofEdit7 ProofEdit5 PropTree PropValid PropHistory.
Import ListNotations.

(** Every element a path designates in such a document has a place in its text. *)
Theorem C71_place : forall steps F A0 nd B0 s x, located steps F A0 nd B0 -> Forall good F -> laid_all true s F x ->
  exists s' A lv e z B, standing true s' steps F A nd lv e z B /\ x = A ++ z ++ B.
Proof.
  intros steps F A0 nd B0 s x L G H. destruct (located_standing steps F A0 nd B0 L G true s x H) as [s' [A [lv [e [z [B [H1 [H2 _]]]]]]]]. exists s', A, lv, e, z, B. auto.
Qed.
Print Assumptions C71_place.

(** Set keeps every byte before and after the designated element, its start tag as it is
    written, and its end tag. *)
Theorem C71_set : forall E fmt_g p F s steps A n a kids lv e z B v text,
  (forall k l, Permutation l (e_ord E k l)) -> prolog p -> strict_prolog p -> Forall good F -> Forall top_node F -> shallow F ->
  standing true s steps F A (Elem n a false kids) lv e z B -> (N.of_nat (List.length (p ++ A ++ z ++ B)) <= 10485760)%N ->
  good_tpath steps TheElement -> SpecHistory.written fmt_g v text -> (N.of_nat (List.length text) <= 5242880)%N ->
  exists t y, tag_as a t /\ z = opening n t false ++ y ++ end_tag n /\
    set E fmt_g (p ++ A ++ z ++ B) (tpath steps TheElement) v = Ok (p ++ A ++ (opening n t false ++ text ++ end_tag n) ++ B, None).
Proof.
  intros E fmt_g p F s steps A n a kids lv e z B v text Ho Hp SP HG HT HS ST HZ GT W SZ.
  apply (set_splice E fmt_g Ho p F s steps A n a false kids lv e z B Hp SP HG HT HS ST HZ v text); auto.
  - intros ->. inversion W.
  - inversion W; subst; cbn [value_to_xml]; auto; [now rewrite esc_escape|now rewrite fmt_int_decimal].
Qed.
Print Assumptions C71_set.
(** Delete keeps every byte before and after it. *)
Theorem C71_delete : forall E p F s steps A n a self kids lv e z B,
  (forall k l, Permutation l (e_ord E k l)) -> prolog p -> strict_prolog p -> Forall good F -> Forall top_node F -> shallow F ->
  standing true s steps F A (Elem n a self kids) lv e z B -> (N.of_nat (List.length (p ++ A ++ z ++ B)) <= 10485760)%N ->
  good_tpath steps TheElement -> p ++ A ++ B <> [] ->
  delete E (p ++ A ++ z ++ B) (tpath steps TheElement) = Ok (p ++ A ++ B, None).
Proof. intros E p F s steps A n a self kids lv e z B Ho Hp SP HG HT HS ST HZ GT NE. exact (delete_splice E Ho p F s steps A n a self kids lv e z B Hp SP HG HT HS ST HZ GT NE). Qed.
Print Assumptions C71_delete.
(** Setting an attribute rewrites the start tag and keeps the rest. *)
Theorem C71_attr : forall E fmt_g p F s steps A n a self kids lv e z B k v,
  (forall k l, Permutation l (e_ord E k l)) -> prolog p -> strict_prolog p -> Forall good F -> Forall top_node F -> shallow F ->
  standing true s steps F A (Elem n a self kids) lv e z B -> (N.of_nat (List.length (p ++ A ++ z ++ B)) <= 10485760)%N ->
  good_tpath steps (TheAttribute k) -> (N.of_nat (List.length (esc v)) <= 5242880)%N ->
  exists t rest a', tag_as a t /\ z = opening n t self ++ rest /\ Permutation a' (put_attr k v a) /\
    set E fmt_g (p ++ A ++ z ++ B) (tpath steps (TheAttribute k)) (VStr v) = Ok (p ++ A ++ (start_tag n a' self ++ rest) ++ B, None).
Proof.
  intros E fmt_g p F s steps A n a self kids lv e z B k v Ho Hp SP HG HT HS ST HZ GT SZ.
  exact (set_attr_splice E fmt_g Ho p F s steps A n a self kids lv e z B Hp SP HG HT HS ST HZ k v GT SZ).
Qed.
Print Assumptions C71_attr.

(** Deleting an attribute that is there rewrites the start tag and keeps the rest; one that
    is not there leaves every byte. *)
Theorem C71_delete_attr : forall E p F s steps A n a self kids lv e z B k,
  (forall k l, Permutation l (e_ord E k l)) -> prolog p -> strict_prolog p -> Forall good F -> Forall top_node F -> shallow F ->
  standing true s steps F A (Elem n a self kids) lv e z B -> (N.of_nat (List.length (p ++ A ++ z ++ B)) <= 10485760)%N ->
  good_tpath steps (TheAttribute k) ->
  exists t rest, tag_as a t /\ z = opening n t self ++ rest /\
  match attr_value k a with
  | None => delete E (p ++ A ++ z ++ B) (tpath steps (TheAttribute k)) = Ok (p ++ A ++ z ++ B, None)
  | Some _ => exists a', Permutation a' (drop_attr k a) /\
      delete E (p ++ A ++ z ++ B) (tpath steps (TheAttribute k)) = Ok (p ++ A ++ (start_tag n a' self ++ rest) ++ B, None)
  end.
Proof.
  intros E p F s steps A n a self kids lv e z B k Ho Hp SP HG HT HS ST HZ GT.
  exact (delete_attr_splice E Ho p F s steps A n a self kids lv e z B Hp SP HG HT HS ST HZ k GT).
Qed.
Print Assumptions C71_delete_attr.
(** SetRaw puts a well-formed fragment, byte for byte, between the tags as they are written. *)
Theorem C71_raw : forall E fmt_g p F s steps A n a kids lv e z B raw,
  (forall k l, Permutation l (e_ord E k l)) -> prolog p -> strict_prolog p -> Forall good F -> Forall top_node F -> shallow F ->
  standing true s steps F A (Elem n a false kids) lv e z B -> (N.of_nat (List.length (p ++ A ++ z ++ B)) <= 10485760)%N ->
  good_tpath steps TheElement -> fragment [] raw -> (N.of_nat (List.length raw) <= 5242880)%N ->
  exists t y, tag_as a t /\ z = opening n t false ++ y ++ end_tag n /\
    set_raw E fmt_g (p ++ A ++ z ++ B) (tpath steps TheElement) raw = Ok (p ++ A ++ (opening n t false ++ raw ++ end_tag n) ++ B, None).
Proof.
  intros E fmt_g p F s steps A n a kids lv e z B raw Ho Hp SP HG HT HS ST HZ GT FR SZ. unfold set_raw. rewrite (proj2 (validate_raw_spec raw) FR).
  apply (set_splice E fmt_g Ho p F s steps A n a false kids lv e z B Hp SP HG HT HS ST HZ (VBytes raw) raw); auto. discriminate.
Qed.
Print Assumptions C71_raw.
Lemma same_hole : forall X Y X' Y' : list node, (forall c, X ++ c :: Y = X' ++ c :: Y') -> X = X' /\ Y = Y'.
Proof.
  induction X as [|x X IH]; intros Y [|x' X'] Y' H; cbn [app] in H.
  - specialize (H (Text [])). now injection H.
  - exfalso. pose proof (H (Text [])) as H1. pose proof (H (Misc [])) as H2. congruence.
  - exfalso. pose proof (H (Text [])) as H1. pose proof (H (Misc [])) as H2. congruence.
  - destruct (IH Y X' Y') as [-> ->]; [intros c; specialize (H c); congruence|]. split; auto. specialize (H (Text [])). congruence.
Qed.
Lemma insert_last_where : forall m kids K1 K2, kids = K1 ++ K2 -> (forall c, insert_last (selects m) c kids = K1 ++ c :: K2) ->
  (called (selects m) kids = [] -> K2 = []) /\
  (called (selects m) kids <> [] -> called (selects m) K2 = [] /\ exists K0 c, K1 = K0 ++ [c] /\ named (selects m) c = true).
Proof.
  intros m kids K1 K2 Q H. destruct (insert_split (selects m) kids) as [F1 [F2 [H1 [H2 [H3 [H4 H5]]]]]].
  destruct (same_hole K1 K2 F1 F2) as [-> ->]; [intros c; now rewrite <- H, <- H2|]. auto.
Qed.
(** Appending puts the new element after the last child with its name, or after all the
    children if there is none, and keeps every other byte. *)
Theorem C71_append : forall E fmt_g p F s steps A n a kids lv e z B m v text,
  (forall k l, Permutation l (e_ord E k l)) -> prolog p -> strict_prolog p -> Forall good F -> Forall top_node F -> shallow F ->
  standing true s steps F A (Elem n a false kids) lv e z B -> (N.of_nat (List.length (p ++ A ++ z ++ B)) <= 10485760)%N ->
  Forall good_tstep (steps ++ [(m, None)]) -> List.length (flat_map tstep_steps (steps ++ [(m, None)])) < 100 ->
  SpecHistory.written fmt_g v text -> (N.of_nat (List.length text) <= 5242880)%N ->
  exists t K1 K2 y1 y2, tag_as a t /\ z = opening n t false ++ (y1 ++ y2) ++ end_tag n /\
    laid_all false 0 K1 y1 /\ laid_all false 0 K2 y2 /\ kids = K1 ++ K2 /\
    (called (selects m) kids = [] -> K2 = []) /\
    (called (selects m) kids <> [] -> called (selects m) K2 = [] /\ exists K0 c, K1 = K0 ++ [c] /\ named (selects m) c = true) /\
    let new := p ++ A ++ (opening n t false ++ (y1 ++ (start_tag m [] false ++ text ++ end_tag m) ++ y2) ++ end_tag n) ++ B in
    set E fmt_g (p ++ A ++ z ++ B) (tpath (steps ++ [(m, None)]) TheElement ++ bs ".-1") v =
      Ok (if (10485760 <? N.of_nat (List.length new))%N then (p ++ A ++ z ++ B, Some ErrInvalidValue) else (new, None)).
Proof.
  intros E fmt_g p F s steps A n a kids lv e z B m v text Ho Hp SP HG HT HS ST HZ GS GL W SZ.
  assert (NV : v <> VNil) by (intros ->; inversion W).
  assert (VX : value_to_xml fmt_g v = inr text) by (inversion W; subst; cbn [value_to_xml]; auto; [now rewrite esc_escape|now rewrite fmt_int_decimal]).
  destruct (append_splice E fmt_g Ho p F s steps A n a false kids lv e z B Hp SP HG HT HS ST HZ m v text eq_refl GS GL NV VX SZ) as [t [K1 [K2 [y1 [y2 [H1 [H2 [H3 [H4 [H5 [H6 H7]]]]]]]]]]].
  exists t, K1, K2, y1, y2. split; [exact H1|]. split; [exact H2|]. split; [exact H3|]. split; [exact H4|]. split; [exact H5|].
  destruct (insert_last_where m kids K1 K2 H5 H6) as [I1 I2]. split; [exact I1|]. split; [exact I2|]. exact H7.
Qed.
Print Assumptions C71_append.

(** After any sequence of edits the document is a text of the edited tree, Valid accepts it,
    and every query answers from the edited tree. *)
Theorem C71_history : forall E fmt_g p F s x ops F',
  (forall k l, Permutation l (e_ord E k l)) -> prolog p -> strict_prolog p ->
  Forall good F -> Forall top_node F -> shallow F -> spacious p s F -> laid_all true s F x -> laid_history p s ops F F' ->
  exists G y, calls E fmt_g ops (p ++ x) = Ok (p ++ y, None) /\ Forall2 same F' G /\ laid_all true s G y /\
    valid (p ++ y) = true /\
    forall steps fin, good_tpath steps fin ->
      exists r, get E (p ++ y) (tpath steps fin) = Ok r /\ describes r (query true steps fin F').
Proof.
  intros E fmt_g p F s x ops F' Ho Hp SP HG HT HS HE HL HH.
  destruct (laid_history_ok E fmt_g Ho p s ops F F' Hp SP HH F x HG HT HS HE (same_all_refl F) HL) as [G [y [C [S [L [G' [T' [S' E']]]]]]]].
  exists G, y. split; [exact C|]. split; [exact S|]. split; [exact L|].
  pose proof (same_good_all F' G S G') as GG.
  assert (V : valid (p ++ y) = true) by (apply (laid_valid p G y s); auto; [eapply same_top; eauto|eapply same_shallow; eauto|eapply same_spacious; eauto]).
  split; [exact V|]. intros steps fin GT.
  destruct (get_query E Ho (p ++ y) F' steps fin) as [r [R1 R2]]; auto.
  - apply (reads_same E F' G); auto. apply reads_written; auto. eapply all_written; eauto.
  - now apply valid_size.
  - exists r. split; auto. apply denotes_describes; auto. now apply query_good.
Qed.
Print Assumptions C71_history.
(** Such texts are ways to write the tree in the sense of C60, and canonical texts are such
    texts. *)
Theorem C71_written : forall top s F x, laid_all top s F x -> Forall good F -> written_all F x.
Proof. exact all_written. Qed.
Print Assumptions C71_written.
Theorem C71_canonical : forall F, Forall good F -> forall top s, laid_all top s F (forest_text F).
Proof. exact forest_laid. Qed.
Print Assumptions C71_canonical.

(** A document with white space, signs and apostrophes of its author's choice in the start
    tag of the root and apostrophes below. *)
Definition shop : list node :=
  [Elem (bs "shop") [(bs "by", bs "A>B")] false
     [Text ([lf] ++ bs "  "); Elem (bs "item") [(bs "id", bs "1"); (bs "k", bs "x")] true []; Misc (bs "-- two --");
      Elem (bs "item") [(bs "id", bs "2")] false [Elem (bs "name") [] false [Text (bs "pen &amp; ink")]; Elem (bs "price") [] false [Text (bs "3")]]]].
Definition shop_front : bytes := bs "<shop by = 'A>B'" ++ [lf] ++ bs ">" ++ [lf] ++ bs "  <item id='1' k=""x""/><!-- two --><item id='2'>".
Definition shop_name : bytes := bs "<name>pen &amp; ink</name>".
Definition shop_back : bytes := bs "<price>3</price></item></shop>".
Definition shop_text : bytes := shop_front ++ shop_name ++ shop_back.
Definition at_name : list tstep := [(bs "shop", None); (bs "item", Some (bs "1")); (bs "name", None)].
Lemma blank_ok : forall s, forallb is_ws s = true -> blanks s.
Proof.
  intros s H. apply Forall_forall. intros c Hc. rewrite forallb_forall in H. specialize (H c Hc). unfold is_ws in H.
  unfold blank. cbn [In]. repeat (apply orb_true_iff in H; destruct H as [H|H]; [|apply Ascii.eqb_eq in H; subst; auto]). apply Ascii.eqb_eq in H; subst; auto.
Qed.
Ltac attr_ok n v a w1 w2 w3 q x s :=
  apply (aa_one n v a w1 w2 w3 q x s); [apply blank_ok; reflexivity|apply blank_ok; reflexivity|apply blank_ok; reflexivity|
    (now left) || (now right)|vm_compute; intuition discriminate|vm_compute; discriminate|
    rewrite <- (eq_refl : unescape_xml x = v); apply ProofEscape.unescape_decodes|].
Ltac tag_ok := split; [|first [left; reflexivity|right; eexists _, _; split; [reflexivity|now left]]].
Lemma shop_tag : tag_as [(bs "by", bs "A>B")] (bs " by = 'A>B'" ++ [lf]).
Proof. tag_ok. attr_ok (bs "by") (bs "A>B") (@nil (bytes * bytes)) (bs " ") (bs " ") (bs " ") squote (bs "A>B") [lf]. constructor. apply blank_ok. reflexivity. Qed.
Lemma item1_tag : tag_as [(bs "id", bs "1"); (bs "k", bs "x")] (bs " id='1' k=""x""").
Proof.
  tag_ok. attr_ok (bs "id") (bs "1") [(bs "k", bs "x")] (bs " ") (@nil ascii) (@nil ascii) squote (bs "1") (bs " k=""x""").
  attr_ok (bs "k") (bs "x") (@nil (bytes * bytes)) (bs " ") (@nil ascii) (@nil ascii) dquote (bs "x") (@nil ascii). constructor. apply blank_ok. reflexivity.
Qed.
Lemma item2_tag : tag_as [(bs "id", bs "2")] (bs " id='2'").
Proof. tag_ok. attr_ok (bs "id") (bs "2") (@nil (bytes * bytes)) (bs " ") (@nil ascii) (@nil ascii) squote (bs "2") (@nil ascii). constructor. apply blank_ok. reflexivity. Qed.
Lemma none_tag : tag_as [] [].
Proof. tag_ok. constructor. constructor. Qed.
Ltac by_len := vm_compute; try discriminate; lia.
Lemma shop_place : standing true 20 at_name shop shop_front (Elem (bs "name") [] false [Text (bs "pen &amp; ink")]) false 0 shop_name shop_back.
Proof.
  change shop_front with ([] ++ opening (bs "shop") (bs " by = 'A>B'" ++ [lf]) false ++
    ((([lf] ++ bs "  ") ++ (opening (bs "item") (bs " id='1' k=""x""") true) ++ (bs "<!" ++ bs "-- two --" ++ bs ">") ++ []) ++ opening (bs "item") (bs " id='2'") false ++ [])).
  change shop_back with (((bs "<price>3</price>") ++ end_tag (bs "item") ++ []) ++ end_tag (bs "shop") ++ []).
  apply (st_down true 0 0 20 (bs "shop") None _ [] (bs "shop") [(bs "by", bs "A>B")] _ []); [reflexivity|reflexivity|constructor|constructor|apply shop_tag|by_len|discriminate|].
  apply (st_down false 0 0 0 (bs "item") (Some (bs "1")) _ [Text ([lf] ++ bs "  "); Elem (bs "item") [(bs "id", bs "1"); (bs "k", bs "x")] true []; Misc (bs "-- two --")]
    (bs "item") [(bs "id", bs "2")] _ []); [reflexivity|reflexivity| |constructor|apply item2_tag|by_len|reflexivity|].
  - apply (ls_cons false 0 0); [constructor|]. apply (ls_cons false 0 0); [apply la_self; [apply item1_tag|by_len|reflexivity]|].
    apply (ls_cons false 0 0); [apply la_misc|constructor].
  - apply (st_here false 0 0 0 (bs "name") None [] _ [Elem (bs "price") [] false [Text (bs "3")]] [] shop_name (bs "<price>3</price>")); [reflexivity|reflexivity|constructor| |].
    + change shop_name with (opening (bs "name") [] false ++ (bs "pen &amp; ink" ++ []) ++ end_tag (bs "name")). apply la_elem; [apply none_tag|by_len|reflexivity|].
      apply (ls_cons false 0 0); constructor.
    + apply (forest_laid [Elem (bs "price") [] false [Text (bs "3")]]). apply forest_b_ok. vm_compute. reflexivity.
Qed.
Example C71_example :
  Forall good shop /\ Forall top_node shop /\ shallow shop /\ prolog sample_prolog /\ strict_prolog sample_prolog /\
  standing true 20 at_name shop shop_front (Elem (bs "name") [] false [Text (bs "pen &amp; ink")]) false 0 shop_name shop_back /\
  (N.of_nat (List.length (sample_prolog ++ shop_text)) <=? 10485760)%N = true /\ shop_text <> forest_text shop /\
  good_tpath at_name TheElement /\ good_tpath at_name (TheAttribute (bs "lang")) /\ tpath at_name TheElement = bs "shop.item.1.name" /\
  set env0 (fun _ => []) (sample_prolog ++ shop_text) (bs "shop.item.1.name") (VStr (bs "a<b")) =
    Ok (sample_prolog ++ shop_front ++ bs "<name>a&lt;b</name>" ++ shop_back, None) /\
  delete env0 (sample_prolog ++ shop_text) (bs "shop.item.1.name") = Ok (sample_prolog ++ shop_front ++ shop_back, None) /\
  set env0 (fun _ => []) (sample_prolog ++ shop_text) (bs "shop.item.1.name.@lang") (VStr (bs "en")) =
    Ok (sample_prolog ++ shop_front ++ bs "<name lang=""en"">pen &amp; ink</name>" ++ shop_back, None).
Proof.
  split; [apply forest_b_ok; vm_compute; reflexivity|]. split; [repeat constructor|]. split; [repeat constructor|]. split; [apply sample_prolog_ok|]. split; [apply sample_strict|].
  split; [apply shop_place|]. split; [vm_compute; reflexivity|]. split; [vm_compute; discriminate|].
  split; [apply tpath_b_ok; vm_compute; reflexivity|]. split; [apply tpath_b_ok; vm_compute; reflexivity|]. vm_compute. repeat split; reflexivity.
Qed.
(** The same for the second item: its attribute, its content, a new last name. *)
Definition at_item : list tstep := [(bs "shop", None); (bs "item", Some (bs "1"))].
Definition item_front : bytes := bs "<shop by = 'A>B'" ++ [lf] ++ bs ">" ++ [lf] ++ bs "  <item id='1' k=""x""/><!-- two -->".
Definition item_self : bytes := bs "<item id='2'><name>pen &amp; ink</name><price>3</price></item>".
Definition item_kids : list node := [Elem (bs "name") [] false [Text (bs "pen &amp; ink")]; Elem (bs "price") [] false [Text (bs "3")]].
Lemma item_place : standing true 20 at_item shop item_front (Elem (bs "item") [(bs "id", bs "2")] false item_kids) false 0 item_self (bs "</shop>").
Proof.
  change item_front with ([] ++ opening (bs "shop") (bs " by = 'A>B'" ++ [lf]) false ++
    (([lf] ++ bs "  ") ++ (opening (bs "item") (bs " id='1' k=""x""") true) ++ (bs "<!" ++ bs "-- two --" ++ bs ">") ++ [])).
  change (bs "</shop>") with ([] ++ end_tag (bs "shop") ++ []).
  apply (st_down true 0 0 20 (bs "shop") None _ [] (bs "shop") [(bs "by", bs "A>B")] _ []); [reflexivity|reflexivity|constructor|constructor|apply shop_tag|by_len|discriminate|].
  apply (st_here false 0 0 0 (bs "item") (Some (bs "1")) [Text ([lf] ++ bs "  "); Elem (bs "item") [(bs "id", bs "1"); (bs "k", bs "x")] true []; Misc (bs "-- two --")]
    (Elem (bs "item") [(bs "id", bs "2")] false item_kids) []); [reflexivity|reflexivity| | |constructor].
  - apply (ls_cons false 0 0); [constructor|]. apply (ls_cons false 0 0); [apply la_self; [apply item1_tag|by_len|reflexivity]|].
    apply (ls_cons false 0 0); [apply la_misc|constructor].
  - change item_self with (opening (bs "item") (bs " id='2'") false ++ bs "<name>pen &amp; ink</name><price>3</price>" ++ end_tag (bs "item")).
    apply la_elem; [apply item2_tag|by_len|reflexivity|]. apply (forest_laid item_kids). apply forest_b_ok. vm_compute. reflexivity.
Qed.
Example C71_item_example :
  standing true 20 at_item shop item_front (Elem (bs "item") [(bs "id", bs "2")] false item_kids) false 0 item_self (bs "</shop>") /\
  good_tpath at_item TheElement /\ good_tpath at_item (TheAttribute (bs "id")) /\ Forall good_tstep (at_item ++ [(bs "name", None)]) /\
  fragment [] (bs "a<b c='1'/>") /\ shop_text = item_front ++ item_self ++ bs "</shop>" /\
  delete env0 (sample_prolog ++ shop_text) (tpath at_item (TheAttribute (bs "id"))) =
    Ok (sample_prolog ++ item_front ++ bs "<item><name>pen &amp; ink</name><price>3</price></item>" ++ bs "</shop>", None) /\
  set_raw env0 (fun _ => []) (sample_prolog ++ shop_text) (tpath at_item TheElement) (bs "a<b c='1'/>") =
    Ok (sample_prolog ++ item_front ++ bs "<item id='2'>a<b c='1'/></item>" ++ bs "</shop>", None) /\
  set env0 (fun _ => []) (sample_prolog ++ shop_text) (tpath (at_item ++ [(bs "name", None)]) TheElement ++ bs ".-1") (VStr (bs "cap")) =
    Ok (sample_prolog ++ item_front ++ bs "<item id='2'><name>pen &amp; ink</name><name>cap</name><price>3</price></item>" ++ bs "</shop>", None).
Proof.
  split; [apply item_place|]. split; [apply tpath_b_ok; vm_compute; reflexivity|]. split; [apply tpath_b_ok; vm_compute; reflexivity|].
  split; [eapply (fun l H => gt_steps l TheElement H); apply tpath_b_ok; vm_compute; reflexivity|].
  split; [apply validate_raw_spec; vm_compute; reflexivity|]. vm_compute. repeat split; reflexivity.
Qed.
(** A history on the same document. *)
Definition shop_edits : list edit :=
  [ SetText at_name (bs "<new>"); SetAttr [(bs "shop", None); (bs "item", None)] (bs "k") (bs "y");
    Append [(bs "shop", None)] (bs "item") (AsText (bs "third")); SetAttr (by_name [bs "shop"; bs "till"]) (bs "open") (bs "1");
    RemoveAttr [(bs "shop", None); (bs "item", Some (bs "1"))] (bs "id"); Remove [(bs "shop", None); (bs "item", None)] ].
Fixpoint spacious_all (p : bytes) (s : nat) (ops : list edit) (F : list node) : Prop :=
  match ops with
  | [] => True
  | o :: ops' => legal o /\ match apply_edit o F with
      | Some F' => existsb is_elem F' = true /\ (N.of_nat (List.length p + List.length (forest_text F') + s) <=? 10485760)%N = true /\ spacious_all p s ops' F'
      | None => False end
  end.
Lemma run_laid : forall p s ops F F', run ops F = Some F' -> spacious_all p s ops F -> laid_history p s ops F F'.
Proof.
  intros p s. induction ops as [|o ops IH]; intros F F' R L; cbn [run] in R; cbn [spacious_all] in L; [injection R as <-; constructor|]. destruct L as [L1 L2].
  destruct (apply_edit o F) as [F1|] eqn:Q; [|discriminate]. destruct L2 as [L2 [L3 L4]]. econstructor; eauto. split; [|now apply N.leb_le].
  apply existsb_exists in L2. destruct L2 as [[n a sf k| |] [IN K]]; try discriminate. now exists n, a, sf, k.
Qed.
Lemma shop_laid : exists s, s <= 20 /\ laid_all true s shop shop_text.
Proof. destruct (standing_text _ _ _ _ _ _ _ _ _ _ shop_place) as [_ [_ [s [H1 H2]]]]. exists s. rewrite Nat.add_0_r in H2. auto. Qed.
Example C71_history_example :
  laid_all true 20 shop shop_text /\ spacious sample_prolog 20 shop /\
  exists F', run shop_edits shop = Some F' /\ laid_history sample_prolog 20 shop_edits shop F' /\
  query true (by_name [bs "shop"; bs "till"]) (TheAttribute (bs "open")) F' = Attribute (bs "1") /\
  calls env0 (fun _ => []) shop_edits (sample_prolog ++ shop_text) =
    Ok (sample_prolog ++ bs "<shop by = 'A>B'" ++ [lf] ++ bs ">" ++ [lf] ++
        bs "  <!-- two --><item><name>&lt;new&gt;</name><price>3</price></item><item>third</item><till open=""1""></till></shop>", None).
Proof.
  destruct shop_laid as [s [L1 L2]]. split; [eapply all_more; eauto|]. split.
  { split; [do 4 eexists; left; reflexivity|]. vm_compute. discriminate. }
  destruct (run shop_edits shop) as [F'|] eqn:R; [|vm_compute in R; discriminate R]. exists F'. split; [reflexivity|]. split; [|split].
  - apply run_laid; auto. clear F' R s L1 L2. unfold shop_edits, spacious_all.
    repeat match goal with
    | |- True => exact I
    | |- context [apply_edit ?o ?F] => let x := eval vm_compute in (apply_edit o F) in change (apply_edit o F) with x; cbv iota
    | |- legal _ /\ _ => split
    | |- _ = true /\ _ => split; [vm_compute; reflexivity|]
    | |- legal _ => cbn [legal]
    | |- _ /\ _ => split
    | |- good_tpath _ _ => apply tpath_b_ok; vm_compute; reflexivity
    | |- xml_name _ => apply xml_name_b_ok; vm_compute; reflexivity
    | |- Forall good_tstep _ => eapply (fun l H => gt_steps l TheElement H); apply tpath_b_ok; vm_compute; reflexivity
    | |- Forall _ (_ :: _) => apply Forall_cons
    | |- Forall _ [] => apply Forall_nil
    | |- Forall xml_name _ => cbn [map fst by_name at_name]
    | |- _ < _ => vm_compute; lia
    | |- (_ <= _)%nat => vm_compute; lia
    | |- good_content _ => split; cbn [content_nodes]
    | |- good _ => apply good_b_ok; vm_compute; reflexivity
    | |- (_ <= _)%N => vm_compute; discriminate
    | |- small _ => vm_compute; discriminate
    end.
  - revert R. vm_compute. intros R. injection R as <-. reflexivity.
  - vm_compute. reflexivity.
Qed.

(** The limits of the notation. White space in an end tag shifts the end of the content, *)
Theorem C71_end_tag_refuted : exists xml path new, valid xml = true /\ xml = bs "<a>x</a >" /\ path = bs "a" /\
  set env0 (fun _ => []) xml path (VStr (bs "y")) = Ok (new, None) /\ new = bs "<a>y/a >" /\ valid new = false.
Proof. exists (bs "<a>x</a >"), (bs "a"), (bs "<a>y/a >"). vm_compute. repeat split; reflexivity. Qed.
Print Assumptions C71_end_tag_refuted.
(** and a start tag below the root that is shorter than the canonical one shifts what
    follows it the other way. *)
Theorem C71_shorter_refuted : exists xml path new, valid xml = true /\ xml = bs "<r><a x='>'/><b>t</b></r>" /\ path = bs "r.b" /\
  set env0 (fun _ => []) xml path (VStr (bs "y")) = Ok (new, None) /\ new <> bs "<r><a x='>'/><b>y</b></r>" /\ valid new = false.
Proof.
  destruct (set env0 (fun _ => []) (bs "<r><a x='>'/><b>t</b></r>") (bs "r.b") (VStr (bs "y"))) as [[new [er|]]| |] eqn:Q; try (vm_compute in Q; discriminate Q).
  exists (bs "<r><a x='>'/><b>t</b></r>"), (bs "r.b"), new. rewrite Q. vm_compute in Q. injection Q as <-. vm_compute. repeat split; try reflexivity; discriminate.
Qed.
Print Assumptions C71_shorter_refuted.
