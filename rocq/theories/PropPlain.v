(** C76: every ordinary document is the text of one tree, and queries are answered from it. *)
From Coq Require Import List Ascii String NArith ZArith Bool Lia Permutation.
From Verif Require Import GoStr ModelParser ModelPath ModelResult ModelQuery ModelValidate ModelBuilder SpecText SpecPath SpecTree SpecQuery SpecEdit SpecContent SpecValid SpecFilter SpecLang SpecHistory SpecLaid SpecNotation SpecPlain
  ProofBase ProofPath ProofTree ProofTree3 ProofTree8 ProofEdit8 ProofLaid ProofLaid6 ProofLang3 ProofLang5 ProofNotation ProofNotation2 ProofPlain ProofPlain2 ProofPlain3 ProofPlain4 PropTree PropLang PropNotation PropHistory PropLaid.
Import ListNotations.

(** The ordinary documents are the texts of the trees of the other theorems. *)
Theorem C76_tree : forall x, ordinary_document x <->
  exists F, Forall good F /\ Forall top_node F /\ has_element F /\ shallow F /\ joined_all F /\ written_all F x.
Proof.
  intros x. split; [exact (ordinary_tree x)|]. intros (F & G & T & H & S & J & W). exact (tree_ordinary F x G T H S W).
Qed.
Print Assumptions C76_tree.

(** There is one tree only, if texts are not split. *)
Theorem C76_unique : forall F F' x, Forall good F -> Forall good F' -> joined_all F -> joined_all F' ->
  written_all F x -> written_all F' x -> F = F'.
Proof. intros F F' x G G' J J' W W'. exact (tree_unique F F' x W W' G G' J J'). Qed.
Print Assumptions C76_unique.

(** Valid documents of plain bytes are ordinary; ordinary documents are valid. *)
Theorem C76_plain : forall x, valid x = true -> plain x -> ordinary_document x.
Proof. exact plain_ordinary. Qed.
Print Assumptions C76_plain.
Theorem C76_valid : forall x, ordinary_document x -> (N.of_nat (List.length x) <= 10485760)%N -> valid x = true.
Proof.
  intros x O L. destruct (ordinary_tree x O) as (F & G & T & H & S & _ & W). exact (written_valid [] F x sp_nil W G T H S L).
Qed.
Print Assumptions C76_valid.

(** Every query on an ordinary document is answered from its tree. *)
Theorem C76_get : forall E sat p x,
  (forall k l, Permutation l (e_ord E k l)) ->
  (forall c nd, good nd -> (sat c nd = true <-> true_of (e_parse_float E) c nd)) ->
  prolog p -> ordinary_document x -> (N.of_nat (count_occ ascii_dec x "<"%char) < 9999)%N ->
  (N.of_nat (List.length (p ++ x)) <= 10485760)%N ->
  exists F, Forall good F /\ joined_all F /\ written_all F x /\
    forall steps e, good_query steps e ->
      exists r, get E (p ++ x) (query_text steps e) = Ok r /\ says r (ask sat e true steps F).
Proof.
  intros E sat p x Ho Hs Hp O C L. destruct (ordinary_tree x O) as (F & G & T & H & S & J & W).
  exists F. split; auto. split; auto. split; auto. intros steps e Q. apply (C60_language E sat p F x steps e); auto.
  pose proof (proj2 elements_count F x W) as K. unfold elements. lia.
Qed.
Print Assumptions C76_get.
(** In particular on valid documents of plain bytes. *)
Theorem C76_get_plain : forall E sat p x,
  (forall k l, Permutation l (e_ord E k l)) ->
  (forall c nd, good nd -> (sat c nd = true <-> true_of (e_parse_float E) c nd)) ->
  prolog p -> valid x = true -> plain x -> (N.of_nat (count_occ ascii_dec x "<"%char) < 9999)%N ->
  (N.of_nat (List.length (p ++ x)) <= 10485760)%N ->
  exists F, Forall good F /\ joined_all F /\ written_all F x /\
    forall steps e, good_query steps e ->
      exists r, get E (p ++ x) (query_text steps e) = Ok r /\ says r (ask sat e true steps F).
Proof. intros E sat p x Ho Hs Hp V P. apply C76_get; auto. now apply plain_ordinary. Qed.
Print Assumptions C76_get_plain.

(** Edits of ordinary documents that are written neatly act on the tree: the document
    afterwards is an ordinary document again, the text of the edited tree up to the order of
    attributes. *)
Theorem C76_edit : forall E fmt_g p x,
  (forall k l, Permutation l (e_ord E k l)) -> prolog p -> strict_prolog p ->
  ordinary_document x -> neat x -> (N.of_nat (List.length (p ++ x)) <= 10485760)%N ->
  exists F, Forall good F /\ joined_all F /\ written_all F x /\
    forall ops F', laid_history p 0 ops F F' ->
      exists G y, calls E fmt_g ops (p ++ x) = Ok (p ++ y, None) /\ Forall2 same F' G /\ written_all G y /\ ordinary_document y /\
        valid (p ++ y) = true /\
        forall steps fin, good_tpath steps fin ->
          exists r, get E (p ++ y) (tpath steps fin) = Ok r /\ describes r (query true steps fin F').
Proof.
  intros E fmt_g p x Ho Hp SP O N L. destruct (ordinary_tree x O) as (F & G & T & H & S & J & W).
  exists F. split; auto. split; auto. split; auto. intros ops F' HH.
  assert (SPC : spacious p 0 F).
  { split; auto. rewrite <- (inner_len 0 F x (neat_laid_all F x W G N false)), Nat.add_0_r. now rewrite app_length in L. }
  destruct (C71_history E fmt_g p F 0 x ops F' Ho Hp SP G T S SPC (neat_laid_all F x W G N true) HH) as [G' [y (C & SM & LA & V & Q)]].
  destruct (laid_history_ok E fmt_g Ho p 0 ops F F' Hp SP HH F x G T S SPC (same_all_refl F) (neat_laid_all F x W G N true)) as [_ [_ (_ & _ & _ & GF & TF & SF & [HF _])]].
  exists G', y. assert (GG : Forall good G') by (exact (same_good_all F' G' SM GF)).
  assert (WG : written_all G' y) by exact (C71_written true 0 G' y LA GG).
  split; [exact C|]. split; [exact SM|]. split; [exact WG|]. split; [|split; [exact V|exact Q]].
  apply (tree_ordinary G' y GG); auto; [eapply same_top; eauto|eapply same_element_has; eauto|eapply same_shallow; eauto].
Qed.
Print Assumptions C76_edit.

Definition order : bytes :=
  bs "<order id = '7'>" ++ [lf] ++ bs "<!-- two items --><item n=""1"" >a &amp; b</item ><item/>tail<![CDATA[x&y]]></order>" ++ [lf].
Definition order_tree : list node :=
  [Elem (bs "order") [(bs "id", bs "7")] false
     [Text [lf]; Misc (bs "-- two items --"); Elem (bs "item") [(bs "n", bs "1")] false [Text (bs "a &amp; b")]; Elem (bs "item") [] true [];
      Text (bs "tail"); Misc (bs "[CDATA[x&y]]")]; Text [lf]].
Lemma order_written : written_all order_tree order.
Proof.
  assert (B : forall s, forallb is_ws s = true -> blanks s).
  { intros s H. apply Forall_forall. intros c Hc. rewrite forallb_forall in H. specialize (H c Hc). unfold is_ws in H.
    unfold blank. cbn [In]. repeat (apply orb_true_iff in H; destruct H as [H|H]; [|apply Ascii.eqb_eq in H; subst; auto]). apply Ascii.eqb_eq in H; subst; auto. }
  assert (D : forall a b, unescape_xml a = b -> Decodes a b) by (intros a b <-; apply ProofEscape.unescape_decodes).
  assert (NI : forall c (s : bytes), forallb (fun x => negb (Ascii.eqb x c)) s = true -> ~ In c s).
  { intros c s H K. rewrite forallb_forall in H. specialize (H c K). now rewrite Ascii.eqb_refl in H. }
  change order with ((bs "<" ++ bs "order" ++ bs " id = '7'" ++ bs ">" ++
    ([lf] ++ (bs "<!" ++ bs "-- two items --" ++ bs ">") ++
     (bs "<" ++ bs "item" ++ bs " n=""1"" " ++ bs ">" ++ (bs "a &amp; b" ++ []) ++ bs "</" ++ bs "item" ++ bs " " ++ bs ">") ++
     (bs "<" ++ bs "item" ++ [] ++ bs "/>") ++ bs "tail" ++ (bs "<!" ++ bs "[CDATA[x&y]]" ++ bs ">") ++ []) ++
    bs "</" ++ bs "order" ++ [] ++ bs ">") ++ [lf] ++ []).
  apply wa_cons; [|apply wa_cons; [constructor|apply wa_nil]]. apply wr_elem; [| |now apply B|vm_compute; discriminate].
  - split; [|right; eexists _, _; split; [reflexivity|now left]].
    apply (aa_one (bs "id") (bs "7") [] (bs " ") (bs " ") (bs " ") squote (bs "7") []);
      try (now apply B); try (now right); try (now apply NI); try (now apply D); [vm_compute; discriminate|]. constructor. now apply B.
  - apply wa_cons; [constructor|]. apply wa_cons; [constructor|]. apply wa_cons; [|apply wa_cons; [|apply wa_cons; [constructor|apply wa_cons; [constructor|apply wa_nil]]]].
    + apply wr_elem; [| |now apply B|vm_compute; discriminate].
      * split; [|right; eexists _, _; split; [reflexivity|now left]].
        apply (aa_one (bs "n") (bs "1") [] (bs " ") [] [] dquote (bs "1") (bs " "));
          try (now apply B); try (now left); try (now apply NI); try (now apply D); [vm_compute; discriminate|]. constructor. now apply B.
      * apply wa_cons; constructor.
    + apply wr_self. split; [constructor; constructor|now left].
Qed.
Example C76_example : valid order = true /\ plain order /\ ordinary_document order /\ (N.of_nat (count_occ ascii_dec order "<"%char) <? 9999)%N = true /\
  Forall good order_tree /\ joined_all order_tree /\ written_all order_tree order /\
  (exists r, get env0 order (bs "order.item.@n") = Ok r /\ says r (ask (decide_sat env0) (EAttr (bs "n")) true [Child (bs "order") Leading; Child (bs "item") Leading] order_tree)).
Proof.
  assert (V : valid order = true) by (vm_compute; reflexivity).
  assert (P : plain order) by (apply plain_b_ok; vm_compute; reflexivity).
  assert (G : Forall good order_tree) by (apply forest_b_ok; vm_compute; reflexivity).
  assert (J : joined_all order_tree).
  { unfold order_tree. repeat match goal with
      | |- joined_all [] => apply ja_nil
      | |- joined_all (_ :: _) => apply ja_cons
      | |- joined (Elem _ _ _ _) => apply jo_elem
      | |- joined (Text _) => apply jo_text; discriminate
      | |- joined (Misc _) => apply jo_misc
      | |- is_text _ -> _ => let T := fresh in intros T ? ? K;
          first [discriminate K | injection K as <- _; intros [? X]; discriminate X | destruct T as [? X]; discriminate X]
      end. }
  pose proof (C76_plain order V P) as O.
  split; [exact V|]. split; [exact P|]. split; [exact O|]. split; [vm_compute; reflexivity|]. split; [exact G|]. split; [exact J|]. split; [exact order_written|].
  destruct (C76_get env0 (decide_sat env0) [] order (fun k l => Permutation_refl l) (fun c nd _ => decide_sat_ok env0 c nd) ltac:(constructor) O) as (F & G' & J' & W' & K); [vm_compute; reflexivity|vm_compute; discriminate|].
  rewrite (C76_unique order_tree F order G G' J J' order_written W'). apply (K [Child (bs "order") Leading; Child (bs "item") Leading] (EAttr (bs "n"))). query_ok.
Qed.

Definition cart : bytes := bs "<cart><item n='1'>pen</item><item n=""2"" k='x'/></cart>".
Definition cart_tree : list node :=
  [Elem (bs "cart") [] false [Elem (bs "item") [(bs "n", bs "1")] false [Text (bs "pen")]; Elem (bs "item") [(bs "n", bs "2"); (bs "k", bs "x")] true []]].
Definition cart_edits : list edit := [SetContent [(bs "cart", None); (bs "item", None)] (AsText (bs "a<b")); Remove [(bs "cart", None); (bs "item", Some (bs "1"))]].
Lemma cart_written : written_all cart_tree cart.
Proof.
  assert (D : forall a b, unescape_xml a = b -> Decodes a b) by (intros a b <-; apply ProofEscape.unescape_decodes).
  assert (NI : forall c (s : bytes), forallb (fun x => negb (Ascii.eqb x c)) s = true -> ~ In c s).
  { intros c s H K. rewrite forallb_forall in H. specialize (H c K). now rewrite Ascii.eqb_refl in H. }
  change cart with ((bs "<" ++ bs "cart" ++ [] ++ bs ">" ++
    ((bs "<" ++ bs "item" ++ bs " n='1'" ++ bs ">" ++ (bs "pen" ++ []) ++ bs "</" ++ bs "item" ++ [] ++ bs ">") ++
     (bs "<" ++ bs "item" ++ bs " n=""2"" k='x'" ++ bs "/>") ++ []) ++ bs "</" ++ bs "cart" ++ [] ++ bs ">") ++ []).
  apply wa_cons; [|apply wa_nil]. apply wr_elem; [split; [constructor; constructor|now left]| |constructor|vm_compute; discriminate].
  apply wa_cons; [|apply wa_cons; [|apply wa_nil]].
  - apply wr_elem; [|apply wa_cons; constructor|constructor|vm_compute; discriminate].
    split; [|right; eexists _, _; split; [reflexivity|now left]].
    apply (aa_one (bs "n") (bs "1") [] (bs " ") [] [] squote (bs "1") []); try (now right); try (now apply NI); try (now apply D); try (now repeat constructor); try (vm_compute; discriminate).
  - apply wr_self. split; [|right; eexists _, _; split; [reflexivity|now left]].
    apply (aa_one (bs "n") (bs "2") [(bs "k", bs "x")] (bs " ") [] [] dquote (bs "2") (bs " k='x'")); try (now left); try (now apply NI); try (now apply D); try (now repeat constructor); try (vm_compute; discriminate).
    apply (aa_one (bs "k") (bs "x") [] (bs " ") [] [] squote (bs "x") []); try (now right); try (now apply NI); try (now apply D); try (now repeat constructor); try (vm_compute; discriminate).
Qed.
Example C76_edit_example : ordinary_document cart /\ neat cart /\ written_all cart_tree cart /\
  (exists F', run cart_edits cart_tree = Some F' /\ laid_history [] 0 cart_edits cart_tree F') /\
  calls env0 (fun _ => []) cart_edits cart = Ok (bs "<cart><item n='1'>a&lt;b</item></cart>", None).
Proof.
  split.
  { apply (tree_ordinary cart_tree cart); [apply forest_b_ok; vm_compute; reflexivity|repeat constructor|do 4 eexists; left; reflexivity| |exact cart_written].
    repeat constructor. }
  split; [apply neat_b_ok; vm_compute; reflexivity|]. split; [exact cart_written|]. split.
  - destruct (run cart_edits cart_tree) as [F'|] eqn:R; [|vm_compute in R; discriminate R]. exists F'. split; [reflexivity|].
    apply run_laid; auto. clear F' R. unfold cart_edits, spacious_all.
    repeat match goal with
    | |- True => exact I
    | |- context [apply_edit ?o ?F] => let x := eval vm_compute in (apply_edit o F) in change (apply_edit o F) with x; cbv iota
    | |- legal _ /\ _ => split
    | |- _ = true /\ _ => split; [vm_compute; reflexivity|]
    | |- legal _ => cbn [legal]
    | |- _ /\ _ => split
    | |- good_tpath _ _ => apply tpath_b_ok; vm_compute; reflexivity
    | |- xml_name _ => apply xml_name_b_ok; vm_compute; reflexivity
    | |- Forall good_tstep _ => eapply (fun l H => gt_steps l TheElement H); apply tpath_b_ok; vm_compute; reflexivity
    | |- Forall _ (_ :: _) => apply Forall_cons
    | |- Forall _ [] => apply Forall_nil
    | |- Forall xml_name _ => cbn [map fst by_name at_name]
    | |- _ < _ => vm_compute; lia
    | |- (_ <= _)%nat => vm_compute; lia
    | |- good_content _ => split; cbn [content_nodes]
    | |- good _ => apply good_b_ok; vm_compute; reflexivity
    | |- (_ <= _)%N => vm_compute; discriminate
    | |- small _ => vm_compute; discriminate
    end.
  - vm_compute. reflexivity.
Qed.
