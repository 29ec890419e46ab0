(** C94: the content of an element behaves like a document of its own. *)
From Coq Require Import List Ascii String NArith ZArith Bool Lia Permutation.
From Verif Require Import GoStr ModelParser ModelPath ModelResult ModelQuery ModelValidate ModelBuilder SpecText SpecPath SpecTree SpecQuery SpecEdit SpecContent SpecValid SpecHistory SpecPart
  ProofBase ProofTree ProofTree5 ProofTree7 ProofTree8 ProofEdit ProofEdit2 ProofEdit5 ProofEdit6 ProofEdit8 ProofEdit9 ProofPart PropTree PropValid PropStore.
Import ListNotations.

(** C94: edit the content of an element in place with longer paths, or edit it as a document
    of its own with the short ones: the calls succeed both ways, and afterwards every query
    gets the same answer both ways. *)
Theorem C94_part : forall E fmt_g p F pre m a kids ops kids' F',
  (forall k l, Permutation l (e_ord E k l)) -> prolog p -> strict_prolog p ->
  Forall good F -> Forall top_node F -> shallow F -> room p F ->
  pinned true pre F (Elem m a false kids) -> Forall top_node kids -> room [] kids ->
  history [] ops kids kids' -> history p (map (under pre) ops) F F' ->
  exists whole part,
    calls E fmt_g (map (under pre) ops) (p ++ forest_text F) = Ok (whole, None) /\ calls E fmt_g ops (forest_text kids) = Ok (part, None) /\
    forall steps fin, good_tpath steps fin -> good_tpath (pre ++ steps) fin -> no_array_start steps fin ->
      exists r r', get E whole (tpath (pre ++ steps) fin) = Ok r /\ get E part (tpath steps fin) = Ok r' /\ SpecQuery.alike r r'.
Proof.
  intros E fmt_g p F pre m a kids ops kids' F' Ho Hp SP HG HT HS [HE HZ] PN KT [KE KZ] H1 H2.
  destruct (pinned_inner _ _ _ _ PN _ _ _ eq_refl HG HS) as [KG KS].
  destruct (history_ok E fmt_g Ho p _ F F' Hp SP H2 F HG HT (conj HE (conj HS HZ)) (same_all_refl F)) as [G [C [S [G' [T' FT]]]]].
  destruct (history_ok E fmt_g Ho [] _ kids kids' pro_nil sp_nil H1 kids KG KT (conj KE (conj KS KZ)) (same_all_refl kids)) as [L [KC [KSm [L' [KT' KFT]]]]].
  assert (V : valid (p ++ forest_text G) = true) by (apply state_valid; auto; [eapply same_good_all; eauto|eapply same_top; eauto|eapply same_fits; eauto]).
  assert (KV : valid ([] ++ forest_text L) = true) by (apply state_valid; auto using sp_nil, pro_nil; [eapply same_good_all; eauto|eapply same_top; eauto|eapply same_fits; eauto]).
  exists (p ++ forest_text G), ([] ++ forest_text L). split; [exact C|]. split; [exact KC|]. intros steps fin GT GT2 NA.
  destruct (get_query_text E Ho p F' G (pre ++ steps) fin Hp S G' (valid_size _ V) GT2) as [r [R1 R2]].
  destruct (get_query_text E Ho [] kids' L steps fin pro_nil KSm L' (valid_size _ KV) GT) as [r' [R1' R2']].
  exists r, r'. split; [exact R1|]. split; [exact R1'|].
  assert (NS : Forall (fun o => steps_of o <> []) ops) by (clear - H1; induction H1; constructor; auto using legal_steps).
  pose proof (pinned_history true pre p [] ops kids kids' H1 F F' m a PN NS H2) as PN'.
  assert (NE : steps <> [] \/ fin = TheChildren).
  { destruct steps; [|left; discriminate]. right. pose proof (gt_final _ _ GT) as GF. destruct fin; cbn [good_final] in GF; auto; [easy|destruct GF as [_ GF]; easy..]. }
  rewrite (pinned_query true pre F' _ PN' m a kids' eq_refl steps fin NE), <- (query_top steps fin kids' NA) in R2.
  eapply denotes_alike; eauto. now apply query_good.
Qed.
Print Assumptions C94_part.
(** Each edit that acts on the content acts in place, too. *)
Theorem C94_edit : forall pre F m a kids o kids', pinned true pre F (Elem m a false kids) -> legal o -> apply_edit o kids = Some kids' ->
  exists F', apply_edit (under pre o) F = Some F' /\ pinned true pre F' (Elem m a false kids').
Proof. intros pre F m a kids o kids' P L A. eapply pinned_apply; eauto using legal_steps. Qed.
Print Assumptions C94_edit.
(** C94: a valid text may be put into an element; the only objection can be the depth. *)
Theorem C94_wrap : forall x n a, valid x = true -> xml_name n -> good_attrs a ->
  let w := start_tag n a false ++ x ++ end_tag n in (N.of_nat (List.length w) <= 10485760)%N ->
  valid w = true \/ exists l c, validate_with_error w = Some (l, c, VDepth).
Proof. exact wrap_report. Qed.
Print Assumptions C94_wrap.

Definition library : list node :=
  [Elem (bs "lib") [] false
    [Elem (bs "shelf") [] true []; Text (bs " ");
     Elem (bs "shelf") [(bs "no", bs "2")] false
       [Elem (bs "book") [(bs "id", bs "1")] false [Elem (bs "title") [] false [Text (bs "Emma")]]; Misc (bs "--new--"); Elem (bs "book") [(bs "id", bs "2")] false [Text (bs "?")]]]].
Definition second_shelf : list node :=
  [Elem (bs "book") [(bs "id", bs "1")] false [Elem (bs "title") [] false [Text (bs "Emma")]]; Misc (bs "--new--"); Elem (bs "book") [(bs "id", bs "2")] false [Text (bs "?")]].
Definition to_shelf : list tstep := [(bs "lib", None); (bs "shelf", Some (bs "1"))].
Definition shelf_ops : list edit :=
  [ SetText (by_name [bs "book"; bs "title"]) (bs "Emma & Co");
    SetAttr [(bs "book", Some (bs "1"))] (bs "lent") (bs "yes");
    Append [] (bs "book") (AsText (bs "third"));
    Remove [(bs "book", Some (bs "1"))];
    RemoveAttr (by_name [bs "book"]) (bs "id");
    SetContent (by_name [bs "sign"; bs "colour"]) (AsInt 7) ].
Definition shelf_text : bytes := bs "<book><title>Emma &amp; Co</title></book><!--new--><book>third</book><sign><colour>7</colour></sign>".
Example C94_example :
  Forall good library /\ Forall top_node library /\ shallow library /\ room [] library /\
  pinned true to_shelf library (Elem (bs "shelf") [(bs "no", bs "2")] false second_shelf) /\ Forall top_node second_shelf /\ room [] second_shelf /\
  (exists K, history [] shelf_ops second_shelf K /\ forest_text K = shelf_text) /\
  (exists F', history [] (map (under to_shelf) shelf_ops) library F' /\ forest_text F' = bs "<lib><shelf/> <shelf no=""2"">" ++ shelf_text ++ bs "</shelf></lib>") /\
  calls env0 (fun _ => []) shelf_ops (forest_text second_shelf) = Ok (shelf_text, None) /\
  calls env0 (fun _ => []) (map (under to_shelf) shelf_ops) (forest_text library) = Ok (bs "<lib><shelf/> <shelf no=""2"">" ++ shelf_text ++ bs "</shelf></lib>", None) /\
  (let* r := get env0 shelf_text (bs "book.title") in Ok (r_string r)) = Ok (bs "Emma & Co") /\
  (let* r := get env0 (bs "<lib><shelf/> <shelf no=""2"">" ++ shelf_text ++ bs "</shelf></lib>") (bs "lib.shelf.1.book.title") in Ok (r_string r)) = Ok (bs "Emma & Co") /\
  valid (bs "<?xml version=""1.0""?><a/>x" ) = false /\ valid (bs "<w>" ++ bs "<?xml version=""1.0""?><a/>" ++ bs "</w>") = true.
Proof.
  split; [apply forest_b_ok; vm_compute; reflexivity|]. split; [repeat constructor|]. split; [repeat constructor|].
  split; [split; [eexists _, _, _, _; left; reflexivity|vm_compute; discriminate]|]. split.
  { eapply pin_down; [vm_compute; reflexivity|]. apply pin_here. split; [reflexivity|]. split; [vm_compute; reflexivity|discriminate]. }
  split; [repeat constructor|]. split; [split; [eexists _, _, _, _; left; reflexivity|vm_compute; discriminate]|]. split.
  { eexists. split; [unfold shelf_ops|].
    - repeat (eapply his_cons; [legal_op|vm_compute; reflexivity|split; [eexists _, _, _, _; left; reflexivity|vm_compute; discriminate]|]). apply his_nil.
    - vm_compute. reflexivity. }
  split.
  { eexists. split; [cbn [shelf_ops map under to_shelf by_name app]|].
    - repeat (eapply his_cons; [legal_op|vm_compute; reflexivity|split; [eexists _, _, _, _; left; reflexivity|vm_compute; discriminate]|]). apply his_nil.
    - vm_compute. reflexivity. }
  repeat split; vm_compute; reflexivity.
Qed.
(** Counts and indexes at the very beginning of a path do make a difference: there, prefixed
    names are told apart from plain ones. *)
Theorem C94_prefix_refuted : exists kids, Forall good kids /\
  get env0 (forest_text kids) (bs "a.#") = Ok r_null /\
  (let* r := get env0 (forest_text [Elem (bs "w") [] false kids]) (bs "w.a.#") in Ok (r_string r)) = Ok (bs "1").
Proof.
  exists [Elem (bs "p:a") [] true []]. split; [apply forest_b_ok; vm_compute; reflexivity|]. split; vm_compute; reflexivity.
Qed.
Print Assumptions C94_prefix_refuted.
