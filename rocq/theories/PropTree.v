(** C28-C30, C40, C42-C44: queries on canonical documents. *)
From Coq Require Import List Ascii String NArith ZArith Bool Lia Permutation.
From Verif Require Import GoStr ModelParser ModelPath ModelResult ModelQuery ModelApi SpecText SpecPath SpecTree SpecQuery
  ProofBase ProofPath ProofTree ProofTree2 ProofTree3 ProofTree4 ProofTree5 ProofTree6 ProofTree7 ProofTree8.
Import ListNotations.

(** The document used in the examples. *)
Definition sample : list node :=
  [Elem (bs "r") [] false
     [Text (bs " "); Elem (bs "a") [] true []; Misc (bs "--note--");
      Elem (bs "a") [(bs "k", bs "1<2"); (bs "x:y", bs "z")] false
        [Elem (bs "b") [] false [Text (bs " one ")]; Elem (bs "p:b") [(bs "m", bs "u"); (bs "n", bs "v")] false [Text (bs "t&amp;u"); Elem (bs "c") [] true []]];
      Elem (bs "d") [] false [Text (bs "tail")]]].
Definition sample_prolog : bytes := bs "<?xml version='1.0'?><!-- c --><!DOCTYPE r [<!ENTITY e 'x'>]>" ++ [lf].
Lemma sample_good : Forall good sample.
Proof. apply forest_b_ok. vm_compute. reflexivity. Qed.
Lemma sample_prolog_ok : prolog sample_prolog.
Proof.
  unfold sample_prolog.
  change (prolog (bs "<?" ++ bs "xml version='1.0'" ++ bs "?>" ++ bs "<!--" ++ bs " c " ++ bs "-->" ++
                  bs "<!DOCTYPE" ++ bs " r " ++ bs "[" ++ bs "<!ENTITY e 'x'>" ++ bs "]" ++ [] ++ bs ">" ++ [lf] ++ [])).
  apply pro_pi; [vm_compute; intuition discriminate|vm_compute; discriminate|].
  apply pro_comment.
  { intros x y K. change (bs "--" ++ bs " c " ++ bs "--") with (bs "-- c --") in K.
    assert (L := f_equal (@List.length ascii) K). rewrite !app_length in L. cbn [bs list_ascii_of_string List.length] in L.
    do 5 (destruct x as [|? x]; [discriminate K|injection K as _ K]). cbn [List.length] in L. lia. }
  apply pro_subset; [vm_compute; intuition (subst; discriminate)|vm_compute; intuition (subst; discriminate)|].
  apply pro_space; [|apply pro_nil]. intros c [<-|[]]. right. right. now left.
Qed.

(** C28. Get on a canonical document returns what the walk over the tree designates. *)
Theorem C28_tree_query : forall E p F steps fin,
  (forall k l, Permutation l (e_ord E k l)) -> prolog p -> Forall good F ->
  (blen (p ++ forest_text F) <= 10485760)%N -> good_tpath steps fin ->
  exists r, get E (p ++ forest_text F) (tpath steps fin) = Ok r /\ describes r (query true steps fin F).
Proof.
  intros E p F steps fin Ho Hp HG HL HP.
  destruct (get_query_text E Ho p F F steps fin Hp (same_all_refl F) HG HL HP) as [r [R1 R2]].
  exists r. split; auto. apply denotes_describes; auto. now apply query_good.
Qed.
Print Assumptions C28_tree_query.
Example C28_example :
  let path := [(bs "r", None); (bs "a", None); (bs "b", Some (bs "1"))] in
  prolog sample_prolog /\ Forall good sample /\ good_tpath path TheElement /\ tpath path TheElement = bs "r.a.b.1" /\
  (blen (sample_prolog ++ forest_text sample) <=? 10485760)%N = true /\
  query true path TheElement sample = Element [Text (bs "t&amp;u"); Elem (bs "c") [] true []] /\
  query true [(bs "r", None); (bs "a", None)] (TheAttribute (bs "k")) sample = Nothing /\
  query true [(bs "r", None); (bs "a", Some (bs "1"))] (TheAttribute (bs "k")) sample = Attribute (bs "1<2") /\
  query true [(bs "r", None); (bs "a", None)] TheCount sample = Count 2 /\
  query true [(bs "r", None); (bs "d", None)] TheText sample = TextAnswer [Text (bs "tail")] /\
  get env0 (sample_prolog ++ forest_text sample) (bs "r.a.b.1") = Ok (r_element (bs "t&amp;u<c/>")).
Proof.
  cbv zeta. split; [apply sample_prolog_ok|]. split; [apply sample_good|].
  split; [apply tpath_b_ok; vm_compute; reflexivity|]. vm_compute. repeat split; reflexivity.
Qed.

(** C29. If the count is [k], the elements with index below [k] exist, and when the path
    before the name leaves no choice, none with an index from [k] on does. *)
Theorem C29_count_index : forall E p F ps n ds r,
  (forall k l, Permutation l (e_ord E k l)) -> prolog p -> Forall good F ->
  (blen (p ++ forest_text F) <= 10485760)%N ->
  good_tpath (ps ++ [(n, None)]) TheCount -> good_tpath (ps ++ [(n, Some ds)]) TheElement ->
  get E (p ++ forest_text F) (tpath (ps ++ [(n, None)]) TheCount) = Ok r -> r_exists r = true ->
  exists x, get E (p ++ forest_text F) (tpath (ps ++ [(n, Some ds)]) TheElement) = Ok x /\
    ((decimal_value ds < decimal_value (r_string r))%N -> r_exists x = true /\ r_type x = RElement) /\
    (Forall (fun s => snd s <> None) ps -> (decimal_value (r_string r) <= decimal_value ds)%N -> r_exists x = false).
Proof.
  intros E p F ps n ds r Ho Hp HG HL HP1 HP2 HR HX.
  destruct (get_query_text E Ho p F F _ _ Hp (same_all_refl F) HG HL HP1) as [r' [R1 R2]].
  destruct (get_query_text E Ho p F F _ _ Hp (same_all_refl F) HG HL HP2) as [x [X1 X2]].
  rewrite HR in R1. injection R1 as <-. exists x. split; auto.
  destruct (count_index ps n ds (N.to_nat (decimal_value (r_string r)))) as [_ [C2 C3]].
  pose proof (C3 true F) as T. destruct (query true (ps ++ [(n, None)]) TheCount F) as [| | | |k|] eqn:Q; try contradiction.
  { cbn [denotes] in R2. subst r. discriminate. }
  pose proof (denotes_describes _ _ R2 I) as [_ [_ [_ DV]]]. rewrite DV, Nnat.Nat2N.id in *.
  pose proof (element_only (ps ++ [(n, Some ds)]) true F) as T2. split.
  - intros L. specialize (C2 true F Q L). destruct (query true (ps ++ [(n, Some ds)]) TheElement F); try contradiction; try congruence.
    destruct X2 as [kids' [_ ->]]. split; reflexivity.
  - intros HI L. match type of X2 with denotes ?q _ => assert (Z : q = Nothing) by exact (count_beyond ps n ds k true F HI Q L) end.
    rewrite Z in X2. cbn [denotes] in X2. now subst x.
Qed.
Print Assumptions C29_count_index.
Example C29_example :
  let doc := sample_prolog ++ forest_text sample in
  get env0 doc (bs "r.0.a.#") = Ok (r_count 2) /\ r_string (r_count 2) = bs "2" /\
  tpath ([(bs "r", Some (bs "0"))] ++ [(bs "a", None)]) TheCount = bs "r.0.a.#" /\
  good_tpath ([(bs "r", Some (bs "0"))] ++ [(bs "a", None)]) TheCount /\
  good_tpath ([(bs "r", Some (bs "0"))] ++ [(bs "a", Some (bs "2"))]) TheElement /\
  get env0 doc (bs "r.0.a.0") = Ok (r_element []) /\ get env0 doc (bs "r.0.a.2") = Ok r_null.
Proof.
  cbv zeta. split; [vm_compute; reflexivity|]. split; [vm_compute; reflexivity|]. split; [vm_compute; reflexivity|].
  split; [apply tpath_b_ok; vm_compute; reflexivity|]. split; [apply tpath_b_ok; vm_compute; reflexivity|].
  split; vm_compute; reflexivity.
Qed.
(** When an earlier step has several matches the walk can return to it: the count is 1,
    yet index 1 exists. *)
Theorem C29_backtracking_refuted : exists xml,
  get env0 xml (bs "r.a.b.#") = Ok (r_count 1) /\
  match get env0 xml (bs "r.a.b.1") with Ok x => r_exists x | _ => false end = true.
Proof. exists (bs "<r><a><b/></a><a><b/><b>x</b></a></r>"). vm_compute. split; reflexivity. Qed.
Print Assumptions C29_backtracking_refuted.

(** C30. A wildcard lists the child elements of the element found: itself when there is
    one, an array otherwise. *)
Theorem C30_children : forall E p F ps kids,
  (forall k l, Permutation l (e_ord E k l)) -> prolog p -> Forall good F ->
  (blen (p ++ forest_text F) <= 10485760)%N -> ps <> [] -> good_tpath ps TheChildren ->
  query true ps TheElement F = Element kids ->
  (filter is_elem kids <> [] \/ Forall (fun s => snd s <> None) ps) ->
  exists r, get E (p ++ forest_text F) (tpath ps TheChildren) = Ok r /\
    match firstn 1000 (filter is_elem kids) with
    | [] => r_exists r = false
    | [nd] => is_element (kids_of nd) r
    | l => r_type r = RArray /\ Forall2 (fun nd x => is_element (kids_of nd) x) l (r_results r)
    end.
Proof.
  intros E p F ps kids Ho Hp HG HL Hne HP HQ HC.
  destruct (get_query_text E Ho p F F ps TheChildren Hp (same_all_refl F) HG HL HP) as [r [R1 R2]].
  exists r. split; auto. apply denotes_describes in R2; [|now apply query_good].
  assert (Q : query true ps TheChildren F = list_answer (firstn 1000 (elems kids))).
  { rewrite <- (app_nil_r ps) at 1.
    assert (LA : list_answer (firstn 1000 (elems kids)) = query false [] TheChildren kids) by reflexivity. rewrite LA.
    destruct (elems kids) as [|nd l] eqn:El.
    - destruct HC as [HC|HC]; [unfold elems in El; congruence|].
      rewrite (query_indexed ps [] TheChildren HC Hne (or_intror eq_refl)), HQ. reflexivity.
    - apply query_app_some; auto; [now right|]. cbn [query]. rewrite El. change 1000 with (S 999). generalize 999. intros k.
      cbn [firstn list_answer]. destruct (firstn k l); discriminate. }
  rewrite Q in R2. unfold elems in R2. revert R2. generalize (firstn 1000 (filter is_elem kids)). intros l R2.
  destruct l as [|nd [|nd2 l]]; cbn [list_answer describes] in R2.
  - unfold r_exists. now rewrite R2.
  - exact R2.
  - destruct R2 as [T R2]. split; auto. clear -R2. revert R2. generalize (nd :: nd2 :: l) as ls. intros ls. revert ls.
    generalize (r_results r) as rs. induction rs as [|x rs IH]; intros ls H; destruct ls; inversion H; subst; constructor; auto.
Qed.
Print Assumptions C30_children.
Example C30_example :
  let ps := [(bs "r", None); (bs "a", Some (bs "1"))] in
  good_tpath ps TheChildren /\ tpath ps TheChildren = bs "r.a.1.*" /\
  query true ps TheElement sample = Element (kids_of (nth 3 (kids_of (hd (Text []) sample)) (Text []))) /\
  get env0 (sample_prolog ++ forest_text sample) (bs "r.a.1.*") =
    Ok (r_array [r_element (bs " one "); r_element (bs "t&amp;u<c/>")]) /\
  get env0 (sample_prolog ++ forest_text sample) (bs "r.a.1.b.1.*") = Ok (r_element []) /\
  get env0 (sample_prolog ++ forest_text sample) (bs "r.a.0.*") = Ok r_null.
Proof. cbv zeta. split; [apply tpath_b_ok; vm_compute; reflexivity|]. vm_compute. repeat split; reflexivity. Qed.

(** C40. Map of an element: one key for each name among its first 1000 child elements,
    with the child or the array of the children of that name; the key % for the text. *)
Theorem C40_map : forall E p F steps r kids,
  (forall k l, Permutation l (e_ord E k l)) -> prolog p -> Forall good F ->
  (blen (p ++ forest_text F) <= 10485760)%N -> good_tpath steps TheElement ->
  query true steps TheElement F = Element kids ->
  get E (p ++ forest_text F) (tpath steps TheElement) = Ok r ->
  exists m, r_map E r = Ok m /\
    (forall n, n <> bs "%" ->
       match map_get n m with
       | Some x => called (bytes_eqb n) (firstn 1000 (elems kids)) <> [] /\
                   describes x (list_answer (called (bytes_eqb n) (firstn 1000 (elems kids))))
       | None => called (bytes_eqb n) (firstn 1000 (elems kids)) = []
       end) /\
    match map_get (bs "%") m with
    | Some x => trim_space (own_text kids) <> [] /\ r_type x = RString /\ Decodes (trim_space (own_text kids)) (r_string x)
    | None => trim_space (own_text kids) = []
    end.
Proof.
  intros E p F steps r kids Ho Hp HG HL HP HQ HR.
  destruct (get_query_text E Ho p F F steps TheElement Hp (same_all_refl F) HG HL HP) as [r' [R1 R2]].
  rewrite HR in R1. injection R1 as <-. pose proof (query_good steps TheElement true F HG) as GA. rewrite HQ in R2, GA.
  cbn [denotes good_answer] in R2, GA.
  assert (HB : (blen (r_raw r) <= 10485760)%N).
  { pose proof (raw_length steps F kids r HG HQ R2). unfold blen in *. rewrite app_length in HL. lia. }
  destruct (map_query E kids r Ho R2 GA HB) as [m [M1 [M2 M3]]]. exists m. split; auto. split; auto.
  intros n Hn. specialize (M2 n Hn). destruct (map_get n m); auto. destruct M2 as [M4 M5]. split; auto.
  apply denotes_describes; auto.
  assert (K : Forall good (called (bytes_eqb n) (firstn 1000 (elems kids)))).
  { apply called_good. apply Forall_forall. intros y Hy. apply (fun h => proj1 (Forall_forall _ _) (good_elems _ GA) y h).
    rewrite <- (firstn_skipn 1000). apply in_or_app. now left. }
  revert K. generalize (called (bytes_eqb n) (firstn 1000 (elems kids))). intros l K. destruct K as [|a l K1 K2]; [exact I|].
  destruct K2 as [|b l K2 K3]; cbn [list_answer good_answer map]; auto using good_kids.
  constructor; auto using good_kids. constructor; auto using good_kids. apply Forall_map. eapply Forall_impl; [|exact K3].
  auto using good_kids.
Qed.
Print Assumptions C40_map.
Example C40_example :
  let steps := [(bs "r", None)] in
  good_tpath steps TheElement /\
  query true steps TheElement sample = Element (kids_of (hd (Text []) sample)) /\
  map_get (bs "d") [(bs "d", 1)] = Some 1 /\
  match get env0 (forest_text sample) (bs "r") with
  | Ok r => match r_map env0 r with
            | Ok m => bytes_eqb (match map_get (bs "a") m with Some x => r_string x | None => [] end)
                        (r_string (r_array [r_element []; r_element (bs " one t&amp;u")])) &&
                      bytes_eqb (match map_get (bs "d") m with Some x => r_string x | None => [] end) (bs "tail") &&
                      Nat.eqb (List.length m) 2
            | _ => false end
  | _ => false end = true.
Proof. cbv zeta. split; [apply tpath_b_ok; vm_compute; reflexivity|]. vm_compute. repeat split; reflexivity. Qed.

(** C42. A declaration, comments and a DOCTYPE in front of any document make no
    difference to any query. *)
Theorem C42_prolog : forall E p xml path, prolog p -> (blen (p ++ xml) <= 10485760)%N ->
  get E (p ++ xml) path = get E xml path.
Proof. intros E p xml path Hp HL. apply get_skip; auto using skippable_prolog. Qed.
Print Assumptions C42_prolog.
Example C42_example :
  prolog sample_prolog /\
  get env0 (sample_prolog ++ bs "<r><x>&e;</x></r>") (bs "r.x") = Ok (r_element (bs "&e;")) /\
  r_string (r_element (bs "&e;")) = bs "&e;".
Proof. split; [apply sample_prolog_ok|]. vm_compute. split; reflexivity. Qed.

(** C43. The kind, text, number and entries of an answer do not depend on the order in
    which the runtime enumerates attribute maps. *)
Theorem C43_order_independent : forall E1 E2 p F steps fin,
  (forall k l, Permutation l (e_ord E1 k l)) -> (forall k l, Permutation l (e_ord E2 k l)) ->
  prolog p -> Forall good F -> (blen (p ++ forest_text F) <= 10485760)%N -> good_tpath steps fin ->
  exists r1 r2, get E1 (p ++ forest_text F) (tpath steps fin) = Ok r1 /\
    get E2 (p ++ forest_text F) (tpath steps fin) = Ok r2 /\ alike r1 r2.
Proof.
  intros E1 E2 p F steps fin Ho1 Ho2 Hp HG HL HP.
  destruct (get_query_text E1 Ho1 p F F steps fin Hp (same_all_refl F) HG HL HP) as [r1 [R1 D1]].
  destruct (get_query_text E2 Ho2 p F F steps fin Hp (same_all_refl F) HG HL HP) as [r2 [R2 D2]].
  exists r1, r2. split; auto. split; auto. eapply denotes_alike; eauto. now apply query_good.
Qed.
Print Assumptions C43_order_independent.
(** Raw does depend on it: the attributes of nested elements come out in map order. *)
Definition env_rev : env :=
  mkEnv (fun _ l => rev l) (e_parse_float env0) (e_sort env0) (e_codec env0) (e_to_lower env0) (e_custom env0).
Theorem C43_raw_refuted : exists xml path,
  (forall k l, Permutation l (e_ord env0 k l)) /\ (forall k l, Permutation l (e_ord env_rev k l)) /\
  match get env0 xml path, get env_rev xml path with
  | Ok r1, Ok r2 => negb (bytes_eqb (r_raw r1) (r_raw r2)) && bytes_eqb (r_string r1) (r_string r2)
  | _, _ => false
  end = true.
Proof.
  exists (forest_text sample), (bs "r"). split; [intros k l; apply Permutation_refl|].
  split; [intros k l; apply Permutation_rev|]. vm_compute. reflexivity.
Qed.
Print Assumptions C43_raw_refuted.

(** C44. If Get(xml,p) is an element in which Get(q) finds something, then Get(xml,p.q)
    is the same in kind, text, number and entries. *)
Theorem C44_chained : forall E p F ps q fin r r2,
  (forall k l, Permutation l (e_ord E k l)) -> prolog p -> Forall good F ->
  (blen (p ++ forest_text F) + 29 <= 10485760)%N ->
  ps <> [] -> good_tpath ps TheElement -> good_tpath q fin -> no_array_start q fin ->
  (List.length (tpath_steps ps TheElement) + List.length (tpath_steps q fin) <= 100)%nat ->
  get E (p ++ forest_text F) (tpath ps TheElement) = Ok r ->
  r_get E r (tpath q fin) = Ok r2 -> r_exists r2 = true ->
  exists r3, get E (p ++ forest_text F) (tpath (ps ++ q) fin) = Ok r3 /\ alike r2 r3.
Proof.
  intros E p F ps q fin r r2 Ho Hp HG HL Hne HP HQ HN HLen HR HG2 HX.
  destruct (get_query_text E Ho p F F ps TheElement Hp (same_all_refl F) HG ltac:(lia) HP) as [r' [R1 R2]].
  rewrite HR in R1. injection R1 as <-.
  pose proof (element_only ps true F) as T. pose proof (query_good ps TheElement true F HG) as GA.
  destruct (query true ps TheElement F) as [|kids| | | |] eqn:Q; try contradiction.
  { cbn [denotes] in R2. subst r. cbn in HG2. injection HG2 as <-. discriminate. }
  cbn [denotes good_answer] in R2, GA.
  assert (PL : (0 < List.length (tpath_steps ps TheElement))%nat).
  { destruct ps as [|[n [ds|]] ps]; [easy| |]; unfold tpath_steps; cbn [flat_map tstep_steps app List.length]; lia. }
  assert (HB : (blen (r_raw r) + 29 <= 10485760)%N).
  { pose proof (raw_length ps F kids r HG Q R2). unfold blen in *. rewrite app_length in HL. lia. }
  destruct (r_get_query E Ho kids r q fin R2 GA HB HQ ltac:(lia)) as [r2' [X1 X2]].
  rewrite HG2 in X1. injection X1 as <-.
  assert (X3 : denotes (query false q fin kids) r2).
  { destruct (Nat.ltb _ 2); auto. now rewrite <- (query_top q fin kids HN). }
  assert (NN : query false q fin kids <> Nothing).
  { intros K. rewrite K in X3. cbn [denotes] in X3. subst r2. discriminate. }
  assert (MS : more_steps q fin).
  { destruct q; [|left; discriminate]. destruct HQ as [_ P2 _]. destruct fin; cbn [good_final] in P2; try tauto. now right. }
  assert (HPQ : good_tpath (ps ++ q) fin).
  { destruct HP as [A1 A2 A3]. destruct HQ as [B1 B2 B3]. constructor.
    - apply Forall_app. auto.
    - assert (NE : ps ++ q <> []) by (destruct ps; [easy|discriminate]).
      assert (EI : q <> [] -> ends_in_index (ps ++ q) -> ends_in_index q).
      { intros Hq0 [a [n [ds K]]]. destruct (exists_last Hq0) as [q' [x ->]]. rewrite app_assoc in K. apply app_inj_tail in K.
        destruct K as [_ ->]. exists q', n, ds. reflexivity. }
      destruct fin; cbn [good_final] in *; try tauto.
    - unfold tpath_steps in *. rewrite flat_map_app, !app_length in *. cbn [final_steps List.length] in HLen. lia. }
  destruct (get_query_text E Ho p F F (ps ++ q) fin Hp (same_all_refl F) HG ltac:(lia) HPQ) as [r3 [Y1 Y2]].
  exists r3. split; auto. rewrite (query_app_some ps q fin Hne MS true F kids Q NN) in Y2.
  eapply denotes_alike; eauto. now apply query_good.
Qed.
Print Assumptions C44_chained.
Example C44_example :
  let doc := sample_prolog ++ forest_text sample in
  good_tpath [(bs "r", None); (bs "a", Some (bs "1"))] TheElement /\
  good_tpath [(bs "b", None)] TheText /\ no_array_start [(bs "b", None)] TheText /\
  match get env0 doc (bs "r.a.1") with
  | Ok r => match r_get env0 r (bs "b.%") with Ok r2 => bytes_eqb (r_string r2) (bs "one") | _ => false end
  | _ => false end = true /\
  match get env0 doc (bs "r.a.1.b.%") with Ok r3 => bytes_eqb (r_string r3) (bs "one") | _ => false end = true.
Proof.
  cbv zeta. split; [apply tpath_b_ok; vm_compute; reflexivity|]. split; [apply tpath_b_ok; vm_compute; reflexivity|].
  split; [now right|]. split; vm_compute; reflexivity.
Qed.
