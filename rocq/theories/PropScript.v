(** C97: edits can turn any element into any other of its name. *)
From Coq Require Import List Ascii String NArith ZArith Bool Lia Permutation.
From Verif Require Import GoStr ModelParser ModelPath ModelResult ModelQuery ModelValidate ModelBuilder SpecText SpecPath SpecTree SpecQuery SpecEdit SpecContent SpecValid SpecHistory SpecTable SpecStore SpecBudget SpecScript
  ProofBase ProofTree ProofTree5 ProofTree8 ProofEdit ProofEdit2 ProofEdit5 ProofEdit6 ProofEdit8 ProofEdit9 ProofEdit11 ProofBudget ProofScript PropTree PropEdit PropHistory PropStore PropBudget.
Import ListNotations.
Open Scope nat_scope.

(** C97: a SetRaw of the content, a Delete for every attribute that is not wanted and a Set
    for every other one make of the element a path leads to the one that is wanted and
    leave everything around it as it is. The document reads like that forest from then on. *)
Theorem C97_transform : forall E fmt_g p F s A n a kids B b K,
  (forall k l, Permutation l (e_ord E k l)) -> prolog p -> strict_prolog p ->
  Forall good F -> Forall top_node F -> shallow F -> has_element F ->
  located s F A (Elem n a false kids) B -> good_attrs b -> Forall good K -> Forall legal (script s a b K) ->
  (N.of_nat (List.length p + full F + spend_all (script s a b K)) <= 10485760)%N ->
  exists F' G, calls E fmt_g (script s a b K) (p ++ forest_text F) = Ok (p ++ forest_text G, None) /\
    located s F' A (Elem n b false K) B /\ Forall2 same F' G /\ valid (p ++ forest_text G) = true /\
    forall steps fin, good_tpath steps fin ->
      exists r, get E (p ++ forest_text G) (tpath steps fin) = Ok r /\ describes r (query true steps fin F').
Proof.
  intros E g p F s A n a kids B b K Ho Hp SP HG HT HS HE L GB GK LG Z.
  destruct (script_leads s F A n a kids B b K L HG GB GK LG) as (F1 & b' & LD & L1 & G1 & P).
  pose proof (full_ge F) as Y. assert (R : room p F) by (split; [exact HE|rewrite app_length; lia]).
  destruct (C47_history E g p F _ F1 Ho Hp SP HG HT HS R (leads_history _ _ _ _ LD Z)) as (G & C & S & V & _).
  destruct (located_order s F1 A n b b' K B L1 G1 P) as (F2 & L2 & S2 & G2). pose proof (same_all_trans _ _ _ S2 S) as S3.
  exists F2, G. split; [exact C|]. split; [exact L2|]. split; [exact S3|]. split; [exact V|]. intros steps fin GT.
  destruct (get_query_text E Ho p F2 G steps fin Hp S3 G2 (valid_size _ V) GT) as [r [R1 R2]]. exists r. split; auto.
  apply denotes_describes; auto. now apply query_good.
Qed.
Print Assumptions C97_transform.

(** An element written with one tag can be changed too, after a child of any name was set in
    it: that gives it two tags. *)
Theorem C97_transform_closed : forall E fmt_g p F s A n a B m b K,
  (forall k l, Permutation l (e_ord E k l)) -> prolog p -> strict_prolog p ->
  Forall good F -> Forall top_node F -> shallow F -> has_element F ->
  located s F A (Elem n a true []) B -> good_attrs b -> Forall good K -> Forall legal (open_script s m a b K) ->
  (N.of_nat (List.length p + full F + spend_all (open_script s m a b K)) <= 10485760)%N ->
  exists F' G, calls E fmt_g (open_script s m a b K) (p ++ forest_text F) = Ok (p ++ forest_text G, None) /\
    located s F' A (Elem n b false K) B /\ Forall2 same F' G /\ valid (p ++ forest_text G) = true /\
    forall steps fin, good_tpath steps fin ->
      exists r, get E (p ++ forest_text G) (tpath steps fin) = Ok r /\ describes r (query true steps fin F').
Proof.
  intros E g p F s A n a B m b K Ho Hp SP HG HT HS HE L GB GK LG Z.
  destruct (open_script_leads s F A n a B m b K L HG HT GB GK LG) as (F1 & b' & LD & L1 & G1 & P).
  pose proof (full_ge F) as Y. assert (R : room p F) by (split; [exact HE|rewrite app_length; lia]).
  destruct (C47_history E g p F _ F1 Ho Hp SP HG HT HS R (leads_history _ _ _ _ LD Z)) as (G & C & S & V & _).
  destruct (located_order s F1 A n b b' K B L1 G1 P) as (F2 & L2 & S2 & G2). pose proof (same_all_trans _ _ _ S2 S) as S3.
  exists F2, G. split; [exact C|]. split; [exact L2|]. split; [exact S3|]. split; [exact V|]. intros steps fin GT.
  destruct (get_query_text E Ho p F2 G steps fin Hp S3 G2 (valid_size _ V) GT) as [r [R1 R2]]. exists r. split; auto.
  apply denotes_describes; auto. now apply query_good.
Qed.
Print Assumptions C97_transform_closed.

(** Starting from no document at all every document of one element can be written: its
    content by the first call, its attributes by the others. *)
Theorem C97_from_nothing : forall E fmt_g n b K,
  (forall k l, Permutation l (e_ord E k l)) -> good (Elem n b false K) -> Forall legal (script [(n, None)] [] b K) ->
  (N.of_nat (full [Elem n [] false K] + spend_all (map (fun q => SetAttr [(n, None)] (fst q) (snd q)) b)) <= 10485760)%N ->
  exists nd, calls E fmt_g (script [(n, None)] [] b K) [] = Ok (node_text nd, None) /\ same (Elem n b false K) nd /\
    valid (node_text nd) = true /\
    forall steps fin, good_tpath steps fin ->
      exists r, get E (node_text nd) (tpath steps fin) = Ok r /\ describes r (query true steps fin [Elem n b false K]).
Proof.
  intros E g n b K Ho GE LG Z. inversion GE as [? ? ? ? GN GB GS GK| |]; subst. unfold script in LG. inversion LG as [|? ? L1 L2]; subst. cbn [unwanted map filter app] in L2.
  pose proof L1 as (GT & XN & GC & HH). cbn [content_nodes List.length] in HH. set (F := [Elem n [] false K]) in *.
  assert (G0 : good (Elem n [] false K)) by (apply good_elem; auto; [split; [cbn; lia|constructor|constructor|constructor]]).
  assert (HG : Forall good F) by (constructor; [exact G0|constructor]).
  assert (HT : Forall top_node F) by (constructor; [exact I|constructor]).
  assert (HS : shallow F) by (constructor; [|constructor]; apply (depth_elem 99); eapply Forall_impl; [|apply height_depth]; cbv beta; intros; lia).
  assert (HE : has_element F) by (eexists _, _, _, _; left; reflexivity).
  assert (D : NoDup (map fst b)) by apply (ga_distinct _ GB).
  assert (PF : forall b1 b2, b = b1 ++ b2 -> List.length (put_all b1 []) <= 100).
  { intros b1 b2 Q. eapply Nat.le_trans; [|apply (ga_count _ GB)]. rewrite <- (map_length fst), <- (map_length fst b). apply NoDup_incl_length; [apply put_all_nodup; constructor|].
    intros k I. apply put_all_keys in I as [I|I]; [rewrite Q, map_app; apply in_or_app; now left|contradiction]. }
  pose proof (settings_root n K b [] G0 L2 PF) as LD. fold F in LD.
  assert (P : Permutation b (put_all b [])) by (apply put_all_perm; auto; [constructor|intros x []]).
  assert (S2 : Forall2 same [Elem n b false K] [Elem n (put_all b []) false K]) by (constructor; [constructor; [exact P|apply same_all_refl]|constructor]).
  assert (R : room [] F) by (split; [exact HE|pose proof (full_ge F); cbn [app]; lia]).
  destruct (C47_history E g [] F _ _ Ho pro_nil sp_nil HG HT HS R (leads_history [] _ _ _ LD Z)) as (G & C & S & V & _). cbn [app] in C, V.
  pose proof (same_all_trans _ _ _ S2 S) as S3.  inversion S3 as [|? nd ? G' SN SR]; subst. inversion SR; subst. rewrite forest_one in C, V.
  exists nd. split; [|split; [exact SN|split; [exact V|]]].
  - unfold script. cbn [calls]. rewrite (create_root E g Ho n (AsForest K) GT GC). cbn [content_nodes unwanted map filter app]. exact C.
  - intros steps fin GP. assert (V' : valid ([] ++ forest_text [nd]) = true) by (cbn [app]; now rewrite forest_one).
    destruct (get_query_text E Ho [] [Elem n b false K] [nd] steps fin pro_nil S3 (Forall_cons _ GE (Forall_nil _)) (valid_size _ V') GP) as [r [R1 R2]]. cbn [app] in R1. rewrite forest_one in R1. exists r. split; auto.
    apply denotes_describes; auto. apply query_good. constructor; [exact GE|constructor].
Qed.
Print Assumptions C97_from_nothing.

(** One book of three becomes another one; the others keep their bytes. *)
Definition shelf : list node :=
  [Elem (bs "lib") [(bs "v", bs "1")] false
     [Elem (bs "book") [(bs "id", bs "1")] false [Text (bs "x")];
      Elem (bs "book") [(bs "id", bs "2"); (bs "lang", bs "en")] false [Elem (bs "t") [] false [Text (bs "old")]];
      Elem (bs "book") [] true []]].
Definition second_book : list tstep := [(bs "lib", None); (bs "book", Some (bs "1"))].
Definition new_attrs : list (bytes * bytes) := [(bs "isbn", bs "9 <&> 7"); (bs "id", bs "22")].
Definition new_content : list node := [Elem (bs "t") [(bs "k", bs "v")] false [Text (bs "new")]; Text (bs " & more"); Elem (bs "u") [] true []].
Example C97_example :
  good_b (hd (Text []) shelf) = true /\ has_element shelf /\ shallow shelf /\
  located second_book shelf (bs "<lib v=""1""><book id=""1"">x</book>")
    (Elem (bs "book") [(bs "id", bs "2"); (bs "lang", bs "en")] false [Elem (bs "t") [] false [Text (bs "old")]]) (bs "<book/></lib>") /\
  good_attrs new_attrs /\ Forall good new_content /\
  Forall legal (script second_book [(bs "id", bs "2"); (bs "lang", bs "en")] new_attrs new_content) /\
  full shelf + spend_all (script second_book [(bs "id", bs "2"); (bs "lang", bs "en")] new_attrs new_content) < 400 /\
  calls env0 (fun _ => []) (script second_book [(bs "id", bs "2"); (bs "lang", bs "en")] new_attrs new_content) (forest_text shelf) =
    Ok (bs "<lib v=""1""><book id=""1"">x</book><book id=""22"" isbn=""9 &lt;&amp;&gt; 7""><t k=""v"">new</t> & more<u/></book><book/></lib>", None).
Proof.
  split; [vm_compute; reflexivity|]. split; [eexists _, _, _, _; left; reflexivity|]. split; [repeat constructor; vm_compute; lia|].
  split. { apply (loc_down (bs "lib") None [(bs "book", Some (bs "1"))] [] (bs "lib") [(bs "v", bs "1")] _ [] (bs "<book id=""1"">x</book>") _ (bs "<book/>")); [reflexivity|reflexivity|].
    apply (loc_here (bs "book") (Some (bs "1")) [Elem (bs "book") [(bs "id", bs "1")] false [Text (bs "x")]] _ [Elem (bs "book") [] true []]); reflexivity. }
  split; [apply attrs_b_ok; vm_compute; reflexivity|]. split; [apply forest_b_ok; vm_compute; reflexivity|].
  split; [cbn [script unwanted map filter app negb existsb fst snd new_attrs]; vm_compute (filter _ _); cbn [map app]; repeat (apply Forall_cons; [legal_op|]); apply Forall_nil|].
  split; [vm_compute; lia|]. vm_compute. reflexivity.
Qed.
(** The third book, which has one tag. *)
Definition third_book : list tstep := [(bs "lib", None); (bs "book", Some (bs "2"))].
Example C97_closed_example :
  located third_book shelf (bs "<lib v=""1""><book id=""1"">x</book><book id=""2"" lang=""en""><t>old</t></book>") (Elem (bs "book") [] true []) (bs "</lib>") /\
  Forall legal (open_script third_book (bs "tmp") [] new_attrs new_content) /\
  full shelf + spend_all (open_script third_book (bs "tmp") [] new_attrs new_content) < 500 /\
  calls env0 (fun _ => []) (open_script third_book (bs "tmp") [] new_attrs new_content) (forest_text shelf) =
    Ok (bs "<lib v=""1""><book id=""1"">x</book><book id=""2"" lang=""en""><t>old</t></book><book id=""22"" isbn=""9 &lt;&amp;&gt; 7""><t k=""v"">new</t> & more<u/></book></lib>", None).
Proof.
  split. { apply (loc_down (bs "lib") None [(bs "book", Some (bs "2"))] [] (bs "lib") [(bs "v", bs "1")] _ [] (bs "<book id=""1"">x</book><book id=""2"" lang=""en""><t>old</t></book>") _ []); [reflexivity|reflexivity|].
    apply (loc_here (bs "book") (Some (bs "2")) [Elem (bs "book") [(bs "id", bs "1")] false [Text (bs "x")]; Elem (bs "book") [(bs "id", bs "2"); (bs "lang", bs "en")] false [Elem (bs "t") [] false [Text (bs "old")]]] _ []); reflexivity. }
  split; [unfold open_script, script, new_attrs; cbn [unwanted map filter app fst snd]; repeat (apply Forall_cons; [legal_op|]); apply Forall_nil|].
  split; [vm_compute; lia|]. vm_compute. reflexivity.
Qed.
(** A whole file from nothing. *)
Example C97_nothing_example :
  good (Elem (bs "cfg") new_attrs false new_content) /\ Forall legal (script [(bs "cfg", None)] [] new_attrs new_content) /\
  full [Elem (bs "cfg") [] false new_content] + spend_all (map (fun q => SetAttr [(bs "cfg", None)] (fst q) (snd q)) new_attrs) < 300 /\
  calls env0 (fun _ => []) (script [(bs "cfg", None)] [] new_attrs new_content) [] =
    Ok (bs "<cfg id=""22"" isbn=""9 &lt;&amp;&gt; 7""><t k=""v"">new</t> & more<u/></cfg>", None).
Proof.
  split; [apply good_b_ok; vm_compute; reflexivity|].
  split; [unfold script, new_attrs; cbn [unwanted map filter app fst snd]; repeat (apply Forall_cons; [legal_op|]); apply Forall_nil|].
  split; [vm_compute; lia|]. vm_compute. reflexivity.
Qed.
