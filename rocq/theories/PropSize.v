(** C21, C06: edits that make a document longer. *)
From Coq Require Import List Ascii String NArith ZArith Bool Lia Permutation.
From Verif Require Import GoStr ModelParser ModelPath ModelResult ModelQuery ModelValidate ModelQueryOpts ModelBuilder ModelApi SpecText SpecPath SpecTree SpecQuery SpecValid SpecEdit SpecContent SpecHistory
  ProofBase ProofPath ProofTree ProofTree8 ProofEdit7 PropTree PropValid PropEdit PropApi.
Import ListNotations.

(** C21. Set does not look at the size of the document it returns: when the new content makes
    the document longer than 10 MiB, Set succeeds all the same, and with the document it returns
    nothing can be done any more. *)
Theorem C21_outgrown : forall E fmt_g p F steps A n a kids B v xv,
  (forall k l, Permutation l (e_ord E k l)) -> prolog p -> Forall good F -> valid (p ++ forest_text F) = true ->
  good_tpath steps TheElement -> located steps F A (Elem n a false kids) B -> written fmt_g v xv -> (blen xv <= 5242880)%N ->
  (10485760 < blen (p ++ A ++ start_tag n a false ++ xv ++ end_tag n ++ B))%N ->
  exists new, set E fmt_g (p ++ forest_text F) (tpath steps TheElement) v = Ok (new, None) /\ valid new = false /\
  (forall E' o path, get E' new path = Ok r_null /\ get_opts E' o new path = Ok r_null) /\
  (forall E' g o path w, set_opts E' g o new path w = Ok (new, Some ErrMalformedXML)) /\
  (forall E' o path, delete_opts E' o new path = Ok (new, Some ErrMalformedXML)).
Proof.
  intros E fmt_g p F steps A n a kids B v xv P Hp G V T L W S Z. eexists. split; [eapply C03_set_value; eauto|].
  split. { match goal with |- valid ?d = false => destruct (valid d) eqn:Q; auto; apply C18_limits in Q as (_ & Q & _); unfold blen in Z; lia end. }
  split; [intros; now apply C41_get_oversize|]. split; intros; [apply C13_set_refuses|apply C13_delete_refuses]; now left.
Qed.
Print Assumptions C21_outgrown.

(** A document of exactly 10 MiB, and a value of 5 bytes instead of one of 1 byte. *)
Definition big (t : bytes) : list node := [Elem (bs "r") [] false [Elem (bs "a") [] false [Text t]; Elem (bs "b") [] false [Text (bs "y")]]].
Lemma big_good : forall t, no_angle t -> Forall good (big t).
Proof.
  intros t H. assert (X : forall n, xml_name_b n = true -> forall k, Forall good k -> good (Elem n [] false k)).
  { intros n N k K. constructor; auto; [now apply xml_name_b_ok|apply attrs_b_ok; reflexivity|discriminate]. }
  unfold big. repeat (apply Forall_cons || apply Forall_nil || (apply X; [reflexivity|])); constructor; auto; apply no_angle_b_ok; reflexivity.
Qed.
Lemma big_text : forall t, forest_text (big t) = bs "<r><a>" ++ t ++ bs "</a><b>y</b></r>".
Proof. intros t. unfold big, forest_text. cbn [flat_map node_text]. rewrite <- !app_assoc. reflexivity. Qed.
Lemma big_located : forall t, located [(bs "r", None); (bs "b", None)] (big t) (bs "<r><a>" ++ t ++ bs "</a>") (Elem (bs "b") [] false [Text (bs "y")]) (bs "</r>").
Proof.
  intros t. pose proof (loc_here (bs "b") None [Elem (bs "a") [] false [Text t]] (Elem (bs "b") [] false [Text (bs "y")]) [] eq_refl eq_refl) as H.
  pose proof (loc_down (bs "r") None _ [] (bs "r") [] _ [] _ _ _ eq_refl eq_refl H) as H'.
  replace (bs "<r><a>" ++ t ++ bs "</a>") with (forest_text [] ++ start_tag (bs "r") [] false ++ forest_text [Elem (bs "a") [] false [Text t]])
    by (cbn [forest_text flat_map node_text app]; rewrite !app_nil_r; reflexivity). exact H'.
Qed.
Theorem C21_limit_refuted : exists xml path v new, valid xml = true /\ set env0 (fun _ => []) xml path (VStr v) = Ok (new, None) /\
  List.length v = 5 /\ valid new = false /\ forall path', get env0 new path' = Ok r_null.
Proof.
  set (t := repeat "x"%char (N.to_nat 10485738)).
  assert (LT : blen t = 10485738%N) by (unfold blen, t; rewrite repeat_length; apply N2Nat.id).
  assert (NT : no_angle t) by (split; intros IC; apply repeat_spec in IC; discriminate).
  clearbody t.
  assert (V : valid ([] ++ forest_text (big t)) = true).
  { apply C17_canonical; [constructor|now apply big_good|repeat constructor|eexists _, _, _, _; now left|repeat constructor; cbn; lia|].
    cbn [app]. rewrite big_text, !app_length. unfold blen in LT. change (List.length (bs "<r><a>")) with 6. change (List.length (bs "</a><b>y</b></r>")) with 16. lia. }
  assert (T : good_tpath [(bs "r", None); (bs "b", None)] TheElement) by (apply tpath_b_ok; vm_compute; reflexivity).
  assert (Z : (10485760 < blen ([] ++ (bs "<r><a>" ++ t ++ bs "</a>") ++ start_tag (bs "b") [] false ++ bs "hello" ++ end_tag (bs "b") ++ bs "</r>"))%N).
  { unfold blen in *. cbn [app]. rewrite !app_length. change (List.length (bs "<r><a>")) with 6. change (List.length (bs "</a>")) with 4.
    change (List.length (start_tag (bs "b") [] false)) with 3. change (List.length (bs "hello")) with 5. change (List.length (end_tag (bs "b"))) with 4. change (List.length (bs "</r>")) with 4. lia. }
  destruct (C21_outgrown env0 (fun _ => []) [] (big t) [(bs "r", None); (bs "b", None)] _ _ _ _ _ (VStr (bs "hello")) (bs "hello")
    ltac:(intros; apply Permutation_refl) pro_nil (big_good _ NT) V T (big_located t) (wr_str (fun _ => []) (bs "hello")) ltac:(vm_compute; discriminate) Z) as (new & S & IV & Q & _).
  exists (forest_text (big t)), (bs "r.b"), (bs "hello"), new. split; [exact V|]. split; [exact S|]. split; [reflexivity|]. split; [exact IV|]. intros path'. apply (Q env0 default_options).
Qed.
Print Assumptions C21_limit_refuted.

(** C06. Deleting an attribute can make the document longer: the attributes that stay are
    written anew, with quotes escaped that were not. *)
Theorem C06_longer_refuted : exists xml path new, valid xml = true /\ delete env0 xml path = Ok (new, None) /\ List.length xml < List.length new.
Proof.
  exists (bs "<r a='""""""""""""' b='1'/>"), (bs "r.@b"), (bs "<r a=""&quot;&quot;&quot;&quot;&quot;&quot;""/>").
  split; [vm_compute; reflexivity|]. split; [vm_compute; reflexivity|]. cbn; lia.
Qed.
Print Assumptions C06_longer_refuted.
