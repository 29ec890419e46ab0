(** C106: documents can be copied value by value. *)
From Coq Require Import List Ascii String NArith ZArith Bool Lia Permutation.
From Verif Require Import GoStr ModelParser ModelPath ModelResult ModelQuery ModelValidate ModelBuilder SpecText SpecPath SpecTree SpecQuery SpecEdit SpecContent SpecValid SpecMod SpecHistory SpecTable SpecStore SpecBudget SpecPart SpecFill
  ProofBase ProofTree ProofTree5 ProofTree7 ProofTree8 ProofEdit ProofEdit2 ProofEdit5 ProofEdit6 ProofEdit8 ProofEdit9 ProofStore ProofBudget ProofFill SpecApi PropApi PropTree PropEdit PropHistory PropStore.
Import ListNotations.
Open Scope nat_scope.

(** C106. In the document every element is told from its siblings by its name.  A program
    goes through all texts and attributes in the order of the document and writes each of
    them to a new document, which is empty at first, with
    Set(new, path, Get(old, path).String()).  No call fails, and the new document is the
    old one again, with the attributes of an element in some order: it is valid and answers
    every query like the old one. *)
Theorem C106_copy : forall E fmt_g t, (forall k l, Permutation l (e_ord E k l)) -> well t -> depth t < 100 ->
  let src := forest_text [node_of t] in (N.of_nat (List.length src) <= 10485760)%N ->
  exists G, copy_all E fmt_g src (places t) [] = Ok (forest_text G, None) /\ Forall2 same [node_of t] G /\ valid (forest_text G) = true /\
    forall steps fin, good_tpath steps fin ->
      exists r r', get E src (tpath steps fin) = Ok r /\ get E (forest_text G) (tpath steps fin) = Ok r' /\ SpecQuery.alike r r'.
Proof.
  intros E g t Ho W DP src Z. pose proof (node_good t W) as GN. assert (GF : Forall good [node_of t]) by (constructor; [exact GN|constructor]).
  assert (ZB : (blen src <= 10485760)%N) by exact Z. pose proof (script_fair t W) as SF.
  rewrite (copy_calls E g Ho [node_of t] (places t) (script t) (depth t) GF ZB DP (script_tells t W) SF).
  pose proof (script_grows t W [] eq_refl) as GR. rewrite full_nil in GR. cbn [app Nat.add] in GR. destruct (script_head t W) as (k & v & ops & Q). rewrite Q in GR, SF |- *.
  inversion SF as [|? ? S1 S2]; subst. pose proof (fair_legal _ _ S1 DP) as L1. inversion GR as [|? ? ? F1 ? A1 E1 Z1 H1]; subst.
  assert (Q1 : Some F1 = Some (chain_of (label t :: k) v)) by (rewrite <- (create k v (label t) [] eq_refl : _ = Some (chain_of (label t :: k) v)); symmetry; exact A1). injection Q1 as ->.
  assert (FT : full [node_of t] = List.length src) by (rewrite full_text_eq; unfold src; cbn [forest_text flat_map]; now rewrite app_nil_r).
  assert (LO : Forall legal ops) by (eapply Forall_impl; [|exact S2]; intros o F; now apply (fair_legal o (depth t))).
  assert (HH : history [] ops (chain_of (label t :: k) v) [node_of t]) by (eapply grows_history; [exact H1|exact LO|cbn [List.length Nat.add]; rewrite FT; exact Z]).
  destruct L1 as [GT [XN0 [[_ CZ] HT]]]. assert (XN : Forall xml_name (label t :: k)) by (rewrite <- (by_name_fst (label t :: k)); exact XN0). cbn [content_nodes forest_text flat_map node_text] in CZ. rewrite app_nil_r in CZ.
  assert (RM : room [] (chain_of (label t :: k) v)).
  { split; [exact E1|]. pose proof (full_ge (chain_of (label t :: k) v)). cbn [app]. lia. }
  assert (SH : shallow (chain_of (label t :: k) v)).
  { eapply C21_edit_keeps_shallow; [|exact A1|constructor]. apply (fair_legal _ _ S1 DP). }
  pose proof (chain_good (label t :: k) v XN) as CG. pose proof (chain_top (label t :: k) v ltac:(discriminate)) as CT.
  destruct (C47_history E g [] _ ops [node_of t] Ho pro_nil sp_nil CG CT SH RM HH) as (G & C & SM & V & _). cbn [app] in C, V.
  exists G. split; [|split; [exact SM|split; [exact V|]]].
  - destruct (C04_create_document E g (label t) k v Ho GT CZ) as [S _]. cbv zeta in S. cbn [calls call set_content]. rewrite S. exact C.
  - intros steps fin GP.
    destruct (get_query_text E Ho [] [node_of t] [node_of t] steps fin pro_nil (same_all_refl _) GF ZB GP) as (r & R1 & R2).
    destruct (get_query_text E Ho [] [node_of t] G steps fin pro_nil SM GF (valid_size _ V) GP) as (r' & R1' & R2').
    exists r, r'. split; [exact R1|]. split; [exact R1'|]. eapply denotes_alike; eauto. now apply query_good.
Qed.
Print Assumptions C106_copy.
(** Where no element has more than one attribute the copy is the same text. *)
Theorem C106_exact : forall E fmt_g t, (forall k l, Permutation l (e_ord E k l)) -> well t -> depth t < 100 -> few t ->
  let src := forest_text [node_of t] in (N.of_nat (List.length src) <= 10485760)%N -> copy_all E fmt_g src (places t) [] = Ok (src, None).
Proof.
  intros E g t Ho W DP FW src Z. destruct (C106_copy E g t Ho W DP Z) as (G & C & S & _). inversion S as [|? nd ? ? S1 S2]; subst. inversion S2; subst.
  rewrite (few_exact t nd FW S1) in C. exact C.
Qed.
Print Assumptions C106_exact.

(** GetMany and SetMany do all of it in two calls. *)
Lemma copy_chain : forall E fmt_g src ps d0 d, copy_all E fmt_g src ps d0 = Ok (d, None) ->
  exists rs, get_many E src (map place_path ps) = Ok rs /\ List.length rs = List.length ps /\
    chain (set_step E fmt_g) d0 (combine (map place_path ps) (map (fun r => VStr (r_string r)) rs)) d.
Proof.
  intros E g src. induction ps as [|p ps IH]; intros d0 d H; cbn [copy_all map get_many] in *.
  - injection H as ->. exists []. repeat split. constructor.
  - destruct (get E src (place_path p)) as [r| |]; cbn [bind] in *; try discriminate.
    destruct (set E g d0 (place_path p) (VStr (r_string r))) as [[d1 [e|]]| |] eqn:S; cbn [bind] in *; try discriminate.
    destruct (IH d1 d H) as (rs & G & L & C). rewrite G. cbn [bind]. exists (r :: rs). split; [reflexivity|]. split; [cbn [List.length]; now rewrite L|].
    cbn [map combine]. econstructor; [exact S|exact C].
Qed.
Theorem C106_at_once : forall E fmt_g t, (forall k l, Permutation l (e_ord E k l)) -> well t -> depth t < 100 ->
  let src := forest_text [node_of t] in (N.of_nat (List.length src) <= 10485760)%N -> let paths := map place_path (places t) in
  exists rs G, get_many E src paths = Ok rs /\ set_many E fmt_g [] paths (map (fun r => VStr (r_string r)) rs) = Ok (forest_text G, None) /\
    Forall2 same [node_of t] G /\ (few t -> forest_text G = src).
Proof.
  intros E g t Ho W DP src Z paths. destruct (C106_copy E g t Ho W DP Z) as (G & C & S & _). destruct (copy_chain E g _ _ _ _ C) as (rs & G1 & L & CH).
  exists rs, G. split; [exact G1|]. split; [|split; [exact S|]].
  - apply C10_set_many_success. split; [apply N.le_0_l|]. split; [unfold paths; now rewrite !map_length|exact CH].
  - intros FW. inversion S as [|? nd ? ? S1 S2]; subst. inversion S2; subst. now rewrite (few_exact t nd FW S1).
Qed.
Print Assumptions C106_at_once.

Definition settings : data :=
  Group (bs "config") [(bs "v", bs "1"); (bs "by", bs "a<b")]
    [Group (bs "net") [] [Leaf (bs "host.name") [(bs "tls", bs " yes ")] (bs "x & y"); Leaf (bs "port") [] (bs "80")];
     Leaf (bs "note") [] []].
Example C106_example : well settings /\ depth settings = 3 /\
  copy_all env0 (fun _ => []) (forest_text [node_of settings]) (places settings) [] =
    Ok (bs "<config by=""a&lt;b"" v=""1""><net><host.name tls="" yes "">x &amp; y</host.name><port>80</port></net><note></note></config>", None) /\
  forest_text [node_of settings] =
    bs "<config v=""1"" by=""a&lt;b""><net><host.name tls="" yes "">x &amp; y</host.name><port>80</port></net><note></note></config>".
Proof.
  assert (L : forall n, In n [bs "config"; bs "net"; bs "host.name"; bs "port"; bs "note"] -> label_ok n).
  { intros n I. assert (T : good_tpath (by_name [n]) TheElement /\ xml_name n /\ split_colon n = None).
    { repeat (destruct I as [<-|I]; [split; [apply tpath_b_ok; vm_compute; reflexivity|split; [apply xml_name_b_ok; vm_compute; reflexivity|vm_compute; reflexivity]]|]). destruct I. }
    destruct T as (T & X & S). split; [exact X|]. split; [|exact S]. pose proof (gt_steps _ _ T) as F. inversion F as [|? ? [H _] _]; subst. exact H. }
  split.
  { unfold settings. apply well_group; [apply L; cbn; tauto|apply attrs_b_ok; vm_compute; reflexivity|discriminate| |].
    - constructor; [|constructor; [|constructor]].
      + apply well_group; [apply L; cbn; tauto|apply attrs_b_ok; vm_compute; reflexivity|discriminate| |].
        * constructor; [|constructor; [|constructor]]; (apply well_leaf; [apply L; cbn; tauto|apply attrs_b_ok; vm_compute; reflexivity|vm_compute; reflexivity|vm_compute; discriminate]).
        * repeat (apply NoDup_cons; [intros I; cbn in I; intuition discriminate|]). apply NoDup_nil.
      + apply well_leaf; [apply L; cbn; tauto|apply attrs_b_ok; vm_compute; reflexivity|vm_compute; reflexivity|vm_compute; discriminate].
    - repeat (apply NoDup_cons; [intros I; cbn in I; intuition discriminate|]). apply NoDup_nil. }
  split; [reflexivity|]. split; vm_compute; reflexivity.
Qed.
(** White space around a text is lost (String trims it), and siblings with the same name
    become one. *)
Theorem C106_blanks_refuted : exists t d, t = Group (bs "r") [] [Leaf (bs "a") [] (bs " x ")] /\
  copy_all env0 (fun _ => []) (forest_text [node_of t]) (places t) [] = Ok (d, None) /\ d <> forest_text [node_of t].
Proof. exists (Group (bs "r") [] [Leaf (bs "a") [] (bs " x ")]), (bs "<r><a>x</a></r>"). split; [reflexivity|]. split; [vm_compute; reflexivity|vm_compute; discriminate]. Qed.
Print Assumptions C106_blanks_refuted.
Theorem C106_repeated_refuted : exists t d, t = Group (bs "r") [] [Leaf (bs "a") [] (bs "1"); Leaf (bs "a") [] (bs "2")] /\
  copy_all env0 (fun _ => []) (forest_text [node_of t]) (places t) [] = Ok (d, None) /\ d = bs "<r><a>1</a></r>".
Proof. eexists _, _. split; [reflexivity|]. split; [vm_compute; reflexivity|reflexivity]. Qed.
Print Assumptions C106_repeated_refuted.
