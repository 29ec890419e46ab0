(** C111 for the whole query language. *)
From Coq Require Import List Ascii String NArith ZArith Bool Lia Permutation.
From Verif Require Import GoStr ModelParser ModelPath ModelResult ModelQuery ModelValidate ModelBuilder SpecText SpecPath SpecTree SpecQuery SpecEdit SpecContent SpecValid SpecHistory SpecFilter SpecLang SpecLaid SpecInquiry
  ProofBase ProofEscape ProofTree ProofTree8 ProofEdit ProofEdit2 ProofEdit5 ProofEdit8 ProofEdit9 ProofEdit10 ProofEdit11 ProofLang ProofLang3 ProofLang5 ProofNotation ProofNotation2 ProofLaid ProofLaid6 ProofInquiry PropTree PropValid PropLang PropStore.
Import ListNotations.
Open Scope nat_scope.

(** C111. The same for programs that ask with every query of the language: filters,
    wildcards, descendants and fields, on trees of fewer than 9999 elements. *)
Theorem C111_language : forall E fmt_g sat p F s x A (P : inquirer A) a F',
  (forall k l, Permutation l (e_ord E k l)) -> (forall c nd, good nd -> (sat c nd = true <-> true_of (e_parse_float E) c nd)) -> prolog p -> strict_prolog p ->
  Forall good F -> Forall top_node F -> shallow F -> spacious p s F -> laid_all true s F x -> worked sat (spacious p s) P F a F' ->
  exists G y, works E fmt_g P (p ++ x) = Ok (Some a, p ++ y) /\ Forall2 same F' G /\ laid_all true s G y /\ valid (p ++ y) = true.
Proof.
  intros E g sat p F s x A P a F' Ho Hs Hp SP HG HT HS HE HL H.
  destruct (inquiry_ok E g Ho sat Hs p Hp SP s A P F a F' H F x HG HT HS HE (same_all_refl F) HL) as (G & y & C & S & L & G' & T' & S' & E'). exists G, y.
  split; [exact C|]. split; [exact S|]. split; [exact L|]. apply (laid_valid p G y s); auto; [eapply same_good_all; eauto|eapply same_top; eauto|eapply same_shallow; eauto|eapply same_spacious; eauto].
Qed.
Print Assumptions C111_language.
(** On the tree every question has exactly one answer. *)
Theorem C111_findings : forall a, exists n, finds a n /\ forall m, finds a m -> m = n.
Proof. intros a. destruct (finds_some a) as [n T]. exists n. split; [exact T|]. intros m T'. now apply (finds_fun a). Qed.
Print Assumptions C111_findings.

(** The dear item is noted and taken out; the program tells which items are left at any
    depth. *)
Definition q_dear := [Child (bs "shop") Leading; Child (bs "item") (Where dear true)].
Definition q_left := [Descendant (Some (bs "item"))].
Definition at_dear : list tstep := [(bs "shop", None); (bs "item", Some (bs "1"))].
Definition at_log := by_name [bs "shop"; bs "log"].
Definition clear_dear : inquirer findings :=
  Inquire q_dear (EAttr (bs "id")) (fun n =>
    match n with
    | Found i => if bytes_eqb i (bs "2") then Act (SetText at_log (bs "out: " ++ i)) (Act (Remove at_dear) (Inquire q_left (EAttr (bs "id")) (fun k => Halt k))) else Halt n
    | _ => Halt n
    end).
Definition cleared : bytes :=
  bs "<shop><item id=""1""><name>pen</name><price>3</price><tag>red</tag><tag>new</tag></item><box><item id=""3""><name>cup</name><price>7</price></item></box><log>out: 2</log></shop>".
Example C111_language_example :
  Forall good shop /\ Forall top_node shop /\ shallow shop /\ spacious sample_prolog 0 shop /\ laid_all true 0 shop (forest_text shop) /\
  (exists F', worked (decide_sat env0) (spacious sample_prolog 0) clear_dear shop (FoundAll [bs "1"; bs "3"]) F') /\
  works env0 (fun _ => []) clear_dear (sample_prolog ++ forest_text shop) = Ok (Some (FoundAll [bs "1"; bs "3"]), sample_prolog ++ cleared).
Proof.
  split; [exact shop_good|]. split; [repeat constructor|]. split; [exact shop_shallow|].
  assert (SP : forall F, existsb is_elem F = true -> (N.of_nat (List.length sample_prolog + List.length (forest_text F) + 0) <=? 10485760)%N = true -> spacious sample_prolog 0 F).
  { intros F X Y. split; [|now apply N.leb_le]. apply existsb_exists in X. destruct X as [[n a sf k| |] [IN K]]; try discriminate. now exists n, a, sf, k. }
  split; [apply SP; vm_compute; reflexivity|]. split; [apply forest_laid; exact shop_good|]. split; [|vm_compute; reflexivity].
  eexists. unfold clear_dear.
  apply (worked_inquire _ _ q_dear (EAttr (bs "id")) _ shop (Found (bs "2"))); [query_ok|reflexivity| |].
  { replace (ask (decide_sat env0) (EAttr (bs "id")) true q_dear shop) with (One (AnAttribute (bs "2"))) by (vm_compute; reflexivity). now apply finds_one. }
  rewrite bytes_eqb_refl.
  eapply worked_act; [legal_op|vm_compute; reflexivity|apply SP; vm_compute; reflexivity|].
  eapply worked_act; [legal_op|vm_compute; reflexivity|apply SP; vm_compute; reflexivity|].
  eapply (worked_inquire _ _ q_left (EAttr (bs "id")) _ _ (FoundAll [bs "1"; bs "3"])); [query_ok|reflexivity| |constructor].
  match goal with |- finds ?a _ => replace a with (Many [AnAttribute (bs "1"); AnAttribute (bs "3")]) by (vm_compute; reflexivity) end. apply finds_all. repeat constructor.
Qed.
