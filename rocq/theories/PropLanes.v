(** C103: entries that go from one list to another. *)
From Coq Require Import List Ascii String NArith ZArith Bool Lia Permutation.
From Verif Require Import GoStr ModelParser ModelPath ModelResult ModelQuery ModelValidate ModelBuilder SpecText SpecPath SpecTree SpecQuery SpecEdit SpecContent SpecValid SpecHistory SpecFrame SpecOptions SpecTail SpecLoop SpecQueue SpecOrder SpecLanes
  ProofBase ProofTree ProofTree5 ProofTree8 ProofEdit ProofEdit2 ProofEdit5 ProofEdit9 ProofList ProofLoop ProofOrder ProofLanes PropTree PropFrame PropOrder.
Import ListNotations.
Open Scope nat_scope.

(** C103. An element has a child for each name of [ls], the lists of a board; the lists have
    entries named [m].  Handing entries over from list to list (Get and Raw, SetRaw at
    path.-1 of the other list, Delete of the old entry), in any number, always succeeds: the
    lists become what they would in memory, the other children, and every byte around the
    element, stay, the document stays valid, and what is asked below an entry is answered
    from the content that is there now. *)
Theorem C103_transfer : forall E fmt_g p F s A n a kids B m ls W ops,
  (forall k l, Permutation l (e_ord E k l)) -> prolog p -> strict_prolog p ->
  Forall good F -> Forall top_node F -> shallow F -> has_element F -> (N.of_nat (List.length (p ++ forest_text F)) <= 5242880)%N ->
  located s F A (Elem n a false kids) B -> Forall early s -> match s with (_, Some _) :: _ => False | _ => True end ->
  (forall k, k < List.length ls -> good_tpath (item (lane s ls k) m 0) TheElement) -> (forall k, k < List.length ls -> Forall xml_name (map fst (item (lane s ls k) m 0))) ->
  distinct ls -> board m ls kids W -> all_possible [] ops W ->
  let W' := all_transferred [] ops W in
  exists kids', let d := p ++ A ++ node_text (Elem n a false kids') ++ B in
    hand_over_all E fmt_g s m ls ops (p ++ forest_text F) = Ok (d, None) /\ valid d = true /\
    outside ls kids' = outside ls kids /\ board m ls kids' W' /\
    forall k i rest fin, k < List.length ls -> i < List.length (nth k W' []) -> i < 1000 ->
      good_tpath (item (lane s ls k) m i ++ rest) fin -> (rest = [] -> forall x, fin <> TheAttribute x) ->
      let c := Elem [] [] false (nth i (nth k W' []) []) in
      inside rest fin c <> Nothing ->
      exists r, get E d (tpath (item (lane s ls k) m i ++ rest) fin) = Ok r /\ describes r (inside rest fin c).
Proof.
  intros E g p F s A n a kids B m ls W ops Ho Hp SP HG HT HS HE SZ L EY SS GT XN DI BD AP W'.
  assert (ST : ProofList.state p F) by (repeat split; auto; lia).
  assert (SH : shown p s m ls F A n a kids B W) by (split; [exact ST|split; [exact L|split; [now apply early_readable|exact BD]]]).
  destruct (hand_over_all_ok E g Ho p Hp SP s m ls GT XN DI ops F A n a kids B W SH AP SZ) as (F' & K' & R & SH' & O). pose proof SH' as (ST' & L' & RD' & BD').
  exists K'. cbv zeta. rewrite <- (located_text _ _ _ _ _ L'). split; [exact R|]. split; [destruct ST' as (G & T & FT); now apply state_valid|]. split; [exact O|]. split; [exact BD'|].
  intros k i rest fin LK LI LT GP NA NI. destruct (lane_kept p s m ls GT XN F' A n a K' B _ k SH' LK) as (A' & e & b & Kl & B' & KP).
  eapply (kept_read E Ho p Hp (lane s ls k) m (GT k LK) (XN k LK) F' A' e b Kl B' _ i rest fin KP); auto.
  - unfold lane. apply Forall_app. split; [exact EY|]. constructor; [exact I|constructor].
  - unfold lane. destruct s as [|[x [y|]] s']; auto.
Qed.
Print Assumptions C103_transfer.

(** None is lost and none doubled, whatever goes where. *)
Theorem C103_conserved : forall (A : Type) (d : A) ops W, all_possible d ops W ->
  Permutation (List.concat W) (List.concat (all_transferred d ops W)) /\ List.length (all_transferred d ops W) = List.length W.
Proof.
  intros A d. induction ops as [|o ops IH]; intros W AP; cbn [all_possible all_transferred] in *; [auto|]. destruct AP as [P AP]. destruct (IH _ AP) as [X Y]. split.
  - eapply Permutation_trans; [apply Permutation_sym, (transferred_perm _ d o W P)|exact X].
  - rewrite Y. now apply transferred_len.
Qed.
Print Assumptions C103_conserved.

(** Emptying a list into another: the first entry as often as there are entries; they come
    after those of the other list and keep their order. *)
Theorem C103_drain : forall (A : Type) (d : A) W a b, a < List.length W -> b < List.length W -> a <> b ->
  let ops := repeat {| from := a; which := 0; to := b |} (List.length (nth a W [])) in
  all_possible d ops W /\ nth a (all_transferred d ops W) [] = [] /\ nth b (all_transferred d ops W) [] = nth b W [] ++ nth a W [] /\
  forall k, k <> a -> k <> b -> nth k (all_transferred d ops W) [] = nth k W [].
Proof.
  intros A d W a b LA LB NE ops. destruct (drain_lists A d a b NE _ W LA LB eq_refl) as [P Q]. fold ops in P, Q. rewrite Q. split; [exact P|].
  assert (L1 : forall x, a < List.length (placed b x W)) by (intros x; rewrite placed_len; auto).
  split; [apply placed_same; auto|]. split; [rewrite placed_other by auto; now apply placed_same|]. intros k KA KB. rewrite !placed_other; auto.
Qed.
Print Assumptions C103_drain.

Definition jobs : list node :=
  [Elem (bs "shop") [] false
     [Elem (bs "board") [(bs "day", bs "Mon")] false
        [Elem (bs "todo") [(bs "max", bs "9")] false [Text (bs " "); Elem (bs "job") [] false [Elem (bs "name") [] false [Text (bs "saw &amp; sand")]]; Elem (bs "job") [] false [Text (bs "paint")]];
         Elem (bs "note") [] false [Text (bs "by noon")];
         Elem (bs "done") [] false []]]].
Definition jobs_board : node := match jobs with [Elem _ _ _ [x]] => x | _ => Text [] end.
Definition job_lists : list (list (list node)) := [[[Elem (bs "name") [] false [Text (bs "saw &amp; sand")]]; [Text (bs "paint")]]; []].
Example C103_example :
  let s := by_name [bs "shop"; bs "board"] in let ls := [bs "todo"; bs "done"] in let m := bs "job" in
  let ops := [{| from := 0; which := 0; to := 1 |}; {| from := 0; which := 0; to := 1 |}; {| from := 1; which := 0; to := 0 |}; {| from := 1; which := 0; to := 1 |}] in
  Forall good jobs /\ Forall top_node jobs /\ shallow jobs /\ has_element jobs /\
  (exists A B, located s jobs A jobs_board B) /\ Forall early s /\ (forall k, k < 2 -> good_tpath (item (lane s ls k) m 0) TheElement) /\
  (forall k, k < 2 -> Forall xml_name (map fst (item (lane s ls k) m 0))) /\ distinct ls /\ board m ls (kids_of jobs_board) job_lists /\ all_possible [] ops job_lists /\
  hand_over_all env0 (fun _ => []) s m ls ops (forest_text jobs) =
    Ok (bs "<shop><board day=""Mon""><todo max=""9""> <job><name>saw &amp; sand</name></job></todo><note>by noon</note><done><job>paint</job></done></board></shop>", None).
Proof.
  cbv zeta. split; [apply forest_b_ok; vm_compute; reflexivity|]. split; [repeat constructor|]. split; [repeat constructor; vm_compute; lia|]. split; [eexists _, _, _, _; left; reflexivity|].
  split; [eexists _, _; apply (loc_down (bs "shop") None [(bs "board", None)] []); [reflexivity|reflexivity|]; apply (loc_here (bs "board") None []); reflexivity|].
  split; [repeat constructor|]. split; [intros [|[|k]] LK; try lia; apply tpath_b_ok; vm_compute; reflexivity|].
  split; [intros [|[|k]] LK; try lia; repeat (apply Forall_cons; [apply xml_name_b_ok; vm_compute; reflexivity|]); apply Forall_nil|].
  split.
  { assert (X : separate (bs "todo") (bs "done")).
    { apply separate_ok; reflexivity. }
    intros [|[|i]] [|[|j]] LI LJ NE; cbn [List.length nth] in *; try lia; [exact X|]. intros x H1 H2. exact (X x H2 H1). }
  split.
  { apply Forall2_cons; [|apply Forall2_cons; [|apply Forall2_nil]]; eexists _, _, _; (split; [reflexivity|]); split; repeat constructor. }
  split; [cbn [all_possible]; unfold possible; repeat split; vm_compute; lia|]. vm_compute. reflexivity.
Qed.

(** Raw is the content of an entry: its attributes do not go with it. *)
Theorem C103_attributes_refuted : exists xml d, xml = bs "<r><a><i k=""2"">x</i></a><b></b></r>" /\ d = bs "<r><a></a><b><i>x</i></b></r>" /\
  hand_over_all env0 (fun _ => []) (by_name [bs "r"]) (bs "i") [bs "a"; bs "b"] [{| from := 0; which := 0; to := 1 |}] xml = Ok (d, None).
Proof. exists (bs "<r><a><i k=""2"">x</i></a><b></b></r>"), (bs "<r><a></a><b><i>x</i></b></r>"). vm_compute. repeat split; reflexivity. Qed.
Print Assumptions C103_attributes_refuted.
