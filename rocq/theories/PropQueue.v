(** C99: a document used as a queue. *)
From Coq Require Import List Ascii String NArith ZArith Bool Lia Permutation.
From Verif Require Import GoStr ModelParser ModelPath ModelResult ModelQuery ModelValidate ModelBuilder SpecText SpecPath SpecTree SpecQuery SpecEdit SpecContent SpecValid SpecHistory SpecTable SpecLoop SpecQueue
  ProofBase ProofEscape ProofTree ProofTree5 ProofTree8 ProofEdit ProofEdit2 ProofEdit5 ProofEdit9 ProofList ProofLoop ProofQueue PropTree PropStore.
Import ListNotations.
Open Scope nat_scope.

(** C99: any sequence of operations - Set(path.-1) to put an entry at the end, Get and Delete
    of path.0, or of path.(n-1) with n read from the document, to take one out - answers as
    the list does, and the document holds the entries of the list afterwards; the other
    children and every byte around the parent stay. *)
Theorem C99_queue : forall E fmt_g p F names A n a kids B m q ops,
  (forall k l, Permutation l (e_ord E k l)) -> prolog p -> strict_prolog p ->
  Forall good F -> Forall top_node F -> shallow F -> room p F ->
  sole names F (Elem n a false kids) -> located (by_name names) F A (Elem n a false kids) B ->
  Forall2 (says TheElement) (called (selects m) kids) q ->
  good_tpath (item (by_name names) m 0) TheElement -> good_tpath (by_name names ++ [(m, None)]) TheCount ->
  (forall v, In (Push v) ops -> legal (Append (by_name names) m (AsText v))) ->
  List.length q + List.length (pushed m ops) <= 1000 ->
  (N.of_nat (List.length (p ++ forest_text F) + List.length (forest_text (pushed m ops))) <= 10485760)%N ->
  exists kids', let d := p ++ A ++ node_text (Elem n a false kids') ++ B in
    on_document E fmt_g (by_name names) m ops (p ++ forest_text F) = Ok (Some (d, snd (on_list ops q))) /\ valid d = true /\
    others m kids' = others m kids /\ Forall2 (says TheElement) (called (selects m) kids') (fst (on_list ops q)).
Proof.
  intros E g p F names A n a kids B m q ops Ho Hp SP HG HT HS [HE HZ] SO L SY GT GC LG LN SZ.
  assert (ST : ProofList.state p F) by (repeat split; auto).
  destruct (queue_runs E g Ho p Hp SP names m ops F A n a kids B q ST L SO SY GT GC LG LN SZ) as (F' & kids' & OD & (G & T & FT) & L' & OT & SY').
  exists kids'. cbv zeta. rewrite <- (located_text _ _ _ _ _ L'). split; [exact OD|]. split; [now apply state_valid|]. auto.
Qed.
Print Assumptions C99_queue.

(** In particular entries put into a document without entries come out in their order from
    the front and in the opposite order from the end, and then there are none. *)
Lemma list_put : forall vs ops q, on_list (map Push vs ++ ops) q = on_list ops (q ++ map trim_space vs).
Proof.
  induction vs as [|v vs IH]; intros ops q; cbn [map app on_list]; [now rewrite app_nil_r|]. rewrite IH, <- app_assoc. reflexivity.
Qed.
Lemma list_firsts : forall q, on_list (repeat TakeFirst (S (List.length q))) q = ([], map Some q ++ [None]).
Proof. induction q as [|x q IH]; [reflexivity|]. change (repeat TakeFirst (S (List.length (x :: q)))) with (TakeFirst :: repeat TakeFirst (S (List.length q))). cbn [on_list]. rewrite IH. reflexivity. Qed.
Lemma list_lasts : forall q, on_list (repeat TakeLast (S (List.length q))) q = ([], map Some (rev q) ++ [None]).
Proof.
  induction q as [|x q IH] using rev_ind; [reflexivity|]. rewrite app_length. cbn [List.length]. rewrite Nat.add_1_r.
  change (repeat TakeLast (S (S (List.length q)))) with (TakeLast :: repeat TakeLast (S (List.length q))). cbn [on_list]. rewrite rev_unit, rev_involutive, IH. reflexivity.
Qed.
Theorem C99_orders : forall E fmt_g p F names A n a kids B m vs o,
  (forall k l, Permutation l (e_ord E k l)) -> prolog p -> strict_prolog p ->
  Forall good F -> Forall top_node F -> shallow F -> room p F ->
  sole names F (Elem n a false kids) -> located (by_name names) F A (Elem n a false kids) B -> called (selects m) kids = [] ->
  good_tpath (item (by_name names) m 0) TheElement -> good_tpath (by_name names ++ [(m, None)]) TheCount ->
  (forall v, In v vs -> legal (Append (by_name names) m (AsText v))) -> o = TakeFirst \/ o = TakeLast ->
  let ops := map Push vs ++ repeat o (S (List.length vs)) in
  List.length (pushed m ops) <= 1000 ->
  (N.of_nat (List.length (p ++ forest_text F) + List.length (forest_text (pushed m ops))) <= 10485760)%N ->
  exists d, on_document E fmt_g (by_name names) m ops (p ++ forest_text F) =
    Ok (Some (d, map Some (map trim_space (match o with TakeLast => rev vs | _ => vs end)) ++ [None])) /\ valid d = true.
Proof.
  intros E g p F names A n a kids B m vs o Ho Hp SP HG HT HS HR SO L NE GT GC LG OO ops LN SZ.
  destruct (C99_queue E g p F names A n a kids B m [] ops Ho Hp SP HG HT HS HR SO L) as (kids' & OD & V & _); auto.
  - rewrite NE. constructor.
  - intros v I. apply LG. unfold ops in I. apply in_app_or in I. destruct I as [I|I].
    + apply in_map_iff in I. destruct I as (w & Q & I). injection Q as ->. exact I.
    + apply repeat_spec in I. subst o. destruct OO; discriminate.
  - eexists. split; [|exact V]. rewrite OD. unfold ops. rewrite list_put. cbn [app]. rewrite <- (map_length trim_space vs) at 1. do 3 f_equal.
    destruct OO as [-> | ->]; [rewrite list_firsts|rewrite list_lasts, <- map_rev]; reflexivity.
Qed.
Print Assumptions C99_orders.

Definition inbox : list node :=
  [Elem (bs "app") [] false
     [Elem (bs "log") [] true [];
      Elem (bs "jobs") [(bs "k", bs "1")] false [Text (bs " "); Elem (bs "job") [(bs "id", bs "7")] false [Text (bs "a &amp; b")]; Elem (bs "note") [] true []]]].
Definition jobs : list node := [Text (bs " "); Elem (bs "job") [(bs "id", bs "7")] false [Text (bs "a &amp; b")]; Elem (bs "note") [] true []].
Definition day : list queue_op := [Push (bs "<c>"); Push (bs " d "); TakeFirst; TakeLast; TakeLast; TakeFirst; TakeLast; Push (bs "e"); Push (bs "f")].
Example C99_example :
  Forall good inbox /\ Forall top_node inbox /\ shallow inbox /\ room [] inbox /\
  sole [bs "app"; bs "jobs"] inbox (Elem (bs "jobs") [(bs "k", bs "1")] false jobs) /\
  located (by_name [bs "app"; bs "jobs"]) inbox (bs "<app><log/>") (Elem (bs "jobs") [(bs "k", bs "1")] false jobs) (bs "</app>") /\
  Forall2 (says TheElement) (called (selects (bs "job")) jobs) [bs "a & b"] /\
  good_tpath (item (by_name [bs "app"; bs "jobs"]) (bs "job") 0) TheElement /\ good_tpath (by_name [bs "app"; bs "jobs"] ++ [(bs "job", None)]) TheCount /\
  (forall v, In (Push v) day -> legal (Append (by_name [bs "app"; bs "jobs"]) (bs "job") (AsText v))) /\
  on_list day [bs "a & b"] = ([bs "e"; bs "f"], [Some (bs "a & b"); Some (bs "d"); Some (bs "<c>"); None; None]) /\
  on_document env0 (fun _ => []) (by_name [bs "app"; bs "jobs"]) (bs "job") day (forest_text inbox) =
    Ok (Some (bs "<app><log/><jobs k=""1""> <note/><job>e</job><job>f</job></jobs></app>", [Some (bs "a & b"); Some (bs "d"); Some (bs "<c>"); None; None])).
Proof.
  split; [apply forest_b_ok; vm_compute; reflexivity|]. split; [repeat constructor|]. split; [repeat constructor; vm_compute; lia|].
  split; [split; [eexists _, _, _, _; left; reflexivity|vm_compute; discriminate]|].
  split; [eapply sole_down; [reflexivity|apply sole_here; reflexivity]|].
  split; [apply (loc_down (bs "app") None [(bs "jobs", None)] [] (bs "app") [] _ [] (bs "<log/>") _ []); [reflexivity|reflexivity|];
    apply (loc_here (bs "jobs") None [Elem (bs "log") [] true []] _ []); reflexivity|].
  split; [change (called (selects (bs "job")) jobs) with [Elem (bs "job") [(bs "id", bs "7")] false [Text (bs "a &amp; b")]]; constructor; [exact (unescape_decodes (bs "a &amp; b"))|constructor]|].
  split; [apply tpath_b_ok; vm_compute; reflexivity|]. split; [apply tpath_b_ok; vm_compute; reflexivity|].
  split; [|split; vm_compute; reflexivity].
  intros v I. repeat destruct I as [I|I]; try discriminate I; try contradiction; injection I as <-; legal_op.
Qed.

(** A list that is not alone of its name: when it is empty, Get goes on to the next one and
    an entry of that is reported, while Delete finds nothing to remove. *)
Theorem C99_sole_refuted : exists xml d x, xml = bs "<r><q></q><q><i>other</i></q></r>" /\
  on_document env0 (fun _ => []) (by_name [bs "r"; bs "q"]) (bs "i") [TakeFirst] xml = Ok (Some (d, [x])) /\ d = xml /\ x = Some (bs "other").
Proof. eexists _, _, _. split; [reflexivity|]. split; [vm_compute; reflexivity|]. split; vm_compute; reflexivity. Qed.
Print Assumptions C99_sole_refuted.
