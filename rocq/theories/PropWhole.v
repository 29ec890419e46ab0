(** C59: modifiers at the end of a query. *)
From Coq Require Import List Ascii String NArith ZArith Bool Lia Permutation SpecFloat.
From Verif Require Import GoStr ModelParser ModelPath ModelPretty ModelResult ModelQuery SpecText SpecPath SpecTree SpecQuery SpecEdit SpecContent SpecFilter SpecValid SpecLang SpecMod SpecWhole
  ProofLang5 ProofMod ProofMod3 ProofWhole ProofWhole2 ProofWhole3 PropMod PropTree PropLang.
Import ListNotations.

(** On any document, a query ending in modifiers is the query without them followed by the
    modifiers, which act on the whole answer and not on its entries. Missing values and empty
    lists are left alone. *)
Theorem C59_modify : forall E xml steps e ms,
  (blen xml <= 10485760)%N -> good_query steps e -> whole steps e -> Forall plain_mod ms ->
  (forall r, workable r -> r_exists (apply_modifiers E r ms) = true) ->
  get E xml (query_text steps e ++ mods_text ms) =
  let* r := get E xml (query_text steps e) in Ok (if nothing r then r else apply_modifiers E r ms).
Proof. exact get_whole. Qed.
Print Assumptions C59_modify.
(** The built-in modifiers meet the last two conditions. *)
Theorem C59_built_in : forall E ms,
  (forall lt l, Permutation l (e_sort E lt l)) ->
  Forall (fun m => In m [bs "reverse"; bs "sort"; bs "first"; bs "last"; bs "flatten"; bs "ugly"; bs "pretty"]) ms -> (List.length ms <= 20)%nat ->
  Forall plain_mod ms /\ (forall r, workable r -> r_exists (apply_modifiers E r ms) = true).
Proof. intros E ms Hs H L. split; [now apply tame_plain|]. intros r W. now apply tame_keep. Qed.
Print Assumptions C59_built_in.

(** On canonical documents: chains of @reverse, @first, @last and @flatten. *)
Theorem C59_chain : forall E sat p F steps e ms,
  (forall k l, Permutation l (e_ord E k l)) ->
  (forall c nd, good nd -> (sat c nd = true <-> true_of (e_parse_float E) c nd)) ->
  (forall lt l, Permutation l (e_sort E lt l)) ->
  prolog p -> Forall good F -> shallow F -> (elements F < 9999)%N ->
  (blen (p ++ forest_text F) <= 10485760)%N -> good_query steps e -> whole steps e ->
  Forall (fun m => In m [bs "reverse"; bs "first"; bs "last"; bs "flatten"]) ms -> (List.length ms <= 20)%nat ->
  exists r, get E (p ++ forest_text F) (query_text steps e ++ mods_text ms) = Ok r /\ says r (acts ms (ask sat e true steps F)).
Proof.
  intros E sat p F steps e ms Ho Hs Hsort Hp HG H1 H2 HL HQ HW Hm Hl.
  destruct (C54_language E sat p F steps e Ho Hs Hp HG H1 H2 HL HQ) as (r & G & S).
  assert (T : Forall (fun m => In m tame) ms). { eapply Forall_impl; [|exact Hm]. intros m K. unfold tame. cbn [In] in *. tauto. }
  destruct (C59_built_in E ms Hsort T Hl) as [B1 B2].
  eexists. split; [rewrite get_whole, G; auto; reflexivity|]. apply says_acts; auto. eapply get_solid; eauto.
Qed.
Print Assumptions C59_chain.

(** @sort: the same entries, ascending as numbers if all of them are numbers and as texts
    otherwise. *)
Theorem C59_sort : forall E sat p F steps e l,
  (forall k l, Permutation l (e_ord E k l)) ->
  (forall c nd, good nd -> (sat c nd = true <-> true_of (e_parse_float E) c nd)) ->
  sorts (e_sort E) ->
  prolog p -> Forall good F -> shallow F -> (elements F < 9999)%N ->
  (blen (p ++ forest_text F) <= 10485760)%N -> good_query steps e -> whole steps e ->
  ask sat e true steps F = Many l ->
  exists r l', get E (p ++ forest_text F) (query_text steps e ++ bs "|@sort") = Ok r /\ Permutation l l' /\ says r (Many l') /\
    (Forall (numeric E) (r_results r) -> Forall (fun x => no_nan (r_float E x)) (r_results r) ->
       ascending (fun a b => SFltb (r_float E a) (r_float E b)) (r_results r)) /\
    (~ Forall (numeric E) (r_results r) -> ascending (fun a b => bytes_ltb (r_string a) (r_string b)) (r_results r)).
Proof.
  intros E sat p F steps e l Ho Hs Hsort Hp HG H1 H2 HL HQ HW HA.
  destruct (C54_language E sat p F steps e Ho Hs Hp HG H1 H2 HL HQ) as (r & G & S). rewrite HA in S. cbn [says] in S. destruct S as [T S].
  assert (TM : Forall (fun m => In m tame) [bs "sort"]) by (constructor; [unfold tame; cbn; auto|constructor]).
  destruct (C59_built_in E [bs "sort"] (fun lt l => proj1 (Hsort lt l)) TM) as [B1 B2]; [cbn; lia|].
  pose proof (get_whole E (p ++ forest_text F) steps e [bs "sort"] HL HQ HW B1 B2) as GW. rewrite G in GW. cbn [bind] in GW.
  change (mods_text [bs "sort"]) with (bs "|@sort") in GW.
  destruct (C36_sort E (mod_sort E) r eq_refl Hsort T) as (l2 & K1 & K2 & K3 & K4 & K5).
  assert (PR : exists l', Permutation l l' /\ Forall2 item_is l' (r_results (mod_sort E r))).
  { rewrite K2. clear - S K3.
    destruct (Permutation_Forall2 K3 (f2_flip _ _ _ _ _ S)) as (l' & Q1 & Q2). exists l'. split; auto. exact (f2_flip _ _ _ _ _ Q2). }
  destruct PR as (l' & P1 & P2).
  assert (NT : nothing r = true -> mod_sort E r = r).
  { unfold nothing, mod_sort, r_is_array. rewrite T. destruct (r_results r); [reflexivity|discriminate]. }
  exists (mod_sort E r), l'. split.
  - rewrite GW. destruct (nothing r); [now rewrite NT|]. f_equal. apply (C35_one E r (bs "sort") (mod_sort E) eq_refl).
  - split; auto. split; [split; auto|]. split.
    + intros A1 A2. rewrite K2 in *. apply K4; apply (Permutation_Forall (Permutation_sym K3)); auto.
    + intros A1. rewrite K2 in *. apply K5. intros A2. apply A1. apply (Permutation_Forall K3); auto.
Qed.
Print Assumptions C59_sort.
Definition prices : list qstep := [Child (bs "shop") Leading; Child (bs "item") Leading].
Definition ids : list qstep := [Child (bs "shop") Leading; Child (bs "item") (Where dear true)].
Example C59_example :
  let q := EField (FieldName (bs "price")) in
  good_query prices q /\ whole prices q /\ query_text prices q ++ mods_text [bs "reverse"; bs "first"] = bs "shop.item.#.price|@reverse|@first" /\
  said prices q = Many [AnElement [Text (bs "3")]; AnElement [Text (bs "12")]] /\
  acts [bs "reverse"; bs "first"] (said prices q) = One (AnElement [Text (bs "12")]) /\
  get env0 (forest_text shop) (bs "shop.item.#.price|@reverse|@first") = Ok (r_element (bs "12")) /\
  good_query ids EElement /\ whole ids EElement /\ query_text ids EElement ++ mods_text [bs "last"] = bs "shop.item.#(price>'5')#|@last" /\
  (let E := mkEnv (fun _ l => l) (e_parse_float env0) isort no_codec to_lower_ascii (fun _ => None) in
   match get E (bs "<r><a>10</a><a>9</a><a>100</a></r>") (bs "r.*|@sort") with
   | Ok r => map r_string (r_results r) | _ => [] end = [bs "9"; bs "10"; bs "100"]) /\
  good_query [Child (bs "r") Leading; AnyKid] EElement /\ whole [Child (bs "r") Leading; AnyKid] EElement.
Proof.
  cbv zeta.
  assert (W : forall a s e, narrow a -> (forall n, s <> Descendant n) -> whole [a; s] e).
  { intros a s e H1 H2. exists [a], s. repeat split; auto; discriminate. }
  split; [query_ok|]. split; [apply W; [exact I|discriminate]|]. do 4 (split; [vm_compute; reflexivity|]).
  split; [query_ok|]. split; [apply W; [exact I|discriminate]|]. do 2 (split; [vm_compute; reflexivity|]).
  split; [query_ok|apply W; [exact I|discriminate]].
Qed.

(** Modifiers after a search are ignored, even unknown ones. *)
Theorem C59_search_refuted : exists xml path r,
  path = bs "**.c|@nope" /\ get_modifier env0 (bs "nope") = None /\ get env0 xml path = Ok r /\ r_exists r = true /\
  get env0 xml (bs "**.c") = Ok r.
Proof.
  exists (bs "<r><c>1</c><c>2</c></r>"), (bs "**.c|@nope"), (r_array [r_element (bs "1"); r_element (bs "2")]).
  repeat split; vm_compute; reflexivity.
Qed.
Print Assumptions C59_search_refuted.
(** Two steps below several elements modifiers act on every entry and not on the list:
    the first entry of a list is not asked for. *)
Theorem C59_nested_refuted : exists xml r,
  get env0 xml (bs "r.*.b.c") = Ok r /\ r_type r = RArray /\ r_results r = [r_element (bs "1"); r_element (bs "2")] /\
  get env0 xml (bs "r.*.b.c|@first") = Ok r /\ apply_modifiers env0 r [bs "first"] = r_element (bs "1") /\
  get env0 xml (bs "r.*.b") = Ok (r_array [r_element (bs "<c>1</c>"); r_element (bs "<c>2</c>")]) /\
  get env0 xml (bs "r.*.b|@first") = Ok (r_element (bs "<c>1</c>")).
Proof.
  exists (bs "<r><a><b><c>1</c></b></a><a><b><c>2</c></b></a></r>"), (r_array [r_element (bs "1"); r_element (bs "2")]).
  repeat split; vm_compute; reflexivity.
Qed.
Print Assumptions C59_nested_refuted.
(** One step below several elements they act twice, on the entries and on the list. *)
Theorem C59_twice_refuted : exists E xml r r',
  get E xml (bs "r.*.b") = Ok r /\ get E xml (bs "r.*.b|@dup") = Ok r' /\ r_string r = bs "x" /\
  r_string (apply_modifiers E r [bs "dup"]) = bs "xx" /\ r_string r' = bs "xxxx".
Proof.
  exists (mkEnv (fun _ l => l) (fun _ => None) (fun _ l => l) no_codec to_lower_ascii
           (fun n => if bytes_eqb n (bs "dup") then
                       Some (fun r => mkR (r_type r) (r_raw r ++ r_raw r) (r_str r ++ r_str r) (r_num r) (r_results r)) else None)).
  exists (bs "<r><a><b>x</b></a></r>"). eexists. eexists. repeat split; vm_compute; reflexivity.
Qed.
Print Assumptions C59_twice_refuted.
