(** C62: queries on results. *)
From Coq Require Import List Ascii String NArith ZArith Bool Lia Permutation.
From Verif Require Import GoStr ModelParser ModelPath ModelResult ModelQuery ModelBuilder ModelQueryOpts ModelApi SpecText SpecPath SpecTree SpecQuery SpecValid SpecEdit SpecContent SpecFilter SpecLang SpecCase SpecFluent
  ProofBase ProofPath ProofTree ProofTree2 ProofTree3 ProofTree4 ProofTree5 ProofTree7 ProofTree8 ProofMono ProofLang ProofLang2 ProofLang3 ProofLang4 ProofLang5 ProofCase ProofCase2 ProofCase3 ProofCase4 ProofFluent ProofFluent2 PropTree PropLang PropCase.
Import ListNotations.

(** ** C62. A query on a result is a query on the children of the element, or of the first
    entry of a list; results other than elements have no parts. *)
Theorem C62_get : forall E sat p F steps e r q e',
  (forall k l, Permutation l (e_ord E k l)) ->
  (forall c nd, good nd -> (sat c nd = true <-> true_of (e_parse_float E) c nd)) ->
  prolog p -> Forall good F -> shallow F -> (elements F < 9999)%N -> (blen (p ++ forest_text F) + 29 <= 10485760)%N ->
  good_query steps e -> good_query q e' -> begins_with_step q -> (List.length (query_parts q e') < 100)%nat ->
  get E (p ++ forest_text F) (query_text steps e) = Ok r ->
  exists r2, r_get E r (query_text q e') = Ok r2 /\ says r2 (ask_within sat e' q (opening (ask sat e true steps F))).
Proof.
  intros E sat p F steps e r q e' Ho Hs Hp HG H1 H2 HL HQ HQ' HB HN HR.
  destruct (C54_language E sat p F steps e Ho Hs Hp HG H1 H2 ltac:(lia) HQ) as [r' [R1 R2]]. rewrite HR in R1. injection R1 as <-.
  apply r_get_reply; auto. apply (found_askable F); auto using ask_from; [now split|]. unfold blen in *. rewrite app_length in HL. lia.
Qed.
Print Assumptions C62_get.
(** Every entry of a list can be asked (ForEach). *)
Theorem C62_entries : forall E sat p F steps e r l q e' i x,
  (forall k l, Permutation l (e_ord E k l)) ->
  (forall c nd, good nd -> (sat c nd = true <-> true_of (e_parse_float E) c nd)) ->
  prolog p -> Forall good F -> shallow F -> (elements F < 9999)%N -> (blen (p ++ forest_text F) + 29 <= 10485760)%N ->
  good_query steps e -> good_query q e' -> begins_with_step q -> (List.length (query_parts q e') < 100)%nat ->
  get E (p ++ forest_text F) (query_text steps e) = Ok r -> ask sat e true steps F = Many l ->
  nth_error (r_results r) i = Some x ->
  exists r2, r_get E x (query_text q e') = Ok r2 /\ says r2 (ask_within sat e' q (nth_error l i)).
Proof.
  intros E sat p F steps e r l q e' i x Ho Hs Hp HG H1 H2 HL HQ HQ' HB HN HR HM HX.
  destruct (C54_language E sat p F steps e Ho Hs Hp HG H1 H2 ltac:(lia) HQ) as [r' [R1 R2]]. rewrite HR in R1. injection R1 as <-.
  rewrite HM in R2. destruct R2 as [_ R2].
  assert (HA : all_askable l).
  { apply (found_askable F); [|auto|now split|].
    - pose proof (ask_from sat e steps true F) as K. now rewrite HM in K.
    - unfold blen in *. rewrite app_length in HL. lia. }
  clear HR HM. revert i HX. induction R2 as [|y z l rs I1 I2 IH]; intros i HX; [destruct i; discriminate|]. inversion HA; subst. destruct i as [|i].
  - injection HX as ->. cbn [nth_error]. apply (r_get_reply E Ho sat Hs (One y)); auto. constructor; auto.
  - apply IH; auto.
Qed.
Print Assumptions C62_entries.
(** GetMany asks each query. *)
Theorem C62_get_many : forall E sat p F steps e r qs,
  (forall k l, Permutation l (e_ord E k l)) ->
  (forall c nd, good nd -> (sat c nd = true <-> true_of (e_parse_float E) c nd)) ->
  prolog p -> Forall good F -> shallow F -> (elements F < 9999)%N -> (blen (p ++ forest_text F) + 29 <= 10485760)%N ->
  good_query steps e ->
  Forall (fun q => good_query (fst q) (snd q) /\ begins_with_step (fst q) /\ (List.length (query_parts (fst q) (snd q)) < 100)%nat) qs ->
  get E (p ++ forest_text F) (query_text steps e) = Ok r ->
  exists rs, r_get_many E r (map (fun q => query_text (fst q) (snd q)) qs) = Ok rs /\
    Forall2 (fun q x => says x (ask_within sat (snd q) (fst q) (opening (ask sat e true steps F)))) qs rs.
Proof.
  intros E sat p F steps e r qs Ho Hs Hp HG H1 H2 HL HQ HQS HR.
  assert (K : exists rs, r_get_each E r (map (fun q => query_text (fst q) (snd q)) qs) = Ok rs /\
    Forall2 (fun q x => r_get E r (query_text (fst q) (snd q)) = Ok x /\ says x (ask_within sat (snd q) (fst q) (opening (ask sat e true steps F)))) qs rs).
  { induction HQS as [|q qs [Q1 [Q2 Q3]] HQS IH]; [exists []; split; [reflexivity|constructor]|].
    destruct (C62_get E sat p F steps e r (fst q) (snd q) Ho Hs Hp HG H1 H2 HL HQ Q1 Q2 Q3 HR) as [x [X1 X2]].
    destruct IH as [rs [I1 I2]]. exists (x :: rs). cbn [map r_get_each]. rewrite X1, I1. cbn [bind]. split; [reflexivity|]. constructor; auto. }
  destruct K as [rs [K1 K2]]. unfold r_get_many.
  assert (N : r_type r = RElement \/ r_type r = RArray \/ (forall path, r_get E r path = Ok r_null)).
  { destruct r as [[] raw st nu l]; cbn [r_type r_get]; auto. }
  assert (K3 : Forall2 (fun q x => says x (ask_within sat (snd q) (fst q) (opening (ask sat e true steps F)))) qs rs).
  { clear - K2. induction K2 as [|q x qs rs [_ H] _ IH]; constructor; auto. }
  destruct N as [N|[N|N]]; [rewrite N; eauto..|].
  destruct (r_type r) eqn:T; eauto;
    (exists (map (fun _ => r_null) (map (fun q => query_text (fst q) (snd q)) qs)); split; [reflexivity|];
     clear - K2 N; induction K2 as [|q x qs rs [H1 H2] _ IH]; cbn [map]; constructor; auto; rewrite N in H1; injection H1 as <-; exact H2).
Qed.
Print Assumptions C62_get_many.

(** ** Options *)
Theorem C62_any_case : forall E sat o o' p F steps e r q e',
  (forall k l, Permutation l (e_ord E k l)) ->
  (forall c nd, good nd -> (sat c nd = true <-> true_of (e_parse_float E) c nd)) ->
  o_case o = false -> o_case o' = false ->
  prolog p -> Forall good F -> apart F -> shallow F -> (elements F < 9999)%N -> (blen (p ++ forest_text F) + 29 <= 10485760)%N ->
  good_query steps e -> good_query q e' -> begins_with_step q -> (List.length (query_parts q e') < 100)%nat ->
  get_opts E o (p ++ forest_text F) (query_text steps e) = Ok r ->
  exists r2, r_get_opts E o' r (query_text q e') = Ok r2 /\ says r2 (ask_within_ci sat e' q (opening (ask_ci sat e steps F))).
Proof.
  intros E sat o o' p F steps e r q e' Ho Hs Hc Hc' Hp HG HA H1 H2 HL HQ HQ' HB HN HR.
  destruct (C58_any_case E sat o p F steps e Ho Hs Hc Hp HG HA H1 H2 ltac:(lia) HQ) as [r' [R1 R2]]. rewrite HR in R1. injection R1 as <-.
  apply r_get_reply_ci; auto.
  - apply (found_askable F); auto using ask_ci_from; [now split|]. unfold blen in *. rewrite app_length in HL. lia.
  - apply (found_apart F); auto using ask_ci_from.
Qed.
Print Assumptions C62_any_case.
Theorem C62_options_irrelevant : forall E o r path, o_case o = true -> ~ In "|"%char path ->
  ~ In "*"%char path \/ ~ In "#"%char path -> r_get_opts E o r path = r_get E r path.
Proof. exact r_get_custom_plain. Qed.
Print Assumptions C62_options_irrelevant.

(** ** Map with options: the keys are the names, in lower case without CaseSensitive; the
    children are those of the element or of the first entry. *)
Definition key_of (o : options) (n : bytes) : bytes := if o_case o then n else folded n.
Definition keyed (o : options) (n : bytes) (kids : list node) : list node :=
  called (fun m => bytes_eqb n (key_of o m)) (firstn 1000 (elems kids)).
Definition kids_in (i : option item) : list node := match i with Some (AnElement kids) => kids | _ => [] end.
Theorem C62_map : forall E o sat p F steps e r,
  (forall k l, Permutation l (e_ord E k l)) ->
  (forall s, (forall c, In c s -> (N_of_ascii c < 128)%N) -> e_to_lower E s = folded s) ->
  (forall c nd, good nd -> (sat c nd = true <-> true_of (e_parse_float E) c nd)) ->
  prolog p -> Forall good F -> shallow F -> (elements F < 9999)%N -> (blen (p ++ forest_text F) + 29 <= 10485760)%N ->
  good_query steps e -> get E (p ++ forest_text F) (query_text steps e) = Ok r ->
  let kids := kids_in (opening (ask sat e true steps F)) in
  exists m, r_map_opts E o r = Ok m /\
    (forall n, n <> bs "%" ->
       match map_get n m with
       | Some x => keyed o n kids <> [] /\ describes x (list_answer (keyed o n kids))
       | None => keyed o n kids = []
       end) /\
    match map_get (bs "%") m with
    | Some x => trim_space (own_text kids) <> [] /\ r_type x = RString /\ Decodes (trim_space (own_text kids)) (r_string x)
    | None => trim_space (own_text kids) = []
    end.
Proof.
  intros E o sat p F steps e r Ho Hl Hs Hp HG H1 H2 HL HQ HR kids.
  destruct (C54_language E sat p F steps e Ho Hs Hp HG H1 H2 ltac:(lia) HQ) as [r' [R1 R2]]. rewrite HR in R1. injection R1 as <-.
  assert (HA : all_askable (items (ask sat e true steps F))).
  { apply (found_askable F); auto using ask_from; [now split|]. unfold blen in *. rewrite app_length in HL. lia. }
  set (keyf := if is_default_options o then (fun x => x) else if o_case o then (fun x => x) else e_to_lower E).
  assert (RM : forall x, r_map_opts E o x = r_map_with E keyf x).
  { intros x. unfold r_map_opts, keyf, r_map. destruct (is_default_options o); reflexivity. }
  assert (KF : forall n, xml_name n -> keyf n = key_of o n).
  { intros n N. unfold keyf, key_of. destruct (is_default_options o) eqn:D.
    - unfold is_default_options in D. destruct (o_case o); [reflexivity|discriminate].
    - destruct (o_case o); auto. apply Hl. now apply name_ascii. }
  assert (KP : forall n, xml_name n -> key_of o n <> bs "%").
  { intros n N. unfold key_of. destruct (name_not_percent n N). destruct (o_case o); auto. }
  rewrite RM.
  assert (NONE : exists m, Ok [] = Ok m /\
    (forall n, n <> bs "%" -> match map_get n m with Some x => keyed o n [] <> [] /\ describes x (list_answer (keyed o n [])) | None => keyed o n [] = [] end) /\
    match map_get (bs "%") m with
    | Some x => trim_space (own_text []) <> [] /\ r_type x = RString /\ Decodes (trim_space (own_text [])) (r_string x)
    | None => trim_space (own_text []) = [] end).
  { exists (@nil (bytes * result)). split; [reflexivity|]. split; [intros n _; reflexivity|reflexivity]. }
  assert (ITEM : forall i x, item_is i x -> (forall ks, i = AnElement ks -> askable ks) -> exists m, r_map_with E keyf x = Ok m /\
    (forall n, n <> bs "%" ->
       match map_get n m with
       | Some x => keyed o n (kids_in (Some i)) <> [] /\ describes x (list_answer (keyed o n (kids_in (Some i))))
       | None => keyed o n (kids_in (Some i)) = []
       end) /\
    match map_get (bs "%") m with
    | Some x => trim_space (own_text (kids_in (Some i))) <> [] /\ r_type x = RString /\ Decodes (trim_space (own_text (kids_in (Some i)))) (r_string x)
    | None => trim_space (own_text (kids_in (Some i))) = []
    end).
  { intros i x HI HAi. destruct x as [t raw st nu l]. destruct i as [ks|v|ks|n].
    - cbn [kids_in]. destruct HI as [T [_ HK]]. cbn [r_type r_raw] in T, HK. subst t. cbn [r_map_with].
      destruct (HAi ks eq_refl) as [G [_ [_ SZ]]]. apply (map_keys E Ho keyf (key_of o) KF KP ks raw HK G).
      destruct HK as [ks' [HS ->]]. unfold blen in *. rewrite <- (same_length_all _ _ HS). lia.
    - destruct HI as [T _]. cbn [r_type] in T. subst t. exact NONE.
    - destruct HI as [T _]. cbn [r_type] in T. subst t. exact NONE.
    - destruct HI as [[T _] _]. cbn [r_type] in T. subst t. exact NONE. }
  subst kids. destruct (ask sat e true steps F) as [|i|l]; cbn [items opening] in *.
  - destruct r as [t raw st nu l]. cbn [says r_type] in R2. subst t. exact NONE.
  - inversion HA; subst. now apply ITEM.
  - destruct R2 as [T R2]. destruct r as [t raw st nu rs]. cbn [r_type r_results] in T, R2. subst t. cbn [r_map_with].
    unfold opening. cbn [items]. inversion R2; subst; [exact NONE|]. inversion HA; subst. now apply ITEM.
Qed.
Print Assumptions C62_map.

(** ** Value: a Go value of the kind of the answer. *)
Definition go_value (a : reply) (v : govalue) : Prop :=
  match a with
  | NoReply => v = GNil
  | One (AnElement kids) => exists t, v = GStr t /\ Decodes (trim_space (all_text kids)) t
  | One (AnAttribute x) => v = GStr x
  | One (AText kids) => exists t, v = GStr t /\ Decodes (trim_space (own_text kids)) t
  | One (ACount n) => v = GFloat (f64_of_Z (Z.of_nat n))
  | Many l => exists rs, v = GResults rs /\ Forall2 item_is l rs
  end.
Theorem C62_value : forall E sat p F steps e,
  (forall k l, Permutation l (e_ord E k l)) ->
  (forall c nd, good nd -> (sat c nd = true <-> true_of (e_parse_float E) c nd)) ->
  prolog p -> Forall good F -> shallow F -> (elements F < 9999)%N -> (blen (p ++ forest_text F) <= 10485760)%N -> good_query steps e ->
  exists r, get E (p ++ forest_text F) (query_text steps e) = Ok r /\ go_value (ask sat e true steps F) (r_value r).
Proof.
  intros E sat p F steps e Ho Hs Hp HG H1 H2 HL HQ.
  destruct (C54_language E sat p F steps e Ho Hs Hp HG H1 H2 HL HQ) as [r [R1 R2]]. exists r. split; auto. unfold r_value.
  destruct (ask sat e true steps F) as [|[kids|v|kids|n]|l]; cbn [says item_is describes go_value] in *.
  - now rewrite R2.
  - destruct R2 as [T [D _]]. rewrite T. destruct r as [t raw st nu l]. cbn [r_type] in T. subst t. exists st. split; auto.
  - destruct R2 as [T D]. destruct r as [t raw st nu l]. cbn [r_type] in T. subst t. cbn [r_string] in D. now rewrite <- D.
  - destruct R2 as [T D]. rewrite T. destruct r as [t raw st nu l]. cbn [r_type] in T. subst t. exists st. split; auto.
  - destruct R2 as [[T [D _]] _]. now rewrite T, D.
  - destruct R2 as [T D]. rewrite T. eauto.
Qed.
Print Assumptions C62_value.

(** Value() says the same as the accessors of its type. *)
Theorem C39_value : forall E r,
  match r_value r with
  | GNil => r_exists r = false
  | GBool b => r_bool r = b /\ r_int r = (if b then 1 else 0)%Z
  | GFloat f => r_type r = RNumber /\ r_float E r = f
  | GStr s => (r_type r = RString \/ r_type r = RElement \/ r_type r = RAttribute) /\ r_string r = s
  | GResults l => r_type r = RArray /\ r_list r = l
  end /\ (r_type r = RTrue \/ r_type r = RFalse -> exists b, r_value r = GBool b) /\ (r_type r = RNumber -> exists f, r_value r = GFloat f) /\
  (r_exists r = false -> r_value r = GNil).
Proof.
  intros E r. destruct r as [t raw st nu l]. destruct t; repeat split; auto; try (intros X; discriminate X); try (intros [X|X]; discriminate X); eauto. all: try (intros; eexists; reflexivity).
Qed.
Print Assumptions C39_value.
Example C39_value_example : r_value (mkR RTrue [] [] (SpecFloat.S754_zero false) []) = GBool true /\ r_value (mkR RElement [] (bs "x") (SpecFloat.S754_zero false) []) = GStr (bs "x").
Proof. split; reflexivity. Qed.

(** A query that begins with a condition is about the children when there is one child,
    but about a wrapper around them when there are several. *)
Theorem C62_condition_refuted : exists q x y,
  match get env0 x (bs "r"), get env0 y (bs "r") with
  | Ok r, Ok r' => match r_get env0 r q, r_get env0 r' q with
                   | Ok a, Ok b => r_string a = bs "1" /\ r_exists b = false
                   | _, _ => False end
  | _, _ => False end.
Proof. exists (bs "#(@k==1)"), (bs "<r><a k='1'>1</a></r>"), (bs "<r><a k='1'>1</a><b/></r>"). vm_compute. auto. Qed.
Print Assumptions C62_condition_refuted.
(** Likewise, the empty path finds something when there are several children. *)
Theorem C62_empty_path_refuted : exists x y,
  match get env0 x (bs "r"), get env0 y (bs "r") with
  | Ok r, Ok r' => match r_get env0 r [], r_get env0 r' [] with
                   | Ok a, Ok b => r_exists a = false /\ r_string b = bs "12"
                   | _, _ => False end
  | _, _ => False end.
Proof. exists (bs "<r><a>1</a></r>"), (bs "<r><a>1</a><b>2</b></r>"). vm_compute. auto. Qed.
Print Assumptions C62_empty_path_refuted.

Example C62_example :
  let q1 := [Child (bs "shop") Leading; Child (bs "item") (Where dear true)] in
  let q2 := [Child (bs "shop") Leading] in
  let q3 := [Child (bs "item") (Number (bs "1")); AnyKid] in
  good_query q1 EElement /\ good_query q2 EElement /\ good_query q3 EText /\ begins_with_step q3 /\
  query_text q3 EText = bs "item.1.*.%" /\
  opening (ask (decide_sat env0) EElement true q2 shop) = Some (AnElement (kids_of (nth 0 shop (Text [])))) /\
  ask_within (decide_sat env0) EText q3 (opening (ask (decide_sat env0) EElement true q2 shop)) = Many [AText [Text (bs "book")]; AText [Text (bs "12")]] /\
  match get env0 (forest_text shop) (query_text q2 EElement) with
  | Ok r => match r_get env0 r (bs "item.1.*.%") with Ok r2 => map r_string (r_results r2) = [bs "book"; bs "12"] | _ => False end
  | _ => False end.
Proof.
  cbv zeta. split; [query_ok|]. split; [query_ok|]. split; [query_ok|]. split; [exact I|]. split; [vm_compute; reflexivity|].
  split; [vm_compute; reflexivity|]. split; [vm_compute; reflexivity|]. vm_compute. reflexivity.
Qed.
Example C62_map_example :
  let o := mkOpts false [] false None in
  (forall s, (forall c, In c s -> (N_of_ascii c < 128)%N) -> e_to_lower env0 s = folded s) /\
  match get env0 (forest_text stock) (bs "Shop") with
  | Ok r => match r_map_opts env0 o r with
            | Ok m => map fst m = [bs "item"; bs "s:item"; bs "box"]
            | _ => False end
  | _ => False end /\
  keyed o (bs "item") (kids_of (nth 0 stock (Text []))) = [nth 0 (kids_of (nth 0 stock (Text []))) (Text [])].
Proof. cbv zeta. split; [intros s _; reflexivity|]. split; vm_compute; reflexivity. Qed.
