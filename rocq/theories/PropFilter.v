(** C32, C34: filters. *)
From Coq Require Import List Ascii String NArith ZArith Bool Lia SpecFloat Permutation.
From Verif Require Import GoStr ModelParser ModelPath ModelResult ModelQuery SpecPath SpecGlob SpecScan SpecFilter
  ProofBase ProofPath ProofFuel ProofSyntax ProofFilter ProofFilter2 ProofMono ProofApi2 ProofFuel2 ProofSight3.
Import ListNotations.

(** C32. At the end of a path of names, [#(cond)] is the first entry of [#(cond)#]; both
    are Null when nothing matches. *)
Theorem C32_first_of_all : forall E xml names cond f r,
  Forall plain_name names -> (List.length names < 100)%nat ->
  ~ In "|"%char cond -> parse_filter_condition cond = Ok (Some f) ->
  get E xml (path_text (names ++ [bs "#(" ++ cond ++ bs ")#"])) = Ok r ->
  (r = r_null /\ get E xml (path_text (names ++ [bs "#(" ++ cond ++ bs ")"])) = Ok r_null) \/
  (exists x l, r = r_array (x :: l) /\ get E xml (path_text (names ++ [bs "#(" ++ cond ++ bs ")"])) = Ok x).
Proof.
  intros E xml names cond f r Hn Hl Hb Hc H.
  assert (Hne : cond <> []) by (intros ->; discriminate).
  change (get E xml (path_text (names ++ [cond_step cond true])) = Ok r) in H.
  change ((r = r_null /\ get E xml (path_text (names ++ [cond_step cond false])) = Ok r_null) \/
          (exists x l, r = r_array (x :: l) /\ get E xml (path_text (names ++ [cond_step cond false])) = Ok x)).
  pose proof (fun all => parse_names_filter names cond all f Hn Hb Hne Hl Hc) as P.
  assert (N : forall all, map elem_seg names ++ [filter_seg f all] <> []) by (intros all K; destruct names; discriminate).
  destruct (MaxDocumentSize <? blen xml)%N eqn:S.
  { left. unfold get in *. rewrite S in *. injection H as <-. auto. }
  apply N.ltb_ge in S. set (n := (cost (map elem_seg names ++ [filter_seg f true]) + cost (map elem_seg names ++ [filter_seg f false]) + 1)%nat).
  rewrite (get_exec E xml _ _ n S (P true) (N true)) in H by (unfold n; lia).
  rewrite (get_exec E xml _ _ n S (P false) (N false)) by (unfold n; lia).
  destruct (exec_filter_related E f names n [] true xml) as [R1 R2]. rewrite R1, H. cbn [bind].
  destruct (R2 _ H) as [->|[l [Hl' ->]]]; [left; auto|right].
  destruct l as [|e l]; [easy|]. cbn [map]. eauto.
Qed.
Print Assumptions C32_first_of_all.

(** The all-matches form selects exactly the top-level elements of that name that satisfy
    the condition, in document order, out of the first 1000 of that name. *)
Theorem C32_all_matches : forall E xml n cond f,
  (forall k k' l, e_ord E k l = e_ord E k' l) -> (forall k l, Permutation l (e_ord E k l)) ->
  (blen xml <= 10485760)%N -> plain_name n -> (forall p l, good_prefix p -> n <> qualified p l) ->
  ~ In "|"%char cond -> parse_filter_condition cond = Ok (Some f) ->
  exists es, sees xml es /\ forall named keep : elem -> bool,
  Forall (fun e => (blen (e_content e) <= 10485760)%N) es ->
  (forall e, named e = true <-> e_name e = n \/ exists p, good_prefix p /\ e_name e = qualified p n) ->
  (forall e, In e es -> (keep e = true <-> satisfies E f e)) ->
  get E xml (path_text [n; bs "#(" ++ cond ++ bs ")#"]) =
  Ok (match filter keep (firstn 1000 (filter named es)) with
      | [] => r_null
      | l => r_array (map (fun e => r_element (e_content e)) l)
      end).
Proof.
  intros E xml n cond f Hk P L Hp Hq Hb Hc. destruct (scan_res_ok E [] xml) as [es S]. exists es.
  split; [exact (scan_sees _ _ _ _ P S)|]. intros named keep HL Hn Hs. apply (all_matches E xml n cond f es named keep); auto.
  unfold scan_res in S. destruct (scan (e_ord E) [] xml); congruence.
Qed.
Print Assumptions C32_all_matches.
Example C32_example :
  let xml := bs "<a k='1'>x</a><b k='2'/><a k='2'><t>7</t></a><n:a k='2'>z</n:a>" in
  let r k := get env0 xml k in
  plain_name (bs "a") /\
  parse_filter_condition (bs "@k==2") = Ok (Some (mkFilt (bs "@k") OpEq (bs "2"))) /\
  r (bs "a.#(@k==2)#") = Ok (r_array [r_element (bs "<t>7</t>"); r_element (bs "z")]) /\
  r (bs "a.#(@k==2)") = Ok (r_element (bs "<t>7</t>")) /\
  r (bs "a.#(t)#") = Ok (r_array [r_element (bs "<t>7</t>")]) /\
  r (bs "a.#(@k==3)#") = Ok r_null /\ r (bs "a.#(@k==3)") = Ok r_null.
Proof.
  split.
  - repeat constructor; try (intros; discriminate); try (vm_compute; intuition discriminate).
    exists "a"%char. vm_compute. intuition (try discriminate).
  - vm_compute. repeat split; reflexivity.
Qed.

(** C34. A filter accepts an element exactly when its condition holds of the value. *)
Theorem C34_decision : forall E op found v lit,
  filter_decide E op found v lit = true <->
  holds (e_parse_float E) op (if found then Some v else None) lit.
Proof. exact filter_decide_spec. Qed.
Print Assumptions C34_decision.
(** In particular: *)
Theorem C34_laws : forall E v lit op,
  (** nothing holds of a missing value *)
  filter_decide E op false v lit = false /\
  (** == and != compare the texts *)
  (filter_decide E OpEq true v lit = true <-> v = lit) /\
  (filter_decide E OpNe true v lit = true <-> v <> lit) /\
  (** an ordering needs two finite numbers *)
  (In op [OpLt; OpGt; OpLe; OpGe] -> filter_decide E op true v lit = true ->
    exists x y, number (e_parse_float E) v x /\ number (e_parse_float E) lit y) /\
  (** and is the order of the numbers *)
  (forall x y, number (e_parse_float E) v x -> number (e_parse_float E) lit y ->
    (filter_decide E OpLt true v lit = true <-> num_lt x y) /\
    (filter_decide E OpGt true v lit = true <-> num_lt y x) /\
    (filter_decide E OpLe true v lit = true <-> num_lt x y \/ num_eq x y) /\
    (filter_decide E OpGe true v lit = true <-> num_lt y x \/ num_eq y x)) /\
  (** % and !% are opposite unless the matcher gives up *)
  ((is_glob lit -> within_budget v lit) ->
    filter_decide E OpNotMatch true v lit = negb (filter_decide E OpMatch true v lit)) /\
  ((is_glob lit /\ ~ within_budget v lit) ->
    filter_decide E OpNotMatch true v lit = false /\ filter_decide E OpMatch true v lit = false).
Proof. exact decide_laws. Qed.
Print Assumptions C34_laws.
(** The shape of numbers. *)
Theorem C34_number_text : forall s, is_numeric_value s = true <-> number_text s.
Proof. exact is_numeric_value_spec. Qed.
Print Assumptions C34_number_text.
Example C34_example :
  number_text (bs "-1.5e3") /\ ~ number_text (bs "abc") /\ ~ number_text (bs "1.2.3") /\
  holds (e_parse_float env0) OpMatch (Some (bs "abc")) (bs "a*c") /\
  filter_decide env0 OpLt true (bs "abc") (bs "5") = false.
Proof.
  split; [apply is_numeric_value_spec; reflexivity|].
  split; [intros K; apply is_numeric_value_spec in K; discriminate|].
  split; [intros K; apply is_numeric_value_spec in K; discriminate|].
  split; [apply (filter_decide_spec env0 OpMatch true); vm_compute; reflexivity|vm_compute; reflexivity].
Qed.
