(** C74: numbers in documents are compared, sorted and converted by their decimal values. *)
From Coq Require Import List Ascii String NArith ZArith QArith Qabs Lqa Lia Bool Permutation SpecFloat.
From Verif Require Import GoStr ModelParser ModelPath ModelPretty ModelResult ModelQuery ModelValidate ModelBuilder SpecText SpecPath SpecMod SpecTree SpecQuery SpecValid SpecEdit SpecContent SpecFilter SpecLang SpecNumber
  ProofBase ProofEscape ProofFilter ProofMod ProofMod2 ProofMod3 ProofTree8 ProofLang3 ProofLang5 ProofNumber ProofNumber2 ProofNumber3 ProofNumber4 ProofNumber5 PropTree PropEdit PropLang PropMod.
Import ListNotations.

(** ** C74. An ordering condition on two decimal numbers in the range of binary64 never
    contradicts their values: < and > hold only if the values are so ordered, <= and >=
    hold whenever they are, and all four are right for equal values and for values with
    two binary64 numbers between them. *)
Theorem C74_compare : forall E op s t v w, rounds (e_parse_float E) -> numeral s v -> numeral t w -> representable v -> representable w ->
  (strict op -> filter_decide E op true s t = true -> relation op v w) /\
  (weak op -> relation op v w -> filter_decide E op true s t = true) /\
  ((v == w)%Q \/ separated v w \/ separated w v -> strict op \/ weak op -> (filter_decide E op true s t = true <-> relation op v w)).
Proof.
  intros E op s t v w R Hs Ht Rv Rw. rewrite (filter_decide_spec E op true s t).
  destruct (ordered_values (e_parse_float E) R op s t v w Hs Ht Rv Rw) as [A [B [C D]]].
  split; [exact A|]. split; [exact B|]. intros [X|X] O; auto.
Qed.
Print Assumptions C74_compare.
(** Out of the range every ordering condition fails. *)
Theorem C74_out_of_range : forall E op s t v w, rounds (e_parse_float E) -> numeral s v -> numeral t w -> strict op \/ weak op ->
  ~ (representable v /\ representable w) -> filter_decide E op true s t = false.
Proof.
  intros E op s t v w R Hs Ht O N. apply not_true_iff_false. rewrite (filter_decide_spec E op true s t).
  exact (ordered_out (e_parse_float E) R op s t v w Hs Ht O N).
Qed.
Print Assumptions C74_out_of_range.
(** Decimals of at most 15 significant digits, whatever way they are written, are compared
    exactly. *)
Theorem C74_short : forall E op s t v w k, rounds (e_parse_float E) -> numeral s v -> numeral t w -> short k v -> short k w -> strict op \/ weak op ->
  (filter_decide E op true s t = true <-> relation op v w).
Proof. intros E op s t v w k R. rewrite (filter_decide_spec E op true s t). now apply ordered_short. Qed.
Print Assumptions C74_short.
(** So are all values of binary64 numbers, and thereby integers up to 2^53. *)
Theorem C74_exact : forall E op s t v w, rounds (e_parse_float E) -> numeral s v -> numeral t w -> representable v -> representable w -> exact v -> exact w ->
  strict op \/ weak op -> (filter_decide E op true s t = true <-> relation op v w).
Proof. intros E op s t v w R. rewrite (filter_decide_spec E op true s t). now apply ordered_exact. Qed.
Print Assumptions C74_exact.
Theorem C74_integers : forall z, (Z.abs z <= 2 ^ 53)%Z -> exact (inject_Z z).
Proof. exact exact_integer. Qed.
Print Assumptions C74_integers.

(** A query with such a condition selects the children whose decimal values are so
    ordered. *)
Theorem C74_selected : forall E p F m nd n c all l w k,
  (forall k l, Permutation l (e_ord E k l)) -> rounds (e_parse_float E) ->
  prolog p -> Forall good F -> shallow F -> (elements F < 9999)%N ->
  (blen (p ++ forest_text F) <= 10485760)%N -> step_name m -> step_name n -> good_condition c ->
  called (selects m) F = [nd] ->
  strict (c_op c) \/ weak (c_op c) -> numeral (c_lit c) w -> short k w ->
  (forall kid s, In kid (called (selects n) (kids_of nd)) -> about (c_about c) kid (Some s) -> exists v, numeral s v /\ short k v) ->
  sublist_by (fun kid => exists s v, about (c_about c) kid (Some s) /\ numeral s v /\ relation (c_op c) v w)
    (firstn 1000 (called (selects n) (kids_of nd))) l ->
  exists r, get E (p ++ forest_text F) (path_text [m; n; where_text c all]) = Ok r /\
    says r (match l with [] => NoReply | x :: _ => if all then Many (map element l) else One (element x) end).
Proof.
  intros E p F m nd n c all l w k Ho R Hp HG H1 H2 HL Hm Hn Hc HF O Hw Sw A S1.
  apply (C56_selected E p F m nd n c all l); auto. eapply sublist_equiv; [|exact S1].
  intros kid I. symmetry. apply (true_of_values _ c kid w k R O Hw Sw). intros s. apply A.
  rewrite <- (firstn_skipn 1000). apply in_or_app. now left.
Qed.
Print Assumptions C74_selected.

(** Float() of a text is the binary64 number nearest to its decimal value, and 0 out of the
    range. *)
Theorem C74_float : forall E r v, rounds (e_parse_float E) -> textual r -> numeral (r_string r) v ->
  (representable v -> nearest v (r_float E r)) /\ (~ representable v -> r_float E r = S754_zero false).
Proof. exact float_nearest. Qed.
Print Assumptions C74_float.

(** @sort of decimals orders them by their values. *)
Theorem C74_sort : forall E m r k, get_modifier E (bs "sort") = Some m -> rounds (e_parse_float E) -> sorts (e_sort E) -> r_type r = RArray ->
  Forall (fun x => textual x /\ exists v, numeral (r_string x) v /\ short k v) (r_results r) ->
  r_type (m r) = RArray /\ Permutation (r_results r) (r_results (m r)) /\
  forall l1 a l2 b l3 v w, r_results (m r) = l1 ++ a :: l2 ++ b :: l3 -> numeral (r_string a) v -> numeral (r_string b) w -> (v <= w)%Q.
Proof. intros E m r k H. injection H as <-. apply sort_values. Qed.
Print Assumptions C74_sort.

(** The contract assumed of strconv.ParseFloat can be met. *)
Theorem C74_contract : exists pf, rounds pf.
Proof. exists decimal_float. exact decimal_float_rounds. Qed.
Print Assumptions C74_contract.

(** A float64 that is set is read back by Float(), from an element and from an attribute. *)
Theorem C74_set_float : forall E fmt_g p F steps A n a kids B f new,
  (forall k l, Permutation l (e_ord E k l)) -> prints (e_parse_float E) fmt_g ->
  prolog p -> Forall good F -> valid (p ++ forest_text F) = true ->
  good_tpath steps TheElement -> readable steps F -> located steps F A (Elem n a false kids) B ->
  binary64 f -> (blen (fmt_g f) <= 5242880)%N ->
  set E fmt_g (p ++ forest_text F) (tpath steps TheElement) (VFloat f) = Ok (new, None) -> (blen new <= 10485760)%N ->
  exists r, get E new (tpath steps TheElement) = Ok r /\ r_string r = fmt_g f /\
    binary64 (r_float E r) /\ (float_value (r_float E r) == float_value f)%Q.
Proof.
  intros E g p F steps A n a kids B f new Ho Pr Hp HG HV GT RD L B64 SZ S1 SN. destruct (Pr f B64) as [v [x [Nm [Pf [Bx Vx]]]]].
  rewrite (set_float_text E g _ _ f v Nm) in S1.
  destruct (C02_get_after_set E g p F steps A n a kids B (g f) new Ho Hp HG HV GT RD L) as [r [R1 [R2 R3]]]; auto.
  { now rewrite (numeral_esc _ _ Nm). }
  rewrite (numeral_trim _ _ Nm) in R3. exists r. split; [exact R1|]. split; [exact R3|].
  rewrite (textual_float E r) by (right; now left). rewrite R3, Pf. now split.
Qed.
Print Assumptions C74_set_float.
Theorem C74_set_float_attribute : forall E fmt_g p F steps A n a self kids B x f new,
  (forall k l, Permutation l (e_ord E k l)) -> prints (e_parse_float E) fmt_g ->
  prolog p -> Forall good F -> valid (p ++ forest_text F) = true ->
  good_tpath steps (TheAttribute x) -> readable steps F -> located steps F A (Elem n a self kids) B ->
  binary64 f -> (blen (fmt_g f) <= 5242880)%N -> good_attrs (put_attr x (fmt_g f) a) ->
  set E fmt_g (p ++ forest_text F) (tpath steps (TheAttribute x)) (VFloat f) = Ok (new, None) -> (blen new <= 10485760)%N ->
  exists r, get E new (tpath steps (TheAttribute x)) = Ok r /\ r_string r = fmt_g f /\
    binary64 (r_float E r) /\ (float_value (r_float E r) == float_value f)%Q.
Proof.
  intros E g p F steps A n a self kids B x f new Ho Pr Hp HG HV GT RD L B64 SZ GA S1 SN. destruct (Pr f B64) as [v [y [Nm [Pf [Bx Vx]]]]].
  rewrite (set_float_text E g _ _ f v Nm) in S1.
  destruct (C05_set_attribute E g p F steps A n a self kids B x (g f) Ho Hp HG HV GT L) as [a' [P [S' K]]]; [now rewrite (numeral_esc _ _ Nm)|].
  rewrite S1 in S'. injection S' as ->. destruct (K RD GA SN) as [[r [R1 [R2 R3]]] _]. exists r. split; [exact R1|]. split; [exact R3|].
  rewrite (textual_float E r) by (right; now right). rewrite R3, Pf. now split.
Qed.
Print Assumptions C74_set_float_attribute.
(** The contract assumed of fmt.Sprintf can be met together with that of ParseFloat. *)
Theorem C74_printing_contract : forall pf, rounds pf -> exists fmt, prints pf fmt.
Proof. intros pf R. exists exact_text. now apply exact_text_prints. Qed.
Print Assumptions C74_printing_contract.

Definition env10 : env := mkEnv (fun _ l => l) decimal_float isort no_codec to_lower_ascii (fun _ => None).
(** Integers beyond 2^53 can be told apart by their digits but not by a condition. *)
Theorem C74_long_refuted : exists E s t v w, rounds (e_parse_float E) /\ numeral s v /\ numeral t w /\ representable v /\ representable w /\
  (v < w)%Q /\ filter_decide E OpLt true s t = false /\ filter_decide E OpGe true s t = true.
Proof.
  exists env10, (bs "9007199254740992"), (bs "9007199254740993"), (inject_Z 9007199254740992), (inject_Z 9007199254740993).
  split; [exact decimal_float_rounds|].
  split; [apply read_numeral_sound; vm_compute; reflexivity|]. split; [apply read_numeral_sound; vm_compute; reflexivity|].
  split; [apply representable_b_ok; vm_compute; reflexivity|]. split; [apply representable_b_ok; vm_compute; reflexivity|].
  split; [reflexivity|]. split; vm_compute; reflexivity.
Qed.
Print Assumptions C74_long_refuted.
(** And numbers beyond the range are not even equal to themselves. *)
Theorem C74_huge_refuted : exists E s v, rounds (e_parse_float E) /\ numeral s v /\
  filter_decide E OpEq true s s = true /\ filter_decide E OpLe true s s = false /\ filter_decide E OpGe true s s = false.
Proof.
  exists env10, (bs "1e309"), (inject_Z (10 ^ 309)). split; [exact decimal_float_rounds|].
  split; [apply read_numeral_sound; vm_compute; reflexivity|]. repeat split; vm_compute; reflexivity.
Qed.
Print Assumptions C74_huge_refuted.

Ltac numeral_tac := apply read_numeral_sound; vm_compute; reflexivity.
Ltac short_tac m := split; [lia|exists m; split; [vm_compute; discriminate|vm_compute; reflexivity]].
Definition cheap : condition := mkCond (OfPath [(bs "price", None)] TheElement) OpLe (bs "9.90").
Definition shop10 : list node :=
  [Elem (bs "shop") [] false
     [Elem (bs "item") [] false [Elem (bs "price") [] false [Text (bs "10")]];
      Elem (bs "item") [] false [Elem (bs "price") [] false [Text (bs "9.9")]];
      Elem (bs "item") [] false [Elem (bs "price") [] false [Text (bs "+.5e1")]]]].
Example C74_example :
  let n s := mkR RElement [] s f64_zero [] in
  let r := r_array [n (bs "10"); n (bs "9.9"); n (bs "-1e3"); n (bs "+.5e1")] in
  (** texts and values *)
  numeral (bs "10") 10 /\ numeral (bs "9.9") (99 # 10) /\ numeral (bs "-1e3") (-1000) /\ numeral (bs "+.5e1") 5 /\ numeral (bs "9.90") (990 # 100) /\
  short (-2) 10 /\ short (-2) (99 # 10) /\ short (-2) (-1000) /\ short (-2) 5 /\ short (-2) (990 # 100) /\
  filter_decide env10 OpLt true (bs "9.9") (bs "10") = true /\ filter_decide env10 OpGe true (bs "9.9") (bs "9.90") = true /\
  (** 0.1 *)
  decimal_float (bs "0.1") = Some (S754_finite false 7205759403792794 (-56)) /\
  map r_str (r_results (mod_sort env10 r)) = [bs "-1e3"; bs "+.5e1"; bs "9.9"; bs "10"] /\
  good_condition cheap /\ path_text [bs "shop"; bs "item"; where_text cheap true] = bs "shop.item.#(price<='9\.90')#" /\
  map (fun x => r_str x) (match get env10 (forest_text shop10) (bs "shop.item.#(price<='9\.90')#") with Ok x => r_results x | _ => [] end) = [bs "9.9"; bs "+.5e1"] /\
  ~ representable (inject_Z (2 ^ 1024)).
Proof.
  cbv zeta. split; [numeral_tac|]. split; [numeral_tac|]. split; [numeral_tac|]. split; [numeral_tac|]. split; [numeral_tac|].
  split; [short_tac 1000%Z|]. split; [short_tac 990%Z|]. split; [short_tac (-100000)%Z|]. split; [short_tac 500%Z|]. split; [short_tac 990%Z|].
  split; [vm_compute; reflexivity|]. split; [vm_compute; reflexivity|]. split; [vm_compute; reflexivity|]. split; [vm_compute; reflexivity|].
  split; [apply condition_b_ok; vm_compute; reflexivity|]. split; [vm_compute; reflexivity|]. split; [vm_compute; reflexivity|].
  intros K. apply representable_b_ok in K. vm_compute in K. discriminate.
Qed.
(** Both hypotheses of [C74_selected] about the children of the sample. *)
Example C74_selected_example : forall kid, In kid (called (selects (bs "item")) (kids_of (nth 0 shop10 (Text [])))) ->
  exists s v, about (c_about cheap) kid (Some s) /\ numeral s v /\ short (-2) v.
Proof.
  intros kid K. vm_compute in K. destruct K as [<-|[<-|[<-|[]]]].
  - exists (bs "10"), 10%Q. split; [|split; [numeral_tac|short_tac 1000%Z]]. apply told_element. exact (unescape_decodes _).
  - exists (bs "9.9"), (99 # 10)%Q. split; [|split; [numeral_tac|short_tac 990%Z]]. apply told_element. exact (unescape_decodes _).
  - exists (bs "+.5e1"), 5%Q. split; [|split; [numeral_tac|short_tac 500%Z]]. apply told_element. exact (unescape_decodes _).
Qed.
Example C74_set_float_example : readable ab1 sample /\ binary64 (S754_finite false 7205759403792794 (-56)) /\
  exact_text (S754_finite false 7205759403792794 (-3)) = bs "900719925474099250e-3" /\
  match set env10 exact_text (sample_prolog ++ forest_text sample) (bs "r.a.1.b.1") (VFloat (S754_finite false 7205759403792794 (-3))) with
  | Ok (new, None) => match get env10 new (bs "r.a.1.b.1") with Ok r => r_float env10 r | _ => f64_zero end | _ => f64_zero end
  = S754_finite false 7205759403792794 (-3).
Proof. split; [apply C02_example|]. split; [split; [exact I|reflexivity]|]. split; vm_compute; reflexivity. Qed.
