(** C48, C49, C50: numerals, index intents, filter conditions. *)
From Coq Require Import List Ascii String NArith ZArith Bool Lia Permutation.
From Verif Require Import GoStr ModelParser ModelPath ModelResult ModelQuery ModelValidate ModelBuilder
  SpecPath SpecScan ProofBase ProofPath ProofFuel ProofFuel2 ProofSyntax ProofSight3.
Import ListNotations.

(** C48. A step consisting of decimal digits is an index step whose index is the value
    of the numeral, cut off at 2^63-1. *)
Theorem C48_numeral_value : forall name ds, plain_name name -> ds <> [] -> Forall digit ds ->
  exists s1 s2, parse_path (quote_name name ++ "."%char :: ds) = Ok [s1; s2] /\
    s_type s1 = SElem /\ s_value s1 = name /\
    s_type s2 = SIndex /\ s_index s2 = Z.min (Z.of_N (decimal_value ds)) (2 ^ 63 - 1).
Proof.
  intros name ds Hp Hne Hd. rewrite (parse_path_index _ _ Hp Hne Hd). eexists. eexists. repeat split.
Qed.
Print Assumptions C48_numeral_value.
(** The element selected below the document is the one with that number among the
    top-level elements of that name; nothing when the number is 1000 or more. *)
Theorem C48_get_numeral : forall E xml name ds,
  (forall k l, Permutation l (e_ord E k l)) ->
  (blen xml <= 10485760)%N -> plain_name name -> ds <> [] -> Forall digit ds ->
  exists es, sees xml es /\
  get E xml (quote_name name ++ "."%char :: ds) =
  Ok (if (decimal_value ds <? 1000)%N then
        match nth_error (filter (fun e => bytes_eqb (e_name e) name) es) (N.to_nat (decimal_value ds)) with
        | Some e => r_element (e_content e)
        | None => r_null
        end
      else r_null).
Proof.
  intros E xml name ds P L Hp H1 D1. destruct (scan_res_ok E [] xml) as [es S]. exists es.
  split; [exact (scan_sees _ _ _ _ P S)|]. apply get_root_index; auto.
  unfold scan_res in S. destruct (scan (e_ord E) [] xml); congruence.
Qed.
Print Assumptions C48_get_numeral.
(** Consequently equal numbers select equally, whatever their spelling. *)
Theorem C48_leading_zeros : forall E xml name ds ds',
  plain_name name -> ds <> [] -> ds' <> [] -> Forall digit ds -> Forall digit ds' ->
  decimal_value ds = decimal_value ds' ->
  get E xml (quote_name name ++ "."%char :: ds) = get E xml (quote_name name ++ "."%char :: ds').
Proof.
  intros E xml name ds ds' Hp H1 H2 D1 D2 Hv.
  destruct (N.leb_spec (blen xml) MaxDocumentSize) as [L|L].
  - destruct (scan (e_ord E) [] xml) as [es|] eqn:S.
    + rewrite (get_root_index _ _ _ _ es), (get_root_index _ _ _ ds' es), Hv; auto.
    + exfalso. destruct (scan_res_ok E [] xml) as [x Hx]. unfold scan_res in Hx. rewrite S in Hx. discriminate.
  - unfold get. rewrite (proj2 (N.ltb_lt _ _) L). reflexivity.
Qed.
Print Assumptions C48_leading_zeros.
(** Dashes elsewhere than in front of a numeral do not make a step a name: such a step is
    an index too, and selects the first element. *)
Theorem C48_dashes_refuted : exists xml, valid xml = true /\
  get env0 xml (bs "r.a.1-2") = Ok (r_element (bs "first")) /\ get env0 xml (bs "r.a.--5") = Ok (r_element (bs "first")) /\
  get env0 xml (bs "r.a.0") = Ok (r_element (bs "first")).
Proof. exists (bs "<r><a>first</a><a>second</a></r>"). vm_compute. repeat split. Qed.
Print Assumptions C48_dashes_refuted.
Example C48_example :
  decimal_value (bs "0012") = 12%N /\ Forall digit (bs "0012") /\
  decimal_value (bs "99999999999999999999") = 99999999999999999999%N /\
  (match get env0 (bs "<a>x</a><b/><a>y</a>") (bs "a.01") with Ok r => bytes_eqb (r_string r) (bs "y") | _ => false end) = true.
Proof.
  split; [reflexivity|]. split; [|split; [reflexivity|vm_compute; reflexivity]].
  repeat constructor; vm_compute; discriminate.
Qed.

(** C50. A condition written as path, operator and literal, with any number of spaces
    around each of them, is parsed into exactly these. *)
Theorem C50_condition : forall path op t v a b c d,
  operand path -> op_free path -> op <> OpExists ->
  unquoted_literal t v \/ quoted_literal t v -> no_control v ->
  (op = OpLt \/ op = OpGt \/ op = OpMatch -> ~ In "="%char t /\ ~ In "!"%char t) ->
  (List.length (spaces a ++ path ++ spaces b ++ op_text op ++ spaces c ++ t ++ spaces d) <= 256)%nat ->
  parse_filter_condition (spaces a ++ path ++ spaces b ++ op_text op ++ spaces c ++ t ++ spaces d) =
  Ok (Some (mkFilt path op v)).
Proof.
  intros path op t v a b c d Hp Hf Ho Hl Hv Hs Hlen.
  apply parse_filter_written; auto. intros K. apply Hs. destruct op; auto; discriminate.
Qed.
Print Assumptions C50_condition.
Theorem C50_existence_condition : forall path a d, operand path -> op_free path ->
  (List.length (spaces a ++ path ++ spaces d) <= 256)%nat ->
  parse_filter_condition (spaces a ++ path ++ spaces d) = Ok (Some (mkFilt path OpExists [])).
Proof. exact parse_filter_exists. Qed.
Print Assumptions C50_existence_condition.
Theorem C50_long_condition_refused : forall e, (256 < List.length e)%nat -> parse_filter_condition e = Ok None.
Proof. exact parse_filter_long. Qed.
Print Assumptions C50_long_condition_refused.
(** Whatever is accepted has an operand without operator characters and came from text
    of this shape. *)
Theorem C50_accepted_shape : forall e f, parse_filter_condition e = Ok (Some f) ->
  op_free (f_path f) /\ f_path f <> [] /\ (List.length e <= 256)%nat /\
  (f_op f <> OpExists ->
   exists p q, trim_space e = p ++ op_text (f_op f) ++ q /\ trim_space p = f_path f /\
     (trim_space q = f_value f \/
      exists c, (c = squote \/ c = dquote) /\ trim_space q = c :: f_value f ++ [c])).
Proof.
  intros e f H. unfold parse_filter_condition in H.
  destruct (N.ltb_spec MaxFilterExpressionLength (blen e)) as [|L]; [discriminate|].
  destruct (mem nul e); [discriminate|].
  destruct (trim_space e) as [|x0 xr] eqn:T; [discriminate|]. rewrite <- T in *.
  assert (L' : (List.length e <= 256)%nat) by (unfold blen, MaxFilterExpressionLength in L; lia).
  destruct (contains_any op_chars (trim_space e)) eqn:C; cbn [negb] in H.
  - destruct (find_op (trim_space e)) as [[[p op] q]|] eqn:F; [|discriminate].
    destruct (contains_any ctl_chars p); [discriminate|].
    destruct (trim_space p) as [|p0 p1] eqn:TP; [discriminate|].
    destruct (trim_space q) as [|q0 q1] eqn:TQ; [discriminate|].
    destruct (contains_any op_chars (p0 :: p1)) eqn:C2; [discriminate|].
    destruct (unquote (q0 :: q1)) as [v| |] eqn:U; cbn [bind] in H; try discriminate.
    destruct (contains_any ctl_chars v); [discriminate|]. injection H as <-. cbn [f_path f_op f_value].
    split; [now apply op_free_no_ops|]. split; [discriminate|]. split; [exact L'|]. intros _.
    exists p, q. split; [now apply find_op_text|]. split; [auto|].
    unfold unquote in U. destruct (quoted_with squote (q0 :: q1) || quoted_with dquote (q0 :: q1)) eqn:Q.
    + right. apply orb_true_iff in Q.
      assert (K : exists c, (c = squote \/ c = dquote) /\ quoted_with c (q0 :: q1) = true) by (destruct Q; eauto).
      destruct K as [c [Hc K]]. exists c. split; auto. apply quoted_with_spec in K.
      destruct K as [[m K1] [k K2]]. injection K1 as -> ->.
      destruct m as [|m0 m]; [discriminate|].
      assert (U' : v = removelast (m0 :: m)) by (injection U; auto). clear U.
      destruct k as [|k0 k]; [discriminate|]. injection K2 as -> K2. rewrite TQ, U', K2, removelast_last. reflexivity.
    + left. injection U as <-. auto.
  - injection H as <-. cbn [f_path f_op f_value]. split; [now apply op_free_no_ops|].
    split; [congruence|]. split; [exact L'|]. intros K. now elim K.
Qed.
Print Assumptions C50_accepted_shape.
(** The condition as a path step. *)
Theorem C50_filter_step : forall cond all f,
  ~ In "|"%char cond -> ~ In "."%char cond -> ~ In backslash cond -> cond <> [] ->
  parse_filter_condition cond = Ok (Some f) ->
  exists sg, parse_path (bs "#(" ++ cond ++ bs ")" ++ (if all : bool then bs "#" else [])) = Ok [sg] /\
    s_type sg = SFilter /\ s_filter sg = Some f /\ s_all sg = all /\ s_mods sg = [].
Proof.
  intros cond all f H1 H2 H3 H4 H5. eexists. split; [exact (parse_path_filter _ _ _ H1 H2 H3 H4 H5)|].
  repeat split.
Qed.
Print Assumptions C50_filter_step.
Example C50_example :
  operand (bs "@id") /\ op_free (bs "@id") /\ quoted_literal (bs "'a b=<c'") (bs "a b=<c") /\
  spaces 1 ++ bs "@id" ++ spaces 2 ++ op_text OpEq ++ spaces 0 ++ bs "'a b=<c'" ++ spaces 1 = bs " @id  =='a b=<c' " /\
  parse_filter_condition (bs " @id  =='a b=<c' ") = Ok (Some (mkFilt (bs "@id") OpEq (bs "a b=<c"))).
Proof.
  split.
  { split.
    - exists "@"%char, (bs "id"). split; auto. unfold visible. vm_compute. split; discriminate.
    - exists (bs "@i"), "d"%char. split; auto. unfold visible. vm_compute. split; discriminate.
    - intros c Hc. repeat (destruct Hc as [<-|Hc]; [vm_compute; intuition discriminate|]). destruct Hc. }
  split.
  { intros c Hc. repeat (destruct Hc as [<-|Hc]; [vm_compute; intuition discriminate|]). destruct Hc. }
  split.
  { exists squote. split; auto. split; [reflexivity|].
    intros c Hc. repeat (destruct Hc as [<-|Hc]; [vm_compute; intuition discriminate|]). destruct Hc. }
  split; reflexivity.
Qed.

(** A path is cut at its dots before the conditions in it are read, also at a dot inside a
    condition: a decimal fraction is found only when its dot is escaped. *)
Theorem C50_dot_refuted : exists xml, valid xml = true /\
  parse_filter_condition (bs "c==4.5") = Ok (Some (mkFilt (bs "c") OpEq (bs "4.5"))) /\
  get env0 xml (bs "r.p.#(c==4.5)") = Ok r_null /\
  get env0 xml (bs "r.p.#(c==4\.5)") = Ok (r_element (bs "<c>4.5</c>")).
Proof. exists (bs "<r><p><c>4.5</c></p></r>"). vm_compute. repeat split. Qed.
Print Assumptions C50_dot_refuted.

(** C49. Indexes in the path of an edit. *)
Theorem C49_bad_index_refused : forall E fmt_g o xml path v segs r,
  parse_path_opts o path = Ok segs -> bad_index segs -> v <> VNil ->
  set_opts E fmt_g o xml path v = Ok r ->
  fst r = xml /\ (snd r = Some ErrInvalidPath \/ snd r = Some ErrMalformedXML \/ snd r = Some ErrInvalidValue).
Proof.
  intros E fmt_g o xml path v segs r Hp Hb Hv H. unfold set_opts in H.
  destruct (MaxDocumentSize <? blen xml)%N; [injection H as <-; auto|].
  destruct (match xml with [] => false | _ :: _ => negb (valid xml) end); [injection H as <-; auto|].
  assert (K : edit_of xml (set_element E fmt_g o xml segs v) = Ok r).
  { rewrite Hp in H. destruct Hb as [pre [sg [post [-> _]]]].
    destruct v; try contradiction; cbn [bind] in H; destruct pre; exact H. }
  clear H. unfold set_element in K. apply check_intents_err in Hb.
  destruct segs as [|s0 segs]; [discriminate|]. rewrite Hb in K.
  destruct (value_to_xml fmt_g v); [injection K as <-; cbn; auto|].
  - destruct e; auto.
  - destruct (MaxValueSize <? blen b)%N; [injection K as <-; cbn; auto|].
    destruct (MaxDocumentSize <? blen xml)%N; injection K as <-; cbn; auto.
Qed.
Print Assumptions C49_bad_index_refused.
(** With an acceptable document and value the error is ErrInvalidPath. *)
Theorem C49_bad_index_error : forall E fmt_g o xml path s segs,
  parse_path_opts o path = Ok segs -> bad_index segs ->
  (blen xml <= 10485760)%N -> (xml = [] \/ valid xml = true) -> (blen (escape_xml s) <= 5242880)%N ->
  set_opts E fmt_g o xml path (VStr s) = Ok (xml, Some ErrInvalidPath).
Proof.
  intros E fmt_g o xml path s segs Hp Hb Hx Hv Hs. unfold set_opts.
  change 10485760%N with MaxDocumentSize in Hx. change 5242880%N with MaxValueSize in Hs.
  rewrite (proj2 (N.ltb_ge _ _) Hx).
  assert (G : match xml with [] => false | _ :: _ => negb (valid xml) end = false).
  { destruct Hv as [->| ->]; auto. destruct xml; auto. }
  rewrite G, Hp. cbn [bind]. destruct segs as [|s0 segs]; [destruct Hb as [[] [? [? [K _]]]]; discriminate|].
  unfold edit_of, set_element. cbn [value_to_xml]. rewrite (proj2 (N.ltb_ge _ _) Hs), (proj2 (N.ltb_ge _ _) Hx).
  rewrite (proj2 (check_intents_err _) Hb). reflexivity.
Qed.
Print Assumptions C49_bad_index_error.
(** A last step -1 with no other negative index is an append; every path is exactly one
    of: refused, append, access. *)
Theorem C49_append : forall E fmt_g o xml path s segs,
  parse_path_opts o path = Ok segs -> append_index segs ->
  (blen xml <= 10485760)%N -> (xml = [] \/ valid xml = true) -> (blen (escape_xml s) <= 5242880)%N ->
  set_opts E fmt_g o xml path (VStr s) =
  edit_of xml (let* r := append_element E o [0%nat] xml segs (escape_xml s) in
               Ok (match r with inl e => inl e | inr [] => inr xml | inr d => inr d end)).
Proof.
  intros E fmt_g o xml path s segs Hp Hb Hx Hv Hs. unfold set_opts.
  change 10485760%N with MaxDocumentSize in Hx. change 5242880%N with MaxValueSize in Hs.
  rewrite (proj2 (N.ltb_ge _ _) Hx).
  assert (G : match xml with [] => false | _ :: _ => negb (valid xml) end = false).
  { destruct Hv as [->| ->]; auto. destruct xml; auto. }
  rewrite G, Hp. cbn [bind]. destruct segs as [|s0 segs]; [destruct Hb as [[] [? [K _]]]; discriminate|].
  unfold set_element. cbn [value_to_xml]. rewrite (proj2 (N.ltb_ge _ _) Hs), (proj2 (N.ltb_ge _ _) Hx).
  rewrite (proj2 (check_intents_append _) Hb). f_equal.
  destruct (append_element E o [0%nat] xml (s0 :: segs) (escape_xml s)) as [[e|[|c d]]| |]; reflexivity.
Qed.
Print Assumptions C49_append.
Theorem C49_three_kinds : forall segs,
  (access_index segs \/ append_index segs \/ bad_index segs) /\
  (access_index segs -> ~ append_index segs /\ ~ bad_index segs) /\
  (append_index segs -> ~ bad_index segs).
Proof.
  intros segs. destruct (intents_exclusive segs) as [H1 H2]. split; [|split; auto].
  pose proof (check_intents_spec segs). destruct (check_intents segs); auto.
Qed.
Print Assumptions C49_three_kinds.
Example C49_example :
  (match parse_path (bs "r.a.-1") with Ok segs => append_index segs | _ => False end) /\
  (match parse_path (bs "r.a.-2") with Ok segs => bad_index segs | _ => False end) /\
  (match parse_path (bs "r.a.-1.b") with Ok segs => bad_index segs | _ => False end) /\
  set env0 (fun _ => []) (bs "<r><a>1</a></r>") (bs "r.a.-1.b") (VStr (bs "x")) =
    Ok (bs "<r><a>1</a></r>", Some ErrInvalidPath) /\
  set env0 (fun _ => []) (bs "<r><a>1</a><b/></r>") (bs "r.a.-1") (VStr (bs "x")) =
    Ok (bs "<r><a>1</a><a>x</a><b/></r>", None).
Proof.
  repeat split; try (vm_compute; reflexivity).
  - vm_compute. exists [mkSeg SElem (bs "r") 0 false None false [] []; mkSeg SElem (bs "a") 0 false None false [] []], (index_seg (-1)).
    repeat split; auto; repeat constructor; discriminate.
  - vm_compute. exists [mkSeg SElem (bs "r") 0 false None false [] []; mkSeg SElem (bs "a") 0 false None false [] []], (index_seg (-2)), [].
    repeat split; auto.
  - vm_compute. exists [mkSeg SElem (bs "r") 0 false None false [] []; mkSeg SElem (bs "a") 0 false None false [] []], (index_seg (-1)), [mkSeg SElem (bs "b") 0 false None false [] []].
    repeat split; auto. right. split; [reflexivity|discriminate].
Qed.

(** C22, for steps of every kind with modifiers: the written form is split into exactly
    the intended steps. *)
Definition denotes (st : step) (sg : seg) : Prop :=
  match st with
  | Name n => s_type sg = SElem /\ s_value sg = n
  | Nth ds => s_type sg = SIndex /\
      ((Z.of_N (decimal_value ds) < 2^63)%Z -> s_index sg = Z.of_N (decimal_value ds))
  | Attr a => s_type sg = SAttr /\ s_value sg = a
  | TextOf => s_type sg = SText
  | CountOf => s_type sg = SCount
  | AnyChild => s_type sg = SWild /\ s_wild sg = false
  | AnyDepth => s_type sg = SWild /\ s_wild sg = true
  end.
Theorem C22_parse_steps : forall l segs, l <> [] ->
  Forall (fun x => good_step (fst x) /\ Forall good_mod (snd x)) l -> no_field l ->
  (List.length l <= 100)%nat -> parse_path (steps_text l) = Ok segs ->
  Forall2 (fun x sg => denotes (fst x) sg /\ s_mods sg = snd x) l segs.
Proof.
  intros l segs H1 H2 H3 H4 H. rewrite (parse_steps l H1 H2 H3 H4) in H. injection H as <-.
  clear - H2. induction H2 as [|[st ms] l [G _] H IH]; cbn [map]; constructor; auto.
  cbn [fst snd] in *. destruct st; cbn [step_seg denotes fst snd s_type s_value s_index s_wild s_mods] in *; auto.
  split; auto. split; auto. intros K. apply Z.min_l. unfold int64_max. lia.
Qed.
Print Assumptions C22_parse_steps.
Theorem C22_parse_steps_defined : forall l, l <> [] ->
  Forall (fun x => good_step (fst x) /\ Forall good_mod (snd x)) l -> no_field l ->
  (List.length l <= 100)%nat -> exists segs, parse_path (steps_text l) = Ok segs.
Proof. intros l H1 H2 H3 H4. eexists. exact (parse_steps l H1 H2 H3 H4). Qed.
Print Assumptions C22_parse_steps_defined.
Example C22_steps_example :
  steps_text [(Name (bs "a.b"), []); (AnyChild, []); (Name (bs "c"), []); (Nth (bs "12"), [bs "first"; bs "sort"]); (CountOf, [])]
  = bs "a\.b.*.c.12|@first|@sort.#".
Proof. vm_compute. reflexivity. Qed.
