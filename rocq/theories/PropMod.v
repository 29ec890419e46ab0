(** C35, C36, C39, C45, C46: modifiers, result accessors, text of arrays. *)
From Coq Require Import List Ascii String NArith ZArith Bool Lia SpecFloat Permutation.
From Verif Require Import GoStr ModelParser ModelPattern ModelPath ModelPretty ModelResult ModelQuery SpecPath SpecMod
  ProofBase ProofMod ProofMod2 ProofMod3.
Import ListNotations.

(** C35. An empty chain changes nothing, a single known modifier is applied, a chain
    is applied from left to right and can be split anywhere; Null ends it. *)
Theorem C35_empty_chain : forall E r, apply_modifiers E r [] = r.
Proof. reflexivity. Qed.
Print Assumptions C35_empty_chain.
Theorem C35_one : forall E r n m, get_modifier E n = Some m -> apply_modifiers E r [n] = m r.
Proof.
  intros E r n m H. unfold apply_modifiers. cbn [List.length Nat.ltb]. cbn [apply_loop]. rewrite H. cbv zeta.
  change (Nat.ltb MaxModifierChainDepth 1) with false. cbn iota. destruct (is_null (m r)); reflexivity.
Qed.
Print Assumptions C35_one.
Theorem C35_split_chain : forall E r a b, (List.length a + List.length b <= 20)%nat -> a <> [] ->
  apply_modifiers E r (a ++ b) =
  let r' := apply_modifiers E r a in if r_exists r' then apply_modifiers E r' b else r'.
Proof.
  intros E r a b H Ha. rewrite (apply_split E r a b H Ha). cbv zeta. unfold is_null, r_exists.
  destruct (rtype_eqb (r_type (apply_modifiers E r a)) RNull); reflexivity.
Qed.
Print Assumptions C35_split_chain.
Theorem C35_long_chain : forall E r ns, (20 < List.length ns)%nat -> apply_modifiers E r ns = r_null.
Proof. intros E r ns H. unfold apply_modifiers, MaxModifierChainDepth. now rewrite (proj2 (Nat.ltb_lt _ _) H). Qed.
Print Assumptions C35_long_chain.
Theorem C35_unknown_modifier : forall E r ns n, In n ns -> get_modifier E n = None ->
  r_exists (apply_modifiers E r ns) = false.
Proof.
  intros E r ns n H1 H2. pose proof (apply_unknown E ns r n H1 H2) as K. unfold is_null in K. unfold r_exists. now rewrite K.
Qed.
Print Assumptions C35_unknown_modifier.
(** A query with modifiers is the query without them followed by the modifiers: for
    names followed by a name, an attribute, the text, an index or a count, and
    modifiers that do not turn an existing value into Null. *)
Theorem C35_get_then_modify : forall E xml names st ms,
  (blen xml <= 10485760)%N -> Forall plain_name names -> good_step st -> Forall good_mod ms ->
  last_step_ok (List.length names) st -> (List.length names < 100)%nat ->
  (forall r, r_exists r = true -> r_is_array r = false -> r_exists (apply_modifiers E r ms) = true) ->
  get E xml (steps_text (map (fun n => (Name n, [])) names ++ [(st, ms)])) =
  let* r := get E xml (steps_text (map (fun n => (Name n, [])) names ++ [(st, [])])) in
  Ok (if r_exists r then apply_modifiers E r ms else r).
Proof. exact get_mods. Qed.
Print Assumptions C35_get_then_modify.
(** The built-in modifiers satisfy the last condition. *)
Theorem C35_built_in_keep : forall E ms r,
  Forall (fun m => In m [bs "reverse"; bs "sort"; bs "first"; bs "last"; bs "flatten"; bs "ugly"; bs "pretty"]) ms ->
  (List.length ms <= 20)%nat -> r_exists r = true -> r_is_array r = false ->
  r_exists (apply_modifiers E r ms) = true.
Proof. exact builtin_keep. Qed.
Print Assumptions C35_built_in_keep.
(** On the roots of a fragment modifiers after an index are ignored, even unknown ones. *)
Theorem C35_fragment_index_refuted : exists xml path ms r,
  path = bs "a.0" /\ ms = [bs "nope"] /\ get_modifier env0 (bs "nope") = None /\
  get env0 xml (path ++ mods_text ms) = Ok r /\ r_exists r = true.
Proof.
  exists (bs "<a>x</a><a>y</a>"), (bs "a.0"), [bs "nope"], (r_element (bs "x")).
  repeat split; vm_compute; reflexivity.
Qed.
Print Assumptions C35_fragment_index_refuted.
Example C35_example :
  let E := mkEnv (fun _ l => l) (fun _ => None) (fun _ l => l) no_codec to_lower_ascii
             (fun n => if bytes_eqb n (bs "dup") then
                         Some (fun r => mkR (r_type r) (r_raw r) (r_str r ++ r_str r) (r_num r) (r_results r)) else None) in
  let p ms := steps_text (map (fun n => (Name n, [])) [bs "r"; bs "a"] ++ [(Attr (bs "k"), ms)]) in
  p [bs "dup"; bs "dup"] = bs "r.a.@k|@dup|@dup" /\
  (match get E (bs "<r><a k='v'>x</a></r>") (p [bs "dup"; bs "dup"]) with Ok r => bytes_eqb (r_string r) (bs "vvvv") | _ => false end) = true /\
  (match get E (bs "<r><a k='v'>x</a></r>") (p []) with Ok r => bytes_eqb (r_string r) (bs "v") | _ => false end) = true /\
  get_modifier E (bs "nope") = None /\
  (forall r, r_exists r = true -> r_is_array r = false -> r_exists (apply_modifiers E r [bs "dup"; bs "dup"]) = true).
Proof.
  cbv zeta. do 4 (split; [vm_compute; reflexivity|]). intros [t w s n l] H1 H2. destruct t; try discriminate; reflexivity.
Qed.

(** C36. Laws of the built-in modifiers. *)
Theorem C36_reverse : forall E m r, get_modifier E (bs "reverse") = Some m -> r_type r = RArray ->
  r_type (m r) = RArray /\ r_results (m r) = rev (r_results r) /\ r_results (m (m r)) = r_results r.
Proof.
  intros E m r H T. injection H as <-. unfold mod_reverse, r_is_array. rewrite T. cbn [rtype_eqb].
  destruct (r_results r) as [|x l] eqn:L; [rewrite T, L; cbn [rtype_eqb]; rewrite L; auto|].
  cbn [r_array r_type r_results rtype_eqb]. split; [reflexivity|]. split; [reflexivity|].
  destruct (rev (x :: l)) as [|y k] eqn:R.
  - exfalso. assert (K : List.length (rev (x :: l)) = List.length (@nil result)) by now rewrite R.
    rewrite rev_length in K. discriminate.
  - rewrite <- R. cbn [r_results]. apply rev_involutive.
Qed.
Print Assumptions C36_reverse.
Theorem C36_first_last : forall E f g r x l, get_modifier E (bs "first") = Some f -> get_modifier E (bs "last") = Some g ->
  r_type r = RArray -> (r_results r = x :: l -> f r = x) /\ (r_results r = l ++ [x] -> g r = x) /\
  (r_results r = [] -> f r = r /\ g r = r).
Proof.
  intros E f g r x l F G T. injection F as <-. injection G as <-. unfold mod_first, mod_last, r_is_array. rewrite T. cbn [rtype_eqb].
  split; [intros ->; reflexivity|]. split; [|intros ->; auto].
  intros ->. destruct l as [|y l]; [reflexivity|]. cbn [app]. apply last_last.
Qed.
Print Assumptions C36_first_last.
(** @sort rearranges the entries; if all of them are numbers (and none is NaN) they
    ascend by Float(), otherwise by String(). *)
Theorem C36_sort : forall E m r, get_modifier E (bs "sort") = Some m -> sorts (e_sort E) -> r_type r = RArray ->
  exists l, r_type (m r) = RArray /\ r_results (m r) = l /\ Permutation (r_results r) l /\
    (Forall (numeric E) (r_results r) -> Forall (fun x => no_nan (r_float E x)) (r_results r) ->
       ascending (fun a b => SFltb (r_float E a) (r_float E b)) l) /\
    (~ Forall (numeric E) (r_results r) -> ascending (fun a b => bytes_ltb (r_string a) (r_string b)) l).
Proof. intros E m r H. injection H as <-. apply sort_spec. Qed.
Print Assumptions C36_sort.
Theorem C36_sort_twice : forall E m r, get_modifier E (bs "sort") = Some m -> sorts (e_sort E) -> r_type r = RArray ->
  (Forall (numeric E) (r_results r) -> Forall (fun x => no_nan (r_float E x)) (r_results r) ->
     map (fun x => norm0 (r_float E x)) (r_results (m (m r))) = map (fun x => norm0 (r_float E x)) (r_results (m r))) /\
  (~ Forall (numeric E) (r_results r) -> map r_string (r_results (m (m r))) = map r_string (r_results (m r))).
Proof. intros E m r H. injection H as <-. apply sort_again. Qed.
Print Assumptions C36_sort_twice.
Theorem C36_flatten : forall E m r, get_modifier E (bs "flatten") = Some m -> r_type r = RArray ->
  let l := List.concat (map (fun x => if rtype_eqb (r_type x) RArray then r_results x else [x]) (r_results r)) in
  (l = [] -> r_exists (m r) = false) /\ (l <> [] -> r_type (m r) = RArray /\ r_results (m r) = l).
Proof.
  intros E m r H T. injection H as <-. cbv zeta. rewrite <- flat_map_concat_map. unfold mod_flatten, r_is_array. rewrite T. cbn [rtype_eqb].
  destruct (flat_map (fun x => if rtype_eqb (r_type x) RArray then r_results x else [x]) (r_results r)) as [|y k].
  - split; [reflexivity|easy].
  - split; [discriminate|]. auto.
Qed.
Print Assumptions C36_flatten.
Theorem C36_not_an_array : forall E n m r,
  In n [bs "reverse"; bs "sort"; bs "first"; bs "last"; bs "flatten"] -> get_modifier E n = Some m ->
  r_type r <> RArray -> m r = r.
Proof.
  intros E n m r Hn Hm T. assert (A : r_is_array r = false) by (unfold r_is_array; destruct (r_type r); try reflexivity; contradiction).
  cbn [In] in Hn. repeat (destruct Hn as [<-|Hn]; [injection Hm as <-; unfold mod_reverse, mod_sort, mod_first, mod_last, mod_flatten; rewrite A; reflexivity|]).
  contradiction.
Qed.
Print Assumptions C36_not_an_array.
(** A sorting function meeting the contract exists: insertion sort. *)
Definition isort_insert (lt : result -> result -> bool) (x : result) : list result -> list result :=
  fix go l := match l with [] => [x] | y :: l' => if lt y x then y :: go l' else x :: l end.
Definition isort (lt : result -> result -> bool) (l : list result) : list result := fold_right (isort_insert lt) [] l.
Example C36_example :
  let E := mkEnv (fun _ l => l) (e_parse_float env0) isort no_codec to_lower_ascii (fun _ => None) in
  let n s := mkR RString [] s f64_zero [] in
  let r := r_array [n (bs "10"); n (bs "9"); n (bs "-3"); n (bs "9")] in
  Forall (numeric E) (r_results r) /\ Forall (fun x => no_nan (r_float E x)) (r_results r) /\
  map r_str (r_results (mod_sort E r)) = [bs "-3"; bs "9"; bs "9"; bs "10"] /\
  ~ Forall (numeric E) [n (bs "10"); n (bs "9"); n (bs "x")] /\
  map r_str (r_results (mod_sort E (r_array [n (bs "x"); n (bs "10"); n (bs "9")]))) = [bs "10"; bs "9"; bs "x"] /\
  map r_str (r_results (mod_flatten (r_array [n (bs "a"); r_array [n (bs "b"); n (bs "c")]; n (bs "d")]))) = [bs "a"; bs "b"; bs "c"; bs "d"].
Proof.
  cbv zeta. split; [repeat apply Forall_cons; try apply Forall_nil; right; (split; [now left|vm_compute; discriminate])|].
  split; [repeat apply Forall_cons; try apply Forall_nil; vm_compute; exact I|].
  split; [vm_compute; reflexivity|]. split; [|split; vm_compute; reflexivity].
  intros H. rewrite Forall_forall in H. match type of H with forall x, In x [_; _; ?z] -> _ => specialize (H z) end.
  destruct (H (or_intror (or_intror (or_introl eq_refl)))) as [K|[_ K]]; [discriminate|now apply K].
Qed.
Theorem C36_sort_contract_satisfiable : sorts isort.
Proof.
  intros lt l. 
  assert (P : forall x k, Permutation (x :: k) (isort_insert lt x k)).
  { intros x. induction k as [|y k IH]; [apply Permutation_refl|]. cbn [isort_insert].
    destruct (lt y x); [|apply Permutation_refl]. rewrite perm_swap. apply perm_skip. exact IH. }
  assert (Q : forall q, Permutation q (isort lt q)).
  { intros q. induction q as [|x k IH]; [apply Permutation_refl|]. change (isort lt (x :: k)) with (isort_insert lt x (isort lt k)).
    rewrite <- P. apply perm_skip. exact IH. }
  split; [apply Q|]. intros [I0 [T0 N0]].
  assert (G : forall k, (forall z, In z k -> In z l) -> ascending lt (isort lt k)).
  { induction k as [|x k IH]; intros Hk; [exact I|]. change (isort lt (x :: k)) with (isort_insert lt x (isort lt k)).
    specialize (IH (fun z Hz => Hk z (or_intror Hz))).
    assert (Hin : forall z, In z (isort lt k) -> In z l).
    { intros z Hz. apply Hk. right. eapply Permutation_in; [symmetry; apply Q|exact Hz]. }
    assert (Hx : In x l) by (apply Hk; now left).
    clear Hk. induction (isort lt k) as [|y m IHm]; [split; [constructor|exact I]|]. cbn [isort_insert].
    destruct IH as [F A]. rewrite Forall_forall in F. destruct (lt y x) eqn:L.
    - split.
      + apply Forall_forall. intros z Hz. apply (Permutation_in (l' := x :: m)) in Hz; [|symmetry; apply P].
        destruct Hz as [<-|Hz]; [|now apply F].
        destruct (lt x y) eqn:L2; [|reflexivity].
        assert (lt x x = true) by (apply (T0 x y x); auto; apply Hin; now left). rewrite I0 in H by auto. discriminate.
      + apply IHm; auto. intros z Hz. apply Hin. now right.
    - split; [|split; [rewrite Forall_forall; exact F|exact A]].
      constructor; [exact L|]. apply Forall_forall. intros z Hz.
      apply (N0 z y x); auto; [apply Hin; now right|apply Hin; now left]. }
  apply G. auto.
Qed.
Print Assumptions C36_sort_contract_satisfiable.

(** C39. Accessors. *)
Theorem C39_array : forall r,
  (r_type r = RArray -> r_list r = r_results r) /\
  (r_type r = RNull -> r_list r = []) /\
  (r_type r <> RArray -> r_type r <> RNull -> r_list r = [r]).
Proof. intros r. unfold r_list. destruct (r_type r); repeat split; intros; try discriminate; try contradiction; reflexivity. Qed.
Print Assumptions C39_array.
Theorem C39_exists : forall r, r_exists r = false <-> r_type r = RNull.
Proof. intros r. unfold r_exists. destruct (r_type r); split; intros H; try discriminate; reflexivity. Qed.
Print Assumptions C39_exists.
(** ForEach calls the callback on the numbered entries of Array() in order: on [vis];
    all calls but the last returned true, and if entries remain the last one returned
    false. *)
Theorem C39_foreach : forall S (f : S -> nat -> result -> S * bool) r st,
  exists vis rest, combine (seq 0 (List.length (r_list r))) (r_list r) = vis ++ rest /\
    r_foreach f st r = run f st vis /\
    (forall a x b, vis = a ++ x :: b -> b <> [] -> snd (f (run f st a) (fst x) (snd x)) = true) /\
    (rest <> [] -> exists a x, vis = a ++ [x] /\ snd (f (run f st a) (fst x) (snd x)) = false).
Proof. exact foreach_spec. Qed.
Print Assumptions C39_foreach.
(** Int() of text is the number the text denotes if it is a decimal numeral within the
    range of int64, and 0 for every other text. *)
Theorem C39_int : forall r z, r_type r = RString \/ r_type r = RElement \/ r_type r = RAttribute ->
  (numeral (r_str r) z -> (- 2 ^ 63 <= z < 2 ^ 63)%Z -> r_int r = z) /\
  ((forall z, numeral (r_str r) z -> ~ (- 2 ^ 63 <= z < 2 ^ 63)%Z) -> r_int r = 0%Z).
Proof.
  intros r z T. assert (K : r_int r = match parse_int64 (r_str r) with inl v => v | inr _ => 0%Z end).
  { unfold r_int. destruct T as [->|[->| ->]]; reflexivity. }
  rewrite K. clear K. change (2 ^ 63)%Z with 9223372036854775808%Z. split.
  - intros N R. replace (parse_int64 (r_str r)) with (inl z : Z + Z); [reflexivity|].
    symmetry. apply parse_int64_numeral. split; [exact N|]. unfold int64_min, int64_max. lia.
  - intros N. destruct (parse_int64 (r_str r)) as [v|v] eqn:Q; [|reflexivity].
    apply parse_int64_numeral in Q. destruct Q as [Q R]. exfalso. apply (N v Q). unfold int64_min, int64_max in R. lia.
Qed.
Print Assumptions C39_int.
(** Int() of a count is the count (counts never exceed 1000). *)
Theorem C39_count_int : forall n, (n <= 1000)%nat -> r_int (r_count n) = Z.of_nat n.
Proof. intros n H. apply (count_int n H). Qed.
Print Assumptions C39_count_int.
(** Int() of a number [m * 2^e] or [- m * 2^e] is the number without its fraction, when
    that fits in int64. *)
Theorem C39_int_number : forall r (neg : bool) m e a, r_type r = RNumber -> r_num r = S754_finite neg m e -> (0 <= a)%Z ->
  ((0 <= e)%Z -> a = (Zpos m * 2 ^ e)%Z) -> ((e < 0)%Z -> (a * 2 ^ (- e) <= Zpos m < (a + 1) * 2 ^ (- e))%Z) ->
  (- 2 ^ 63 <= (if neg then - a else a) < 2 ^ 63)%Z -> r_int r = (if neg then - a else a)%Z.
Proof.
  intros r neg m e a T N A P Q R. unfold r_int. rewrite T, N. unfold f64_trunc.
  assert (K : (if (0 <=? e)%Z then Z.shiftl (Zpos m) e else Z.shiftr (Zpos m) (- e)) = a).
  { destruct (Z.leb_spec 0 e) as [L|L].
    - rewrite Z.shiftl_mul_pow2 by lia. symmetry. auto.
    - rewrite Z.shiftr_div_pow2 by lia. symmetry. specialize (Q L). assert (0 < 2 ^ (- e))%Z by (apply Z.pow_pos_nonneg; lia).
      apply Z.div_unique with (r := (Zpos m - a * 2 ^ (- e))%Z); [left|]; lia. }
  rewrite K. cbv zeta. change (2 ^ 63)%Z with 9223372036854775808%Z in R. unfold int64_min, int64_max.
  destruct (Z.leb_spec (-9223372036854775808) (if neg then - a else a)); destruct (Z.leb_spec (if neg then - a else a) 9223372036854775807); cbn [andb]; auto; lia.
Qed.
Print Assumptions C39_int_number.
Theorem C39_int_zero : forall r neg, r_type r = RNumber -> r_num r = S754_zero neg -> r_int r = 0%Z.
Proof. intros r neg T N. unfold r_int. now rewrite T, N. Qed.
Print Assumptions C39_int_zero.
Theorem C39_int_other : forall r, (r_type r = RTrue -> r_int r = 1%Z) /\
  (r_type r = RFalse \/ r_type r = RNull \/ r_type r = RArray -> r_int r = 0%Z).
Proof. intros r. unfold r_int. split; [intros ->; reflexivity|intros [->|[->| ->]]; reflexivity]. Qed.
Print Assumptions C39_int_other.
(** Float() of a number is the number, of text what strconv.ParseFloat makes of it or zero,
    of true one. *)
Theorem C39_float : forall E r,
  (r_type r = RNumber -> r_float E r = r_num r) /\
  (r_type r = RString \/ r_type r = RElement \/ r_type r = RAttribute ->
    (forall v, e_parse_float E (r_str r) = Some v -> r_float E r = v) /\ (e_parse_float E (r_str r) = None -> r_float E r = S754_zero false)) /\
  (r_type r = RTrue -> exists m e, r_float E r = S754_finite false m e /\ (Zpos m = 2 ^ (- e))%Z) /\
  (r_type r = RFalse \/ r_type r = RNull \/ r_type r = RArray -> r_float E r = S754_zero false).
Proof.
  intros E r. unfold r_float. split; [intros ->; reflexivity|]. split; [|split].
  - intros [->|[->| ->]]; (split; [intros v ->; reflexivity|intros ->; reflexivity]).
  - intros ->. eexists _, _. split; reflexivity.
  - intros [->|[->| ->]]; reflexivity.
Qed.
Print Assumptions C39_float.
Theorem C39_bool : forall r, r_bool r = true <->
  r_type r = RTrue \/
  (r_type r = RNumber /\ SFeqb (r_num r) (S754_zero false) = false) \/
  ((r_type r = RString \/ r_type r = RElement \/ r_type r = RAttribute) /\
   In (r_str r) [bs "true"; bs "1"; bs "yes"; bs "True"; bs "YES"; bs "t"; bs "T"]).
Proof.
  intros r.
  assert (X : existsb (bytes_eqb (r_str r)) truthy = true <-> In (r_str r) [bs "true"; bs "1"; bs "yes"; bs "True"; bs "YES"; bs "t"; bs "T"]).
  { rewrite existsb_exists. unfold truthy. split; [intros [y [H1 H2]]; apply bytes_eqb_eq in H2; rewrite H2; exact H1|].
    intros H. exists (r_str r). split; [exact H|apply bytes_eqb_refl]. }
  unfold r_bool. destruct (r_type r); (split; intros H).
  all: try discriminate.
  all: try (destruct H as [H|[[H _]|[[H|[H|H]] _]]]; discriminate).
  all: try (right; right; split; [now auto|now apply X]).
  all: try (destruct H as [H|[[H _]|[_ H]]]; try discriminate; now apply X).
  - right. left. split; [reflexivity|]. now apply negb_true_iff in H.
  - destruct H as [H|[[_ H]|[[H|[H|H]] _]]]; try discriminate. apply negb_true_iff. exact H.
  - now left.
  - reflexivity.
Qed.
Print Assumptions C39_bool.
Example C39_example :
  numeral (bs "-0042") (-42) /\ r_int (r_attribute (bs "-0042")) = (-42)%Z /\
  r_int (r_attribute (bs "9223372036854775808")) = 0%Z /\
  r_int (mkR RNumber [] [] (S754_finite true 15 (-2)) []) = (-3)%Z /\ r_int (mkR RNumber [] [] (S754_finite false 3 2) []) = 12%Z /\
  r_int (mkR RTrue [] [] (S754_zero false) []) = 1%Z /\
  (let r := r_array [r_attribute (bs "a"); r_attribute (bs "b"); r_attribute (bs "c")] in
   r_foreach (fun st i x => (st ++ r_str x, negb (Nat.eqb i 1))) [] r = bs "ab").
Proof.
  split; [|vm_compute; repeat split]. exists (bs "0042"). split; [discriminate|]. split; [|right; split; reflexivity].
  repeat (apply Forall_cons; [vm_compute; split; discriminate|]). apply Forall_nil.
Qed.

(** C45. @ugly leaves out white space only, changes nothing else and is idempotent. *)
Theorem C45_only_white_space : forall E m r, get_modifier E (bs "ugly") = Some m ->
  subseq (r_raw (m r)) (r_raw r) /\ unspaced (r_raw (m r)) = unspaced (r_raw r) /\
  r_type (m r) = r_type r /\ r_str (m r) = r_str r /\ r_num (m r) = r_num r.
Proof.
  intros E m r H. injection H as <-. unfold mod_ugly. destruct (r_raw r) as [|c w] eqn:W.
  - rewrite W. repeat split; constructor.
  - destruct (compact_sub (List.length (c :: w)) false false (c :: w) (le_n _)) as [A B]. repeat split; assumption.
Qed.
Print Assumptions C45_only_white_space.
Theorem C45_idempotent : forall E m r, get_modifier E (bs "ugly") = Some m -> r_raw (m (m r)) = r_raw (m r).
Proof.
  intros E m r H. injection H as <-. unfold mod_ugly. destruct (r_raw r) as [|c w] eqn:W; [rewrite W; exact W|].
  cbn [r_raw]. assert (K := compact_idem (List.length (c :: w)) false false (c :: w) (le_n _) (fun H => match Bool.diff_false_true H with end)).
  change (compact false false (c :: w)) with (compact_xml (c :: w)) in K.
  change (compact false false (compact_xml (c :: w))) with (compact_xml (compact_xml (c :: w))) in K.
  destruct (compact_xml (c :: w)) as [|d v] eqn:C; [reflexivity|]. exact K.
Qed.
Print Assumptions C45_idempotent.
(** On markup written as tags, CDATA sections and text it leaves the tags and the CDATA
    sections as they are and removes the white space of the text. *)
Theorem C45_pieces : forall E m r l, get_modifier E (bs "ugly") = Some m -> Forall good_piece l ->
  r_raw r = pieces_text l -> r_raw (m r) = pieces_text (map tighten l).
Proof.
  intros E m r l H G W. injection H as <-. unfold mod_ugly. rewrite <- (compact_pieces l G), <- W.
  destruct (r_raw r) as [|c w] eqn:Q; [rewrite Q; reflexivity|reflexivity].
Qed.
Print Assumptions C45_pieces.
(** The white space inside text goes too: words run together. *)
Theorem C45_words_refuted : exists r, r_raw r = bs "<p>two words</p>" /\ r_raw (mod_ugly r) = bs "<p>twowords</p>".
Proof. exists (r_element (bs "<p>two words</p>")). split; vm_compute; reflexivity. Qed.
Print Assumptions C45_words_refuted.
Example C45_example :
  let l := [PText (bs " "); PTag (bs "p a='1  2'"); PText (bs "x "); PCData (bs " k ]] "); PTag (bs "/p")] in
  Forall good_piece l /\ pieces_text l = bs " <p a='1  2'>x <![CDATA[ k ]] ]]></p>" /\
  pieces_text (map tighten l) = bs "<p a='1  2'>x<![CDATA[ k ]] ]]></p>".
Proof.
  cbv zeta. split; [|split; reflexivity].
  repeat apply Forall_cons; try apply Forall_nil; cbn [good_piece].
  - vm_compute; intuition discriminate.
  - split; [vm_compute; intuition discriminate|]. intros r H; discriminate H.
  - vm_compute; intuition discriminate.
  - intros u v H. cbn in H. repeat (destruct u as [|? u]; [discriminate H|]; cbn in H; try discriminate H; injection H as _ H).
  - split; [vm_compute; intuition discriminate|]. intros r H; discriminate H.
Qed.

(** C46. The text of an array of well-formed UTF-8 strings determines the strings. *)
Theorem C46_decode : forall r, r_type r = RArray -> Forall (fun x => utf8 (r_string x)) (r_results r) ->
  decode_array (r_string r) = Some (map r_string (r_results r)).
Proof. exact decode_array_string. Qed.
Print Assumptions C46_decode.
(** Other bytes are replaced by U+FFFD, so different arrays can have the same text. *)
Theorem C46_bytes_refuted : exists a b, map r_string (r_results a) <> map r_string (r_results b) /\
  r_type a = RArray /\ r_type b = RArray /\ r_string a = r_string b.
Proof.
  exists (r_array [r_attribute ["255"%char]]), (r_array [r_attribute ["254"%char]]).
  repeat split; try (vm_compute; reflexivity). intros H. discriminate H.
Qed.
Print Assumptions C46_bytes_refuted.
Example C46_example :
  let x := ["a"%char; dquote; ","%char; backslash; "195"%char; "169"%char] in
  utf8 x /\ r_string (r_array [r_attribute x; r_attribute []]) =
    bs "[" ++ [dquote; "a"%char; backslash; dquote; ","%char; backslash; backslash; "195"%char; "169"%char; dquote] ++ bs "," ++ [dquote; dquote] ++ bs "]" /\
  decode_array (r_string (r_array [r_attribute x; r_attribute []])) = Some [x; []].
Proof.
  cbv zeta. split; [|split; vm_compute; reflexivity].
  do 4 (apply u_1; [vm_compute; split; discriminate|]). apply u_2; [vm_compute; split; discriminate|vm_compute; split; discriminate|apply u_nil].
Qed.
