(** C31: bounds on the number of results. *)
From Coq Require Import List Ascii String NArith ZArith Bool Lia Permutation.
From Verif Require Import GoStr ModelParser ModelPath ModelResult ModelQuery ModelBuilder ModelQueryOpts SpecPath SpecBound ProofBound ProofBound2.
Import ListNotations.

(** Every path is written here as its parts ([path_text] joins them with dots and quotes
    dots and backslashes inside a part); parts with a modifier are excluded, every
    document is allowed. *)
Theorem C31_bound : forall E xml (parts : list bytes) r,
  Forall (fun p : bytes => ~ In "|"%char p) parts -> get E xml (path_text parts) = Ok r -> r_type r = RArray ->
  (N.of_nat (List.length (r_results r)) <= 1000 ^ N.of_nat (List.length (filter multiplies parts)))%N.
Proof.
  intros E xml parts r Hb H T. destruct (path_bound _ _ _ _ Hb H) as [K _]. unfold flatten1 in K. rewrite T in K. exact K.
Qed.
Print Assumptions C31_bound.
Theorem C31_one : forall E xml (pre : list bytes) (m : bytes) (post : list bytes) r,
  Forall (fun p : bytes => ~ In "|"%char p) (pre ++ m :: post) -> Forall (fun p => multiplies p = false) (pre ++ post) ->
  get E xml (path_text (pre ++ m :: post)) = Ok r -> r_type r = RArray -> List.length (r_results r) <= 1000.
Proof.
  intros E xml pre m post r Hb H1 H T. pose proof (C31_bound _ _ _ _ Hb H T) as K.
  assert (L : List.length (filter multiplies (pre ++ m :: post)) <= 1).
  { apply Forall_app in H1. destruct H1 as [H1 H2].
    assert (F : forall l, Forall (fun p => multiplies p = false) l -> filter multiplies l = []).
    { induction 1 as [|x l X1 X2 IH]; auto. cbn [filter]. now rewrite X1. }
    rewrite filter_app, (F _ H1), app_nil_l. cbn [filter]. rewrite (F _ H2). destruct (multiplies m); cbn [List.length]; lia. }
  assert (P : (1000 ^ N.of_nat (List.length (filter multiplies (pre ++ m :: post))) <= 1000 ^ 1)%N) by (apply N.pow_le_mono_r; lia).
  rewrite N.pow_1_r in P. lia.
Qed.
Print Assumptions C31_one.
(** No array without such a step. *)
Theorem C31_none : forall E xml (parts : list bytes) r,
  Forall (fun p : bytes => ~ In "|"%char p) parts -> Forall (fun p => multiplies p = false) parts ->
  get E xml (path_text parts) = Ok r -> r_type r = RArray -> List.length (r_results r) <= 1.
Proof.
  intros E xml parts r Hb H1 H T. pose proof (C31_bound _ _ _ _ Hb H T) as K.
  assert (F : filter multiplies parts = []) by (clear - H1; induction H1 as [|x l X1 X2 IH]; auto; cbn [filter]; now rewrite X1).
  rewrite F in K. cbn in K. lia.
Qed.
Print Assumptions C31_none.

Definition many_kids (n : nat) : bytes := bs "<k>" ++ List.concat (repeat (bs "<c/>") n) ++ bs "</k>".
(** The bound is reached: 1100 children, 1000 results, also for conditions and fields. *)
Example C31_example :
  let doc := many_kids 1100 in
  let n (parts : list bytes) := match get env0 doc (path_text parts) with Ok r => (match r_type r with RArray => true | _ => false end, List.length (r_results r)) | _ => (false, 0) end in
  n [bs "k"; bs "*"] = (true, 1000) /\ n [bs "**"; bs "c"] = (true, 1000) /\ n [bs "k"; bs "c"; bs "#"; bs "%"] = (true, 0) /\
  multiplies (bs "*") = true /\ multiplies (bs "#(c>1)#") = true /\ multiplies (bs "#(c>1)") = false /\ multiplies (bs "k") = false.
Proof. vm_compute. repeat split. Qed.

(** Two wildcards exceed the limit. *)
Theorem C31_nested_refuted : exists xml path r,
  get env0 xml path = Ok r /\ r_type r = RArray /\ 1000 < List.length (r_results r).
Proof.
  exists (bs "<r>" ++ many_kids 501 ++ many_kids 501 ++ bs "</r>"), (bs "r.*.*"), (r_array (repeat (r_element []) 1002)).
  split; [vm_compute; reflexivity|]. split; [reflexivity|]. apply Nat.ltb_lt. vm_compute. reflexivity.
Qed.
Print Assumptions C31_nested_refuted.

(** Under options the same bound holds when case counts; otherwise a step to an attribute
    yields every attribute of a tag that has the name in some spelling, and a tag has at
    most one hundred of them. *)
Theorem C31_options : forall E o xml (parts : list bytes) r, (forall k l, Permutation l (e_ord E k l)) ->
  Forall (fun p : bytes => ~ In "|"%char p) parts -> get_opts E o xml (path_text parts) = Ok r -> r_type r = RArray ->
  (N.of_nat (List.length (r_results r)) <=
     (if o_case o then 1 else 100) * 1000 ^ N.of_nat (List.length (filter multiplies parts)))%N.
Proof.
  intros E o xml parts r Ho Hb H T. destruct (path_bound_opts _ _ _ _ _ Ho Hb H) as [K _]. unfold flatten1 in K. rewrite T in K. exact K.
Qed.
Print Assumptions C31_options.
(** The spellings of a name of seven letters. *)
Fixpoint spellings (n : nat) : list bytes :=
  match n with O => [[]] | S k => map (cons "a"%char) (spellings k) ++ map (cons "A"%char) (spellings k) end.
Definition spelled : bytes := bs "<c" ++ List.concat (map (fun n => bs " " ++ n ++ bs "='1'") (firstn 100 (spellings 7))) ++ bs "/>".
Definition any_case : options := mkOpts false [] false None.
Example C31_options_example :
  let doc := bs "<k>" ++ List.concat (repeat (bs "<C id='1'/>") 1100) ++ bs "</k>" in
  let n o (parts : list bytes) := match get_opts env0 o doc (path_text parts) with Ok r => (match r_type r with RArray => true | _ => false end, List.length (r_results r)) | _ => (false, 0) end in
  n any_case [bs "K"; bs "*"] = (true, 1000) /\ n any_case [bs "K"; bs "*"; bs "@ID"] = (true, 1000) /\
  n any_case [bs "**"; bs "c"; bs "@Id"] = (true, 1000) /\ n (mkOpts true [] true None) [bs "k"; bs "*"] = (true, 1000).
Proof. vm_compute. repeat split. Qed.
(** One wildcard can give more than 1000 results when case does not count. *)
Theorem C31_any_case_refuted : exists xml (parts : list bytes) r,
  get_opts env0 any_case xml (path_text parts) = Ok r /\ r_type r = RArray /\ List.length (filter multiplies parts) = 1 /\ 1000 < List.length (r_results r).
Proof.
  exists (bs "<k>" ++ List.concat (repeat spelled 11) ++ bs "</k>"), [bs "k"; bs "*"; bs "@aaaaaaa"], (r_array (repeat (r_attribute (bs "1")) 1100)).
  split; [vm_compute; reflexivity|]. split; [reflexivity|]. split; [reflexivity|]. apply Nat.ltb_lt. vm_compute. reflexivity.
Qed.
Print Assumptions C31_any_case_refuted.
