(** C80: how much a query may have to search, and that the documented limit does not hold
    for paths with several `**`. *)
From Coq Require Import List Ascii String NArith ZArith Bool Lia Permutation.
From Verif Require Import GoStr ModelParser ModelPath ModelResult ModelQuery ModelValidate ModelBuilder ModelQueryOpts ModelWork SpecText SpecPath SpecTree SpecGrammar SpecWork
  ProofBase ProofTree2 ProofTree4 ProofTree6 ProofTree8 ProofGrammar2 ProofTree PropAnswer ProofWork ProofWork2.
Import ListNotations.
Notation get := ModelQuery.get.
Open Scope nat_scope.

(** [wget] answers what Get answers, and counts the operations on the way; the operations
    are the calls of recursiveSearchWithContext. *)
Theorem C80_count : forall E xml path r, get E xml path = Ok r <-> exists c, wget E xml path = Ok (r, c).
Proof.
  intros E xml path r. rewrite <- erase_get. unfold erase. rewrite bind_ok. split.
  - intros ([r' c] & H & Q). cbn [fst] in Q. injection Q as ->. eauto.
  - intros [c H]. exists (r, c). auto.
Qed.
Print Assumptions C80_count.

Lemma wget_some : forall E xml path l, path_means path (Steps l) -> exists r c, wget E xml path = Ok (r, c).
Proof.
  intros E xml path l M. destruct (get_total E default_options xml path l M) as [r H]. rewrite <- get_default in H. apply C80_count in H as [c H]. eauto.
Qed.
Lemma wget_exec : forall E xml path l r c, path_means path (Steps l) -> wget E xml path = Ok (r, c) ->
  c = 0%N \/ exists f, wexec E f [] true xml (map seg_of l) = Ok (r, c).
Proof.
  intros E xml path l r c M H. unfold wget in H. destruct (_ <? _)%N; [apply wret_ok in H as [_ ->]; auto|].
  apply wbind_ok in H as (segs & c1 & c2 & H1 & H & ->). apply wlift_ok in H1 as [H1 ->]. rewrite (path_means_res _ _ M) in H1. cbn [meaning_res] in H1. injection H1 as <-.
  destruct (map seg_of l) eqn:E1; [apply wret_ok in H as [_ ->]; auto|]. right. eexists. exact H.
Qed.

(** A path without `**` costs no operation, on any text. *)
Theorem C80_none : forall E xml path l, path_means path (Steps l) -> quiet l -> exists r, wget E xml path = Ok (r, 0%N).
Proof.
  intros E xml path l M Q. destruct (wget_some E xml path l M) as (r & c & H). exists r. rewrite H. repeat f_equal.
  destruct (wget_exec _ _ _ _ _ _ M H) as [->|[f X]]; auto. eapply free_exec; [|exact X]. exists l. auto.
Qed.
Print Assumptions C80_none.

(** A path that starts with `**` and contains no other costs at most the documented 10,000
    operations, on any text. *)
Theorem C80_single : forall E xml path ms l, path_means path (Steps ((GDeep, ms) :: l)) -> quiet l -> exists r c, wget E xml path = Ok (r, c) /\ (c <= 10000)%N.
Proof.
  intros E xml path ms l M Q. destruct (wget_some E xml path _ M) as (r & c & H). exists r, c. split; auto.
  destruct (wget_exec _ _ _ _ _ _ M H) as [->|[f X]]; [lia|]. eapply single_exec; eauto.
Qed.
Print Assumptions C80_single.

(** In general every `**`, also within conditions, multiplies the number of operations by at
    most 102, and the number of `<` in the text counts once. *)
Theorem C80_upper : forall E xml path l d, (forall k m, Permutation m (e_ord E k m)) -> path_means path (Steps l) -> depths l d ->
  exists r c, wget E xml path = Ok (r, c) /\ (c <= 102 ^ N.of_nat d * (1 + brackets xml))%N.
Proof.
  intros E xml path l d P M Q. destruct (wget_some E xml path _ M) as (r & c & H). exists r, c. split; auto.
  destruct (wget_exec _ _ _ _ _ _ M H) as [->|[f X]]; [lia|].
  eapply N.le_trans; [eapply (cost_exec E P f d); [|exact X]|apply N.mul_le_mono_r, K_power]. exists l, d. auto.
Qed.
Print Assumptions C80_upper.

Lemma searching_parse : forall m, m <= 49 -> parse_path (searching m) = Ok (search_segs m).
Proof. do 50 (intros m; destruct m as [|m]; [intros _; vm_compute; reflexivity|]; revert m). intros m H. lia. Qed.
Lemma tower_good : forall n, Forall good (tower n).
Proof.
  induction n as [|n IH]; [constructor|]. cbn [tower]. constructor; [|constructor]. apply good_elem; [apply xml_name_b_ok; vm_compute; reflexivity|apply attrs_b_ok; vm_compute; reflexivity|discriminate|exact IH].
Qed.
Lemma tower_size : forall n, blen (forest_text (tower n)) = (7 * N.of_nat n)%N.
Proof.
  enough (G : forall n, List.length (forest_text (tower n)) = 7 * n) by (intros n; unfold blen; rewrite G; lia).
  induction n as [|n IH]; [reflexivity|]. unfold forest_text. cbn [tower flat_map node_text]. fold (forest_text (tower n)). rewrite !app_length.
  unfold bytes in *. rewrite IH. cbn. lia.
Qed.

(** And the product is real: on [n] elements within each other, each named a, the path with
    [m] times `**.a` and then `**.z` takes at least as many operations as there are choices
    of [m + 1] among [n], though every count starts again below 10,000. *)
Theorem C80_lower : forall E n m, (forall k l, Permutation l (e_ord E k l)) -> n <= 100 -> m <= 49 ->
  exists r c, wget E (forest_text (tower n)) (searching m) = Ok (r, c) /\ r_type r = RNull /\ (choose n (S m) <= c)%N.
Proof.
  intros E n m P N L. pose proof (searching_parse m L) as Q.
  assert (X : exists r c, wget E (forest_text (tower n)) (searching m) = Ok (r, c)).
  { destruct (path_means_ex (searching m)) as [o M]. pose proof (path_means_res _ _ M) as R. rewrite Q in R. destruct o as [l| |]; cbn [meaning_res] in R; try discriminate.
    - eapply wget_some; eauto.
    - destruct m; discriminate. }
  destruct X as (r & c & H). exists r, c. split; auto. unfold wget in H.
  replace (_ <? _)%N with false in H by (symmetry; apply N.ltb_ge; rewrite tower_size; change MaxDocumentSize with 10485760%N; lia).
  apply wbind_ok in H as (segs & c1 & c2 & H1 & H & ->). apply wlift_ok in H1 as [H1 ->]. rewrite Q in H1. injection H1 as <-.
  assert (H' : wexec E (query_fuel (searching m)) [] true (forest_text (tower n)) (search_segs m) = Ok (r, c2)) by (destruct m; exact H).
  eapply (work_lower E P); [exact N| |exact H'].
  apply (reads_text E P [] (tower n) (tower n)); auto using skippable_nil, tower_good, same_all_refl.
Qed.
Print Assumptions C80_lower.

(** Rows of Pascal's triangle, to evaluate [choose]. *)
Fixpoint next_row (x : N) (l : list N) : list N := match l with [] => [x] | y :: l' => (x + y)%N :: next_row y l' end.
Fixpoint row (n : nat) : list N := match n with O => [1%N] | S n' => next_row 0 (row n') end.
Lemma choose_0 : forall n, choose n 0 = 1%N.
Proof. destruct n; reflexivity. Qed.
Lemma next_row_nth : forall l x k, nth k (next_row x l) 0%N = (nth k (x :: l) 0 + nth k l 0)%N.
Proof.
  induction l as [|y l IH]; intros x k; cbn [next_row].
  - destruct k as [|[|k]]; cbn [nth]; lia.
  - destruct k as [|k]; cbn [nth]; [reflexivity|]. rewrite IH. reflexivity.
Qed.
Lemma row_choose : forall n k, nth k (row n) 0%N = choose n k.
Proof.
  induction n as [|n IH]; intros k.
  - destruct k as [|[|k]]; reflexivity.
  - cbn [row]. rewrite next_row_nth. destruct k as [|k]; cbn [nth choose]; rewrite !IH; [rewrite choose_0|]; lia.
Qed.

(** docs/security.md:360-380, doc.go:70: a search stops after 10,000 operations. A valid
    document of 700 bytes and an allowed path of 249 bytes take more than 10^29, because
    every `**` below another one starts a count of its own (get.go:695). *)
Theorem C80_limit_refuted : exists xml path r c, valid xml = true /\ blen xml = 700%N /\ blen path = 249%N /\
  wget env0 xml path = Ok (r, c) /\ r_type r = RNull /\ (10 ^ 29 < c)%N.
Proof.
  destruct (C80_lower env0 100 49 (fun _ l => Permutation_refl l) (le_n _) (le_n _)) as (r & c & H & T & L).
  exists (forest_text (tower 100)), (searching 49), r, c. 
  apply conj; [vm_compute; exact eq_refl|]. apply conj; [vm_compute; exact eq_refl|]. apply conj; [vm_compute; exact eq_refl|].
  apply conj; [exact H|]. apply conj; [exact T|]. eapply N.lt_le_trans; [|exact L]. rewrite <- (row_choose 100 50). vm_compute. exact eq_refl.
Qed.

(** Counts of some queries: none without `**`; one `**` looks into every element; two of
    them take more. *)
Definition nest : bytes := bs "<r><a><a><b>1</b></a><b>2</b></a><a k='v'/></r>".
Example C80_example :
  wget env0 nest (bs "r.a.b") = Ok (mkR RElement (bs "2") (bs "2") (SpecFloat.S754_zero false) [], 0%N) /\
  (exists r, wget env0 nest (bs "**.b") = Ok (r, 6%N)) /\ (exists r, wget env0 nest (bs "**.a.**.b") = Ok (r, 13%N)) /\
  quiet [(GName (bs "r"), []); (GName (bs "a"), []); (GName (bs "b"), [])] /\
  path_means (bs "**.a.**.b") (Steps [(GDeep, []); (GName (bs "a"), []); (GDeep, []); (GName (bs "b"), [])]) /\
  depths [(GDeep, []); (GName (bs "a"), []); (GDeep, []); (GName (bs "b"), [])] 2 /\ brackets nest = 11%N.
Proof.
  apply conj; [vm_compute; reflexivity|].
  apply conj; [eexists; vm_compute; reflexivity|]. apply conj; [eexists; vm_compute; reflexivity|].
  apply conj; [constructor; [intros ms I; cbn in I; intuition discriminate|intros all p op v ms l' I; cbn in I; intuition discriminate]|].
  apply conj; [apply path_means_stored; [discriminate|vm_compute; reflexivity]|].
  apply conj; [apply dp_deep; apply dp_step; [discriminate|discriminate|]; apply dp_deep; apply dp_step; [discriminate|discriminate|apply dp_none]|]. vm_compute; reflexivity.
Qed.
(** A condition counts what its own path counts, here nothing. *)
Example C80_condition_example : exists l r,
  path_means (bs "r.**.a.#(b==1)#") (Steps l) /\ depths l 1 /\ wget env0 nest (bs "r.**.a.#(b==1)#") = Ok (r, 5%N) /\ r_type r = RElement.
Proof.
  assert (M : path_means (bs "b") (Steps [(GName (bs "b"), [])])) by (apply path_means_stored; [discriminate|vm_compute; reflexivity]).
  exists [(GName (bs "r"), []); (GDeep, []); (GName (bs "a"), []); (GWhere true (bs "b") OpEq (bs "1"), [])]. eexists. split; [apply path_means_stored; [discriminate|vm_compute; reflexivity]|]. split.
  - apply dp_step; [discriminate|discriminate|]. apply dp_deep. apply dp_step; [discriminate|discriminate|]. eapply (dp_where _ _ _ _ _ _ 0 _ 0); [exact M|discriminate| |apply dp_none].
    apply dp_step; [discriminate|discriminate|apply dp_none].
  - split; [vm_compute; reflexivity|reflexivity].
Qed.
Example C80_lower_example : forest_text (tower 2) = bs "<a><a></a></a>" /\ searching 1 = bs "**.a.**.z" /\ choose 5 2 = 10%N /\
  (exists r, wget env0 (forest_text (tower 5)) (searching 1) = Ok (r, 16%N)).
Proof. repeat split; try (vm_compute; reflexivity). eexists; vm_compute; reflexivity. Qed.
