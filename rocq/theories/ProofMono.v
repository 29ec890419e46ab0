(** More fuel does not change the answer of a query. *)
From Coq Require Import List Ascii String NArith ZArith Bool Lia.
From Verif Require Import GoStr ModelParser ModelPath ModelResult ModelQuery ModelValidate ModelBuilder ProofBase ProofFuel ProofApi2.
Import ListNotations.

Definition le {A} (a b : Res A) : Prop := forall x, a = Ok x -> b = Ok x.
Lemma le_refl : forall A (a : Res A), le a a. Proof. intros A a x H. exact H. Qed.
Lemma le_bind : forall A B (a b : Res A) (f g : A -> Res B), le a b -> (forall x, le (f x) (g x)) -> le (bind a f) (bind b g).
Proof.
  intros A B a b f g H1 H2 x H. apply bind_ok in H. destruct H as [y [H3 H4]].
  apply bind_ok. exists y. split; [now apply H1|now apply H2].
Qed.
#[local] Hint Resolve le_refl le_bind : core.

Section Mono.
  Variable E : env.
  Variable r1 r2 : qrec.
  (** Keys that may stand for each other. *)
  Variable K : list nat -> list nat -> Prop.
  Hypothesis KC : forall site e k k', K k k' -> K (child_key site e k) (child_key site e k').
  Hypothesis KS : forall k k' s, K k k' -> le (scan_res E k s) (scan_res E k' s).
  Hypothesis H : forall k k' b s l, K k k' -> le (r1 k b s l) (r2 k' b s l).
  #[local] Hint Resolve KC KS H : core.
  Lemma field_children_mono : forall k k' n l, K k k' -> le (field_children E k n l) (field_children E k' n l).
  Proof. intros k k' n l HK. induction l; cbn [field_children]; auto. Qed.
  Lemma field_extract_mono : forall k k' l sg, K k k' -> le (field_extract E k l sg) (field_extract E k' l sg).
  Proof.
    intros k k' l sg HK. unfold field_extract. destruct (s_field sg) as [|c n]; auto. apply le_bind; auto.
    destruct (Ascii.eqb c "@"); auto. destruct (bytes_eqb (c :: n) (bs "%")); auto. now apply field_children_mono.
  Qed.
  #[local] Hint Resolve field_extract_mono : core.
  Lemma eval_filter_mono : forall k k' f e, K k k' -> le (eval_filter_opt E r1 k f e) (eval_filter_opt E r2 k' f e).
  Proof.
    intros k k' [f|] e HK; cbn [eval_filter_opt]; auto. unfold eval_filter. destruct (f_path f) as [|c n]; [auto|].
    destruct (Ascii.eqb c "@"); auto.
  Qed.
  Lemma filter_elems_mono : forall k k' f l, K k k' -> le (filter_elems E r1 k f l) (filter_elems E r2 k' f l).
  Proof. intros k k' f l HK. induction l; cbn [filter_elems]; auto. apply le_bind; auto. (apply eval_filter_mono; auto). Qed.
  Lemma filter_elems_upto_mono : forall k k' f l, K k k' -> forall n, le (filter_elems_upto n E r1 k f l) (filter_elems_upto n E r2 k' f l).
  Proof.
    intros k k' f l HK. induction l; intros n; cbn [filter_elems_upto]; auto. apply le_bind; [(apply eval_filter_mono; auto)|].
    intros []; auto. destruct n as [|[|n]]; auto.
  Qed.
  Lemma process_first_mono : forall k k' e sg rest, K k k' -> le (process_first E r1 k e sg rest) (process_first E r2 k' e sg rest).
  Proof. intros k k' e sg [|nx rest] HK; unfold process_first; auto. destruct (s_type nx); auto. Qed.
  Lemma query_each_mono : forall k k' l rest, K k k' -> le (query_each r1 k l rest) (query_each r2 k' l rest).
  Proof. intros k k' l rest HK. induction l; cbn [query_each]; auto. Qed.
  Lemma process_all_mono : forall k k' l sg rest, K k k' -> le (process_all E r1 k l sg rest) (process_all E r2 k' l sg rest).
  Proof.
    intros k k' l sg [|nx rest] HK; unfold process_all; auto. destruct (s_type nx); auto; apply le_bind; auto; (apply query_each_mono; auto).
  Qed.
  Lemma route_mono : forall k k' l sg rest, K k k' -> le (route_matches E r1 k l sg rest) (route_matches E r2 k' l sg rest).
  Proof.
    intros k k' l sg rest HK. unfold route_matches. destruct l; auto. destruct (s_all sg); [(apply process_all_mono; auto)|(apply process_first_mono; auto)].
  Qed.
  Lemma wild_each_mono : forall k k' l rest, K k k' -> le (wild_each r1 k l rest) (wild_each r2 k' l rest).
  Proof. intros k k' l rest HK. induction l; cbn [wild_each]; auto. Qed.
  Lemma handle_wildcard_mono : forall k k' l rest, K k k' -> le (handle_wildcard E r1 k l rest) (handle_wildcard E r2 k' l rest).
  Proof.
    intros k k' l [|nx rest] HK; unfold handle_wildcard; auto. destruct (s_type nx); auto; apply le_bind; auto; (apply wild_each_mono; auto).
  Qed.
  Lemma search_add_mono : forall k k' e rest, K k k' -> le (search_add E r1 k e rest) (search_add E r2 k' e rest).
  Proof. intros k k' e [|nx rest] HK; unfold search_add; auto. destruct (s_type nx); auto. Qed.
  Lemma rsearch_mono : forall n k k' target rest st s, K k k' -> le (rsearch E r1 n k target rest st s) (rsearch E r2 n k' target rest st s).
  Proof.
    induction n as [|n IH]; intros k k' target rest st s HK; cbn [rsearch]; auto.
    destruct (Nat.leb MaxWildcardResults (List.length (snd st)) || _); auto. apply le_bind; auto. intros es.
    generalize ((fst st + 1)%N, snd st). induction es as [|e es IHe]; intros st0; auto.
    apply le_bind; [destruct (e_content e); auto|]. intros st1.
    destruct (MaxRecursiveOperations <=? fst st1)%N; auto. destruct (seg_matches target (e_name e)); auto.
    destruct (Nat.leb MaxWildcardResults (List.length (snd st1))); auto. apply le_bind; auto. (apply search_add_mono; auto).
  Qed.
  Lemma root_array_mono : forall k k' l nx more, K k k' -> le (root_array E r1 k l nx more) (root_array E r2 k' l nx more).
  Proof.
    intros k k' l nx more HK. unfold root_array. destruct l; auto. destruct (s_type nx); auto.
    destruct (nth_elem (e :: l) (s_index nx)); auto. destruct more as [|n2 more]; auto. destruct (s_type n2); auto.
  Qed.
  Lemma array_op_mono : forall k k' l nx more, K k k' -> le (array_op E r1 k l nx more) (array_op E r2 k' l nx more).
  Proof.
    intros k k' l nx more HK. unfold array_op. destruct l; auto. destruct (s_type nx); auto.
    destruct (nth_elem (e :: l) (s_index nx)); auto. destruct more as [|n2 more]; auto. destruct (s_type n2); auto.
  Qed.
  Lemma first_loop_mono : forall k k' l sg rest, K k k' -> le (first_loop E r1 k l sg rest) (first_loop E r2 k' l sg rest).
  Proof.
    intros k k' l sg rest HK. induction l as [|e l IH]; cbn [first_loop]; auto. destruct rest as [|nx more]; auto.
    assert (G : le (let* r := r1 (child_key site_query e k) false (e_content e) (nx :: more) in
                    if is_null r then first_loop E r1 k l sg (nx :: more) else Ok r)
                   (let* r := r2 (child_key site_query e k') false (e_content e) (nx :: more) in
                    if is_null r then first_loop E r2 k' l sg (nx :: more) else Ok r)).
    { apply le_bind; auto. intros r. destruct (is_null r); auto. }
    destruct (s_type nx); auto.
  Qed.
  Lemma exec_element_mono : forall k k' es sg rest, K k k' -> le (exec_element E r1 k es sg rest) (exec_element E r2 k' es sg rest).
  Proof.
    intros k k' es sg rest HK. unfold exec_element. destruct rest as [|nx more]; [(apply first_loop_mono; auto)|].
    destruct (s_type nx); try (apply first_loop_mono; auto); try (apply array_op_mono; auto); auto.
    apply le_bind; [(apply filter_elems_mono; auto)|]. intros l. (apply route_mono; auto).
  Qed.
  Lemma exec_body_mono : forall k k' root s segs, K k k' -> le (exec_body E r1 k root s segs) (exec_body E r2 k' root s segs).
  Proof.
    intros k k' root s [|sg rest] HK; unfold exec_body; auto. apply le_bind; auto. intros es. destruct (s_type sg); auto.
    - destruct root; [|(apply exec_element_mono; auto)]. destruct rest as [|nx more]; [(apply exec_element_mono; auto)|].
      destruct (s_type nx); try (apply exec_element_mono; auto); (apply root_array_mono; auto).
    - destruct (s_wild sg).
      + unfold handle_recursive. destruct rest; auto. apply le_bind; auto. (apply rsearch_mono; auto).
      + destruct (firstn MaxWildcardResults es); auto. apply le_bind; auto. (apply handle_wildcard_mono; auto).
    - apply le_bind; [(apply filter_elems_upto_mono; auto)|]. intros l. (apply route_mono; auto).
  Qed.
End Mono.
Lemma exec_mono1 : forall E f k root s segs, le (exec E f k root s segs) (exec E (S f) k root s segs).
Proof.
  intros E. induction f as [|f IH]; intros k root s segs; [intros x H; discriminate|].
  cbn [exec]. apply (exec_body_mono E (exec E f) (exec E (S f)) eq); intros; subst; auto.
Qed.
Lemma exec_mono : forall E f f' k root s segs r, exec E f k root s segs = Ok r -> f <= f' -> exec E f' k root s segs = Ok r.
Proof. intros E f f' k root s segs r H L. induction L; auto. now apply exec_mono1. Qed.
(** The key only selects map orders. *)
Lemma exec_key : forall E f k k' root s segs r, one_order (e_ord E) ->
  exec E f k root s segs = Ok r -> exec E f k' root s segs = Ok r.
Proof.
  intros E f k k' root s segs r Ho. revert k k' root s segs r.
  change (forall k k' root s segs, le (exec E f k root s segs) (exec E f k' root s segs)).
  induction f as [|f IH]; intros k k' root s segs; [intros x H; discriminate|].
  cbn [exec]. apply (exec_body_mono E (exec E f) (exec E f) (fun _ _ => True)); intros; auto.
  rewrite (scan_res_key E k0 k'0); auto.
Qed.
(** Any two sufficient amounts of fuel give the same answer. *)
Lemma exec_fuel : forall E f f' k root s segs, safe segs -> cost segs < f -> cost segs < f' ->
  exec E f k root s segs = exec E f' k root s segs.
Proof.
  intros E f f' k root s segs Hs H1 H2.
  destruct (exec_ok E f k root s segs H1 Hs) as [r Hr].
  destruct (exec_ok E f' k root s segs H2 Hs) as [r' Hr'].
  destruct (Nat.le_ge_cases f f') as [L|L].
  - now rewrite (exec_mono _ _ _ _ _ _ _ _ Hr L), Hr.
  - now rewrite (exec_mono _ _ _ _ _ _ _ _ Hr' L), Hr'.
Qed.
(** The result of a query through the segments of its path. *)
Lemma get_exec : forall E xml path segs f, (blen xml <= 10485760)%N -> parse_path path = Ok segs -> segs <> [] ->
  cost segs < f -> get E xml path = exec E f [] true xml segs.
Proof.
  intros E xml path segs f Hx Hp Hn Hf. unfold get. change 10485760%N with MaxDocumentSize in Hx.
  rewrite (proj2 (N.ltb_ge _ _) Hx), Hp. cbn [bind]. destruct segs as [|s0 ss]; [easy|].
  destruct (parse_path_cost _ _ Hp) as [C S]. apply exec_fuel; auto. unfold query_fuel. lia.
Qed.
