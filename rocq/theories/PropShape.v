(** C77: the types of an answer can be read off the path. *)
From Coq Require Import List Ascii String NArith ZArith Bool Lia SpecFloat Permutation.
From Verif Require Import GoStr ModelParser ModelPath ModelResult ModelQuery ModelValidate ModelBuilder ModelQueryOpts SpecText SpecPath SpecTree SpecQuery SpecContent
  SpecFilter SpecGrammar SpecScan SpecAnswer ProofBase ProofScan ProofGrammar2 ProofLang3 PropAnswer SpecValid SpecShape ProofShape ProofShape2 PropLang.
Import ListNotations.
Notation get := ModelQuery.get.

(** The modifiers of a path are built in, or unknown. *)
Definition known_modifiers (E : env) (l : list (gstep * list bytes)) : Prop :=
  Forall (fun x => Forall (fun m => In m stock \/ e_custom E m = None) (snd x)) l.
Lemma known_stocked : forall E l, known_modifiers E l -> stocked_steps E l.
Proof.
  intros E l H. eapply Forall_impl; [|exact H]. intros x Hx. eapply Forall_impl; [|exact Hx]. intros m [I|N]; auto.
  destruct (in_dec (list_eq_dec ascii_dec) m stock) as [I|I]; auto. right. rewrite mods_none; auto.
Qed.
Lemma too_big : forall E o xml path, (10485760 < blen xml)%N -> get_opts E o xml path = Ok r_null.
Proof. intros E o xml path B. unfold get_opts. replace (MaxDocumentSize <? blen xml)%N with true; auto. symmetry. apply N.ltb_lt. exact B. Qed.

(** On every text, well-formed or not, and under all options. *)
Theorem C77_kinds : forall E o xml path l r, (forall k m, Permutation m (e_ord E k m)) -> (forall lt m, Permutation m (e_sort E lt m)) ->
  path_means path (Steps l) -> known_modifiers E l -> get_opts E o xml path = Ok r ->
  of_kind (kinds_of (negb (is_default_options o)) (is_default_options o || o_case o) l) r.
Proof.
  intros E o xml path l r P S M K H. destruct (N.leb_spec (blen xml) 10485760) as [B|B].
  - destruct (dialect_answers E sees P (fun key s l => ProofSight3.scan_sees E key s l P) o xml path l r B M H) as [k A].
    apply (answers_kind E sees _ S) in A; [|now apply known_stocked]. destruct (is_default_options o); exact A.
  - rewrite too_big in H by exact B. injection H as <-. exact I.
Qed.
Print Assumptions C77_kinds.
Corollary kinds_get : forall E xml path l r, (forall k m, Permutation m (e_ord E k m)) -> (forall lt m, Permutation m (e_sort E lt m)) ->
  path_means path (Steps l) -> known_modifiers E l -> get E xml path = Ok r -> of_kind (kinds_of false true l) r.
Proof. intros E xml path l r P S M K H. rewrite get_default in H. exact (C77_kinds E default_options xml path l r P S M K H). Qed.

(** Lists are flat: without modifiers of the caller's own, the entries of a list are elements,
    attributes, texts or numbers, and neither lists nor missing. *)
Theorem C77_flat : forall E o xml path l r x, (forall k m, Permutation m (e_ord E k m)) -> (forall lt m, Permutation m (e_sort E lt m)) ->
  path_means path (Steps l) -> known_modifiers E l -> get_opts E o xml path = Ok r -> r_type r = RArray -> In x (r_results r) ->
  r_type x <> RNull /\ r_type x <> RArray.
Proof.
  intros E o xml path l r x P S M K H T I. apply (C77_kinds E o xml path l r P S M K) in H. unfold of_kind in H. rewrite T in H.
  destruct H as (_ & H & _). rewrite Forall_forall in H. destruct (sk (negb (is_default_options o)) (is_default_options o || o_case o) l) as [_ W].
  rewrite Forall_forall in W. exact (W _ (H x I)).
Qed.
Print Assumptions C77_flat.

(** A path of names, numbers, single conditions, and attribute, text or count never gives a
    list, however many elements have the names. *)
Definition narrow (st : gstep) : Prop := match st with GAny | GDeep | GField _ | GWhere true _ _ _ => False | _ => True end.
Definition no_list (k : kinds) : Prop := within k = [] /\ maybe_empty k = false.
Lemma no_list_after : forall ms k, no_list k -> no_list (after ms k).
Proof.
  intros ms k N. unfold after. destruct (Nat.leb _ _); [|split; reflexivity]. revert k N.
  induction ms as [|m ms IH]; intros k [A B]; cbn [fold_left]; [split; auto|]. apply IH. unfold after_one.
  destruct (existsb _ _); [split; auto|]. destruct (is _ _); [split; auto|]. destruct (existsb _ _); split; auto.
Qed.
Lemma no_list_heard : forall d ms k, no_list k -> no_list (heard d ms k).
Proof. intros d ms k N. unfold heard. destruct d; auto. now apply no_list_after. Qed.
Lemma no_list_one : forall t, no_list (always_one t). Proof. split; reflexivity. Qed.
Lemma no_list_never : no_list never. Proof. split; reflexivity. Qed.
#[local] Hint Resolve no_list_after no_list_heard no_list_one no_list_never : narrow.
Lemma narrow_kinds : forall n d lit l, (List.length l <= n)%nat -> Forall (fun x => narrow (fst x)) l -> no_list (kinds_of d lit l).
Proof.
  induction n as [|n IH]; intros d lit l L F.
  { destruct l; [|cbn in L; lia]. apply no_list_never. }
  destruct l as [|[st ms] l]; [apply no_list_never|]. cbn [List.length] in L. inversion F as [|? ? F1 F2]; subst. cbn [fst] in F1.
  destruct st; cbn in F1; try contradiction; cbn [kinds_of]; auto with narrow.
  - destruct l as [|[st ms'] more]; auto with narrow. inversion F2 as [|? ? F3 F4]; subst. cbn [fst] in F3. cbn [List.length] in L.
    destruct st; cbn in F3; try contradiction; auto with narrow.
    + apply IH; auto. cbn. lia.
    + destruct more as [|[s2 m2] more2]; [destruct lit; auto with narrow|].
      destruct s2; try (apply IH; auto; cbn in *; lia); destruct lit; auto with narrow. destruct more2; auto with narrow.
    + destruct more; auto with narrow.
    + destruct lit; auto with narrow.
    + destruct all; [contradiction|]. destruct more as [|[s2 m2] more2]; auto with narrow. inversion F4 as [|? ? F5 F6]; subst.
      destruct s2; auto with narrow; try (apply IH; auto; cbn in *; lia). cbn in F5. contradiction.
  - destruct all; [contradiction|]. destruct l as [|[s2 m2] more2]; auto with narrow. inversion F2 as [|? ? F5 F6]; subst.
    destruct s2; auto with narrow; try (apply IH; auto; cbn in *; lia). cbn in F5. contradiction.
Qed.
Theorem C77_one : forall E o xml path l r, (forall k m, Permutation m (e_ord E k m)) -> (forall lt m, Permutation m (e_sort E lt m)) ->
  path_means path (Steps l) -> Forall (fun x => narrow (fst x)) l -> known_modifiers E l -> get_opts E o xml path = Ok r ->
  r_type r <> RArray.
Proof.
  intros E o xml path l r P S M F K H T. apply (C77_kinds E o xml path l r P S M K) in H. unfold of_kind in H. rewrite T in H.
  destruct H as (_ & H & B). destruct (narrow_kinds _ (negb (is_default_options o)) (is_default_options o || o_case o) l (le_n _) F) as [W Z].
  rewrite W in H. destruct (r_results r) as [|x rs]; [rewrite Z in B; specialize (B eq_refl); discriminate|]. inversion H. contradiction.
Qed.
Print Assumptions C77_one.

(** A path for which there are no kinds has no answer on any text. *)
Definition barren (d lit : bool) (l : list (gstep * list bytes)) : bool :=
  match kinds_of d lit l with mkKinds [] [] false => true | _ => false end.
Theorem C77_barren : forall E o xml path l r, (forall k m, Permutation m (e_ord E k m)) -> (forall lt m, Permutation m (e_sort E lt m)) ->
  path_means path (Steps l) -> known_modifiers E l -> get_opts E o xml path = Ok r ->
  barren (negb (is_default_options o)) (is_default_options o || o_case o) l = true -> r_type r = RNull.
Proof.
  intros E o xml path l r P S M K H B. apply (C77_kinds E o xml path l r P S M K) in H. unfold barren in B. unfold of_kind in H.
  destruct (kinds_of _ _ _) as [[|t al] [|t' wi] [|]]; try discriminate. cbn in H.
  destruct (r_type r); auto; try contradiction. destruct H as (_ & H & Z). destruct (r_results r); [specialize (Z eq_refl); discriminate|].
  inversion H. contradiction.
Qed.
Print Assumptions C77_barren.
(** No query of the query language without conditions is of that sort: each has an answer
    on the specimen, if that is small enough to be asked. *)
Theorem C77_live : forall E steps e, (forall k l, Permutation l (e_ord E k l)) -> SpecLang.good_query steps e ->
  Forall unconditional steps -> Forall feasible steps -> feasible_end e ->
  (SpecLang.elements (specimen e steps) < 9999)%N -> (blen (forest_text (specimen e steps)) <= 10485760)%N ->
  exists r, get E (forest_text (specimen e steps)) (SpecLang.query_text steps e) = Ok r /\ r_type r <> RNull.
Proof.
  intros E steps e P Q U V W L B.
  destruct (C54_language E (decide_sat E) [] (specimen e steps) steps e P (fun c nd _ => decide_sat_ok E c nd)) as (r & G & S); auto.
  - constructor.
  - now apply specimen_good.
  - apply specimen_shallow. apply (SpecLang.gq_length _ _ Q).
  - exists r. split; [exact G|].
    assert (A : SpecLang.items (SpecLang.ask (decide_sat E) e true steps (specimen e steps)) <> []).
    { apply ask_live; auto; [apply (SpecLang.gq_some _ _ Q)|]. intros ->. exact (SpecLang.gq_end _ _ Q). }
    destruct (SpecLang.ask _ _ _ _ _) as [|i|is]; cbn in S, A; [congruence| |destruct S as [S _]; rewrite S; discriminate].
    destruct i; cbn in S.
    + destruct S as [S _]. rewrite S. discriminate.
    + destruct S as [S _]. rewrite S. discriminate.
    + destruct S as [S _]. rewrite S. discriminate.
    + destruct S as [[S _] _]. rewrite S. discriminate.
Qed.
Print Assumptions C77_live.

(** The documentation (docs/path-syntax.md, README.md) gives the answers to these paths as
    "first match", as lists of elements, and as raw text, names and values. No document
    answers them. *)
Definition promised : list bytes := map bs
  ["root.**"; "employees.**.#(salary>80000)#"; "root.item|@raw"; "root.item|@keys"; "root.item|@values"]%string.
Lemma promised_means : Forall (fun p => exists l, path_means p (Steps l) /\ barren false true l = true /\
  Forall (fun x => Forall (fun m => In m stock \/ In m (map bs ["raw"; "keys"; "values"]%string)) (snd x)) l) promised.
Proof.
  assert (K : forall l : list (gstep * list bytes), forallb (fun x => forallb (fun m => existsb (is m) (stock ++ map bs ["raw"; "keys"; "values"]%string)) (snd x)) l = true ->
    Forall (fun x => Forall (fun m => In m stock \/ In m (map bs ["raw"; "keys"; "values"]%string)) (snd x)) l).
  { intros l H. rewrite forallb_forall in H. apply Forall_forall. intros x I. apply Forall_forall. intros m J.
    specialize (H x I). rewrite forallb_forall in H. specialize (H m J). apply existsb_is in H. now apply in_app_or in H. }
  repeat constructor.
  - exists [(GName (bs "root"), []); (GDeep, [])]. split; [apply path_means_stored; [discriminate|vm_compute; reflexivity]|]. split; [vm_compute; reflexivity|apply K; vm_compute; reflexivity].
  - exists [(GName (bs "employees"), []); (GDeep, []); (GWhere true (bs "salary") OpGt (bs "80000"), [])].
    split; [apply path_means_stored; [discriminate|vm_compute; reflexivity]|]. split; [vm_compute; reflexivity|apply K; vm_compute; reflexivity].
  - exists [(GName (bs "root"), []); (GName (bs "item"), [bs "raw"])]. split; [apply path_means_stored; [discriminate|vm_compute; reflexivity]|]. split; [vm_compute; reflexivity|apply K; vm_compute; reflexivity].
  - exists [(GName (bs "root"), []); (GName (bs "item"), [bs "keys"])]. split; [apply path_means_stored; [discriminate|vm_compute; reflexivity]|]. split; [vm_compute; reflexivity|apply K; vm_compute; reflexivity].
  - exists [(GName (bs "root"), []); (GName (bs "item"), [bs "values"])]. split; [apply path_means_stored; [discriminate|vm_compute; reflexivity]|]. split; [vm_compute; reflexivity|apply K; vm_compute; reflexivity].
Qed.
Theorem C77_promised : forall E xml p, (forall k m, Permutation m (e_ord E k m)) -> (forall lt m, Permutation m (e_sort E lt m)) ->
  (forall m, In m (map bs ["raw"; "keys"; "values"]%string) -> e_custom E m = None) -> In p promised ->
  exists r, get E xml p = Ok r /\ r_type r = RNull.
Proof.
  intros E xml p P S C I. pose proof promised_means as Q. rewrite Forall_forall in Q. destruct (Q p I) as (l & M & B & K).
  destruct (get_total E default_options xml p l M) as [r H]. exists r. split; [exact H|].
  eapply (C77_barren E default_options); eauto. eapply Forall_impl; [|exact K]. intros x Hx. eapply Forall_impl; [|exact Hx]. intros m [J|J]; auto.
Qed.
Print Assumptions C77_promised.
(** The documentation has a name without a number answered by a list of all elements with
    that name, to be reversed or sorted. No document gives a list. *)
Theorem C77_all_named : forall E xml p, (forall k m, Permutation m (e_ord E k m)) -> (forall lt m, Permutation m (e_sort E lt m)) ->
  In p (map bs ["items.item"; "items.item|@reverse"; "catalog.book.title|@reverse"; "catalog.book.price|@sort"; "data.group.item|@flatten"]%string) ->
  exists r, get E xml p = Ok r /\ r_type r <> RArray.
Proof.
  intros E xml p P S I.
  assert (Q : exists l, path_means p (Steps l) /\ Forall (fun x => narrow (fst x)) l /\ known_modifiers E l).
  { cbn [map In] in I. repeat (destruct I as [<-|I]); [..|contradiction].
    - exists [(GName (bs "items"), []); (GName (bs "item"), [])]. split; [apply path_means_stored; [discriminate|vm_compute; reflexivity]|]. repeat constructor.
    - exists [(GName (bs "items"), []); (GName (bs "item"), [bs "reverse"])]. split; [apply path_means_stored; [discriminate|vm_compute; reflexivity]|].
      repeat constructor; left; cbn; auto.
    - exists [(GName (bs "catalog"), []); (GName (bs "book"), []); (GName (bs "title"), [bs "reverse"])]. split; [apply path_means_stored; [discriminate|vm_compute; reflexivity]|].
      repeat constructor; left; cbn; auto.
    - exists [(GName (bs "catalog"), []); (GName (bs "book"), []); (GName (bs "price"), [bs "sort"])]. split; [apply path_means_stored; [discriminate|vm_compute; reflexivity]|].
      repeat constructor; left; cbn; auto.
    - exists [(GName (bs "data"), []); (GName (bs "group"), []); (GName (bs "item"), [bs "flatten"])]. split; [apply path_means_stored; [discriminate|vm_compute; reflexivity]|].
      repeat constructor; left; cbn; auto. }
  destruct Q as (l & M & F & K). destruct (get_total E default_options xml p l M) as [r H]. exists r. split; [exact H|].
  eapply (C77_one E default_options); eauto.
Qed.
Print Assumptions C77_all_named.
(** So the lists in the documentation are not answers. *)
Theorem C77_reverse_refuted : exists xml r, get env0 xml (bs "catalog.book.title|@reverse") = Ok r /\
  r_type r = RElement /\ r_string r = bs "The Go" /\
  get env0 xml (bs "catalog.book.#.title|@reverse") = Ok (r_array [r_element (bs "Learning"); r_element (bs "The Go")]).
Proof.
  exists (bs "<catalog><book><title>The Go</title></book><book><title>Learning</title></book></catalog>").
  eexists. split; [vm_compute; reflexivity|]. repeat split; vm_compute; reflexivity.
Qed.
Print Assumptions C77_reverse_refuted.

(** Kinds of some paths: a condition below a search, fields with a modifier, a path that
    leads nowhere; the kinds are attained. *)
Example C77_example :
  let l1 := [(GDeep, []); (GName (bs "a"), []); (GWhere true (bs "@k") OpGt (bs "0"), []); (GAttr (bs "k"), [])] in
  let l2 := [(GName (bs "r"), []); (GName (bs "a"), []); (GField (bs "b"), [bs "last"])] in
  let l3 := [(GAny, []); (GNth 0%Z, [])] in
  path_means (bs "**.a.#(@k>0)#.@k") (Steps l1) /\ path_means (bs "r.a.#.b|@last") (Steps l2) /\ path_means (bs "*.0") (Steps l3) /\
  kinds_of false true l1 = one_or_more [RAttribute; RAttribute] /\ kinds_of false true l2 = mkKinds [RElement] [] true /\ barren false true l3 = true /\
  known_modifiers env0 l2 /\
  get env0 (bs "<r><a><b>1</b></a><a><b>2</b></a></r>") (bs "r.a.#.b|@last") = Ok (r_element (bs "2")) /\
  get env0 (bs "<r><a></a></r>") (bs "r.a.#.b|@last") = Ok (r_array []).
Proof.
  cbv zeta. repeat apply conj; try (apply path_means_stored; [discriminate|vm_compute; reflexivity]); try (vm_compute; reflexivity).
  repeat constructor; left; cbn; auto.
Qed.
Example C77_live_example :
  let steps := [SpecLang.Child (bs "r") SpecLang.Leading; SpecLang.AnyKid; SpecLang.Descendant (Some (bs "b")); SpecLang.Child (bs "c") (SpecLang.Number (bs "2"))] in
  SpecLang.good_query steps (SpecLang.EAttr (bs "k")) /\ Forall unconditional steps /\ Forall feasible steps /\
  forest_text (specimen (SpecLang.EAttr (bs "k")) steps) = bs "<r><a><b><c></c><c></c><c k=""v""></c></b></a></r>" /\
  get env0 (forest_text (specimen (SpecLang.EAttr (bs "k")) steps)) (bs "r.*.**.b.c.2.@k") = Ok (r_attribute (bs "v")).
Proof.
  cbv zeta. split; [query_ok|]. split; [repeat constructor|]. split; [|split; vm_compute; reflexivity].
  pose proof ProofTree8.xml_name_b_ok as X.
  apply Forall_cons; [apply X; vm_compute; reflexivity|]. apply Forall_cons; [exact I|].
  apply Forall_cons; [apply X; vm_compute; reflexivity|]. apply Forall_cons; [|constructor].
  split; [apply X; vm_compute; reflexivity|vm_compute; reflexivity].
Qed.
