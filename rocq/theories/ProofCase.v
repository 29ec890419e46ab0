(** Case-insensitive queries on canonical text: the building blocks. *)
From Coq Require Import List Ascii String NArith ZArith Bool Lia Permutation.
From Verif Require Import GoStr ModelParser ModelPath ModelResult ModelQuery ModelBuilder ModelQueryOpts SpecText SpecPath SpecTree SpecQuery SpecValid SpecEdit SpecContent SpecFilter SpecLang SpecCase
  ProofBase ProofEscape ProofPath ProofScan ProofSyntax ProofFuel ProofFuel2 ProofMono ProofFilter ProofTree ProofTree2 ProofTree3 ProofTree4 ProofTree5 ProofRaw2 ProofLang ProofLang2 ProofLang3 ProofLang4.
Import ListNotations.

(** ** Folding *)
Lemma in_folded : forall c s, In c (folded s) -> exists d, In d s /\ c = ascii_lower d.
Proof. intros c s H. apply in_map_iff in H. destruct H as [d [H1 H2]]. exists d. auto. Qed.
Lemma lower_special : forall c x, In x (bs "|@#(%*:-_.") -> ascii_lower c = x -> c = x.
Proof. intros c x H. bytecases c; cbn in H; intros <-; try reflexivity; exfalso; repeat (destruct H as [H|H]; [discriminate H|]); destruct H. Qed.
Lemma lower_letter : forall c, letter c -> letter (ascii_lower c).
Proof. intros c. unfold letter. bytecases c; intros H; vm_compute; vm_compute in H; intuition discriminate. Qed.
Lemma lower_digit : forall c, digit c -> ascii_lower c = c.
Proof. intros c. unfold digit. bytecases c; intros H; try reflexivity; exfalso; vm_compute in H; intuition discriminate. Qed.
Lemma lower_digit_inv : forall c, (48 <= N_of_ascii (ascii_lower c) <= 57)%N -> (48 <= N_of_ascii c <= 57)%N.
Proof. intros c. bytecases c; intros H; exact H || (exfalso; vm_compute in H; intuition discriminate). Qed.
Lemma lower_range : forall c, (32 <= N_of_ascii c)%N /\ N_of_ascii c <> 127%N -> (32 <= N_of_ascii (ascii_lower c))%N /\ N_of_ascii (ascii_lower c) <> 127%N.
Proof. intros c. bytecases c; intros H; exact H || (split; vm_compute; intuition discriminate). Qed.
Lemma folded_special : forall x s, In x (bs "|@#(%*:-_.") -> In x (folded s) -> In x s.
Proof. intros x s H K. apply in_folded in K. destruct K as [d [K1 K2]]. rewrite <- (lower_special d x H (eq_sym K2)). exact K1. Qed.
Lemma folded_is : forall s t, Forall (fun c => In c (bs "|@#(%*:-_.")) t -> folded s = t -> s = t.
Proof.
  intros s t H. revert s. induction H as [|c t H1 H2 IH]; intros [|d s] Q; try discriminate; auto. cbn [folded map] in Q. injection Q as Q1 Q2.
  rewrite (lower_special d c H1 Q1). f_equal. now apply IH.
Qed.
Lemma folded_length : forall s, List.length (folded s) = List.length s. Proof. intros. apply map_length. Qed.
Lemma folded_idem : forall s, folded (folded s) = folded s.
Proof. intros s. unfold folded. rewrite map_map. apply map_ext. apply lower_char_idem. Qed.
Lemma folded_plain : forall n, plain_name n -> plain_name (folded n).
Proof.
  intros n [H1 H2 H3 H4 H5 H6]. constructor.
  - destruct n; [easy|discriminate].
  - intros K. apply H2. apply folded_special in K; auto. cbn; auto.
  - intros r K. destruct n as [|c n]; [discriminate|]. cbn [folded map] in K. injection K as K1 K2.
    apply (H3 n). f_equal. apply (lower_special c); auto. cbn; auto.
  - intros r K. destruct n as [|c [|d n]]; try discriminate. cbn [folded map] in K. injection K as K1 K2 K3.
    apply (H4 n). f_equal; [|f_equal]; apply lower_special; auto; cbn; auto.
  - intros K. apply H5. cbn [In] in *. assert (P : In "%"%char (bs "|@#(%*:-_.") /\ In "#"%char (bs "|@#(%*:-_.") /\ In "*"%char (bs "|@#(%*:-_.")) by (cbn; tauto).
    destruct P as [P1 [P2 P3]]. destruct K as [K|[K|[K|[K|[]]]]]; symmetry in K; apply folded_is in K; try (subst n; tauto); repeat (apply Forall_cons || apply Forall_nil); assumption.
  - destruct H6 as (c & C1 & C2 & C3). exists (ascii_lower c). split; [now apply in_map|]. split.
    + intros K. apply C2. apply lower_special; auto. cbn. tauto.
    + intros K. apply C3. now apply lower_digit_inv.
Qed.
Lemma folded_step_name : forall n, step_name n -> step_name (folded n).
Proof.
  intros n [H1 H2]. split; [now apply folded_plain|]. destruct H2 as [H2|(p & l & NP & [G1 G2 G3] & ->)].
  - left. intros K. apply H2. apply folded_special in K; auto. cbn. tauto.
  - right. exists (folded p), (folded l). split; [now destruct p|]. split; [|unfold qualified, folded; now rewrite map_app].
    constructor.
    + intros K. apply G1. apply folded_special in K; auto. cbn. tauto.
    + now rewrite folded_length.
    + intros c K. apply in_folded in K. destruct K as [d [K ->]]. now apply lower_range, G3.
Qed.
Lemma folded_xml_name : forall n, xml_name n -> xml_name (folded n).
Proof.
  intros n [(c & r & -> & Hc) [H1 H2]]. split; [|split].
  - exists (ascii_lower c), (folded r). split; auto. destruct Hc as [Hc|Hc]; [left; now apply lower_letter|right].
    cbn in Hc. destruct Hc as [<-|[<-|[]]]; cbn; auto.
  - intros x K. apply in_folded in K. destruct K as [d [K ->]]. destruct (H1 d K) as [Q|[Q|Q]].
    + left. now apply lower_letter.
    + right. left. now rewrite lower_digit.
    + right. right. cbn in Q. repeat (destruct Q as [<-|Q]; [cbn; tauto|]). destruct Q.
  - unfold small in *. now rewrite folded_length.
Qed.
Lemma alike_match : forall n m, step_name n -> xml_name m -> seg_matches_opts false (elem_seg (folded n)) m = alike n m.
Proof.
  intros n m Hn Hm. rewrite match_ci. unfold alike. rewrite selects_match, !lower_eq_map.
  - fold (folded n) (folded m). fold (folded (folded n)). now rewrite folded_idem.
  - rewrite lower_eq_map. now apply folded_step_name, folded_step_name.
  - rewrite lower_eq_map. now apply folded_xml_name.
Qed.

(** ** Segments *)
Lemma lower_elem : forall n, lower_seg (elem_seg n) = elem_seg (folded n). Proof. reflexivity. Qed.
Lemma lower_attr : forall x, lower_seg (step_seg (Attr x, [])) = step_seg (Attr (folded x), []). Proof. reflexivity. Qed.
Lemma lower_where : forall c all, lower_seg (where_seg c all) = where_seg c all. Proof. reflexivity. Qed.
Definition csegs (steps : list qstep) (q : qend) : list seg := map lower_seg (query_segs steps q).
Lemma lower_seg_cost : forall sg, seg_cost (lower_seg sg) = seg_cost sg.
Proof. intros sg. unfold lower_seg. destruct (s_type sg); reflexivity. Qed.
Lemma csegs_cost : forall steps q, cost (csegs steps q) = cost (query_segs steps q).
Proof. intros. unfold csegs. induction (query_segs steps q) as [|sg l IH]; auto. cbn [map cost]. now rewrite IH, lower_seg_cost. Qed.
Lemma csegs_more : forall q rest, rest <> [] -> exists nx more, csegs rest q = nx :: more /\ s_mods nx = [] /\
  (s_type nx = SElem \/ s_type nx = SWild \/ (s_type nx = SFilter /\ exists c all r, rest = Kid c all :: r)).
Proof.
  intros q rest H. unfold csegs, query_segs. destruct rest as [|[n [| |]| |c all|[n|]] r]; [easy|..]; cbn [flat_map qstep_segs app map];
    eexists; eexists; (split; [reflexivity|]); (split; [reflexivity|]); rewrite ?lower_elem, ?lower_where; cbn [s_type elem_seg any_seg deep_seg step_seg lower_seg]; auto. right. right. split; auto. eauto.
Qed.

(** ** Attributes *)
Lemma small_perm : forall A (l l' : list A), Permutation l l' -> List.length l <= 1 -> l' = l.
Proof.
  intros A l l' H L. destruct l as [|x [|y l]]; cbn [List.length] in L; [| |lia].
  - now apply Permutation_nil.
  - now apply Permutation_length_1_inv.
Qed.
Lemma perm_filter : forall A (f : A -> bool) l l', Permutation l l' -> Permutation (filter f l) (filter f l').
Proof. intros A f l l' H. induction H; cbn [filter]; try destruct (f x); try destruct (f y); auto using perm_swap, perm_skip, perm_nil. eapply perm_trans; eauto. Qed.
Definition fits_name (x : bytes) (a : bytes * bytes) : bool := bytes_eqb (folded (fst a)) (folded x).
Lemma distinct_one : forall x (l : list (bytes * bytes)), NoDup (map (fun a => folded (fst a)) l) -> List.length (filter (fits_name x) l) <= 1.
Proof.
  intros x l. induction l as [|a l IH]; intros H; cbn [filter]; auto. cbn [map] in H. inversion H as [|? ? H1 H2]; subst. destruct (fits_name x a) eqn:Q; auto.
  assert (N : filter (fits_name x) l = []).
  { destruct (filter (fits_name x) l) as [|b l'] eqn:F; auto. exfalso. apply H1. assert (K : In b (filter (fits_name x) l)) by (rewrite F; now left).
    apply filter_In in K. destruct K as [K1 K2]. unfold fits_name in *. apply bytes_eqb_eq in Q, K2. rewrite Q, <- K2. now apply (in_map (fun a => folded (fst a))). }
  rewrite N. auto.
Qed.

Section Case.
  Variable E : env.
  Hypothesis Hord : forall k l, Permutation l (e_ord E k l).

  Definition shown_ci (nd : node) (e : elem) : Prop :=
    shown nd e /\ NoDup (map (fun a => folded (fst a)) (attrs_of nd)) /\ apart (kids_of nd).
  Definition reads_ci (s : bytes) (F : list node) : Prop := reads_in E s F /\ apart F.
  Lemma shown_ci_all : forall F es, apart F -> Forall2 shown (elems F) es -> Forall2 shown_ci (elems F) es.
  Proof.
    intros F es A H. assert (K : forall nd, In nd (elems F) -> NoDup (map (fun a => folded (fst a)) (attrs_of nd)) /\ apart (kids_of nd)).
    { intros nd Hn. apply filter_In in Hn. destruct Hn as [N1 N2]. split; [apply A; now apply inside_here|].
      intros x Hx. apply A. now apply inside_below with nd. }
    revert K. induction H; intros K; constructor; [split; auto; apply K; now left|]. apply IHForall2. intros nd Hn. apply K. now right.
  Qed.
  Lemma reads_ci_scan : forall s F key, reads_ci s F -> exists es, scan_res E key s = Ok es /\ Forall2 shown_ci (elems F) es.
  Proof. intros s F key [H A]. destruct (reads_scan E s F key H) as [es [H1 H2]]. exists es. split; auto using shown_ci_all. Qed.
  Lemma shown_ci_reads : forall nd e, shown_ci nd e -> reads_ci (e_content e) (kids_of nd).
  Proof. intros nd e [H [_ A]]. split; auto. now apply shown_reads. Qed.
  Lemma shown_ci_shown : forall nd e, shown_ci nd e -> shown nd e. Proof. intros nd e H. apply H. Qed.
  Lemma shown_ci_list : forall l es, Forall2 shown_ci l es -> Forall2 shown l es.
  Proof. intros l es H. eapply f2_impl; [exact H|]. apply shown_ci_shown. Qed.
  Lemma called_ci : forall f g l es, Forall2 shown_ci l es -> (forall n, xml_name n -> f n = g n) ->
    Forall2 shown_ci (filter (fun nd => f (name_of nd)) l) (filter (fun e => g (e_name e)) es).
  Proof.
    intros f g l es H Hfg. eapply f2_filter; eauto. intros a b R. destruct (shown_name _ _ (shown_ci_shown _ _ R)) as [K1 K2]. cbn. rewrite K1. auto.
  Qed.
  Lemma matching_ci : forall n F es, step_name n -> Forall2 shown_ci (elems F) es ->
    Forall2 shown_ci (called (alike n) F) (filter (fun e => seg_matches_opts false (elem_seg (folded n)) (e_name e)) es).
  Proof. intros n F es Hn H. rewrite called_elems. apply called_ci; auto. intros m Hm. symmetry. now apply alike_match. Qed.

  Lemma ordered_attrs : forall x nd e key, shown_ci nd e ->
    filter (fun a => bytes_eqb (to_lower_ascii (fst a)) (folded x)) (e_ord E (child_key site_attr e key) (e_attrs e)) = filter (fits_name x) (attrs_of nd).
  Proof.
    intros x nd e key [[[_ _ _ P _] _] [D _]]. change (filter (fits_name x) (e_ord E (child_key site_attr e key) (e_attrs e)) = filter (fits_name x) (attrs_of nd)).
    apply small_perm; [|now apply distinct_one]. apply perm_filter. eapply perm_trans; [exact P|]. apply Hord.
  Qed.
  Lemma lookup_ci : forall x nd e key, shown_ci nd e ->
    attr_lookup E false key (folded x) e = match filter (fits_name x) (attrs_of nd) with [] => None | a :: _ => Some (snd a) end.
  Proof. intros x nd e key H. unfold attr_lookup. now rewrite (ordered_attrs x nd). Qed.
  Lemma lookup_all_ci : forall x nd e key, shown_ci nd e ->
    attr_lookup_all E false key (folded x) e = match filter (fits_name x) (attrs_of nd) with [] => [] | a :: _ => [snd a] end.
  Proof.
    intros x nd e key H. unfold attr_lookup_all. rewrite (ordered_attrs x nd) by auto. destruct H as [_ [D _]]. pose proof (distinct_one x _ D) as L.
    destruct (filter (fits_name x) (attrs_of nd)) as [|a [|b l]]; auto. cbn [List.length] in L. lia.
  Qed.
  Lemma attribute_ci_is : forall x nd e key, shown_ci nd e ->
    Forall2 item_is (attribute_ci x nd) (map r_attribute (opt_list (attr_lookup E false key (folded x) e))).
  Proof. intros x nd e key H. rewrite (lookup_ci x nd) by auto. unfold attribute_ci. fold (fits_name x). destruct (filter (fits_name x) (attrs_of nd)); repeat constructor. Qed.
  Lemma attribute_all_ci : forall x nd e key, shown_ci nd e ->
    Forall2 item_is (attribute_ci x nd) (map r_attribute (attr_lookup_all E false key (folded x) e)).
  Proof. intros x nd e key H. rewrite (lookup_all_ci x nd) by auto. unfold attribute_ci. fold (fits_name x). destruct (filter (fits_name x) (attrs_of nd)); repeat constructor. Qed.

  (** ** Fields *)
  Lemma field_kids_ci : forall key n l es, Forall2 shown_ci l es ->
    exists rs, field_children_opts E false key n es = Ok rs /\ Forall2 item_is (flat_map (fields_of_ci (FieldName n)) l) rs.
  Proof.
    intros key n l es H. induction H as [|nd e l es H1 H2 [rs [R1 R2]]]; [exists []; split; [reflexivity|constructor]|].
    cbn [field_children_opts flat_map]. destruct (reads_ci_scan _ _ (child_key site_field e key) (shown_ci_reads _ _ H1)) as [cs [C1 C2]].
    rewrite C1. cbn [bind]. rewrite R1. cbn [bind]. eexists. split; [reflexivity|]. apply Forall2_app; auto.
    cbn [fields_of_ci]. eapply f2_map.
    - rewrite called_elems. apply called_ci with (f := fun m => bytes_eqb (folded m) (folded n)) (g := fun m => bytes_eqb (lower_if false m) (lower_if false n)); [exact C2|reflexivity].
    - intros a b K. apply element_is. now apply shown_ci_shown.
  Qed.
  Lemma fields_ci_ok : forall key f l es, good_field f -> Forall2 shown_ci l es ->
    exists r, field_extract_opts E false key es (field_seg f) = Ok r /\ says r (fields_ci f l).
  Proof.
    intros key f l es Hf H.
    assert (K : exists all,
      match field_text f with
      | [] => False
      | c :: name => (if Ascii.eqb c "@" then
           Ok (flat_map (fun e => map r_attribute (opt_list (attr_lookup E false key (lower_if false name) e))) es)
         else if bytes_eqb (field_text f) (bs "%") then
           Ok (flat_map (fun e => match extract_direct (e_content e) with [] => [] | t => [mkR RString t (unescape_xml t) f64_zero []] end) es)
         else field_children_opts E false key (field_text f) es) = Ok all
      end /\ Forall2 item_is (flat_map (fields_of_ci f) l) all).
    { destruct f as [n|x|]; cbn [field_text good_field] in *.
      - pose proof (field_plain n Hf) as P. destruct (field_kids_ci key n l es H) as [rs [R1 R2]]. exists rs. split; auto.
        destruct n as [|c n]; [now destruct P|]. destruct (Ascii.eqb_spec c "@"); [subst; now destruct (pn_not_attr _ P n)|].
        destruct (bytes_eqb (c :: n) (bs "%")) eqn:B; auto. apply bytes_eqb_eq in B. exfalso. apply (pn_not_special _ P). rewrite B. now left.
      - change (Ascii.eqb "@" "@") with true. eexists. split; [reflexivity|]. eapply f2_flat_map; [exact H|]. intros; now apply attribute_ci_is.
      - change (Ascii.eqb "%" "@") with false. change (bytes_eqb ["%"%char] (bs "%")) with true. eexists. split; [reflexivity|].
        eapply f2_flat_map; [exact H|]. intros a b K. apply field_texts. now apply shown_ci_shown. }
    destruct K as [all [K1 K2]]. unfold field_extract_opts. cbn [field_seg s_field s_mods]. destruct (field_text f) as [|c name]; [easy|].
    match goal with |- exists r, bind ?x _ = _ /\ _ => replace x with (Ok all) by (symmetry; exact K1) end. cbn [bind]. apply (f2_firstn _ _ _ 1000) in K2. rewrite wild_max. unfold fields_ci.
    destruct K2 as [|i r li rs Q1 Q2].
    - exists (r_array []). repeat split; constructor.
    - exists (r_array (r :: rs)). split; [reflexivity|]. cbn [says r_array r_type r_results]. auto.
  Qed.
End Case.
