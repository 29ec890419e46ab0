(** Edits of any document: places, splices, tags, new elements. *)
From Coq Require Import List Ascii String NArith ZArith Bool Lia Permutation.
From Verif Require Import GoStr ModelParser ModelPath ModelResult ModelQuery ModelValidate ModelBuilder ModelQueryOpts SpecText SpecPath SpecTree SpecEdit SpecContent SpecCase SpecOptions
  SpecGrammar SpecScan SpecAnswer SpecError SpecOutcome ProofBase ProofEscape ProofPath ProofScan ProofFuel ProofTree ProofEdit3 ProofOpt2 ProofError ProofSight3
  ProofAnswer2 ProofAnswer4.
Import ListNotations.

Lemma low_seg : forall o x, low o x = seg_o (o_case o) x.
Proof. intros o [st ms]. unfold low. destruct (o_case o), st; reflexivity. Qed.
Lemma lower_spelled : forall cs n, lower_if cs n = spelled cs n.
Proof. intros [] n; reflexivity. Qed.
Lemma lowered_seg : forall o l, lowered o l = map (seg_o (o_case o)) l.
Proof. intros o l. rewrite lowered_map. apply map_ext. apply low_seg. Qed.

(** ** Splices *)
Definition conv (out : outcome) : Res (err + bytes) :=
  match out with Done d => Ok (inr d) | Refused e => Ok (inl e) | Crashed => Panic end.
Lemma slice_cases : forall d n,
  ((0 <= n <= size d)%Z /\ slice_to d n = Ok (firstn (Z.to_nat n) d) /\ slice_from d n = Ok (skipn (Z.to_nat n) d)) \/
  (~ (0 <= n <= size d)%Z /\ slice_to d n = Panic /\ slice_from d n = Panic).
Proof.
  intros d n. unfold slice_to, slice_from, size.
  destruct (Z.leb_spec 0 n), (Z.leb_spec n (Z.of_nat (List.length d))); cbn [andb]; [left|right|right|right]; repeat split; auto; lia.
Qed.
Lemma firstn_size : forall d n, (0 <= n <= size d)%Z -> size (firstn (Z.to_nat n) d) = n.
Proof. intros d n H. unfold size in *. rewrite firstn_length. lia. Qed.
Lemma splice_is : forall d p q m, exists out, spliced d p q m out /\
  forall f, (forall a b, f a b = a ++ m ++ b) -> (let* a := slice_to d p in let* b := slice_from d q in Ok (inr (f a b))) = conv out.
Proof.
  intros d p q m. destruct (slice_cases d p) as [(P & A & _)|(P & A & _)].
  - destruct (slice_cases d q) as [(Q & _ & B)|(Q & _ & B)].
    + exists (Done (firstn (Z.to_nat p) d ++ m ++ skipn (Z.to_nat q) d)). split.
      * eapply spliced_in; [symmetry; apply firstn_skipn|now apply firstn_size|symmetry; apply firstn_skipn|now apply firstn_size].
      * intros f F. rewrite A, B. cbn [bind conv]. now rewrite F.
    + exists Crashed. split; [apply spliced_out; tauto|]. intros f F. now rewrite A, B.
  - exists Crashed. split; [apply spliced_out; tauto|]. intros f F. now rewrite A.
Qed.

(** ** Tags *)
Lemma escaped_names : forall a, map fst (escaped a) = map fst a.
Proof. intros a. unfold escaped. rewrite map_map. reflexivity. Qed.
Lemma escaped_value : forall a n, In n (map fst a) -> value_in (escaped a) n = esc (value_in a n).
Proof.
  intros a n. unfold value_in, escaped. induction a as [|[m v] a IH]; intros I; [destruct I|]. cbn [map fst snd SpecQuery.attr_value].
  destruct (bytes_eqb n m) eqn:Q; auto. apply IH. destruct I as [I|I]; auto. cbn [fst] in I. subst m. now rewrite bytes_eqb_refl in Q.
Qed.
Lemma written_escaped : forall a, listed (escaped a) = attrs_text a.
Proof. intros a. unfold listed, escaped, attrs_text. rewrite flat_map_concat_map, map_map, <- flat_map_concat_map. reflexivity. Qed.
Lemma written_by : forall W names (f : bytes -> bytes), (forall n, In n names -> f n = value_in W n) ->
  flat_map (fun n => bs " " ++ n ++ ["="%char; dquote] ++ f n ++ [dquote]) names = listed (by_names W names).
Proof.
  intros W names f H. unfold listed, by_names. rewrite !flat_map_concat_map, map_map. f_equal. apply map_ext_in. intros n I. cbn [fst snd].
  now rewrite (H n I).
Qed.
Lemma put_written : forall o a x t, NoDup (map fst a) -> exists w, Permutation w (put_attrs (o_case o) x t (escaped a)) /\ sorted_by_name w /\
  flat_map (fun n => bs " " ++ n ++ ["="%char; dquote]
        ++ (if attr_eqb o n (spelled (o_case o) x) then t else escape_xml (ModelBuilder.attr_value a n)) ++ [dquote])
      (sort_strings (if existsb (fun n => attr_eqb o n (spelled (o_case o) x)) (map fst a) then map fst a else map fst a ++ [spelled (o_case o) x])) = listed w.
Proof.
  intros o a x t H. set (names := if existsb _ (map fst a) then _ else _). set (W := put_attrs (o_case o) x t (escaped a)).
  assert (PN : names = map fst W).
  { unfold W. rewrite puts_names, escaped_names. unfold names.
    replace (existsb (fun n => attr_eqb o n (spelled (o_case o) x)) (map fst a)) with (existsb (fun p => attr_is (o_case o) x (fst p)) (escaped a)); auto.
    clear. rewrite <- (existsb_names (attr_is (o_case o) x)), escaped_names. induction (map fst a) as [|q l IH]; [reflexivity|]. cbn [existsb]. now rewrite attr_eq_is, IH. }
  assert (NW : NoDup (map fst W)) by (apply puts_nodup; now rewrite escaped_names).
  exists (by_names W (sort_strings names)). split; [|split].
  - apply by_names_perm; auto. rewrite <- sort_perm. now rewrite PN.
  - apply by_names_sorted, sort_ordered.
  - apply (written_by W _ (fun n => if attr_eqb o n (spelled (o_case o) x) then t else escape_xml (ModelBuilder.attr_value a n))).
    intros n I. cbn beta. apply (Permutation_in _ (Permutation_sym (sort_perm _))) in I. rewrite PN in I.
    unfold W in *. rewrite puts_value by exact I. rewrite attr_eq_is. destruct (attr_is (o_case o) x n) eqn:Q; auto.
    rewrite escaped_value; [now rewrite value_text, esc_escape|]. rewrite puts_names, escaped_names in I.
    destruct (existsb _ (escaped a)) in I; auto. apply in_app_or in I. destruct I as [I|[<-|[]]]; auto. rewrite attr_is_self in Q. discriminate.
Qed.
Lemma drop_written : forall o a x, NoDup (map fst a) -> exists w, Permutation w (drop_attrs (o_case o) x (escaped a)) /\ sorted_by_name w /\
  flat_map (fun n => bs " " ++ n ++ ["="%char; dquote] ++ escape_xml (ModelBuilder.attr_value a n) ++ [dquote])
    (sort_strings (filter (fun n => negb (attr_eqb o n (spelled (o_case o) x))) (map fst a))) = listed w.
Proof.
  intros o a x H. set (names := filter _ (map fst a)). set (W := drop_attrs (o_case o) x (escaped a)).
  assert (PN : names = map fst W).
  { unfold W. rewrite drops_names, escaped_names. unfold names. apply filter_ext. intros n. now rewrite attr_eq_is. }
  assert (NW : NoDup (map fst W)).
  { rewrite <- PN. now apply NoDup_filter. }
  exists (by_names W (sort_strings names)). split; [|split].
  - apply by_names_perm; auto. rewrite <- sort_perm. now rewrite PN.
  - apply by_names_sorted, sort_ordered.
  - apply (written_by W _ (fun n => escape_xml (ModelBuilder.attr_value a n))).
    intros n I. cbn beta. apply (Permutation_in _ (Permutation_sym (sort_perm _))) in I. unfold names in I. apply filter_In in I. destruct I as [I Q].
    rewrite attr_eq_is in Q. apply negb_true_iff in Q. unfold W. rewrite drops_other by exact Q.
    rewrite escaped_value; auto. now rewrite value_text, esc_escape.
Qed.
Lemma sorted_written : forall a, NoDup (map fst a) -> exists w, Permutation w a /\ sorted_by_name w /\ sorted_attrs a = listed (escaped w).
Proof.
  intros a H. exists (by_names a (sort_strings (map fst a))). split; [|split].
  - apply by_names_perm; auto. now rewrite <- sort_perm.
  - apply by_names_sorted, sort_ordered.
  - rewrite written_escaped. unfold sorted_attrs, attrs_text, by_names. rewrite flat_map_concat_map, (flat_map_concat_map attr_text), map_map. f_equal. apply map_ext. intros n.
    unfold attr_text. cbn [fst snd]. now rewrite value_text, <- esc_escape.
Qed.

Section Edits.
  Variable E : env.
  Variable sight : bytes -> list elem -> Prop.
  Variable order : attrs -> attrs -> Prop.
  Variable o : options.
  Hypothesis Eperm : forall k m, Permutation m (e_ord E k m).
  Hypothesis Hs : forall key s l, scan_res E key s = Ok l -> sight s l.
  Hypothesis Ho : forall key a, order a (e_ord E key a).
  Notation cs := (o_case o).
  Notation sg := (seg_o (o_case o)).

  Lemma candidates_is : forall st ms es, candidates cs st es (filter (fun e => seg_matches_opts cs (sg (st, ms)) (e_name e)) es).
  Proof.
    intros st ms es. destruct st; cbn [candidates].
    - apply only_filter. intros e. rewrite <- (seg_o_is cs). apply (bears_is (Under cs)).
    - induction es; auto.
    - induction es; auto.
    - induction es; auto.
    - induction es; auto.
    - induction es as [|e es IH]; auto. exact (f_equal (cons e) IH).
    - induction es as [|e es IH]; auto. exact (f_equal (cons e) IH).
    - induction es; auto.
    - induction es; auto.
  Qed.
  Definition place_loc (l : location) : place :=
    mkPlace (l_start l) (l_content_start l) (l_content_end l) (l_name l) (l_attrs l) (l_self l).
  Definition sound (l : location) : Prop := l_end_tag l = l_content_end l /\ NoDup (map fst (l_attrs l)).
  Lemma place_location : forall d base e, place_loc (elem_location d base e) = place_of d base e.
  Proof.
    intros d base e. unfold place_loc, elem_location, place_of, pos_of, offset, size. cbn [l_start l_content_start l_content_end l_name l_attrs l_self].
    destruct (e_self e); f_equal; lia.
  Qed.
  Lemma location_sound : forall d base e, keyed e -> sound (elem_location d base e).
  Proof. intros d base e K. split; [reflexivity|exact K]. Qed.
  Definition found (d : bytes) (base : Z) (l : steps) (r : option location) : Prop :=
    match r with None => lies sight cs d base l None | Some loc => lies sight cs d base l (Some (place_loc loc)) /\ sound loc end.
  Lemma sg_nth : forall st ms, s_type (sg (st, ms)) = SIndex -> exists i, st = GNth i /\ s_index (sg (st, ms)) = i.
  Proof. intros [] ms H; try discriminate. eexists; split; reflexivity. Qed.
  Lemma find_found : forall l key d base, exists r, find_loc E o key d (map sg l) base = Ok r /\ found d base l r.
  Proof.
    intros l. remember (List.length l) as n eqn:N. revert l N. induction n as [n IH] using lt_wf_ind. intros l -> key d base.
    destruct l as [|[st ms] rest].
    { exists None. cbn [map find_loc]. split; [destruct (_ <? _)%Z; reflexivity|constructor]. }
    cbn [map find_loc]. change MaxPositionOffset with 1073741823%Z. destruct (Z.ltb_spec 1073741823 base) as [L|L].
    { exists None. split; auto. now apply lies_far. }
    destruct (scan_res_ok E key d) as [es S]. rewrite S. cbn [bind].
    pose proof (keyed_scan E Eperm _ _ _ S) as K. apply Hs in S. pose proof (candidates_is st ms es) as C.
    set (ml := filter _ es) in *. assert (KM : Forall keyed ml) by (apply Forall_forall; intros e I; apply filter_In in I; exact (proj1 (Forall_forall _ _) K e (proj1 I))).
    clearbody ml. clear K. destruct rest as [|[nx ms'] rest].
    { cbn [map]. destruct ml as [|e ml]; [exists None; split; auto; eapply lies_none; eauto|].
      eexists. split; [reflexivity|]. cbn [found]. rewrite place_location. split; [eapply lies_first; eauto|]. apply location_sound. now inversion KM. }
    cbn [map].
    assert (R : forall e, exists r, (if (1073741823 <? base + pos_of d (e_body e))%Z then Ok None
        else find_loc E o (child_key site_query e key) (e_content e) (sg (nx, ms') :: map sg rest) (base + pos_of d (e_body e))) = Ok r /\
        found (e_content e) (base + pos_of d (e_body e)) ((nx, ms') :: rest) r).
    { intros e. destruct (Z.ltb_spec 1073741823 (base + pos_of d (e_body e))) as [L'|L']; [exists None; split; auto; now apply lies_far|].
      change (sg (nx, ms') :: map sg rest) with (map sg ((nx, ms') :: rest)). apply (IH (List.length ((nx, ms') :: rest))); [cbn [List.length]; lia|reflexivity]. }
    assert (NN : ~ is_nth nx -> exists r, match ml with
        | [] => Ok None
        | e :: _ => let nb := (base + pos_of d (e_body e))%Z in
            if (1073741823 <? nb)%Z then Ok None else find_loc E o (child_key site_query e key) (e_content e) (sg (nx, ms') :: map sg rest) nb
        end = Ok r /\ found d base ((st, ms) :: (nx, ms') :: rest) r).
    { intros NN. destruct ml as [|e ml]; [exists None; split; auto; eapply lies_in_none; eauto|]. destruct (R e) as (r & Q & F). exists r. split; [exact Q|].
      unfold found in *. destruct r as [loc|]; [destruct F as [F F2]; split; auto|]; eapply lies_in; eauto. }
    destruct nx as [n| i | | | | | | |]; try (apply NN; exact (fun x => x)). clear NN. cbn [seg_o fst snd s_type s_index].
    destruct (nth_elem ml i) as [e|] eqn:NE.
    2:{ exists None. split; auto. apply nth_no_place in NE. eapply lies_no_nth; eauto. }
    pose proof (nth_place _ _ _ NE) as PL.
    assert (KE : keyed e). { destruct PL as [_ PL]. apply nth_error_In in PL. exact (proj1 (Forall_forall _ _) KM e PL). }
    destruct rest as [|y rest].
    { eexists. split; [reflexivity|]. cbn [found]. rewrite place_location. split; [eapply lies_nth; eauto|now apply location_sound]. }
    cbn [map]. cbv zeta.
    assert (R2 : exists r, (if (1073741823 <? base + pos_of d (e_body e))%Z then Ok None
        else find_loc E o (child_key site_query e key) (e_content e) (sg y :: map sg rest) (base + pos_of d (e_body e))) = Ok r /\
        found (e_content e) (base + pos_of d (e_body e)) (y :: rest) r).
    { destruct (Z.ltb_spec 1073741823 (base + pos_of d (e_body e))) as [L'|L']; [exists None; split; auto; now apply lies_far|].
      change (sg y :: map sg rest) with (map sg (y :: rest)). apply (IH (List.length (y :: rest))); [cbn [List.length]; lia|reflexivity]. }
    destruct R2 as (r & Q & F). exists r. split; [exact Q|].
    unfold found in *. destruct r as [loc|]; [destruct F as [F F2]; split; auto|]; eapply lies_in_nth; eauto.
  Qed.

  (** ** New elements *)
  Lemma repeat_times : forall i s, repeat_bytes i s = times i s.
  Proof. induction i as [|i IH]; intros s; [reflexivity|]. cbn [repeat_bytes times]. now rewrite IH. Qed.
  Lemma margin_is : forall i, (match o_indent o with [] => [] | _ :: _ => lf :: repeat_bytes i (o_indent o) end) = margin (o_indent o) i.
  Proof. intros i. unfold margin. destruct (o_indent o); [reflexivity|now rewrite repeat_times]. Qed.
  Lemma title_is : forall st ms, ~ is_attr st -> s_value (sg (st, ms)) = title cs st.
  Proof. intros st ms H. destruct st; try reflexivity. elim H. exact Logic.I. Qed.
  Lemma build_built : forall t l i, built cs (o_indent o) t i l (build_path (o_indent o) i (map sg l) t).
  Proof.
    intros t. induction l as [|[st ms] l IH]; intros i; [constructor|].
    destruct st as [| |a| | | | | |] eqn:ST; [| |apply built_attr; [exact Logic.I|apply IH]| | | | | |]; rewrite <- ST in *.
    all: assert (NA : ~ is_attr st) by (rewrite ST; exact (fun x => x)).
    all: assert (TY : s_type (sg (st, ms)) <> SAttr) by (rewrite ST; discriminate).
    all: clear ST; cbn [map build_path]; rewrite margin_is, (title_is st ms NA).
    all: destruct l as [|x l].
    all: match goal with
         | |- built _ _ _ _ [_] _ => pose proof (built_inmost cs (o_indent o) t i st ms NA) as B
         | |- built _ _ _ _ (_ :: _ :: _) _ => pose proof (built_outer cs (o_indent o) t i st ms x l _ NA (IH (S i))) as B
         end; unfold enclosed in B; unfold open_tag, close_tag;
       destruct (s_type (sg (st, ms))); try contradiction; cbn [map build_path app] in *; rewrite <- ?app_assoc in *; exact B.
  Qed.
  Lemma create_parent_is : forall key d loc l t, sound loc -> exists u out, built cs (o_indent o) t 0 l u /\ inserted order d (place_loc loc) u out /\
    (let* r := create_in_parent E o key d loc (map sg l) t in Ok (inr r)) = conv out.
  Proof.
    intros key d loc l t SD. set (u := build_path (o_indent o) 0 (map sg l) t). exists u. unfold create_in_parent. destruct (l_self loc) eqn:LS.
    - destruct (splice_is d (l_start loc) (l_content_end loc) (bs "<" ++ l_name loc ++ listed (escaped (e_ord E key (l_attrs loc))) ++ bs ">" ++ u ++ bs "</" ++ l_name loc ++ bs ">")) as (out & S & F).
      exists out. split; [apply build_built|]. split; [eapply inserted_empty; [exact LS|apply Ho|exact S]|].
      rewrite <- (F (fun a b => a ++ reopen_tag E key (l_name loc) (l_attrs loc) ++ build_path (o_indent o) 0 (map sg l) t ++ close_tag (l_name loc) ++ b)).
      + destruct (slice_to d (l_start loc)) as [a| |]; auto. cbn [bind]. destruct (slice_from d (l_content_end loc)) as [b| |]; auto.
      + intros a b. unfold reopen_tag, close_tag. rewrite written_escaped, write_attrs_text. fold u. now rewrite <- ?app_assoc.
    - destruct (splice_is d (l_content_end loc) (l_content_end loc) u) as (out & S & F).
      exists out. split; [apply build_built|]. split; [apply inserted_full; [exact LS|exact S]|].
      rewrite <- (F (fun a b => a ++ build_path (o_indent o) 0 (map sg l) t ++ b)) by reflexivity.
      destruct (slice_to d (l_content_end loc)) as [a| |]; auto. cbn [bind]. destruct (slice_from d (l_content_end loc)) as [b| |]; auto.
  Qed.
End Edits.
