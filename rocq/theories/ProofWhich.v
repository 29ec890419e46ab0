(** Lemmas for C108. *)
From Coq Require Import List Ascii String NArith ZArith Bool Lia.
From Verif Require Import GoStr ModelResult ModelParser ModelPath ModelQuery ModelValidate ModelBuilder ModelQueryOpts SpecWhich ProofBase ProofFuel ProofOpts.
Import ListNotations.
Open Scope nat_scope.

(** ** What does not depend on the options *)
Section Case.
  Variable E : env.
  Variables o o' : options.
  Hypothesis CQ : o_case o = o_case o'.
  Lemma find_loc_case_n : forall n segs, List.length segs <= n -> forall key d base, find_loc E o key d segs base = find_loc E o' key d segs base.
  Proof.
    induction n as [|n IH]; intros [|sg rest] L key d base; cbn [List.length] in L; try reflexivity; [lia|].
    cbn [find_loc]. rewrite CQ. destruct (MaxPositionOffset <? base)%Z; [reflexivity|]. destruct (scan_res E key d) as [es| |]; cbn [bind]; try reflexivity. cbv zeta.
    destruct rest as [|nx rest2]; [reflexivity|]. cbn [List.length] in L.
    assert (X : forall e, (let nb := (base + pos_of d (e_body e))%Z in if (MaxPositionOffset <? nb)%Z then Ok None else find_loc E o (child_key site_query e key) (e_content e) (nx :: rest2) nb) =
      (let nb := (base + pos_of d (e_body e))%Z in if (MaxPositionOffset <? nb)%Z then Ok None else find_loc E o' (child_key site_query e key) (e_content e) (nx :: rest2) nb)).
    { intros e. cbv zeta. destruct (MaxPositionOffset <? _)%Z; [reflexivity|]. apply IH. cbn [List.length]. lia. }
    cbv zeta in X. destruct (s_type nx) eqn:T; try (destruct (filter _ es) as [|e ms]; [reflexivity|apply X]).
    destruct (nth_elem _ _) as [e|]; [|reflexivity]. destruct rest2 as [|s3 r3]; [reflexivity|]. destruct (MaxPositionOffset <? _)%Z; [reflexivity|]. apply IH. cbn [List.length] in *. lia.
  Qed.
  Lemma find_loc_case : forall key d segs base, find_loc E o key d segs base = find_loc E o' key d segs base.
  Proof. intros. eapply find_loc_case_n. apply le_n. Qed.
  Lemma parse_case : forall path, parse_path_opts o path = parse_path_opts o' path.
  Proof. intros. unfold parse_path_opts. now rewrite CQ. Qed.
  Lemma replace_attribute_case : forall d l name v, replace_attribute o d l name v = replace_attribute o' d l name v.
  Proof. intros. unfold replace_attribute, attr_eqb. now rewrite CQ. Qed.
  Lemma delete_case : forall xml path, delete_opts E o xml path = delete_opts E o' xml path.
  Proof.
    intros. unfold delete_opts, delete_element, delete_attribute, attr_eqb. rewrite parse_case. destruct (MaxDocumentSize <? blen xml)%N; [reflexivity|]. destruct (negb (valid xml)); [reflexivity|].
    destruct (parse_path_opts o' path) as [segs| |]; cbn [bind]; try reflexivity. destruct segs as [|sg rest]; [reflexivity|]. rewrite CQ.
    f_equal. destruct (segtype_eqb _ _); [destruct (removelast (sg :: rest)); [reflexivity|]|]; now rewrite find_loc_case.
  Qed.
  Lemma find_parent_case : forall n key d path, find_parent E o key d path n = find_parent E o' key d path n.
  Proof. induction n as [|n IH]; intros; [reflexivity|]. cbn [find_parent]. rewrite find_loc_case. destruct (find_loc E o' _ _ _ _) as [[l|]| |]; cbn [bind]; auto. Qed.
  Lemma last_match_case : forall sg d l z, last_match_pos o sg d l z = last_match_pos o' sg d l z.
  Proof. intros sg d. induction l as [|e l IH]; intros z; [reflexivity|]. cbn [last_match_pos]. now rewrite IH, CQ. Qed.
  Lemma find_last_case : forall key d p sg, find_last_match E o key d p sg = find_last_match E o' key d p sg.
  Proof. intros. unfold find_last_match. destruct (sliced _ _ _); cbn [bind]; try reflexivity. destruct (scan_res _ _ _); cbn [bind]; try reflexivity. now rewrite last_match_case. Qed.
  Lemma append_root_case : forall key d sg v, append_root E o key d sg v = append_root E o' key d sg v.
  Proof. intros. unfold append_root. destruct d; [reflexivity|]. destruct (scan_res _ _ _); cbn [bind]; try reflexivity. now rewrite last_match_case. Qed.

  Section Indent.
    Hypothesis IQ : o_indent o = o_indent o'.
    Lemma create_case : forall key d path v, create_element E o key d path v = create_element E o' key d path v.
    Proof.
      intros. unfold create_element. rewrite IQ, find_parent_case. destruct d; [reflexivity|]. destruct (find_parent _ _ _ _ _ _) as [[[l i]|]| |]; cbn [bind]; try reflexivity.
      - unfold create_in_parent. now rewrite IQ.
      - unfold create_in_root. now rewrite IQ.
    Qed.
    Lemma create_attr_case : forall key d path name v, create_element_for_attr E o key d path name v = create_element_for_attr E o' key d path name v.
    Proof.
      intros. unfold create_element_for_attr. rewrite create_case. destruct (create_element _ _ _ _ _ _) as [[e|r]| |]; cbn [bind]; try reflexivity. cbv zeta. destruct (_ <? _)%N; [reflexivity|].
      rewrite find_loc_case. destruct (find_loc _ _ _ _ _ _) as [[l|]| |]; cbn [bind]; try reflexivity. now rewrite replace_attribute_case.
    Qed.
    Lemma append_case : forall key d path v, append_element E o key d path v = append_element E o' key d path v.
    Proof.
      intros. unfold append_element. destruct (rev path) as [|lastseg [|sg rp]]; try reflexivity. cbv zeta. destruct (_ || _); [reflexivity|]. destruct (negb _); [reflexivity|].
      destruct (rev rp) as [|s1 r1] eqn:Q; [apply append_root_case|]. rewrite find_loc_case. destruct (find_loc _ _ _ _ _ _) as [[l|]| |]; cbn [bind]; try reflexivity; [|apply create_case].
      destruct (l_self l); [reflexivity|]. rewrite find_last_case, IQ. reflexivity.
    Qed.
    Lemma set_case : forall fmt_g xml path v, set_opts E fmt_g o xml path v = set_opts E fmt_g o' xml path v.
    Proof.
      intros. unfold set_opts. destruct (_ <? _)%N; [reflexivity|]. destruct (match xml with [] => false | _ :: _ => _ end); [reflexivity|].
      assert (X : (let* segs := parse_path_opts o path in match segs with [] => Ok (xml, Some ErrInvalidPath) | _ :: _ => edit_of xml (set_element E fmt_g o xml segs v) end) =
        (let* segs := parse_path_opts o' path in match segs with [] => Ok (xml, Some ErrInvalidPath) | _ :: _ => edit_of xml (set_element E fmt_g o' xml segs v) end)).
      { rewrite parse_case. destruct (parse_path_opts o' path) as [segs| |]; cbn [bind]; try reflexivity. destruct segs as [|sg rest]; [reflexivity|]. f_equal. unfold set_element.
        destruct (value_to_xml fmt_g v); [reflexivity|]. destruct (_ <? _)%N; [reflexivity|]. destruct (_ <? _)%N; [reflexivity|]. cbv zeta. destruct (check_intents _); try reflexivity; [|now rewrite append_case].
        destruct (segtype_eqb _ _); rewrite find_loc_case; destruct (find_loc E o' _ _ _ _) as [[l|]| |]; cbn [bind]; try reflexivity; [now rewrite replace_attribute_case|apply create_attr_case|now rewrite create_case]. }
      destruct v; try exact X. apply delete_case.
    Qed.
  End Indent.
End Case.

(** ** Indentation *)
Lemma spread_refl : forall ind a, spread ind a a.
Proof. induction a; constructor; auto. Qed.
Lemma spread_app : forall ind a b a' b', spread ind a b -> spread ind a' b' -> spread ind (a ++ a') (b ++ b').
Proof. intros ind a b a' b' H H'. induction H; cbn [app]; [exact H'|constructor; auto|]. rewrite <- app_assoc. now apply (spread_line ind n). Qed.
Lemma spread_length : forall ind a b, spread ind a b -> List.length a <= List.length b.
Proof. intros ind a b H. induction H; cbn [List.length]; rewrite ?app_length; lia. Qed.
Lemma repeat_concat : forall n s, repeat_bytes n s = List.concat (List.repeat s n).
Proof. induction n as [|n IH]; intros s; [reflexivity|]. cbn [repeat_bytes List.repeat List.concat]. now rewrite IH. Qed.
Lemma indent_line : forall ind i, spread ind [] (match ind with [] => [] | _ :: _ => lf :: repeat_bytes i ind end).
Proof. intros ind i. destruct ind as [|c ind]; [apply spread_nil|]. rewrite repeat_concat, <- (app_nil_r (List.concat _)). apply (spread_line (c :: ind) i [] []). apply spread_nil. Qed.
Lemma build_spread : forall ind path i v, spread ind (build_path [] i path v) (build_path ind i path v).
Proof.
  intros ind. induction path as [|sg rest IH]; intros i v; [constructor|]. cbn [build_path].
  assert (X : spread ind ([] ++ open_tag (s_value sg) ++ (match rest with [] => v | _ :: _ => [] end) ++ build_path [] (S i) rest v ++ close_tag (s_value sg))
    ((match ind with [] => [] | _ :: _ => lf :: repeat_bytes i ind end) ++ open_tag (s_value sg) ++ (match rest with [] => v | _ :: _ => [] end) ++ build_path ind (S i) rest v ++ close_tag (s_value sg))).
  { apply spread_app; [apply indent_line|]. apply spread_app; [apply spread_refl|]. apply spread_app; [apply spread_refl|]. apply spread_app; [apply IH|apply spread_refl]. }
  destruct (s_type sg); try exact X. apply IH.
Qed.
Lemma build_nil : forall ind path i v, build_path [] i path v = [] -> build_path ind i path v = [].
Proof.
  intros ind. induction path as [|sg rest IH]; intros i v H; [reflexivity|]. cbn [build_path] in *. destruct (s_type sg); try (now apply IH); discriminate H.
Qed.

(** Two computations that end alike. *)
Definition alike {A} (R : A -> A -> Prop) (m m' : Res A) : Prop :=
  match m, m' with Ok x, Ok y => R x y | Panic, Panic => True | OutOfFuel, OutOfFuel => True | _, _ => False end.
Lemma alike_bind : forall {A B} (R : B -> B -> Prop) (m : Res A) f g, (forall x, m = Ok x -> alike R (f x) (g x)) -> alike R (let* x := m in f x) (let* x := m in g x).
Proof. intros A B R m f g H. destruct m; cbn [bind]; [now apply H|exact I|exact I]. Qed.
(** The documents before getResult. *)
Definition outs (ind d : bytes) (x y : err + bytes) : Prop :=
  match x, y with
  | inl e, inl e' => e = e'
  | inr r, inr r' => spread ind (get_result d r) (get_result d r')
  | inr r, inl e => r <> [] /\ e = ErrInvalidValue /\ exists r', spread ind r r' /\ (MaxDocumentSize < blen r')%N
  | _, _ => False
  end.
Lemma outs_spread : forall ind d r r', spread ind r r' -> (r = [] -> r' = [] \/ d = []) -> outs ind d (inr r) (inr r').
Proof.
  intros ind d r r' S N. cbn [outs]. destruct r as [|c r].
  - destruct (N eq_refl) as [-> | ->]; [apply spread_refl|]. now destruct r'.
  - destruct r' as [|c' r']; [inversion S|exact S].
Qed.
Section Indented.
  Variable E : env.
  Variables o o' : options.
  Hypothesis CQ : o_case o = o_case o'.
  Hypothesis IQ : o_indent o = [].
  Notation ind := (o_indent o').
  Lemma create_in_parent_spread : forall key d l path v, alike (spread ind) (create_in_parent E o key d l path v) (create_in_parent E o' key d l path v).
  Proof.
    intros. unfold create_in_parent. rewrite IQ. destruct (l_self l); apply alike_bind; intros a _; apply alike_bind; intros b _; cbn [alike];
      repeat (apply spread_app; [try apply spread_refl; try apply build_spread|]); apply spread_refl.
  Qed.
  Lemma slices : forall d n a b, slice_to d n = Ok a -> slice_from d n = Ok b -> a ++ b = d.
  Proof. intros d n a b. unfold slice_to, slice_from. destruct (_ && _); [|discriminate]. intros H1 H2. injection H1 as <-. injection H2 as <-. apply firstn_skipn. Qed.
  Lemma create_in_root_spread : forall key d path v, d <> [] -> alike (outs ind d) (create_in_root E o key d path v) (create_in_root E o' key d path v).
  Proof.
    intros key d path v ND. unfold create_in_root. rewrite IQ. apply alike_bind. intros es _. cbv zeta. destruct (match path with [] => false | _ => _ end).
    - cbn [alike]. apply outs_spread; [apply spread_app; [apply spread_refl|apply build_spread]|]. intros Q. apply app_eq_nil in Q as [Q _]. now right.
    - destruct es as [|e es']; [reflexivity|]. set (path' := match path with [] => path | _ => _ end). destruct path' as [|s1 r1]; [cbn [alike outs]; apply spread_refl|]. destruct (e_self e).
      + apply alike_bind; intros a _; apply alike_bind; intros b _. cbn [alike]. apply outs_spread.
        * repeat (apply spread_app; [try apply spread_refl; try apply build_spread|]); apply spread_refl.
        * intros Q. apply app_eq_nil in Q as [_ Q]. discriminate Q.
      + apply alike_bind; intros a Ha; apply alike_bind; intros b Hb. cbn [alike]. apply outs_spread.
        * repeat (apply spread_app; [try apply spread_refl; try apply build_spread|]); apply spread_refl.
        * intros Q. right. apply app_eq_nil in Q as [-> Q]. apply app_eq_nil in Q as [_ ->]. now rewrite <- (slices _ _ _ _ Ha Hb).
  Qed.
  Lemma create_spread : forall key d path v, alike (outs ind d) (create_element E o key d path v) (create_element E o' key d path v).
  Proof.
    intros. unfold create_element. rewrite IQ. destruct d as [|c d0] eqn:D.
    - cbn [alike]. apply outs_spread; [apply build_spread|]. auto.
    - rewrite <- D in *. rewrite (find_parent_case E o o' CQ). apply alike_bind. intros [[l i]|] _; [|apply create_in_root_spread; rewrite D; discriminate].
      pose proof (create_in_parent_spread (2 :: key) d l (skipn i path) v) as X.
      assert (NE : forall r, create_in_parent E o (2 :: key) d l (skipn i path) v = Ok r -> r <> []).
      { unfold create_in_parent. rewrite IQ. intros r H. destruct (l_self l); apply bind_ok in H as (a & Ha & H); apply bind_ok in H as (b & Hb & H); injection H as <-.
        - intros Q. apply app_eq_nil in Q as [_ Q]. discriminate Q.
        - intros Q. apply app_eq_nil in Q as [-> Q]. apply app_eq_nil in Q as [_ ->]. pose proof (slices _ _ _ _ Ha Hb) as Z. rewrite D in Z. discriminate Z. }
      destruct (create_in_parent E o _ _ _ _ _) as [r| |], (create_in_parent E o' _ _ _ _ _) as [r'| |]; cbn [alike bind] in *; try contradiction; try exact I.
      apply outs_spread; [exact X|]. intros ->. now destruct (NE [] eq_refl).
  Qed.
  Lemma append_spread : forall key d path v, alike (outs ind d) (append_element E o key d path v) (append_element E o' key d path v).
  Proof.
    intros. unfold append_element. destruct (rev path) as [|lastseg [|sg rp]]; try reflexivity. cbv zeta. destruct (_ || _); [reflexivity|]. destruct (negb _); [reflexivity|].
    assert (RF : forall m : Res (err + bytes), alike (outs ind d) m m) by (intros [[e|r]| |]; cbn [alike outs]; auto using spread_refl).
    destruct (rev rp) as [|s1 r1] eqn:Q; [rewrite (append_root_case E o o' CQ); apply RF|]. rewrite (find_loc_case E o o' CQ). apply alike_bind. intros [l|] _; [|apply create_spread].
    destruct (l_self l); [apply RF|]. rewrite (find_last_case E o o' CQ), IQ. apply alike_bind. intros p _. apply alike_bind. intros a Ha. apply alike_bind. intros b Hb. cbn [app].
    set (x := match ind with [] => [] | _ => _ end). set (r := a ++ new_elem (s_value sg) v ++ b). set (r' := a ++ x ++ new_elem (s_value sg) v ++ b).
    assert (S : spread ind r r').
    { unfold r, r'. apply spread_app; [apply spread_refl|]. change (spread ind ([] ++ new_elem (s_value sg) v ++ b) (x ++ new_elem (s_value sg) v ++ b)). apply spread_app; [|apply spread_refl].
      pose proof (indent_line ind (List.length (s1 :: r1))) as IL. unfold x. destruct ind; [constructor|]. destruct (_ <? _)%Z; [exact IL|constructor]. }
    assert (NE : r <> []) by (unfold r; intros Z; apply app_eq_nil in Z as [_ Z]; discriminate Z).
    pose proof (spread_length _ _ _ S) as L. destruct (N.ltb_spec MaxDocumentSize (blen r)) as [B|B], (N.ltb_spec MaxDocumentSize (blen r')) as [B'|B']; cbn [alike].
    - reflexivity.
    - unfold blen in *. lia.
    - split; [exact NE|]. split; [reflexivity|]. now exists r'.
    - apply outs_spread; [exact S|]. contradiction.
  Qed.
  Definition told (d : bytes) (x y : edit_result) : Prop :=
    (snd y = snd x /\ spread ind (fst x) (fst y)) \/ (snd x = None /\ snd y = Some ErrInvalidValue /\ fst y = d /\ exists r, spread ind (fst x) r /\ (MaxDocumentSize < blen r)%N).
  Lemma edit_told : forall d m m', alike (outs ind d) m m' ->
    alike (told d) (edit_of d (let* r := m in match r with inl e => Ok (inl e) | inr r => Ok (inr (get_result d r)) end)) (edit_of d (let* r := m' in match r with inl e => Ok (inl e) | inr r => Ok (inr (get_result d r)) end)).
  Proof.
    intros d m m' H. destruct m as [[e|r]| |], m' as [[e'|r']| |]; cbn [alike outs bind edit_of] in *; try contradiction; try exact I.
    - left. subst. split; [reflexivity|apply spread_refl].
    - right. destruct H as (NE & -> & r' & S & B). cbn [fst snd]. repeat split. exists r'. split; [|exact B]. destruct r; [contradiction|exact S].
    - left. split; [reflexivity|exact H].
  Qed.
End Indented.

(** ** Paths without attributes *)
Lemma split_on_head : forall c s x, In x (fst (split_on c s)) -> In x s.
Proof.
  intros c. induction s as [|y s IH]; intros x H; [exact H|]. cbn [split_on] in H. destruct (split_on c s) as [h t]. cbn [fst] in IH. destruct (Ascii.eqb y c); cbn [fst] in H; [destruct H|]. destruct H as [->|H]; [now left|right; now apply IH].
Qed.
Lemma part_no_attr : forall part sg, ~ In "@"%char part -> parse_part part = Ok (PSeg sg) -> s_type sg <> SAttr.
Proof.
  intros part sg NA H. unfold parse_part in H. destruct part as [|c0 part0] eqn:Ep; [discriminate|]. rewrite <- Ep in *. destruct (parse_modifiers part) as [pp mods] eqn:PM.
  assert (IN : forall x, In x pp -> In x part).
  { intros x I. unfold parse_modifiers in PM. destruct (split_on "|" part) as [h t] eqn:SO. injection PM as <- <-. apply (split_on_head "|"%char). now rewrite SO. }
  destruct (strip_prefix (bs "#(") pp).
  - destruct (if has_suffix (bs ")#") pp then _ else _) as [[all endidx]|]; [|discriminate]. destruct (Nat.leb endidx 2); [discriminate|]. apply bind_ok in H. destruct H as [[f|] [_ H]]; [|discriminate]. injection H as <-. discriminate.
  - destruct pp as [|c v]; [injection H as <-; discriminate|]. destruct (Ascii.eqb_spec c "@"); [subst c; exfalso; apply NA, IN; now left|].
    destruct (bytes_eqb _ (bs "%")); [injection H as <-; discriminate|]. destruct (bytes_eqb _ (bs "#")); [injection H as <-; discriminate|]. destruct (bytes_eqb _ (bs "*")); [injection H as <-; discriminate|].
    destruct (bytes_eqb _ (bs "**")); [injection H as <-; discriminate|]. destruct (is_numeric _); injection H as <-; discriminate.
Qed.
Lemma parts_no_attr : forall l ss, (forall p, In p l -> ~ In "@"%char p) -> parse_parts l = Ok (Some ss) -> Forall (fun sg => s_type sg <> SAttr) ss.
Proof.
  induction l as [|p l IH]; intros ss Hp H; cbn [parse_parts] in H; [injection H as <-; constructor|]. apply bind_ok in H as (o & H1 & H). assert (Hl : forall q, In q l -> ~ In "@"%char q) by (intros; apply Hp; now right).
  destruct o; [now apply IH|discriminate|]. apply bind_ok in H as ([ss'|] & H2 & H); [|discriminate]. injection H as <-. constructor; [|now apply IH]. eapply part_no_attr; [|exact H1]. apply Hp. now left.
Qed.
Lemma merge_no_attr : forall n l, List.length l <= n -> Forall (fun sg => s_type sg <> SAttr) l -> Forall (fun sg => s_type sg <> SAttr) (merge_fields l).
Proof.
  induction n as [|n IH]; intros l L H; destruct l as [|x l1]; try constructor; cbn [List.length] in L; try lia. inversion H as [|? ? H2 H3]; subst. cbn [merge_fields].
  assert (B : Forall (fun sg => s_type sg <> SAttr) (x :: merge_fields l1)) by (constructor; [exact H2|apply IH; auto; lia]).
  destruct (s_type x) eqn:T; auto; destruct l1 as [|nx l2]; auto. inversion H3 as [|? ? H4 H5]; subst.
  assert (B2 : Forall (fun sg => s_type sg <> SAttr) (mkSeg SField [] 0 false None false (field_of nx) (s_mods nx) :: merge_fields l2)) by (constructor; [discriminate|apply IH; auto; cbn [List.length] in L; lia]).
  destruct (s_type nx); auto; destruct (is_valid_field_name (field_of nx) && _); auto.
Qed.
Lemma path_no_attr : forall o path segs, ~ In "@"%char path -> parse_path_opts o path = Ok segs -> Forall (fun sg => s_type sg <> SAttr) segs.
Proof.
  intros o path segs NA H. unfold parse_path_opts in H. apply bind_ok in H as (ss & H & Q). injection Q as <-.
  assert (X : Forall (fun sg => s_type sg <> SAttr) ss).
  { unfold parse_path in H. destruct path as [|c path]; [injection H as <-; constructor|]. apply bind_ok in H as ([s2|] & P & H); injection H as <-; [|constructor].
    unfold parse_path_internal in P. destruct (Nat.ltb _ _); [discriminate|]. apply bind_ok in P as ([l|] & P1 & P2); [|discriminate]. injection P2 as <-.
    eapply merge_no_attr; [apply le_n|]. eapply parts_no_attr; [|exact P1]. intros p Ip Ia. apply NA. eapply split_path_in; eauto. }
  destruct (o_case o); [exact X|]. clear - X. induction X as [|sg l H _ IH]; cbn [map]; constructor; auto. unfold lower_seg. destruct (s_type sg) eqn:T; cbn [s_type]; congruence.
Qed.
Lemma set_told : forall E fmt_g o o' xml path v, o_case o = o_case o' -> o_indent o = [] -> ~ In "@"%char path ->
  alike (told o' xml) (set_opts E fmt_g o xml path v) (set_opts E fmt_g o' xml path v).
Proof.
  intros E g o o' xml path v CQ IQ NA. assert (RF : forall m, alike (told o' xml) m m) by (intros [x| |]; cbn [alike]; auto; left; split; [reflexivity|apply spread_refl]).
  unfold set_opts. destruct (_ <? _)%N; [apply RF|]. destruct (match xml with [] => false | _ :: _ => _ end); [apply RF|].
  assert (X : alike (told o' xml) (let* segs := parse_path_opts o path in match segs with [] => Ok (xml, Some ErrInvalidPath) | _ :: _ => edit_of xml (set_element E g o xml segs v) end)
    (let* segs := parse_path_opts o' path in match segs with [] => Ok (xml, Some ErrInvalidPath) | _ :: _ => edit_of xml (set_element E g o' xml segs v) end)).
  { rewrite (parse_case o o' CQ). apply alike_bind. intros segs HS. pose proof (path_no_attr o' path segs NA HS) as FA. destruct segs as [|sg rest]; [apply RF|]. unfold set_element.
    destruct (value_to_xml g v); [apply RF|]. destruct (_ <? _)%N; [apply RF|]. destruct (_ <? _)%N; [apply RF|]. cbv zeta. destruct (check_intents _); [|apply edit_told; now apply append_spread|apply RF].
    set (ls := last (sg :: rest) _). assert (LA : s_type ls <> SAttr).
    { assert (I : In ls (sg :: rest)) by (unfold ls; clear; revert sg; induction rest as [|a rest IH]; intros sg; [now left|right; exact (IH a)]). rewrite Forall_forall in FA. now apply FA. }
    destruct (segtype_eqb (s_type ls) SAttr) eqn:SA; [destruct (s_type ls); try discriminate SA; contradiction|]. rewrite (find_loc_case E o o' CQ).
    destruct (find_loc E o' [3] xml (sg :: rest) 0) as [[l|]| |]; cbn [bind]; [apply RF| |exact I|exact I]. apply edit_told. now apply create_spread. }
  destruct v; try exact X. rewrite (delete_case E o o' CQ). apply RF.
Qed.
