(** Parsing of query texts. *)
From Coq Require Import List Ascii String NArith ZArith Bool Lia Permutation.
From Verif Require Import GoStr ModelParser ModelPath ModelResult ModelQuery SpecText SpecPath SpecTree SpecQuery SpecEdit SpecContent SpecFilter SpecLang
  ProofBase ProofEscape ProofPath ProofScan ProofSyntax ProofFuel ProofFuel2 ProofFilter ProofTree ProofTree2 ProofTree3 ProofTree4.
Import ListNotations.

Definition cond_filt (c : condition) : filt := mkFilt (subject_text (c_about c)) (c_op c) (c_lit c).
Definition where_seg (c : condition) (all : bool) : seg := filter_seg (cond_filt c) all.
Definition any_seg : seg := step_seg (AnyChild, []).
Definition deep_seg : seg := step_seg (AnyDepth, []).
Definition qstep_segs (s : qstep) : list seg :=
  match s with
  | Child n Leading => [elem_seg n]
  | Child n (Number ds) => [elem_seg n; step_seg (Nth ds, [])]
  | Child n (Where c all) => [elem_seg n; where_seg c all]
  | AnyKid => [any_seg]
  | Kid c all => [where_seg c all]
  | Descendant (Some n) => [deep_seg; elem_seg n]
  | Descendant None => [deep_seg; any_seg]
  end.
Definition field_seg (f : field) : seg := mkSeg SField [] 0 false None false (field_text f) [].
Definition qend_segs (e : qend) : list seg :=
  match e with
  | EElement => [] | EAttr x => [step_seg (Attr x, [])] | EText => [step_seg (TextOf, [])] | ECount => [step_seg (CountOf, [])]
  | EField f => [field_seg f]
  end.
Definition query_segs (steps : list qstep) (e : qend) : list seg := flat_map qstep_segs steps ++ qend_segs e.

(** ** Conditions *)
Lemma op_symbol_text : forall op, op_symbol op = op_text op. Proof. destruct op; reflexivity. Qed.
Lemma condition_text_op : forall s op lit, op <> OpExists -> condition_text (mkCond s op lit) =
  spaces 0 ++ subject_text s ++ spaces 0 ++ op_text op ++ spaces 0 ++ (squote :: lit ++ [squote]) ++ spaces 0.
Proof. intros s op lit NE. unfold spaces, condition_text. cbn [repeat app c_about c_op c_lit]. rewrite app_nil_r. destruct op; try reflexivity. contradiction. Qed.
Lemma condition_parses : forall c, good_condition c -> parse_filter_condition (condition_text c) = Ok (Some (cond_filt c)).
Proof.
  intros [s op lit] [[H1 [H2 _]] [H3 [H4 [H5 [H6 H7]]]]]. unfold cond_filt in *. cbn [c_about c_op c_lit] in *.
  assert (D : op = OpExists \/ op <> OpExists) by (destruct op; auto; right; discriminate).
  destruct D as [->|NE].
  - unfold condition_text in *. cbn [c_about c_op c_lit] in *. rewrite (H6 eq_refl). rewrite app_nil_r in *. pose proof (parse_filter_exists (subject_text s) 0 0 H1 H2) as Q.
    unfold spaces in Q. cbn [repeat app] in Q. rewrite app_nil_r in Q. auto.
  - rewrite condition_text_op in H3, H4 |- * by auto. apply parse_filter_written; auto.
    + right. exists squote. split; auto.
    + intros S. destruct H7 as [K1 K2]. { destruct op; try discriminate; cbn [In]; auto. }
      assert (Q1 : squote <> "="%char) by discriminate. assert (Q2 : squote <> "!"%char) by discriminate.
      split; intros [K|K]; auto; apply in_app_or in K; destruct K as [K|[K|[]]]; auto.
Qed.
Lemma condition_nonempty : forall c, good_condition c -> condition_text c <> [].
Proof. intros c H K. apply condition_parses in H. rewrite K in H. discriminate. Qed.

(** ** Fields *)
Lemma letter_is : forall c, letter c -> is_letter c = true.
Proof.
  intros c H. unfold is_letter, is_lower, is_upper, in_range, code, letter in *. apply orb_true_iff.
  destruct H as [H|H]; [right|left]; apply andb_true_iff; split; apply N.leb_le; lia.
Qed.
Lemma field_ident : forall n, field_name n -> is_valid_identifier n = true.
Proof.
  intros n [(c & r & -> & Hc) [H _]]. unfold is_valid_identifier. apply andb_true_iff. split.
  - unfold ident_start. destruct Hc as [Hc| ->]; [now rewrite letter_is|reflexivity].
  - apply forallb_forall. intros x Hx. unfold ident_char. destruct (H x (or_intror Hx)) as [K|[K|K]].
    + now rewrite letter_is.
    + rewrite (digit_is_digit x K). now rewrite !orb_true_r.
    + cbn in K. destruct K as [<-|[<-|[<-|[]]]]; reflexivity.
Qed.
Lemma field_plain : forall n, field_name n -> plain_name n.
Proof.
  intros n [(c & r & -> & Hc) [H _]].
  assert (NC : forall x, In x (bs "|@#%*") -> ~ In x (c :: r)).
  { intros x Hx Q. destruct (H x Q) as [K|[K|K]].
    - cbn in Hx. unfold letter in K. repeat (destruct Hx as [<-|Hx]; [vm_compute in K; intuition discriminate|]). destruct Hx.
    - cbn in Hx. unfold digit in K. repeat (destruct Hx as [<-|Hx]; [vm_compute in K; intuition discriminate|]). destruct Hx.
    - cbn in Hx, K. repeat (destruct Hx as [<-|Hx]; [intuition discriminate|]). destruct Hx. }
  constructor.
  - discriminate.
  - apply NC. cbn. auto.
  - intros r' Q. apply (NC "@"%char); [cbn; auto|]. rewrite Q. now left.
  - intros r' Q. apply (NC "#"%char); [cbn; auto|]. rewrite Q. now left.
  - intros Q. cbn in Q. destruct Q as [Q|[Q|[Q|[Q|[]]]]]; [apply (NC "%"%char)|apply (NC "#"%char)|apply (NC "*"%char)|apply (NC "*"%char)]; try (cbn; tauto); rewrite <- Q; now left.
  - exists c. split; [now left|]. destruct Hc as [Hc| ->]; [|split; [discriminate|vm_compute; intuition discriminate]].
    split; [intros ->; unfold letter in Hc; vm_compute in Hc; intuition discriminate|unfold letter in Hc; lia].
Qed.
Lemma field_valid : forall f, good_field f -> is_valid_field_name (field_text f) = true /\ (blen (field_text f) <=? MaxFieldNameLength)%N = true.
Proof.
  intros f H. destruct f as [n|x|]; cbn [good_field field_text] in *.
  - pose proof (field_ident n H) as V. pose proof (field_plain n H) as P. destruct H as [(c & r & -> & Hc) [_ L]]. split.
    + unfold is_valid_field_name. destruct (bytes_eqb (c :: r) (bs "%")); auto.
      destruct (Ascii.eqb_spec c "@"); [|exact V]. subst c. destruct (pn_not_attr _ P r eq_refl).
    + apply N.leb_le. unfold blen, MaxFieldNameLength. lia.
  - pose proof (field_ident x H) as V. destruct H as [_ [_ L]]. split.
    + unfold is_valid_field_name. destruct (bytes_eqb _ (bs "%")); auto.
    + apply N.leb_le. unfold blen, MaxFieldNameLength. cbn [List.length]. lia.
  - split; reflexivity.
Qed.

(** ** Texts *)
Definition parsed (raw : bytes) (sg : seg) : Prop := parse_part raw = Ok (PSeg sg) /\ raw <> [].
Lemma parsed_parts : forall raws segs, Forall2 parsed raws segs -> parse_parts raws = Ok (Some segs).
Proof. induction 1 as [|r sg raws segs [H1 _] H2 IH]; auto. cbn [parse_parts]. rewrite H1. cbn [bind]. now rewrite IH. Qed.
Lemma parsed_path : forall raws segs, raws <> [] -> len raws <= 100 -> Forall2 parsed raws segs ->
  parse_path (path_text raws) = Ok (merge_fields segs).
Proof.
  intros raws segs R1 Hl F. pose proof (parsed_parts _ _ F) as PP.
  assert (R2 : raws <> [[]]). { intros ->. inversion F as [|? ? ? ? [_ K] _]; subst. now apply K. }
  pose proof (split_path_path_text _ R1 R2) as Hs.
  assert (Hl' : Nat.ltb MaxPathSegments (len raws) = false) by (apply Nat.ltb_ge; exact Hl).
  unfold parse_path. destruct (path_text raws) eqn:E.
  - exfalso. apply R1. symmetry. exact Hs.
  - unfold parse_path_internal. rewrite Hs. replace (Nat.ltb MaxPathSegments (List.length raws)) with false by (symmetry; exact Hl').
    rewrite PP. reflexivity.
Qed.
Lemma parsed_name : forall n, plain_name n -> parsed n (elem_seg n).
Proof. intros n H. split; [now apply parse_part_plain|now apply pn_nonempty]. Qed.
Lemma parsed_step : forall st, good_step st -> parsed (step_text st) (step_seg (st, [])).
Proof.
  intros st H. split.
  - pose proof (parse_part_step st [] H (Forall_nil _)) as P. cbn [mods_text flat_map] in P. now rewrite app_nil_r in P.
  - destruct st; cbn [step_text good_step] in *; try discriminate; [now apply pn_nonempty|apply H].
Qed.
Lemma parsed_where : forall c all, good_condition c -> parsed (where_text c all) (where_seg c all).
Proof.
  intros c all H. split; [|discriminate]. unfold where_text. rewrite parse_part_filter, condition_parses; auto using condition_nonempty. apply H.
Qed.
Lemma parsed_qstep : forall s, good_qstep s -> Forall2 parsed (qstep_parts s) (qstep_segs s).
Proof.
  intros [n [|ds|c all]| |c all|[n|]] H; cbn [qstep_parts qstep_segs good_qstep good_which] in *.
  - constructor; auto. apply parsed_name, H.
  - constructor; [apply parsed_name, H|constructor; auto]. apply (parsed_step (Nth ds)). apply H.
  - constructor; [apply parsed_name, H|constructor; auto]. now apply parsed_where.
  - constructor; auto. now apply (parsed_step AnyChild).
  - constructor; auto. now apply parsed_where.
  - constructor; [now apply (parsed_step AnyDepth)|constructor; auto]. apply parsed_name, H.
  - constructor; [now apply (parsed_step AnyDepth)|constructor; auto]. now apply (parsed_step AnyChild).
Qed.
Definition field_raw_seg (f : field) : seg :=
  match f with FieldName n => elem_seg n | FieldAttr x => step_seg (Attr x, []) | FieldText => step_seg (TextOf, []) end.
Definition qend_raw_segs (e : qend) : list seg :=
  match e with EField f => [step_seg (CountOf, []); field_raw_seg f] | e => qend_segs e end.
Lemma parsed_qend : forall steps e, good_qend steps e -> Forall2 parsed (qend_parts e) (qend_raw_segs e).
Proof.
  intros steps [|x| | |f] H; cbn [qend_parts qend_raw_segs qend_segs good_qend] in *; auto.
  - constructor; auto. now apply (parsed_step (Attr x)).
  - constructor; auto. now apply (parsed_step TextOf).
  - constructor; auto. now apply (parsed_step CountOf).
  - destruct H as [H _]. constructor; [now apply (parsed_step CountOf)|constructor; auto]. destruct f as [n|x|]; cbn [good_field field_text field_raw_seg] in *.
    + apply parsed_name. now apply field_plain.
    + apply (parsed_step (Attr x)). now apply pn_no_bar, field_plain.
    + now apply (parsed_step TextOf).
Qed.
Lemma merge_pre : forall pre tl, Forall (fun sg => s_type sg <> SCount) pre -> merge_fields (pre ++ tl) = pre ++ merge_fields tl.
Proof.
  intros pre tl H. induction H as [|sg pre H1 H2 IH]; auto. cbn [app merge_fields]. rewrite IH. destruct (s_type sg); auto. contradiction.
Qed.
Lemma merge_end : forall steps e, good_qend steps e -> merge_fields (qend_raw_segs e) = qend_segs e.
Proof.
  intros steps [|x| | |f] H; auto. destruct H as [H _]. destruct (field_valid f H) as [V1 V2].
  assert (K : field_of (field_raw_seg f) = field_text f) by (destruct f; reflexivity).
  cbn [qend_raw_segs merge_fields]. change (s_type (step_seg (CountOf, []))) with SCount. cbn iota. rewrite K, V1, V2. cbn [andb].
  destruct f; reflexivity.
Qed.
Lemma query_parses : forall steps e, good_query steps e -> parse_path (query_text steps e) = Ok (query_segs steps e).
Proof.
  intros steps e [H1 H2 _ H4 H5]. unfold query_text, query_segs. rewrite <- (merge_end _ _ H4), <- merge_pre.
  - apply parsed_path; auto.
    + unfold query_parts. destruct steps as [|s steps]; [easy|]. cbn [flat_map]. destruct s as [n [| |]| | |[|]]; discriminate.
    + unfold query_parts. apply Forall2_app; [|eapply parsed_qend; eauto]. clear - H2. induction H2 as [|s steps H1 H2 IH]; [constructor|].
      cbn [flat_map]. apply Forall2_app; auto using parsed_qstep.
  - apply Forall_forall. intros sg Hsg. apply in_flat_map in Hsg. destruct Hsg as [s [_ K]].
    destruct s as [n [| |]| | |[|]]; cbn [qstep_segs In] in K; repeat (destruct K as [<-|K]; [discriminate|]); destruct K.
Qed.
