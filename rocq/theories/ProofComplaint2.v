(** Errors with texts are errors of the same kind. *)
From Coq Require Import List Ascii String NArith ZArith Bool Lia.
From Verif Require Import GoStr ModelParser ModelPath ModelResult ModelQuery ModelValidate ModelBuilder ModelConc ModelErrText ProofBase ProofComplaint.
Import ListNotations.

Definition kind_of (r : failure + bytes) : err + bytes := match r with inl f => inl (f_kind f) | inr d => inr d end.
Definition kinds (m : Res (failure + bytes)) : Res (err + bytes) := let* r := m in Ok (kind_of r).
Definition kinds_told (m : Res reply) : Res edit_result := let* r := m in Ok (fst r, option_map f_kind (snd r)).
Lemma kinds_bind : forall A (m : Res A) f, kinds (bind m f) = bind m (fun x => kinds (f x)).
Proof. intros A [x| |] f; reflexivity. Qed.
Lemma plainly_kinds : forall m, kinds (plainly m) = m.
Proof. intros [[e|d]| |]; reflexivity. Qed.
Lemma bind_ext : forall A B (m : Res A) (f g : A -> Res B), (forall x, f x = g x) -> bind m f = bind m g.
Proof. intros A B [x| |] f g H; cbn [bind]; auto. Qed.
Lemma attr_kinds : forall E o key d path name v, kinds (create_element_for_attr_t E o key d path name v) = create_element_for_attr E o key d path name v.
Proof.
  intros. unfold create_element_for_attr_t, create_element_for_attr. destruct (create_element E o (0 :: key)%nat d path []) as [[e|r]| |]; try reflexivity.
  cbn [plainly bind]. cbv zeta. destruct (MaxDocumentSize <? _)%N; [reflexivity|]. rewrite kinds_bind. apply bind_ext. intros [l|]; [|reflexivity].
  rewrite kinds_bind. apply bind_ext. reflexivity.
Qed.
Lemma append_kinds : forall E o key d path v, kinds (append_element_t E o key d path v) = append_element E o key d path v.
Proof.
  intros. unfold append_element_t, append_element. destruct (rev path) as [|lastseg [|sg rparent]]; try reflexivity. cbv zeta.
  destruct (_ || _)%bool; [reflexivity|]. destruct (negb _); [reflexivity|]. destruct (rev rparent) as [|p0 ps].
  - unfold append_root_t, append_root. destruct d as [|c d]; [reflexivity|]. rewrite kinds_bind. apply bind_ext. intros es. cbv zeta.
    rewrite kinds_bind. apply bind_ext. intros a. rewrite kinds_bind. apply bind_ext. intros b. now destruct (MaxDocumentSize <? _)%N.
  - rewrite kinds_bind. apply bind_ext. intros [l|]; [|apply plainly_kinds]. destruct (l_self l).
    + rewrite kinds_bind. apply bind_ext. intros a. rewrite kinds_bind. apply bind_ext. reflexivity.
    + rewrite kinds_bind. apply bind_ext. intros p. rewrite kinds_bind. apply bind_ext. intros a. rewrite kinds_bind. apply bind_ext. intros b. now destruct (MaxDocumentSize <? _)%N.
Qed.
Lemma intents_kinds : forall path, check_intents path =
  match check_intents_t path with inl f => IntentsErr | inr true => IntentsAppend | inr false => IntentsOk end.
Proof.
  induction path as [|sg rest IH]; [reflexivity|]. cbn [check_intents check_intents_t]. destruct (s_type sg); auto.
  unfold resolve_index_intent, resolve_index_intent_t. destruct (0 <=? s_index sg)%Z; [exact IH|]. destruct (s_index sg =? -1)%Z; [|reflexivity].
  destruct rest; reflexivity.
Qed.
Lemma intents_path : forall path f, check_intents_t path = inl f -> f_kind f = ErrInvalidPath.
Proof.
  induction path as [|sg rest IH]; intros f; [discriminate|]. cbn [check_intents_t]. destruct (s_type sg); auto.
  unfold resolve_index_intent_t. destruct (0 <=? s_index sg)%Z; [exact (IH f)|]. destruct (s_index sg =? -1)%Z; [destruct rest|]; intros H; try discriminate; injection H as <-; reflexivity.
Qed.
Lemma finish_kinds : forall d m n, kinds m = n ->
  kinds (let* r := m in match r with inl f => Ok (inl f) | inr r => Ok (inr (get_result d r)) end) =
  (let* r := n in match r with inl e => Ok (inl e) | inr r => Ok (inr (get_result d r)) end).
Proof. intros d m n <-. destruct m as [[f|r]| |]; reflexivity. Qed.
Lemma set_element_kinds : forall E g o d path tn v, kinds (set_element_t E g o d path tn v) = set_element E g o d path v.
Proof.
  intros. unfold set_element_t, set_element. destruct path as [|s0 path]; [reflexivity|]. set (P := s0 :: path). clearbody P. clear s0 path.
  assert (V : value_to_xml g v = match value_to_xml_t g tn v with inl f => inl (f_kind f) | inr t => inr t end) by (destruct v; reflexivity). rewrite V. clear V.
  destruct (value_to_xml_t g tn v) as [f|t]; [reflexivity|]. destruct (MaxValueSize <? blen t)%N; [reflexivity|]. destruct (MaxDocumentSize <? blen d)%N; [reflexivity|].
  cbv zeta. rewrite intents_kinds. destruct (check_intents_t P) as [f|[]] eqn:CI.
  - cbn [kinds bind kind_of]. now rewrite (intents_path _ _ CI).
  - apply finish_kinds. apply append_kinds.
  - destruct (segtype_eqb _ SAttr).
    + rewrite kinds_bind. apply bind_ext. intros [l|]; [apply finish_kinds; apply plainly_kinds|apply attr_kinds].
    + rewrite kinds_bind. apply bind_ext. intros [l|]; apply finish_kinds; apply plainly_kinds.
Qed.
Lemma told_kinds : forall d m, kinds_told (told_of d m) = edit_of d (kinds m).
Proof. intros d [[f|r]| |]; reflexivity. Qed.
Lemma kinds_told_bind : forall A (m : Res A) f, kinds_told (bind m f) = bind m (fun x => kinds_told (f x)).
Proof. intros A [x| |] f; reflexivity. Qed.
Lemma delete_kinds : forall E o xml path, kinds_told (delete_opts_t E o xml path) = delete_opts E o xml path.
Proof.
  intros. unfold delete_opts_t, delete_opts. destruct (MaxDocumentSize <? blen xml)%N; [reflexivity|]. destruct (negb (valid xml)); [reflexivity|].
  rewrite kinds_told_bind. apply bind_ext. intros [|s0 segs]; [reflexivity|]. now rewrite told_kinds, plainly_kinds.
Qed.
Lemma set_kinds : forall E g o xml path tn v, kinds_told (set_opts_t E g o xml path tn v) = set_opts E g o xml path v.
Proof.
  intros. unfold set_opts_t, set_opts. destruct (MaxDocumentSize <? blen xml)%N; [reflexivity|].
  destruct (match xml with [] => false | _ :: _ => negb (valid xml) end); [reflexivity|].
  destruct v; [apply delete_kinds| | | | | |]; rewrite kinds_told_bind; apply bind_ext; (intros [|s0 segs]; [reflexivity|]); now rewrite told_kinds, set_element_kinds.
Qed.
Lemma set_raw_kinds : forall E g xml path raw, kinds_told (set_raw_t E g xml path raw) = set_raw E g xml path raw.
Proof.
  intros. unfold set_raw_t, set_raw. pose proof (raw_agree (S (List.length raw)) [] raw) as A. fold (validate_raw_t raw) (validate_raw raw) in A. rewrite <- A.
  destruct (validate_raw_t raw) as [f|] eqn:V; [|apply set_kinds]. apply raw_sound_t in V. destruct V as [->|(m & -> & _)]; reflexivity.
Qed.
Lemma set_each_kinds : forall q E g xml0 l xml, kinds_told (set_each_t q E g xml0 xml l) = set_each E g xml0 xml (map (fun p => (fst p, snd (snd p))) l).
Proof.
  intros q E g xml0. induction l as [|[p [tn v]] l IH]; intros xml; [reflexivity|]. cbn [set_each_t map set_each fst snd]. unfold set, set_t.
  rewrite <- (set_kinds E g default_options xml p tn v). destruct (set_opts_t E g default_options xml p tn v) as [[x [f|]]| |]; try reflexivity. cbn [bind kinds_told fst snd option_map]. apply IH.
Qed.
Lemma combine_snd : forall A B C (l : list A) (k : list (B * C)), map (fun p => (fst p, snd (snd p))) (combine l k) = combine l (map snd k).
Proof. intros A B C. induction l as [|x l IH]; intros [|[y z] k]; try reflexivity. cbn [combine map fst snd]. now rewrite IH. Qed.
Lemma set_many_kinds : forall q E g xml paths values, kinds_told (set_many_t q E g xml paths values) = set_many E g xml paths (map snd values).
Proof.
  intros. unfold set_many_t, set_many. destruct (MaxDocumentSize <? blen xml)%N; [reflexivity|]. rewrite map_length. destruct (negb _); [reflexivity|].
  now rewrite set_each_kinds, combine_snd.
Qed.
Lemma delete_each_kinds : forall q E xml0 l xml, kinds_told (delete_each_t q E xml0 xml l) = delete_each E xml0 xml l.
Proof.
  intros q E xml0. induction l as [|p l IH]; intros xml; [reflexivity|]. cbn [delete_each_t delete_each]. unfold delete, delete_t.
  rewrite <- (delete_kinds E default_options xml p). destruct (delete_opts_t E default_options xml p) as [[x [f|]]| |]; try reflexivity. cbn [bind kinds_told fst snd option_map]. apply IH.
Qed.
Lemma delete_many_kinds : forall q E xml paths, kinds_told (delete_many_t q E xml paths) = delete_many E xml paths.
Proof. intros. unfold delete_many_t, delete_many. destruct (MaxDocumentSize <? blen xml)%N; [reflexivity|]. apply delete_each_kinds. Qed.
Lemma registry_kinds : forall M q (reg : registry M) c, (exists m, r_text q reg c = Some m) <-> snd (r_call M reg c) = RetErr M.
Proof.
  intros M q reg [name m|name|name]; cbn [r_text r_call snd].
  - destruct name as [|c name]; [split; [reflexivity|eauto]|]. destruct (map_get (c :: name) reg) as [x|]; cbn [snd]; (split; [|eauto]); [reflexivity|intros [? H]; discriminate|discriminate].
  - split; [intros [? H]; discriminate|discriminate].
  - destruct (is_builtin_name name); cbn [snd]; (split; [|eauto]); [reflexivity|intros [? H]; discriminate|discriminate].
Qed.

(** ** The text contains that of the kind *)
Definition tidy (f : failure) : Prop := exists a b, f_text f = a ++ sentinel (f_kind f) ++ b.
Lemma tidy_plain : forall e, tidy (plain e).
Proof. intros e. exists [], []. cbn [plain f_text f_kind app]. now rewrite app_nil_r. Qed.
Lemma tidy_detailed : forall e m, tidy (detailed e m).
Proof. intros e m. exists [], (bs ": " ++ m). reflexivity. Qed.
Lemma tidy_prefixed : forall m f, tidy f -> tidy (prefixed m f).
Proof. intros m f (a & b & H). exists (m ++ bs ": " ++ a), b. cbn [prefixed f_text f_kind]. now rewrite H, <- !app_assoc. Qed.
Lemma tidy_plainly : forall m f, plainly m = Ok (inl f) -> tidy f.
Proof. intros m f H. unfold plainly in H. apply bind_ok in H. destruct H as ([e|r] & _ & H); [injection H as <-; apply tidy_plain|discriminate]. Qed.
Lemma tidy_append : forall E o key d path v f, append_element_t E o key d path v = Ok (inl f) -> tidy f.
Proof.
  intros E o key d path v f H. unfold append_element_t in H. destruct (rev path) as [|lastseg [|sg rparent]]; try (injection H as <-; apply tidy_detailed). cbv zeta in H.
  destruct (_ || _)%bool; [injection H as <-; apply tidy_detailed|]. destruct (negb _); [injection H as <-; apply tidy_detailed|]. destruct (rev rparent) as [|p0 ps].
  - unfold append_root_t in H. destruct d as [|c d]; [discriminate|]. apply bind_ok in H. destruct H as (es & _ & H). cbv zeta in H.
    apply bind_ok in H. destruct H as (a & _ & H). apply bind_ok in H. destruct H as (b & _ & H). destruct (MaxDocumentSize <? _)%N; [injection H as <-; apply tidy_detailed|discriminate].
  - apply bind_ok in H. destruct H as (loc & _ & H). destruct loc as [loc|]; [|eapply tidy_plainly; eauto]. destruct (l_self loc).
    + apply bind_ok in H. destruct H as (a & _ & H). apply bind_ok in H. destruct H as (b & _ & H). discriminate.
    + apply bind_ok in H. destruct H as (p & _ & H). apply bind_ok in H. destruct H as (a & _ & H). cbv zeta in H. apply bind_ok in H. destruct H as (b & _ & H).
      destruct (MaxDocumentSize <? _)%N; [injection H as <-; apply tidy_detailed|discriminate].
Qed.
Lemma tidy_intents : forall path f, check_intents_t path = inl f -> tidy f.
Proof.
  induction path as [|sg rest IH]; intros f; [discriminate|]. cbn [check_intents_t]. destruct (s_type sg); auto.
  unfold resolve_index_intent_t. destruct (0 <=? s_index sg)%Z; [exact (IH f)|]. destruct (s_index sg =? -1)%Z; [destruct rest|]; intros H; try discriminate; injection H as <-; apply tidy_detailed.
Qed.
Lemma tidy_set_element : forall E g o d path tn v f, set_element_t E g o d path tn v = Ok (inl f) -> tidy f.
Proof.
  intros E g o d path tn v f H. unfold set_element_t in H. destruct path as [|s0 path]; [injection H as <-; apply tidy_plain|]. set (P := s0 :: path) in *. clearbody P. clear s0 path.
  destruct (value_to_xml_t g tn v) as [f'|t] eqn:V; [injection H as <-; destruct v; try discriminate; injection V as <-; apply tidy_detailed|].
  destruct (MaxValueSize <? blen t)%N; [injection H as <-; apply tidy_detailed|]. destruct (MaxDocumentSize <? blen d)%N; [injection H as <-; apply tidy_plain|].
  assert (FE : forall m f, (let* r := m in match r with inl f => Ok (inl f) | inr r => Ok (inr (get_result d r)) end) = Ok (inl f) -> m = @Ok (failure + bytes) (inl f)).
  { intros [[f0|r]| |] f1 K; try discriminate. cbn [bind] in K. injection K as ->. reflexivity. }
  cbv zeta in H. destruct (check_intents_t P) as [f'|[]] eqn:CI; [injection H as <-; eapply tidy_intents; eauto|apply FE in H; eapply tidy_append; eauto|].
  destruct (segtype_eqb _ SAttr).
  - apply bind_ok in H. destruct H as ([l|] & _ & H); [apply FE in H; eapply tidy_plainly; eauto|]. unfold create_element_for_attr_t in H. apply bind_ok in H. destruct H as ([f'|r] & C & H).
    + injection H as <-. apply tidy_prefixed. eapply tidy_plainly; eauto.
    + cbv zeta in H. destruct (MaxDocumentSize <? _)%N; [injection H as <-; apply tidy_detailed|]. apply bind_ok in H. destruct H as ([l|] & _ & H); [|injection H as <-; apply tidy_detailed].
      apply bind_ok in H. destruct H as (y & _ & H). discriminate.
  - apply bind_ok in H. destruct H as ([l|] & _ & H); apply FE in H; eapply tidy_plainly; eauto.
Qed.
Lemma told_err : forall d m x f, told_of d m = Ok (x, Some f) -> x = d /\ m = Ok (inl f).
Proof. intros d [[f'|r]| |] x f H; try discriminate. cbn [told_of bind] in H. injection H as <- <-. auto. Qed.
Lemma tidy_delete : forall E o xml path d f, delete_opts_t E o xml path = Ok (d, Some f) -> tidy f.
Proof.
  intros E o xml path d f H. unfold delete_opts_t in H. destruct (MaxDocumentSize <? blen xml)%N; [injection H as _ <-; apply tidy_plain|]. destruct (negb (valid xml)); [injection H as _ <-; apply tidy_plain|].
  apply bind_ok in H. destruct H as ([|s0 segs] & _ & H); [injection H as _ <-; apply tidy_plain|]. apply told_err in H. destruct H as [_ H]. eapply tidy_plainly; eauto.
Qed.
Lemma tidy_set : forall E g o xml path tn v d f, set_opts_t E g o xml path tn v = Ok (d, Some f) -> tidy f.
Proof.
  intros E g o xml path tn v d f H. unfold set_opts_t in H. destruct (MaxDocumentSize <? blen xml)%N; [injection H as _ <-; apply tidy_plain|].
  destruct (match xml with [] => false | _ :: _ => negb (valid xml) end); [injection H as _ <-; apply tidy_plain|].
  assert (X : v = VNil \/ v <> VNil) by (destruct v; auto; right; discriminate). destruct X as [->|N]; [eapply tidy_delete; eauto|].
  assert (H' : (let* segs := parse_path_opts o path in match segs with [] => Ok (xml, Some (plain ErrInvalidPath)) | _ :: _ => told_of xml (set_element_t E g o xml segs tn v) end) = Ok (d, Some f))
    by (destruct v; [now elim N|exact H|exact H|exact H|exact H|exact H|exact H]).
  clear H. apply bind_ok in H'. destruct H' as ([|s0 segs] & _ & H); [injection H as _ <-; apply tidy_plain|]. apply told_err in H. destruct H as [_ H]. eapply tidy_set_element; eauto.
Qed.
Lemma tidy_raw : forall E g xml path raw d f, set_raw_t E g xml path raw = Ok (d, Some f) -> tidy f.
Proof.
  intros E g xml path raw d f H. unfold set_raw_t in H. destruct (validate_raw_t raw) as [f'|] eqn:V; [|eapply tidy_set; eauto]. injection H as _ <-.
  apply raw_sound_t in V. destruct V as [->|(m & -> & _)]; [apply tidy_plain|apply tidy_detailed].
Qed.
Lemma tidy_set_many : forall q E g xml paths values d f, set_many_t q E g xml paths values = Ok (d, Some f) -> tidy f.
Proof.
  intros q E g xml paths values d f H. unfold set_many_t in H. destruct (MaxDocumentSize <? blen xml)%N; [injection H as _ <-; apply tidy_plain|]. destruct (negb _); [injection H as _ <-; apply tidy_detailed|].
  assert (X : forall l x, set_each_t q E g xml x l = Ok (d, Some f) -> tidy f); [|eapply X; eauto].
  clear H. induction l as [|[p [tn v]] l IH]; intros x H; [discriminate|]. cbn [set_each_t] in H. apply bind_ok in H. destruct H as ([x' [f'|]] & S & H); cbn [fst snd] in H; [|eauto].
  injection H as _ <-. apply tidy_prefixed. eapply tidy_set; eauto.
Qed.
Lemma tidy_delete_many : forall q E xml paths d f, delete_many_t q E xml paths = Ok (d, Some f) -> tidy f.
Proof.
  intros q E xml paths d f H. unfold delete_many_t in H. destruct (MaxDocumentSize <? blen xml)%N; [injection H as _ <-; apply tidy_plain|].
  assert (X : forall l x, delete_each_t q E xml x l = Ok (d, Some f) -> tidy f); [|eapply X; eauto].
  clear H. induction l as [|p l IH]; intros x H; [discriminate|]. cbn [delete_each_t] in H. apply bind_ok in H. destruct H as ([x' [f'|]] & S & H); cbn [fst snd] in H; [|eauto].
  injection H as _ <-. apply tidy_prefixed. eapply tidy_delete; eauto.
Qed.
