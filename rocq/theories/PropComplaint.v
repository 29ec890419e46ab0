(** C72: the texts of the errors of edits. *)
From Coq Require Import List Ascii String NArith ZArith Bool Lia Permutation.
From Verif Require Import GoStr ModelParser ModelPath ModelResult ModelQuery ModelValidate ModelBuilder ModelConc ModelErrText SpecText SpecPath SpecTree SpecEdit SpecContent SpecCase SpecOptions SpecHistory
  SpecApi SpecValid SpecGrammar SpecScan SpecRaw SpecAnswer SpecError SpecOutcome SpecComplaint ProofBase ProofScan ProofFuel ProofApi2 ProofApi3 ProofRaw2 ProofEdit2 ProofGrammar2 ProofSight3 ProofError
  ProofAnswer2 ProofAnswer4 PropValid ProofTree ProofOutcome ProofOutcome2 ProofOutcome3 PropOutcome ProofComplaint ProofComplaint2 ProofComplaint3.
Import ListNotations.

(** A call returns the error text [m] and the document it was given. *)
Definition tells (r : Res reply) (d m : bytes) : Prop := exists f, r = Ok (d, Some f) /\ f_text f = m.

(** Errors with texts are the errors all other theorems are about. *)
Theorem C72_kinds : forall E g q o xml path tn v raw paths values,
  kinds_told (set_opts_t E g o xml path tn v) = set_opts E g o xml path v /\
  kinds_told (delete_opts_t E o xml path) = delete_opts E o xml path /\
  kinds_told (set_raw_t E g xml path raw) = set_raw E g xml path raw /\
  kinds_told (set_many_t q E g xml paths values) = set_many E g xml paths (map snd values) /\
  kinds_told (delete_many_t q E xml paths) = delete_many E xml paths.
Proof.
  intros. split; [apply set_kinds|]. split; [apply delete_kinds|]. split; [apply set_raw_kinds|]. split; [apply set_many_kinds|apply delete_many_kinds].
Qed.
Print Assumptions C72_kinds.

(** The text of every error contains the general text of its kind. *)
Theorem C72_general : forall E g q o xml path tn v raw paths values d f,
  set_opts_t E g o xml path tn v = Ok (d, Some f) \/ delete_opts_t E o xml path = Ok (d, Some f) \/ set_raw_t E g xml path raw = Ok (d, Some f) \/
  set_many_t q E g xml paths values = Ok (d, Some f) \/ delete_many_t q E xml paths = Ok (d, Some f) ->
  exists a b, f_text f = a ++ general (f_kind f) ++ b.
Proof.
  intros E g q o xml path tn v raw paths values d f H. assert (T : tidy f).
  { destruct H as [H|[H|[H|[H|H]]]]; [eapply tidy_set|eapply tidy_delete|eapply tidy_raw|eapply tidy_set_many|eapply tidy_delete_many]; eauto. }
  destruct T as (a & b & T). exists a, b. rewrite T. now destruct (f_kind f).
Qed.
Print Assumptions C72_general.
Lemma editable_open_t : forall E g o xml path tn v, editable xml -> v <> VNil ->
  set_opts_t E g o xml path tn v = let* segs := parse_path_opts o path in
    match segs with [] => Ok (xml, Some (plain ErrInvalidPath)) | _ :: _ => told_of xml (set_element_t E g o xml segs tn v) end.
Proof.
  intros E g o xml path tn v H N. unfold set_opts_t. rewrite (editable_size _ H).
  assert (V : match xml with [] => false | _ :: _ => negb (valid xml) end = false).
  { destruct H as [->|H]; auto. rewrite (proj2 (C16_grammar _) H). now destruct xml. }
  rewrite V. destruct v; auto. now elim N.
Qed.
Lemma not_editable : forall xml, ~ editable xml -> (MaxDocumentSize <? blen xml)%N = true \/ (match xml with [] => false | _ :: _ => negb (valid xml) end) = true.
Proof.
  intros xml H. right. destruct xml as [|c xml]; [elim H; now left|]. destruct (valid (c :: xml)) eqn:V; auto. elim H. right. now apply C16_grammar.
Qed.
(** What Set says about the document, the path or the value alone. *)
Theorem C72_document : forall E g o xml path tn v, ~ editable xml -> set_opts_t E g o xml path tn v = Ok (xml, Some (mkFail ErrMalformedXML bad_document)).
Proof.
  intros E g o xml path tn v H. unfold set_opts_t. destruct (MaxDocumentSize <? blen xml)%N eqn:S; [reflexivity|].
  destruct (not_editable _ H) as [X|X]; [congruence|]. now rewrite X.
Qed.
Print Assumptions C72_document.
Theorem C72_path : forall E g o xml path tn v, editable xml -> v <> VNil -> pathless path -> set_opts_t E g o xml path tn v = Ok (xml, Some (mkFail ErrInvalidPath bad_path)).
Proof. intros E g o xml path tn v A N P. rewrite editable_open_t by auto. now rewrite (parse_pathless o _ P). Qed.
Print Assumptions C72_path.
Theorem C72_type : forall E g o xml path tn l, editable xml -> path_means path (Steps l) -> l <> [] ->
  set_opts_t E g o xml path tn VOther = Ok (xml, Some (mkFail ErrInvalidValue (because bad_value (bs "unsupported type " ++ tn)))).
Proof.
  intros E g o xml path tn l A P NE. rewrite editable_open_t by (auto; discriminate). rewrite (parse_lowered o _ _ P), lowered_seg. cbn [bind]. destruct l as [|x l]; [easy|reflexivity].
Qed.
Print Assumptions C72_type.
Theorem C72_size : forall E g o xml path tn l v t, editable xml -> path_means path (Steps l) -> l <> [] -> written g v t -> (5242880 < blen t)%N ->
  set_opts_t E g o xml path tn v = Ok (xml, Some (mkFail ErrInvalidValue (because bad_value (bs "value exceeds maximum size of 5242880 bytes")))).
Proof.
  intros E g o xml path tn l v t A P NE W L. destruct (written_value _ _ _ W) as [NN V]. rewrite editable_open_t by auto. rewrite (parse_lowered o _ _ P), lowered_seg. cbn [bind].
  destruct l as [|x l]; [easy|]. cbn [map]. unfold told_of, set_element_t.
  assert (V' : value_to_xml_t g tn v = inr t) by (destruct v; try discriminate; injection V as <-; reflexivity). rewrite V'.
  rewrite (proj2 (N.ltb_lt MaxValueSize (blen t))) by exact L. reflexivity.
Qed.
Print Assumptions C72_size.

Lemma set_told : forall E (sight : bytes -> list elem -> Prop) (order : attrs -> attrs -> Prop) g o xml path l tn v t,
  (forall k m, Permutation m (e_ord E k m)) -> (forall key s es, scan_res E key s = Ok es -> sight s es) -> (forall key a, order a (e_ord E key a)) ->
  editable xml -> path_means path (Steps l) -> l <> [] -> written g v t -> (blen t <= 5242880)%N ->
  forall d f, set_opts_t E g o xml path tn v = Ok (d, Some f) -> d = xml /\ set_says sight order (o_case o) (o_indent o) xml l t (f_text f).
Proof.
  intros E sight order g o xml path l tn v t P Hs Ho A M NE W L d f H. destruct (written_value _ _ _ W) as [NN V].
  assert (VS : (MaxValueSize <? blen t)%N = false) by (apply N.ltb_ge; exact L).
  rewrite editable_open_t in H by auto. rewrite (parse_lowered o _ _ M), lowered_seg in H. cbn [bind] in H. destruct l as [|x l]; [easy|]. cbn [map] in H.
  apply told_err in H. destruct H as [-> H]. split; auto. exact (set_element_says E sight order o P Hs Ho g xml (x :: l) tn v t f NE V VS (editable_size _ A) H).
Qed.
(** Whatever Set refuses for another reason, it says what is described in [SpecComplaint]. *)
Theorem C72_set : forall E g o xml path l tn v t d f, (forall k m, Permutation m (e_ord E k m)) -> editable xml -> path_means path (Steps l) -> l <> [] ->
  written g v t -> (blen t <= 5242880)%N -> set_opts_t E g o xml path tn v = Ok (d, Some f) ->
  d = xml /\ set_says sees (fun a a' => Permutation a a') (o_case o) (o_indent o) xml l t (f_text f).
Proof.
  intros E g o xml path l tn v t d f P A M NE W L. exact (set_told E sees (fun a a' => Permutation a a') g o xml path l tn v t P (fun key s es => scan_sees E key s es P) P A M NE W L d f).
Qed.
Print Assumptions C72_set.
(** When attributes are always listed in the same order, it says nothing else and says
    nothing when it does not refuse. *)
Theorem C72_only : forall E, (forall k m, Permutation m (e_ord E k m)) -> (forall k k' m, e_ord E k m = e_ord E k' m) ->
  exists (sight : bytes -> list elem -> Prop) (order : attrs -> attrs -> Prop),
    (forall s, exists es, sight s es /\ sees s es /\ forall es', sight s es' -> es' = es) /\
    (forall a, exists a', order a a' /\ Permutation a a' /\ forall b, order a b -> b = a') /\
    (forall g o xml path l tn v t m, editable xml -> path_means path (Steps l) -> l <> [] -> written g v t -> (blen t <= 5242880)%N ->
       tells (set_opts_t E g o xml path tn v) xml m <-> set_says sight order (o_case o) (o_indent o) xml l t m).
Proof.
  intros E P U. exists (fun s es => scan_res E [] s = Ok es), (fun a a' => a' = e_ord E [] a).
  assert (Q : forall key s l, scan_res E key s = Ok l -> scan_res E [] s = Ok l).
  { intros key s l H. rewrite <- H. apply scan_res_key. exact U. }
  assert (D : forall s l l', scan_res E [] s = Ok l -> scan_res E [] s = Ok l' -> l' = l) by (intros; congruence).
  assert (K : forall s l, scan_res E [] s = Ok l -> Forall keyed l) by (intros; eapply keyed_scan; eauto).
  assert (O : forall a b b' : attrs, b = e_ord E [] a -> b' = e_ord E [] a -> b' = b) by (intros; congruence).
  repeat apply conj.
  - intros s. destruct (scan_res_ok E [] s) as [es H]. exists es. split; auto. split; [eapply scan_sees; eauto|]. intros es' H'. congruence.
  - intros a. exists (e_ord E [] a). auto.
  - intros g o xml path l tn v t m A M NE W L.
    pose proof (set_told E _ (fun a a' => a' = e_ord E [] a) g o xml path l tn v t P Q (fun key a => U key [] a) A M NE W L) as ST. split.
    + intros (f & H & <-). now apply ST in H.
    + intros S. destruct (says_refused _ _ _ _ _ _ _ _ S) as [e R].
      destruct (set_outcomes E _ (fun a a' => a' = e_ord E [] a) g o xml path l v t P Q (fun key a => U key [] a) A M NE W L) as (out & SO & SE).
      rewrite <- (set_det _ _ _ _ D K O _ _ _ _ _ SO R) in SE. cbn [returned] in SE. rewrite <- (set_kinds E g o xml path tn v) in SE.
      destruct (set_opts_t E g o xml path tn v) as [[d [f|]]| |] eqn:H; try discriminate. cbn [kinds_told bind fst snd option_map] in SE. injection SE as -> _.
      exists f. split; auto. destruct (ST _ _ eq_refl) as [_ S']. exact (says_det _ _ _ _ D K O _ _ _ _ _ S S').
Qed.
Print Assumptions C72_only.

(** Delete, and Set with nil, give no reasons. *)
Theorem C72_delete : forall E g o xml path tn d f, delete_opts_t E o xml path = Ok (d, Some f) \/ set_opts_t E g o xml path tn VNil = Ok (d, Some f) ->
  f_text f = general (f_kind f).
Proof.
  assert (P : forall e, f_text (plain e) = general (f_kind (plain e))) by (intros []; reflexivity).
  assert (D : forall E o xml path d f, delete_opts_t E o xml path = Ok (d, Some f) -> f_text f = general (f_kind f)).
  { intros E o xml path d f H. unfold delete_opts_t in H. destruct (MaxDocumentSize <? blen xml)%N; [injection H as _ <-; apply P|]. destruct (negb (valid xml)); [injection H as _ <-; apply P|].
    apply bind_ok in H. destruct H as ([|s0 segs] & _ & H); [injection H as _ <-; apply P|]. apply told_err in H. destruct H as [_ H]. unfold plainly in H. apply bind_ok in H.
    destruct H as ([e|r] & _ & H); [injection H as <-; apply P|discriminate]. }
  intros E g o xml path tn d f [H|H]; [eapply D; eauto|]. unfold set_opts_t in H. destruct (MaxDocumentSize <? blen xml)%N; [injection H as _ <-; apply P|].
  destruct (match xml with [] => false | _ :: _ => negb (valid xml) end); [injection H as _ <-; apply P|]. eapply D; eauto.
Qed.
Print Assumptions C72_delete.

(** The functions on byte slices: a nil slice is no document. *)
Theorem C72_bytes : forall E g o xml path tn v,
  (forall d, set_bytes_opts_t E g o (Some xml) path tn v = Ok (Some d, None) <-> set_opts_t E g o xml path tn v = Ok (d, None)) /\
  (forall d f, set_bytes_opts_t E g o (Some xml) path tn v = Ok (Some d, Some f) <-> set_opts_t E g o xml path tn v = Ok (d, Some f)) /\
  set_bytes_opts_t E g o None path tn v = Ok (None, Some (mkFail ErrMalformedXML bad_document)).
Proof.
  intros E g o xml path tn v. unfold set_bytes_opts_t. split; [|split]; [| |reflexivity].
  - intros d. destruct (set_opts_t E g o xml path tn v) as [[d' [f'|]]| |]; cbn [bind fst snd]; split; intros H; try discriminate; now injection H as ->.
  - intros d f. destruct (set_opts_t E g o xml path tn v) as [[d' [f'|]]| |]; cbn [bind fst snd]; split; intros H; try discriminate; now injection H as -> ->.
Qed.
Print Assumptions C72_bytes.

(** SetRaw: the content is judged before anything else. *)
Theorem C72_raw : forall E g xml path raw m,
  (fragment [] raw -> set_raw_t E g xml path raw = set_t E g xml path (bs "[]uint8") (VBytes raw)) /\
  (~ fragment [] raw -> (tells (set_raw_t E g xml path raw) xml m <-> raw_says raw m)).
Proof.
  intros E g xml path raw m. unfold set_raw_t, tells. split.
  - intros F. apply validate_raw_none in F. now rewrite F.
  - intros N. rewrite <- validate_raw_says, <- validate_raw_none in *. destruct (validate_raw_t raw) as [f|]; [|easy]. split.
    + intros (f' & H & T). injection H as <-. eauto.
    + intros (f' & H & T). injection H as <-. eauto.
Qed.
Print Assumptions C72_raw.

(** SetMany and DeleteMany: the path at which they stop, and what the single call says. *)
Definition set_does (E : env) (g : f64 -> bytes) (d : bytes) (c : bytes * (bytes * value)) (d' : bytes) : Prop :=
  set_t E g d (fst c) (fst (snd c)) (snd (snd c)) = Ok (d', None).
Definition set_fails (E : env) (g : f64 -> bytes) (d : bytes) (c : bytes * (bytes * value)) (m : bytes) : Prop :=
  exists d', tells (set_t E g d (fst c) (fst (snd c)) (snd (snd c))) d' m.
Theorem C72_set_many : forall q E g xml paths values m, tells (set_many_t q E g xml paths values) xml m <->
  (10485760 < blen xml)%N /\ m = bad_document \/
  (blen xml <= 10485760)%N /\ List.length paths <> List.length values /\ m = because bad_path (bs "paths and values length mismatch") \/
  (blen xml <= 10485760)%N /\ List.length paths = List.length values /\
  exists c m', stops (set_does E g) (set_fails E g) xml (combine paths values) c m' /\ m = bs "error setting path " ++ q (fst c) ++ bs ": " ++ m'.
Proof.
  assert (S : forall q E g xml0 l xml m, tells (set_each_t q E g xml0 xml l) xml0 m <->
    exists c m', stops (set_does E g) (set_fails E g) xml l c m' /\ m = bs "error setting path " ++ q (fst c) ++ bs ": " ++ m').
  { intros q E g xml0. induction l as [|[p [tn v]] l IH]; intros xml m.
    - split; [intros (f & H & _); discriminate|intros (c & m' & H & _); inversion H].
    - cbn [set_each_t]. destruct (set_t E g xml p tn v) as [[d [f|]]| |] eqn:ST; cbn [bind fst snd].
      + split.
        * intros (f' & H & <-). injection H as <-. exists (p, (tn, v)), (f_text f). split; [apply stops_here; exists d; cbn [fst snd]; exists f; auto|]. exact (eq_sym (app_assoc (bs "error setting path ") (q p) _)).
        * intros (c & m' & H & ->). inversion H as [d0 a l0 m0 (d' & f' & F & <-)|d0 d1 b l0 a m0 F]; subst.
          -- cbn [fst snd] in F. rewrite ST in F. injection F as -> <-. eexists. split; [reflexivity|]. exact (eq_sym (app_assoc (bs "error setting path ") (q p) _)).
          -- unfold set_does in F. cbn [fst snd] in F. congruence.
      + rewrite IH. split.
        * intros (c & m' & H & ->). exists c, m'. split; auto. apply stops_later with (d' := d); auto.
        * intros (c & m' & H & ->). exists c, m'. split; auto. inversion H as [d0 a l0 m0 (d' & f' & F & <-)|d0 d1 b l0 a m0 F H']; subst.
          -- cbn [fst snd] in F. congruence.
          -- unfold set_does in F. cbn [fst snd] in F. rewrite ST in F. injection F as <-. exact H'.
      + split; [intros (f & H & _); discriminate|]. intros (c & m' & H & _). inversion H as [d0 a l0 m0 (d' & f' & F & <-)|d0 d1 b l0 a m0 F H']; subst; unfold set_does in *; cbn [fst snd] in F; congruence.
      + split; [intros (f & H & _); discriminate|]. intros (c & m' & H & _). inversion H as [d0 a l0 m0 (d' & f' & F & <-)|d0 d1 b l0 a m0 F H']; subst; unfold set_does in *; cbn [fst snd] in F; congruence. }
  intros q E g xml paths values m. unfold set_many_t. change 10485760%N with MaxDocumentSize. destruct (N.ltb_spec MaxDocumentSize (blen xml)) as [L|L].
  - split; [intros (f & H & <-); injection H as <-; left; auto|]. intros [[_ ->]|[[X _]|[X _]]]; try lia. eexists. split; reflexivity.
  - destruct (Nat.eqb_spec (List.length paths) (List.length values)) as [Q|Q]; cbn [negb].
    + rewrite S. split; [intros H; right; right; auto|]. intros [[X _]|[(_ & X & _)|(_ & _ & X)]]; [lia|contradiction|exact X].
    + split; [intros (f & H & <-); injection H as <-; right; left; auto|]. intros [[X _]|[(_ & _ & ->)|(_ & X & _)]]; [lia| |contradiction]. eexists. split; reflexivity.
Qed.
Print Assumptions C72_set_many.
Definition delete_does (E : env) (d p d' : bytes) : Prop := delete_t E d p = Ok (d', None).
Definition delete_fails (E : env) (d p m : bytes) : Prop := exists d', tells (delete_t E d p) d' m.
Theorem C72_delete_many : forall q E xml paths m, tells (delete_many_t q E xml paths) xml m <->
  (10485760 < blen xml)%N /\ m = bad_document \/
  (blen xml <= 10485760)%N /\ exists ps p m', firsts paths ps /\ stops (delete_does E) (delete_fails E) xml ps p m' /\ m = bs "error deleting path " ++ q p ++ bs ": " ++ m'.
Proof.
  assert (S : forall q E xml0 l xml m, tells (delete_each_t q E xml0 xml l) xml0 m <->
    exists c m', stops (delete_does E) (delete_fails E) xml l c m' /\ m = bs "error deleting path " ++ q c ++ bs ": " ++ m').
  { intros q E xml0. induction l as [|p l IH]; intros xml m.
    - split; [intros (f & H & _); discriminate|intros (c & m' & H & _); inversion H].
    - cbn [delete_each_t]. destruct (delete_t E xml p) as [[d [f|]]| |] eqn:ST; cbn [bind fst snd].
      + split.
        * intros (f' & H & <-). injection H as <-. exists p, (f_text f). split; [apply stops_here; exists d; exists f; auto|]. exact (eq_sym (app_assoc (bs "error deleting path ") (q _) _)).
        * intros (c & m' & H & ->). inversion H as [d0 a l0 m0 (d' & f' & F & <-)|d0 d1 b l0 a m0 F]; subst.
          -- rewrite ST in F. injection F as -> <-. eexists. split; [reflexivity|]. exact (eq_sym (app_assoc (bs "error deleting path ") (q _) _)).
          -- unfold delete_does in F. congruence.
      + rewrite IH. split.
        * intros (c & m' & H & ->). exists c, m'. split; auto. apply stops_later with (d' := d); auto.
        * intros (c & m' & H & ->). exists c, m'. split; auto. inversion H as [d0 a l0 m0 (d' & f' & F & <-)|d0 d1 b l0 a m0 F H']; subst.
          -- congruence.
          -- unfold delete_does in F. rewrite ST in F. injection F as <-. exact H'.
      + split; [intros (f & H & _); discriminate|]. intros (c & m' & H & _). inversion H as [d0 a l0 m0 (d' & f' & F & <-)|d0 d1 b l0 a m0 F H']; subst; unfold delete_does in *; congruence.
      + split; [intros (f & H & _); discriminate|]. intros (c & m' & H & _). inversion H as [d0 a l0 m0 (d' & f' & F & <-)|d0 d1 b l0 a m0 F H']; subst; unfold delete_does in *; congruence. }
  intros q E xml paths m. unfold delete_many_t. change 10485760%N with MaxDocumentSize. destruct (N.ltb_spec MaxDocumentSize (blen xml)) as [L|L].
  - split; [intros (f & H & <-); injection H as <-; left; auto|]. intros [[_ ->]|[X _]]; try lia. eexists. split; reflexivity.
  - rewrite S. split.
    + intros (c & m' & H & ->). right. split; auto. exists (dedupe [] paths), c, m'. split; [apply dedupe_firsts|auto].
    + intros [[X _]|(_ & ps & p & m' & F & H)]; [lia|]. rewrite (firsts_fun _ _ _ (dedupe_firsts paths) F). eauto.
Qed.
Print Assumptions C72_delete_many.

(** The registry of modifiers. *)
Theorem C72_registry : forall M q (reg : registry M) c,
  ((exists m, r_text q reg c = Some m) <-> snd (r_call M reg c) = RetErr M) /\
  forall m, r_text q reg c = Some m <->
    (exists x, c = RRegister M [] x) /\ m = bs "modifier name cannot be empty" \/
    (exists n x y, n <> [] /\ c = RRegister M n x /\ map_get n reg = Some y /\ m = bs "modifier " ++ q n ++ bs " already registered") \/
    (exists n, In n [bs "reverse"; bs "sort"; bs "first"; bs "last"; bs "flatten"; bs "pretty"; bs "ugly"] /\ c = RUnregister M n /\ m = bs "cannot unregister built-in modifier " ++ q n).
Proof.
  intros M q reg c. split; [apply registry_kinds|]. intros m. destruct c as [n x|n|n]; cbn [r_text].
  - destruct n as [|c n].
    + split; [intros H; injection H as <-; left; eauto|]. intros [[_ ->]|[(n' & ? & ? & N & X & _)|(n' & _ & X & _)]]; [reflexivity|injection X as <- _; easy|discriminate].
    + destruct (map_get (c :: n) reg) as [y|] eqn:G.
      * split; [intros H; injection H as <-; right; left; exists (c :: n), x, y; repeat split; auto; discriminate|].
        intros [[[x' X] _]|[(n' & ? & ? & N & X & _ & ->)|(n' & _ & X & _)]]; try discriminate. injection X as <- _. reflexivity.
      * split; [discriminate|]. intros [[[x' X] _]|[(n' & x' & y & N & X & G' & _)|(n' & _ & X & _)]]; try discriminate. injection X as <- _. congruence.
  - split; [discriminate|]. intros [[[x' X] _]|[(n' & x' & y & N & X & _)|(n' & _ & X & _)]]; discriminate.
  - destruct (is_builtin_name n) eqn:B.
    + unfold is_builtin_name in B. apply existsb_exists in B. destruct B as (k & I & B). apply bytes_eqb_eq in B. subst k.
      split; [intros H; injection H as <-; right; right; exists n; auto|]. intros [[[x' X] _]|[(n' & x' & y & N & X & _)|(n' & _ & X & ->)]]; try discriminate. injection X as <-. reflexivity.
    + split; [discriminate|]. intros [[[x' X] _]|[(n' & x' & y & N & X & _)|(n' & I & X & _)]]; try discriminate. injection X as <-.
      unfold is_builtin_name in B. rewrite <- not_true_iff_false, existsb_exists in B. elim B. exists n. split; [exact I|apply bytes_eqb_refl].
Qed.
Print Assumptions C72_registry.

(** ** Cases *)
Definition one (_ : f64) : bytes := bs "1".
Definition quoted (s : bytes) : bytes := bs """" ++ s ++ bs """".
Definition sample : bytes := bs "<r><a>1</a></r>".
Definition says_x (path : string) : Res reply := set_t env0 one sample (bs path) (bs "string") (VStr (bs "x")).
Definition complains (r : Res reply) (e : err) (m : string) : Prop := exists d, r = Ok (d, Some (mkFail e (bs m))).
Ltac runs := eexists; vm_compute; reflexivity.
Example C72_texts_example :
  complains (says_x "r.-1.a") ErrInvalidPath "invalid path syntax: append (-1 index) cannot be used with nested paths (e.g., item.-1.child)" /\
  complains (says_x "r.a.-12") ErrInvalidPath "invalid path syntax: index -12 reserved for future use; only -1 (append) is currently supported" /\
  complains (says_x "-1") ErrInvalidPath "invalid path syntax: append requires at least element.-1" /\
  complains (says_x "r.@x.-1") ErrInvalidPath "invalid path syntax: can only append elements, not attributes or other types" /\
  complains (says_x "@x") ErrInvalidPath "invalid path syntax: failed to locate created element for attribute" /\
  complains (set_t env0 one (bs "<!Doctype [><r/>") (bs "*.@x") (bs "string") (VStr (bs "x"))) ErrMalformedXML
    "failed to create parent element: malformed XML document".
Proof. repeat apply conj; runs. Qed.
(** The hypotheses of [C72_set] are met, and it tells the text. *)
Example C72_set_example :
  editable sample /\ path_means (bs "r.a.-12") (Steps [(GName (bs "r"), []); (GName (bs "a"), []); (GNth (-12), [])]) /\ written one (VStr (bs "x")) (bs "x") /\
  set_says sees (fun a a' => Permutation a a') true [] sample [(GName (bs "r"), []); (GName (bs "a"), []); (GNth (-12), [])] (bs "x")
    (bs "invalid path syntax: index -12 reserved for future use; only -1 (append) is currently supported").
Proof.
  assert (A : accepted_document sample) by (apply C16_grammar; vm_compute; reflexivity).
  assert (M : path_means (bs "r.a.-12") (Steps [(GName (bs "r"), []); (GName (bs "a"), []); (GNth (-12), [])])) by (apply path_means_stored; [discriminate|vm_compute; reflexivity]).
  assert (W : written one (VStr (bs "x")) (bs "x")) by exact (wr_str one (bs "x")).
  split; [right; exact A|]. split; [exact M|]. split; [exact W|].
  destruct (C72_set env0 one default_options sample _ _ (bs "string") _ _ sample
    (mkFail ErrInvalidPath (bs "invalid path syntax: index -12 reserved for future use; only -1 (append) is currently supported"))
    (fun _ _ => Permutation_refl _) (or_intror A) M ltac:(discriminate) W ltac:(vm_compute; discriminate) ltac:(vm_compute; reflexivity)) as [_ S].
  exact S.
Qed.
Example C72_only_example : forall k k' m, e_ord env0 k m = e_ord env0 k' m.
Proof. reflexivity. Qed.
Example C72_document_example : ~ editable (bs "<r>") /\ complains (set_t env0 one (bs "<r>") (bs "r") (bs "string") (VStr (bs "x"))) ErrMalformedXML "malformed XML document".
Proof.
  split; [|runs]. intros [H|H]; [discriminate|]. apply C16_grammar in H. vm_compute in H. discriminate.
Qed.
Example C72_path_example : pathless (bs "..") /\ complains (says_x "..") ErrInvalidPath "invalid path syntax".
Proof.
  split; [apply path_means_none; vm_compute; reflexivity|runs].
Qed.
Example C72_type_example : complains (set_t env0 one sample (bs "r.a") (bs "chan int") VOther) ErrInvalidValue "invalid value for XML: unsupported type chan int".
Proof. runs. Qed.
Example C72_size_example : exists t, written one (VBytes t) t /\ (5242880 < blen t)%N.
Proof.
  exists (repeat "x"%char (N.to_nat 5242881)). split.
  - apply wr_bytes.
  - unfold blen. rewrite List.repeat_length, N2Nat.id. reflexivity.
Qed.
Example C72_raw_example :
  complains (set_raw_t env0 one sample (bs "r.a") (bs "<b>1</b><![CDATA[x")) ErrInvalidValue "invalid value for XML: unclosed CDATA section" /\
  complains (set_raw_t env0 one sample (bs "r.a") (bs "<![CDATA[a<![CDATA[b]]>")) ErrInvalidValue "invalid value for XML: nested CDATA sections not allowed" /\
  complains (set_raw_t env0 one sample (bs "r.a") (bs "<b/><!DOCTYPE x>")) ErrInvalidValue "invalid value for XML: DOCTYPE declarations not allowed in SetRaw" /\
  complains (set_raw_t env0 one sample (bs "r.a") (bs "<b><!ENTITY y>")) ErrInvalidValue "invalid value for XML: ENTITY declarations not allowed in SetRaw" /\
  complains (set_raw_t env0 one sample (bs "r.a") (bs "<b>")) ErrInvalidValue "invalid value for XML".
Proof. repeat apply conj; runs. Qed.
Example C72_many_example :
  complains (set_many_t quoted env0 one sample [bs "r.a"; bs "r.-2"] [(bs "int", VInt 5); (bs "int", VInt 5)]) ErrInvalidPath
    "error setting path ""r.-2"": invalid path syntax: index -2 reserved for future use; only -1 (append) is currently supported" /\
  complains (set_many_t quoted env0 one sample [bs "r.a"; bs "r.b"] [(bs "int", VInt 5)]) ErrInvalidPath "invalid path syntax: paths and values length mismatch" /\
  complains (delete_many_t quoted env0 sample [bs "r.a"; []]) ErrInvalidPath "error deleting path """": invalid path syntax".
Proof. repeat apply conj; runs. Qed.
Example C72_registry_example :
  r_text quoted [(bs "mine", Some tt)] (RRegister unit (bs "mine") (Some tt)) = Some (bs "modifier ""mine"" already registered") /\
  r_text quoted [(bs "mine", Some tt)] (RUnregister unit (bs "sort")) = Some (bs "cannot unregister built-in modifier ""sort""").
Proof. split; reflexivity. Qed.
