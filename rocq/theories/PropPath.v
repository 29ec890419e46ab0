(** C22, C23, C26, C27, C33: path syntax, name matching, glob patterns. *)
From Coq Require Import List Ascii String NArith ZArith Bool Lia.
From Verif Require Import GoStr ModelParser ModelPattern ModelPath ModelResult ModelQuery ModelValidate ModelBuilder ModelQueryOpts
  SpecPath SpecGlob ProofBase ProofPath ProofPattern ProofFuel.
Import ListNotations.

(** C22. Any list of names written with quoted dots and backslashes is split into
    exactly these names, and plain names become element steps with these names. *)
Theorem C22_split_quoted_names : forall names, names <> [] -> names <> [[]] ->
  split_path (path_text names) = names.
Proof. exact split_path_path_text. Qed.
Print Assumptions C22_split_quoted_names.

Theorem C22_parse_quoted_names : forall names segs, names <> [] -> Forall plain_name names ->
  (List.length names <= 100)%nat -> parse_path (path_text names) = Ok segs ->
  map s_value segs = names /\ Forall (fun sg => s_type sg = SElem /\ s_mods sg = []) segs.
Proof.
  intros names segs Hne Hp Hl H. rewrite (parse_path_plain _ Hne Hp Hl) in H. injection H as <-. split.
  - rewrite map_map. apply map_id.
  - clear. induction names; simpl; constructor; auto.
Qed.
Print Assumptions C22_parse_quoted_names.
Theorem C22_parse_quoted_names_defined : forall names, names <> [] -> Forall plain_name names ->
  (List.length names <= 100)%nat -> exists segs, parse_path (path_text names) = Ok segs.
Proof. intros names Hne Hp Hl. eexists. exact (parse_path_plain _ Hne Hp Hl). Qed.
Print Assumptions C22_parse_quoted_names_defined.

Example C22_example :
  path_text [bs "a.b"; bs "c\d"] = bs "a\.b.c\\d" /\
  split_path (bs "a\.b.c\\d") = [bs "a.b"; bs "c\d"] /\
  plain_name (bs "a.b") /\ plain_name (bs "c\d").
Proof.
  split; [reflexivity|]. split; [reflexivity|].
  split; split; try (intros; discriminate); try (vm_compute; intuition discriminate).
  - exists "a"%char. vm_compute. intuition (try discriminate).
  - exists "c"%char. vm_compute. intuition (try discriminate).
Qed.

(** C23. A path of more than 100 steps designates nothing. *)
Theorem C23_get_long_path : forall E xml path, (100 < step_count path)%nat -> get E xml path = Ok r_null.
Proof.
  intros E xml path H. unfold get. rewrite (parse_path_long _ H). simpl.
  now destruct (MaxDocumentSize <? blen xml)%N.
Qed.
Print Assumptions C23_get_long_path.
Theorem C23_set_long_path : forall E fmt_g o xml path v r,
  (100 < step_count path)%nat -> v <> VNil -> set_opts E fmt_g o xml path v = Ok r ->
  fst r = xml /\ (snd r = Some ErrInvalidPath \/ snd r = Some ErrMalformedXML).
Proof.
  intros E fmt_g o xml path v r H Hv. unfold set_opts, parse_path_opts. rewrite (parse_path_long _ H).
  destruct (MaxDocumentSize <? blen xml)%N; [intros K; injection K as <-; auto|].
  destruct (match xml with [] => false | _ :: _ => negb (valid xml) end); [intros K; injection K as <-; auto|].
  destruct v; try contradiction; simpl; destruct (o_case o); simpl; intros K; injection K as <-; auto.
Qed.
Print Assumptions C23_set_long_path.
Theorem C23_segment_bound : forall path segs, parse_path path = Ok segs ->
  (List.length segs <= 100 /\ List.length segs <= S (List.length path))%nat.
Proof. exact parse_path_bound. Qed.
Print Assumptions C23_segment_bound.
Example C23_example :
  let p := bs "a.a.a.a.a.a.a.a.a.a.a.a.a.a.a.a.a.a.a.a." in
  (100 < step_count (p ++ p ++ p ++ p ++ p))%nat /\ (step_count (p ++ p) <= 100)%nat.
Proof. vm_compute. lia. Qed.

(** C26. Steps without a namespace prefix match every prefix, steps with one match
    exactly that name. [good_prefix] bounds the prefix to 256 bytes without control
    characters. *)
Theorem C26_unprefixed_step : forall step sg name,
  plain_name step -> parse_path (path_text [step]) = Ok [sg] ->
  (forall p l, good_prefix p -> step <> qualified p l) ->
  (seg_matches sg name = true <-> name = step \/ exists p, good_prefix p /\ name = qualified p step).
Proof.
  intros step sg name Hp H Hq. rewrite parse_path_plain in H;
    [injection H as <-; exact (ns_match_unprefixed _ _ Hq)|discriminate|constructor; auto|simpl; lia].
Qed.
Print Assumptions C26_unprefixed_step.
Theorem C26_prefixed_step : forall p l sg name,
  plain_name (qualified p l) -> parse_path (path_text [qualified p l]) = Ok [sg] ->
  good_prefix p -> p <> [] ->
  (seg_matches sg name = true <-> name = qualified p l).
Proof.
  intros p l sg name Hp H Hg Hne. rewrite parse_path_plain in H;
    [injection H as <-; exact (ns_match_prefixed _ _ _ Hg Hne)|discriminate|constructor; auto|simpl; lia].
Qed.
Print Assumptions C26_prefixed_step.
Theorem C26_empty_prefix_step : forall l sg name,
  plain_name (qualified [] l) -> parse_path (path_text [qualified [] l]) = Ok [sg] ->
  (seg_matches sg name = true <->
   (exists p, good_prefix p /\ name = qualified p l) \/
   (name = l /\ forall p l', good_prefix p -> l <> qualified p l')).
Proof.
  intros l sg name Hp H. rewrite parse_path_plain in H;
    [injection H as <-; exact (ns_match_empty_prefix _ _)|discriminate|constructor; auto|simpl; lia].
Qed.
Print Assumptions C26_empty_prefix_step.
Example C26_example :
  good_prefix (bs "soap") /\
  parse_path (path_text [bs "Body"]) = Ok [elem_seg (bs "Body")] /\
  seg_matches (elem_seg (bs "Body")) (bs "soap:Body") = true /\
  seg_matches (elem_seg (bs "soap:Body")) (bs "Body") = false /\
  seg_matches (elem_seg (bs "soap:Body")) (bs "x:Body") = false.
Proof.
  split; [|vm_compute; auto].
  split.
  - vm_compute; intuition discriminate.
  - vm_compute; lia.
  - simpl. intros c H. repeat (destruct H as [<-|H]; [vm_compute; split; [discriminate|discriminate]|]). destruct H.
Qed.

(** C27. Case-insensitive matching is matching of ASCII lower-cased names. *)
Theorem C27_case_insensitive : forall step name,
  seg_matches_opts false (elem_seg step) name =
  seg_matches (elem_seg (map ascii_lower step)) (map ascii_lower name).
Proof. intros step name. rewrite <- !lower_eq_map. exact (match_ci step name). Qed.
Print Assumptions C27_case_insensitive.
Theorem C27_exact_match_is_ci_match : forall step name,
  seg_matches (elem_seg step) name = true -> seg_matches_opts false (elem_seg step) name = true.
Proof. exact match_exact_ci. Qed.
Print Assumptions C27_exact_match_is_ci_match.
Theorem C27_case_sensitive : forall sg name, seg_matches_opts true sg name = seg_matches sg name.
Proof. exact match_cs. Qed.
Print Assumptions C27_case_sensitive.
Theorem C27_lower_laws : forall s,
  to_lower_ascii s = map ascii_lower s /\
  map ascii_lower (map ascii_lower s) = map ascii_lower s /\
  List.length (map ascii_lower s) = List.length s /\
  (Forall (fun c => (128 <= N_of_ascii c)%N) s -> map ascii_lower s = s).
Proof.
  intros s. split; [exact (lower_eq_map s)|]. split.
  - rewrite <- !lower_eq_map. exact (lower_idem s).
  - split; [apply map_length|]. intros H. induction H; simpl; auto. now rewrite lower_char_nonascii, IHForall.
Qed.
Print Assumptions C27_lower_laws.
Example C27_example :
  seg_matches_opts false (elem_seg (bs "BODY")) (bs "Soap:Body") = true /\
  seg_matches_opts true (elem_seg (bs "BODY")) (bs "Soap:Body") = false.
Proof. vm_compute. auto. Qed.

(** C33. The matcher decides the glob relation unless it gives up, and it gives up
    exactly when string length times pattern width exceeds the limit. *)
Theorem C33_matcher_decides : forall str pat max matched,
  pattern_match str pat max = (matched, false) -> (matched = true <-> Glob (runes pat) (runes str)).
Proof. intros str pat max m H. exact (match_runes_decides _ _ _ _ H). Qed.
Print Assumptions C33_matcher_decides.
Theorem C33_matcher_gives_up : forall str pat max,
  snd (pattern_match str pat max) = true <->
  (max < N.of_nat (List.length (runes str)) * N.of_nat (glob_width (runes pat)))%N.
Proof. intros str pat max. exact (match_runes_stopped _ _ _). Qed.
Print Assumptions C33_matcher_gives_up.
Theorem C33_no_match_when_giving_up : forall str pat max,
  snd (pattern_match str pat max) = true -> fst (pattern_match str pat max) = false.
Proof. intros str pat max. exact (match_runes_stopped_unmatched _ _ _). Qed.
Print Assumptions C33_no_match_when_giving_up.
Example C33_example :
  pattern_match (bs "error: disk*full") (bs "err*:?disk\*f*") 10000 = (true, false) /\
  pattern_match (bs "error: diskXfull") (bs "err*:?disk\*f*") 10000 = (false, false) /\
  pattern_match (bs "aaaaaaaaaa") (bs "a*") 19 = (false, true).
Proof. vm_compute. auto. Qed.
