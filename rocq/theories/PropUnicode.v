(** C100: characters and white space are those of Unicode. *)
From Coq Require Import List Ascii String NArith ZArith Bool Lia Permutation.
From Verif Require Import GoStr ModelParser ModelPath ModelPattern ModelResult ModelQuery ModelValidate ModelBuilder SpecText SpecPath SpecTree SpecQuery SpecEdit SpecFilter SpecGlob SpecUnicode
  ProofBase ProofTree ProofTree8 ProofEdit5 ProofUnicode PropTree PropEdit PropPath.
Import ListNotations.
Open Scope nat_scope.

(** ** C100. The text of an element is reported without the white space around it: nothing
    else is removed, all white space of Unicode is, and bytes that are not UTF-8 stay. *)
Theorem C100_trim : forall s t, trim_space s = t <-> trimmed s t.
Proof. exact trim_iff. Qed.
Print Assumptions C100_trim.
(** The text without white space around it is determined, and it is the whole text if that
    has none. *)
Theorem C100_trimmed : forall s, (exists t, trimmed s t) /\ (forall t u, trimmed s t -> trimmed s u -> t = u) /\
  (~ starts_white s -> ~ ends_white s -> trimmed s s).
Proof.
  intros s. split; [exists (trim_space s); now apply trim_iff|]. split.
  - intros t u H1 H2. apply trim_iff in H1. apply trim_iff in H2. congruence.
  - intros H1 H2. split; [exists [], []; rewrite app_nil_r; repeat split; constructor|]. auto.
Qed.
Print Assumptions C100_trimmed.
Theorem C100_get : forall E p F steps kids,
  (forall k l, Permutation l (e_ord E k l)) -> prolog p -> Forall good F ->
  (blen (p ++ forest_text F) <= 10485760)%N -> good_tpath steps TheElement -> query true steps TheElement F = Element kids ->
  exists r t, get E (p ++ forest_text F) (tpath steps TheElement) = Ok r /\ trimmed (all_text kids) t /\ Decodes t (r_string r).
Proof.
  intros E p F steps kids Ho Hp HG SZ GT Q. destruct (C28_tree_query E p F steps TheElement Ho Hp HG SZ GT) as (r & G & D). rewrite Q in D. destruct D as (_ & D & _).
  exists r, (trim_space (all_text kids)). split; [exact G|]. split; [now apply trim_iff|exact D].
Qed.
Print Assumptions C100_get.
(** A text given to Set comes back without the white space around it, and exactly if it has
    none. *)
Theorem C100_set_get : forall E fmt_g p F steps A n a kids B v new,
  (forall k l, Permutation l (e_ord E k l)) -> prolog p -> Forall good F -> valid (p ++ forest_text F) = true ->
  good_tpath steps TheElement -> readable steps F -> located steps F A (Elem n a false kids) B -> (blen (esc v) <= 5242880)%N ->
  set E fmt_g (p ++ forest_text F) (tpath steps TheElement) (VStr v) = Ok (new, None) -> (blen new <= 10485760)%N ->
  exists r, get E new (tpath steps TheElement) = Ok r /\ trimmed v (r_string r) /\ (~ starts_white v -> ~ ends_white v -> r_string r = v).
Proof.
  intros E g p F steps A n a kids B v new Ho Hp HG HV GT RD L SZ S SN. destruct (C02_get_after_set E g p F steps A n a kids B v new Ho Hp HG HV GT RD L SZ S SN) as (r & G & _ & Q).
  exists r. split; auto. symmetry in Q. apply trim_iff in Q. split; auto. intros N1 N2. destruct (C100_trimmed v) as (_ & U & X). apply (U _ _ Q). now apply X.
Qed.
Print Assumptions C100_set_get.

(** ** The characters a pattern is matched against: those encoded in UTF-8, and U+FFFD for
    every byte that does not begin one. *)
Theorem C100_chars : forall s rs, runes s = rs <-> reads_chars s rs.
Proof. exact runes_iff. Qed.
Print Assumptions C100_chars.
(** A pattern of characters matches a text of characters whatever number of bytes they take. *)
Theorem C100_glob : forall ps ss max matched, Forall scalar ps -> Forall scalar ss ->
  (pattern_match (utf8s ss) (utf8s ps) max = (matched, false) -> (matched = true <-> Glob ps ss)) /\
  (snd (pattern_match (utf8s ss) (utf8s ps) max) = true <-> (max < N.of_nat (List.length ss) * N.of_nat (glob_width ps))%N).
Proof.
  intros ps ss max matched HP HS. split.
  - intros H. apply C33_matcher_decides in H. now rewrite !runes_utf8s in H by auto.
  - pose proof (C33_matcher_gives_up (utf8s ss) (utf8s ps) max) as H. now rewrite !runes_utf8s in H by auto.
Qed.
Print Assumptions C100_glob.
(** Every text has characters, and in one way; a text of encoded characters has these. *)
Theorem C100_read : forall s, (exists rs, reads_chars s rs) /\ (forall rs rs', reads_chars s rs -> reads_chars s rs' -> rs = rs') /\
  (forall rs, Forall scalar rs -> reads_chars (utf8s rs) rs).
Proof.
  intros s. split; [exists (runes s); now apply runes_iff|]. split; [intros; eapply chars_fun; eauto|apply utf8s_read].
Qed.
Print Assumptions C100_read.
(** Characters are written in UTF-8; what is not a scalar value is written as U+FFFD. *)
Theorem C100_encode : forall r, (scalar r -> encode_rune r = utf8 r) /\ (~ scalar r -> encode_rune r = utf8 65533).
Proof. intros r. split; [apply encode_utf8|apply encode_other]. Qed.
Print Assumptions C100_encode.

(** U+2003, a, no-break space, b, a byte that is not UTF-8, U+3000, line feed. *)
Definition padded : bytes := utf8 8195 ++ bs "a" ++ utf8 160 ++ bs "b" ++ [ascii_of_N 128] ++ utf8 12288 ++ [ascii_of_N 10].
Definition core : bytes := bs "a" ++ utf8 160 ++ bs "b" ++ [ascii_of_N 128].
Example C100_example :
  trimmed padded core /\
  match set env_rev (fun _ => []) (sample_prolog ++ forest_text sample) (bs "r.a.1.b.1") (VStr padded) with
  | Ok (new, None) => match get env_rev new (bs "r.a.1.b.1") with Ok r => bytes_eqb (r_string r) core | _ => false end
  | _ => false end = true /\
  reads_chars (utf8 233 ++ [ascii_of_N 195] ++ utf8 128512) [233; 65533; 128512]%N /\
  pattern_match (utf8s [233; 8364; 128512]%N) (bs "??" ++ utf8 128512) 10000 = (true, false) /\
  pattern_match (utf8s [233; 8364]%N) (bs "???") 10000 = (false, false).
Proof.
  split; [apply trim_iff; vm_compute; reflexivity|]. split; [vm_compute; reflexivity|].
  split; [apply runes_iff; vm_compute; reflexivity|]. split; vm_compute; reflexivity.
Qed.
