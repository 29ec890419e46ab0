(** C63: the reports about documents that are refused. *)
From Coq Require Import List Ascii String NArith ZArith Bool Lia.
From Verif Require Import GoStr ModelParser ModelValidate SpecText SpecPath SpecTree SpecQuery SpecValid SpecFault
  ProofBase ProofTree8 ProofFault ProofFault2 ProofFault3 ProofFault4 PropTree PropValid.
Import ListNotations.

(** C63. The report names the first fault of the document and the line and column at which it
    lies: exactly the reports of [first_fault] are given. *)
Theorem C63_exact : forall xml line col m, validate_with_error xml = Some (line, col, m) <->
  exists p r, xml = p ++ r /\ first_fault xml m r /\ line = 1 + newlines p /\ last_line p col.
Proof. exact with_error_fault. Qed.
Print Assumptions C63_exact.
Example C63_exact_example :
  validate_with_error (bs "<r>" ++ [lf] ++ bs " <i a=1/></r>") = Some (2, 6, VUnquoted) /\
  first_fault (bs "<r>" ++ [lf] ++ bs " <i a=1/></r>") VUnquoted (bs "1/></r>") /\
  validate_with_error (bs "<r>" ++ [lf] ++ bs " <i a='1/></r>") = Some (2, 14, VEndOfDoc squote) /\
  validate_with_error (bs "<r><!-- a -- b --></r>") = Some (1, 12, VDashDash) /\
  validate_with_error (bs "<r><!-- a </r>") = Some (1, 12, VUnclosedComment) /\
  validate_with_error (bs "<r></r></r>") = Some (1, 7, VNoOpen (bs "r")) /\
  validate_with_error (bs "<r><1/></r>") = Some (1, 4, VBadName (bs "1")) /\
  validate_with_error (bs "<r></ r>") = Some (1, 5, VEmptyClose) /\
  validate_with_error (bs "<r/ >") = Some (1, 3, VExpectGt) /\
  validate_with_error (bs "<?x?> <!-- -->") = Some (1, 0, VNoRoot) /\
  validate_with_error [] = Some (1, 0, VEmptyDoc).
Proof.
  split; [vm_compute; reflexivity|]. split; [|vm_compute; repeat split; reflexivity].
  apply ff_fault; [vm_compute; discriminate|discriminate|].
  set (w := bs "<r>" ++ [lf] ++ bs " <i a=1/></r>") at 1.
  change (bs "<r>" ++ [lf] ++ bs " <i a=1/></r>") with ("<"%char :: bs "r" ++ [] ++ ">"%char :: lf :: " "%char :: bs "<i a=1/></r>").
  assert (N : forall n, xml_name_b n = true -> xml_name n) by (intros; now apply xml_name_b_ok).
  apply (fa_open w _ _ (bs "r") 0 []); [apply N; reflexivity|lia|cbn; lia|split; [constructor; constructor|now left]|].
  apply fa_blank; [right; right; now left|]. apply fa_blank; [now left|]. apply (fa_start_bad w _ _ (bs "i a=1/></r>")).
  { eexists _, _. split; [reflexivity|]. cbn. intuition discriminate. }
  assert (LN : forall n r, xml_name_b n = true -> avoids name_letter r -> leading_name (n ++ r) n r) by (intros; apply xml_leading; auto).
  apply (sf_attr _ _ (bs "i") (bs " a=1/></r>")).
  - apply (LN (bs "i")); [reflexivity|]. right. eexists _, _. split; [reflexivity|]. apply name_stop_true. reflexivity.
  - apply xml_starts, N. reflexivity.
  - cbn. lia.
  - apply (af_quote 99 (bs " ") (bs "a=1/></r>") (bs "a") [] []).
    + constructor; [now left|constructor].
    + apply (LN (bs "a")); [reflexivity|]. right. eexists _, _. split; [reflexivity|]. apply name_stop_true. reflexivity.
    + apply xml_starts, N. reflexivity.
    + constructor.
    + constructor.
    + right. eexists _, _. split; [reflexivity|]. intros [B|[B|B]]; [|discriminate|discriminate]. unfold blank in B. cbn in B. intuition discriminate.
Qed.

(** An element that is never closed is reported by name at its start tag; of several, the innermost. *)
Theorem C63_unclosed : forall p F L n a K, strict_prolog p -> Forall good F -> Forall top_node F -> shallow F -> writable 0 (L ++ [(n, a, K)]) ->
  let before := p ++ forest_text F ++ levels_text L in
  (N.of_nat (List.length (before ++ start_tag n a false ++ forest_text K)) <= 10485760)%N -> exists line col,
  validate_with_error (before ++ start_tag n a false ++ forest_text K) = Some (line, col, VUnclosedTag n) /\
  line = 1 + newlines before /\ last_line before col.
Proof. exact unclosed_report. Qed.
Print Assumptions C63_unclosed.

(** An end tag with another name than that of the innermost open element is reported where
    the end tag begins, with both names and the place of the start tag, whatever follows. *)
Theorem C63_mismatch : forall p F L n a K m w s, strict_prolog p -> Forall good F -> Forall top_node F -> shallow F -> writable 0 (L ++ [(n, a, K)]) ->
  xml_name m -> blanks w -> n <> m ->
  let before := p ++ forest_text F ++ levels_text L ++ start_tag n a false ++ forest_text K in
  (N.of_nat (List.length (before ++ bs "</" ++ m ++ w ++ bs ">" ++ s)) <= 10485760)%N -> exists line col,
  validate_with_error (before ++ bs "</" ++ m ++ w ++ bs ">" ++ s) = Some (line, col, VMismatch m n (start_tag n a false ++ forest_text K ++ bs "</" ++ m ++ w ++ bs ">" ++ s)) /\
  line = 1 + newlines before /\ last_line before col.
Proof. exact mismatch_report. Qed.
Print Assumptions C63_mismatch.

(** Text outside the elements is reported at its first byte. *)
Theorem C63_outside : forall p F c s, strict_prolog p -> Forall good F -> Forall top_node F -> shallow F -> ~ blank c -> c <> "<"%char ->
  let before := p ++ forest_text F in
  (N.of_nat (List.length (before ++ c :: s)) <= 10485760)%N -> exists line col,
  validate_with_error (before ++ c :: s) = Some (line, col, VOutsideRoot) /\
  line = 1 + newlines before /\ last_line before col.
Proof. exact outside_report. Qed.
Print Assumptions C63_outside.

(** Inside two open elements, after the sample document. *)
Definition part : list level := [(bs "r", [(bs "a", bs "1")], [Text [lf]]); (bs "i", [], [Elem (bs "j") [] true []; Text (bs " x")])].
Definition before_part : bytes := sample_prolog ++ forest_text sample ++ bs "<r a=""1"">" ++ [lf].
Lemma part_writable : writable 0 part.
Proof.
  apply wr_cons; [apply xml_name_b_ok; reflexivity|apply attrs_b_ok; vm_compute; reflexivity|apply forest_b_ok; vm_compute; reflexivity|lia|repeat constructor; vm_compute; lia|].
  apply wr_cons; [apply xml_name_b_ok; reflexivity|apply attrs_b_ok; vm_compute; reflexivity|apply forest_b_ok; vm_compute; reflexivity|lia|repeat constructor; vm_compute; lia|].
  constructor.
Qed.
Example C63_examples :
  strict_prolog sample_prolog /\ Forall good sample /\ Forall top_node sample /\ shallow sample /\ writable 0 part /\
  before_part = sample_prolog ++ forest_text sample ++ levels_text [(bs "r", [(bs "a", bs "1")], [Text [lf]])] /\
  newlines before_part = 2 /\
  validate_with_error (before_part ++ bs "<i><j/> x") = Some (3, 0, VUnclosedTag (bs "i")) /\
  validate_with_error (before_part ++ bs "<i><j/> x</r ></i>") = Some (3, 9, VMismatch (bs "r") (bs "i") (bs "<i><j/> x</r ></i>")) /\
  validate_with_error (sample_prolog ++ forest_text sample ++ bs "x<r/>") = Some (2, List.length (forest_text sample), VOutsideRoot).
Proof.
  split; [apply sample_strict|]. split; [apply sample_good|]. split; [repeat constructor|]. split; [repeat constructor; vm_compute; lia|].
  split; [apply part_writable|]. vm_compute. repeat split; reflexivity.
Qed.
