(** C16-C19: validation. *)
From Coq Require Import List Ascii String NArith ZArith Bool Lia.
From Verif Require Import GoStr ModelParser ModelValidate SpecText SpecPath SpecTree SpecQuery SpecValid
  ProofBase ProofTree8 ProofValid ProofValid2 ProofValid3 PropTree.
Import ListNotations.

(** C16. Valid accepts exactly the documents of the grammar: matching tags, legal names,
    quoted attributes, text only inside elements. *)
Theorem C16_grammar : forall xml, valid xml = true <-> accepted_document xml.
Proof. exact valid_accepted. Qed.
Print Assumptions C16_grammar.
Example C16_example :
  accepted_document (bs "<?p?><r a='1' b = ""x'y"" ><!-- - --><i/>t</r >") /\
  valid (bs "<r><a></r></a>") = false /\ valid (bs "<r a=1/>") = false /\ valid (bs "<r/>text") = false /\
  valid (bs "<r a='1'b='2'/>") = true /\ valid (bs "<1/>") = false /\ valid (bs "<r><!-- -- --></r>") = false /\
  ~ accepted_document (bs "<r><a></r></a>").
Proof.
  split; [apply C16_grammar; vm_compute; reflexivity|]. do 6 (split; [vm_compute; reflexivity|]).
  rewrite <- C16_grammar. vm_compute. discriminate.
Qed.

(** C17. Canonical documents within the limits are accepted. *)
Theorem C17_canonical : forall p F, strict_prolog p -> Forall good F -> Forall top_node F -> has_element F -> shallow F ->
  (N.of_nat (List.length (p ++ forest_text F)) <= 10485760)%N -> valid (p ++ forest_text F) = true.
Proof. intros p F P G T H S L. now apply canonical_valid. Qed.
Print Assumptions C17_canonical.
Lemma sample_strict : strict_prolog sample_prolog.
Proof.
  unfold sample_prolog.
  change (strict_prolog (bs "<?" ++ bs "xml version='1.0'" ++ bs "?>" ++ bs "<!--" ++ bs " c " ++ bs "-->" ++
                  bs "<!DOCTYPE" ++ bs " r " ++ bs "[" ++ bs "<!ENTITY e 'x'>" ++ bs "]" ++ [] ++ bs ">" ++ [lf] ++ [])).
  apply sp_pi; [vm_compute; intuition discriminate|vm_compute; discriminate|].
  apply sp_comment; [intros x y; apply no_hh_ok; reflexivity|].
  apply sp_subset; [vm_compute; intuition (subst; discriminate)|vm_compute; intuition (subst; discriminate)|].
  apply sp_space; [|apply sp_nil]. constructor; [|constructor]. right. right. now left.
Qed.
Example C17_example :
  strict_prolog sample_prolog /\ Forall good sample /\ Forall top_node sample /\ has_element sample /\ shallow sample /\
  (N.of_nat (List.length (sample_prolog ++ forest_text sample)) <=? 10485760)%N = true /\
  valid (sample_prolog ++ forest_text sample) = true.
Proof.
  split; [apply sample_strict|]. split; [apply sample_good|]. split; [repeat constructor|].
  split; [eexists _, _, _, _; left; reflexivity|]. split; [repeat constructor; vm_compute; lia|]. split; vm_compute; reflexivity.
Qed.

(** C18. What is accepted is not empty, within the size limit, and never has more than
    100 open elements: documents with more than 100 levels are refused. *)
Theorem C18_limits : forall xml, valid xml = true ->
  xml <> [] /\ (N.of_nat (List.length xml) <= 10485760)%N /\ accepted false [] xml.
Proof.
  intros xml H. apply valid_accepted in H. destruct H as [H L]. repeat split; auto. intros ->. now apply accepted_nonempty in H.
Qed.
Print Assumptions C18_limits.
Theorem C18_depth : forall p F, strict_prolog p -> Forall good F -> Forall top_node F ->
  (exists nd, In nd F /\ 100 < levels nd) -> valid (p ++ forest_text F) = false.
Proof.
  intros p F P G T [nd [I D]]. destruct (valid (p ++ forest_text F)) eqn:V; auto. exfalso.
  assert (H : has_element F) by (destruct nd as [n a s k| |]; [exists n, a, s, k; exact I|cbn in D; lia|cbn in D; lia]).
  assert (L : (N.of_nat (List.length (p ++ forest_text F)) <= 10485760)%N) by (apply valid_accepted in V; apply V).
  apply (canonical_valid p F P G T H L) in V. unfold shallow in V. rewrite Forall_forall in V. specialize (V nd I). lia.
Qed.
Print Assumptions C18_depth.
Fixpoint nested (n : nat) : node := match n with O => Elem (bs "a") [] true [] | S n' => Elem (bs "a") [] false [nested n'] end.
Example C18_example :
  Forall good [nested 100] /\ levels (nested 100) = 101 /\ valid (forest_text [nested 99]) = true /\ valid (forest_text [nested 100]) = false.
Proof. split; [apply forest_b_ok; vm_compute; reflexivity|]. vm_compute. repeat split; reflexivity. Qed.

(** C19. An error is reported exactly for documents that are not valid, at a position of
    the document: line-1 newlines and a last line of column bytes precede it. *)
Theorem C19_no_error : forall xml, validate_with_error xml = None <-> valid xml = true.
Proof.
  intros xml. unfold validate_with_error, valid. destruct (validate_total xml) as [r ->]. destruct r; split; auto; discriminate.
Qed.
Print Assumptions C19_no_error.
Theorem C19_position : forall xml line col msg, validate_with_error xml = Some (line, col, msg) ->
  exists p s, xml = p ++ s /\ line = 1 + newlines p /\ last_line p col.
Proof.
  intros xml line col msg H. unfold validate_with_error in H. destruct (validate xml) as [[e|]|] eqn:V; try discriminate.
  destruct (error_position _ _ V) as [p E]. exists p, (ve_at e). split; auto. rewrite E, line_col_prefix in H.
  destruct (line_col_spec p) as [L1 L2]. injection H as H _. rewrite H in L1, L2. auto.
Qed.
Print Assumptions C19_position.
Example C19_example :
  validate_with_error (bs "<r>" ++ [lf] ++ bs "  <a>x</b>" ++ [lf] ++ bs "</r>") = Some (2, 6, VMismatch (bs "b") (bs "a") (bs "<a>x</b>" ++ [lf] ++ bs "</r>")) /\
  validate_with_error (bs "<r/>") = None /\ validate_with_error (bs "<r><a>") = Some (1, 3, VUnclosedTag (bs "a")).
Proof. vm_compute. repeat split; reflexivity. Qed.
