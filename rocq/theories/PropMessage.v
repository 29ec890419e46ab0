(** C70: the texts of validation errors. *)
From Coq Require Import List Ascii String NArith ZArith Bool Lia.
From Verif Require Import GoStr ModelParser ModelValidate ModelResult ModelMessage SpecText SpecPath SpecTree SpecValid SpecFault SpecContent SpecMessage
  ProofBase ProofMessage PropTree PropValid PropFault.
Import ListNotations.

(** C70. ValidateWithError returns nil exactly for accepted documents; otherwise Line and
    Column are the place of the first fault and Message is the sentence for it. *)
Theorem C70_report : forall xml line col t, validate_report xml = Some (line, col, t) <->
  exists m r, first_fault xml m r /\ place xml r line col /\ worded xml m t.
Proof. exact report_worded. Qed.
Print Assumptions C70_report.
Theorem C70_silent : forall xml, validate_report xml = None <-> accepted_document xml.
Proof. exact silent_accepted. Qed.
Print Assumptions C70_silent.
(** The text of Error(). *)
Theorem C70_text : forall xml e, validate_error_text xml = Some e <->
  exists m r line col t, first_fault xml m r /\ place xml r line col /\ worded xml m t /\ e = error_sentence line col t.
Proof. exact text_worded. Qed.
Print Assumptions C70_text.
Definition crossed : bytes := bs "<r>" ++ [lf] ++ bs " <a x='1'>" ++ [lf] ++ bs "  <b></a></b></r>".
Example C70_text_example :
  validate_error_text crossed = Some (bs "XML validation error at line 3, column 5: mismatched closing tag 'a' (expected 'b' opened at line 3, column 2)") /\
  validate_report (bs "<r>" ++ [lf] ++ bs "<1a/></r>") = Some (2, 1, bs "invalid element name '1a': name cannot start with a digit") /\
  validate_report (bs "<r -x='1'/>") = Some (1, 3, bs "invalid attribute name '-x': invalid first character '-'") /\
  validate_report (bs "<r a='1/>") = Some (1, 9, bs "unexpected end of document (expected '" ++ [squote] ++ bs "')") /\
  validate_report (bs "<r><a>") = Some (1, 3, bs "unclosed tag 'a'") /\
  validate_report (bs "<r/></a>") = Some (1, 4, bs "closing tag 'a' without matching opening tag") /\
  validate_report (bs "<r/>") = None.
Proof. vm_compute. repeat split; reflexivity. Qed.

(** A report about an end tag names that tag and another element whose start tag stands
    before it, at the place given. *)
Theorem C70_mismatch : forall xml n o t r, first_fault xml (VMismatch n o t) r ->
  o <> n /\ (exists q, r = bs "</" ++ n ++ q) /\ (exists p, xml = p ++ t) /\ exists q, t = "<"%char :: o ++ q ++ r.
Proof. exact (fun xml n o t r H => first_cites xml (VMismatch n o t) r H). Qed.
Print Assumptions C70_mismatch.
(** The other names in reports stand at the place given. *)
Theorem C70_names : forall xml m r, first_fault xml m r -> (exists p, xml = p ++ r) /\
  match m with
  | VUnclosedTag n => exists q, r = "<"%char :: n ++ q
  | VNoOpen n => exists q, r = bs "</" ++ n ++ q
  | VBadName n | VBadAttrName (Some n) => exists q, r = n ++ q
  | _ => True
  end.
Proof. exact cited_names. Qed.
Print Assumptions C70_names.
Example C70_mismatch_example :
  first_fault crossed (VMismatch (bs "a") (bs "b") (bs "<b></a></b></r>")) (bs "</a></b></r>") /\
  first_fault (bs "<r/></a>") (VNoOpen (bs "a")) (bs "</a>").
Proof. split; apply (ProofFault3.validate_fault _ (mkVerr _ _)); vm_compute; reflexivity. Qed.

(** The whole message for an element closed by a tag of another name, in any document
    written from a tree up to that place. *)
Theorem C70_written_mismatch : forall p F L n a K m w s, strict_prolog p -> Forall good F -> Forall top_node F -> shallow F -> writable 0 (L ++ [(n, a, K)]) ->
  xml_name m -> blanks w -> n <> m ->
  let outer := p ++ forest_text F ++ levels_text L in
  let before := outer ++ start_tag n a false ++ forest_text K in
  let xml := before ++ bs "</" ++ m ++ w ++ bs ">" ++ s in
  (N.of_nat (List.length xml) <= 10485760)%N -> exists col col',
  validate_report xml = Some (1 + newlines before, col, bs "mismatched closing tag '" ++ m ++ bs "' (expected '" ++ n ++
    bs "' opened at line " ++ dec (1 + newlines outer) ++ bs ", column " ++ dec col' ++ bs ")") /\
  last_line before col /\ last_line outer col'.
Proof. exact written_mismatch. Qed.
Print Assumptions C70_written_mismatch.
Example C70_written_example :
  strict_prolog sample_prolog /\ Forall good sample /\ Forall top_node sample /\ shallow sample /\ writable 0 part /\
  validate_report (before_part ++ bs "<i><j/> x</r ></i>") =
    Some (3, 9, bs "mismatched closing tag 'r' (expected 'i' opened at line 3, column 0)").
Proof.
  split; [apply sample_strict|]. split; [apply sample_good|]. split; [repeat constructor|]. split; [repeat constructor; vm_compute; lia|].
  split; [apply part_writable|]. vm_compute. reflexivity.
Qed.
