(** C92: what follows a document is judged by itself, and documents cut short are rejected. *)
From Coq Require Import List Ascii String NArith ZArith Bool Lia.
From Verif Require Import GoStr ModelParser ModelValidate SpecText SpecPath SpecTree SpecQuery SpecValid
  ProofBase ProofTree8 ProofCut PropTree PropValid.
Import ListNotations.

(** C92. Text after a valid document is judged without regard to that document: after two
    valid documents it is accepted or rejected alike, and when it is rejected the message and
    the place in the text are the same. *)
Theorem C92_after : forall x y t, valid x = true -> valid y = true ->
  (N.of_nat (List.length (x ++ t)) <= 10485760)%N -> (N.of_nat (List.length (y ++ t)) <= 10485760)%N -> valid (x ++ t) = valid (y ++ t).
Proof. exact append_valid. Qed.
Print Assumptions C92_after.
Theorem C92_report : forall x y t, valid x = true -> valid y = true ->
  (N.of_nat (List.length (x ++ t)) <= 10485760)%N -> (N.of_nat (List.length (y ++ t)) <= 10485760)%N ->
  (validate_with_error (x ++ t) = None /\ validate_with_error (y ++ t) = None) \/
  exists p q m l c l' c', t = p ++ q /\
    validate_with_error (x ++ t) = Some (l, c, m) /\ l = 1 + newlines (x ++ p) /\ last_line (x ++ p) c /\
    validate_with_error (y ++ t) = Some (l', c', m) /\ l' = 1 + newlines (y ++ p) /\ last_line (y ++ p) c'.
Proof. exact append_report. Qed.
Print Assumptions C92_report.
(** Valid documents one after the other are a valid document. *)
Theorem C92_concat : forall x y, valid x = true -> valid y = true -> (N.of_nat (List.length (x ++ y)) <= 10485760)%N -> valid (x ++ y) = true.
Proof. exact concat_valid. Qed.
Print Assumptions C92_concat.
Example C92_after_example :
  valid (bs "<r><a/></r>") = true /\ valid (bs "<?p?><s/><!-- c -->") = true /\
  valid (bs "<r><a/></r>" ++ bs "<b>x</b>") = true /\ valid (bs "<?p?><s/><!-- c -->" ++ bs "<b>x</b>") = true /\
  validate_with_error (bs "<r><a/></r>" ++ bs " <b>x</c>") = Some (1, 16, VMismatch (bs "c") (bs "b") (bs "<b>x</c>")) /\
  validate_with_error (bs "<?p?><s/><!-- c -->" ++ bs " <b>x</c>") = Some (1, 24, VMismatch (bs "c") (bs "b") (bs "<b>x</c>")) /\
  valid (bs "<r><a/></r>" ++ bs "<?p?><s/><!-- c -->") = true.
Proof. vm_compute. repeat split; reflexivity. Qed.

(** C92. A document cut anywhere inside an element outside all others is not valid. *)
Theorem C92_cut : forall p F nd e1 e2, strict_prolog p -> Forall good F -> Forall top_node F -> good nd -> is_elem nd = true ->
  node_text nd = e1 ++ e2 -> e1 <> [] -> e2 <> [] -> valid (p ++ forest_text F ++ e1) = false.
Proof. exact cut_invalid. Qed.
Print Assumptions C92_cut.
(** A document with one root element, which comes last, has no valid proper prefix. *)
Theorem C92_one_root : forall p F nd y t, strict_prolog p -> Forall good F -> Forall top_node F -> (forall x, In x F -> is_elem x = false) ->
  good nd -> is_elem nd = true -> y ++ t = p ++ forest_text F ++ node_text nd -> t <> [] -> valid y = false.
Proof. exact one_root. Qed.
Print Assumptions C92_one_root.
Definition whole : node := Elem (bs "r") [(bs "k", bs "a>b")] false [Text (bs "x"); Elem (bs "i") [] true []; Misc (bs "-- c --"); Elem (bs "i") [] false [Text (bs "y")]].
Definition lead_in : list node := [Text [lf]; Misc (bs "-- d --")].
Example C92_cut_example :
  strict_prolog sample_prolog /\ Forall good lead_in /\ Forall top_node lead_in /\ good whole /\
  valid (sample_prolog ++ forest_text lead_in ++ node_text whole) = true /\
  forallb (fun k => negb (valid (firstn k (sample_prolog ++ forest_text lead_in ++ node_text whole))))
    (seq 0 (List.length (sample_prolog ++ forest_text lead_in ++ node_text whole))) = true.
Proof.
  split; [exact sample_strict|]. split; [apply forest_b_ok; vm_compute; reflexivity|]. split.
  { apply Forall_cons; [apply Forall_cons; [unfold blank; cbn; auto|constructor]|]. repeat constructor. }
  split; [apply good_b_ok; vm_compute; reflexivity|]. split; vm_compute; reflexivity.
Qed.
(** A cut between two root elements or in what follows the root goes unnoticed. *)
Theorem C92_between_refuted : exists x t, valid (x ++ t) = true /\ t <> [] /\ valid x = true.
Proof. exists (bs "<r/>"), (bs "<s>lost</s>"). split; [vm_compute; reflexivity|]. split; [discriminate|vm_compute; reflexivity]. Qed.
