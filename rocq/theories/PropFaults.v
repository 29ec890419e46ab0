(** Limits of C02, C04, C28, C42 and C57: places where the library departs from what these
    properties say of canonical documents and plain paths. *)
From Coq Require Import List Ascii String NArith ZArith Bool Lia.
From Verif Require Import GoStr ModelParser ModelPath ModelResult ModelQuery ModelValidate ModelBuilder.
Import ListNotations.

(** C42. What precedes the root element can hide it: a CDATA section or a declaration that
    is not all capitals is accepted before the root, but Get takes the `<!--` in the one for a comment
    and looks for the end of the bracket in the other. *)
Theorem C42_invisible_refuted : exists xml, xml = bs "<![CDATA[<!--]]><r>x</r>" /\
  valid xml = true /\ get env0 xml (bs "r") = Ok r_null /\ get env0 xml (bs "*") = Ok r_null /\ delete env0 xml (bs "r") = Ok (xml, None).
Proof. eexists. split; [reflexivity|]. vm_compute. repeat split; reflexivity. Qed.
Theorem C42_declaration_refuted : exists xml, xml = bs "<!Doctype [><r>x</r>" /\
  valid xml = true /\ get env0 xml (bs "r") = Ok r_null /\ get env0 xml (bs "*") = Ok r_null /\ delete env0 xml (bs "r") = Ok (xml, None).
Proof. eexists. split; [reflexivity|]. vm_compute. repeat split; reflexivity. Qed.
Print Assumptions C42_declaration_refuted.
Print Assumptions C42_invisible_refuted.

(** C02. Set writes to the element with index 1000, and Get does not see it. *)
Definition row (last : bytes) : bytes := bs "<r>" ++ N.iter 1000 (fun s => bs "<i/>" ++ s) (bs "<i>" ++ last ++ bs "</i></r>").
Theorem C02_far_refuted : exists xml path, set env0 (fun _ => []) xml path (VStr (bs "new")) = Ok (row (bs "new"), None) /\
  xml = row (bs "old") /\ path = bs "r.i.1000" /\ valid xml = true /\ get env0 (row (bs "new")) path = Ok r_null.
Proof. exists (row (bs "old")), (bs "r.i.1000"). vm_compute. repeat split; reflexivity. Qed.
Print Assumptions C02_far_refuted.

(** C28. The text step finds nothing after an index below the root, *)
Theorem C28_indexed_text_refuted : exists xml r, get env0 xml (bs "a.b.%") = Ok r /\ r_string r = bs "x" /\ r_type r = RString /\
  get env0 xml (bs "a.b.0") <> Ok r_null /\ get env0 xml (bs "a.b.0.%") = Ok r_null.
Proof.
  eexists (bs "<a><b>x</b></a>"), _. split; [vm_compute; reflexivity|]. repeat split; try (vm_compute; reflexivity). vm_compute. discriminate.
Qed.
Print Assumptions C28_indexed_text_refuted.
(** and what follows an attribute is ignored after an index, though not otherwise. *)
Theorem C28_indexed_attribute_refuted : exists xml r, get env0 xml (bs "a.b.@k.z") = Ok r_null /\ get env0 xml (bs "a.b.0.@k.z") = Ok r /\
  r_type r = RAttribute /\ r_string r = bs "1".
Proof.
  eexists (bs "<a><b k=""1"">x</b></a>"), _. split; [vm_compute; reflexivity|]. split; [vm_compute; reflexivity|]. split; reflexivity.
Qed.
Print Assumptions C28_indexed_attribute_refuted.

(** C57. The fields of the elements of a wildcard are not found. *)
Theorem C57_wildcard_refuted : exists xml r, get env0 xml (bs "r.*.#.name") = Ok r /\ r_type r = RArray /\ r_results r = [] /\
  xml = bs "<r><a><name>1</name></a><b><name>2</name></b></r>" /\ get env0 xml (bs "r.a.#.name") <> Ok r /\ get env0 xml (bs "r.b.#.name") <> Ok r.
Proof. eexists (bs "<r><a><name>1</name></a><b><name>2</name></b></r>"), _. split; [vm_compute; reflexivity|]. repeat split; try reflexivity; vm_compute; discriminate. Qed.
Print Assumptions C57_wildcard_refuted.

(** C04. builder.go:684-688 calls it impossible that the element it has just made is not found: it is not found at an index that does not exist. *)
Theorem C04_created_refuted : exists xml path v d d2, valid xml = true /\ path = bs "a.b.3.@k" /\
  create_element env0 default_options [0; 2] xml [mkSeg SElem (bs "a") 0 false None false [] []; mkSeg SElem (bs "b") 0 false None false [] []; mkSeg SIndex [] 3 false None false [] []] [] = Ok (inr d2) /\
  d2 <> xml /\ set env0 (fun _ => []) xml path (VStr v) = Ok (d, Some ErrInvalidPath).
Proof. eexists (bs "<a></a>"), _, (bs "x"), _, _. repeat split; try (vm_compute; reflexivity). vm_compute. discriminate. Qed.
Print Assumptions C04_created_refuted.
