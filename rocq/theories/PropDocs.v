(** Statements of the documentation that the code does not meet (C13, C28, C30, C41, C45). *)
From Coq Require Import List Ascii String NArith ZArith Bool.
From Verif Require Import GoStr ModelParser ModelPath ModelResult ModelQuery ModelValidate ModelBuilder.
Import ListNotations.
Notation get := ModelQuery.get.

(** docs/path-syntax.md:134-142: "Leading and trailing whitespace in element text is
    preserved". The text of an element is trimmed, on the very document of the example. *)
Theorem C28_whitespace_refuted : exists xml path, valid xml = true /\ match get env0 xml path with
  | Ok r => r_raw r = bs "  value  " /\ r_string r = bs "value" | _ => False end.
Proof. exists (bs "<root><text>  value  </text></root>"), (bs "root.text"). vm_compute. auto. Qed.
Print Assumptions C28_whitespace_refuted.

(** docs/path-syntax.md:750-764: "Without modifiers, wildcards return the first match". A list
    of all is returned, whose text is not that of the first. *)
Theorem C30_first_refuted : exists xml, valid xml = true /\
  match get env0 xml (bs "items.*"), get env0 xml (bs "items.item") with
  | Ok r, Ok r' => r_type r = RArray /\ r_string r' = bs "First" /\ r_string r = bs "[""First"",""Second"",""Third""]"
  | _, _ => False end.
Proof. exists (bs "<items> <item>First</item> <item>Second</item> <item>Third</item> </items>"). vm_compute. auto. Qed.
Print Assumptions C30_first_refuted.

(** docs/error-handling.md:21-28: empty documents are among the causes of ErrMalformedXML. Set
    takes the empty document for a new one and creates the elements of the path; only Delete
    reports the error (C13_delete_refuses). *)
Theorem C13_empty_refuted : exists path v, set env0 (fun _ => []) [] path v = Ok (bs "<a><b>1</b></a>", None) /\
  delete env0 [] path = Ok ([], Some ErrMalformedXML).
Proof. exists (bs "a.b"), (VStr (bs "1")). vm_compute. auto. Qed.
Print Assumptions C13_empty_refuted.

(** docs/error-handling.md:104: "Malformed XML returns empty results gracefully". A query does
    not check the document: one whose elements are never closed is answered. *)
Theorem C41_malformed_refuted : exists xml path, valid xml = false /\ match get env0 xml path with
  | Ok r => r_exists r = true /\ r_string r = bs "1" | _ => False end.
Proof. exists (bs "<a><b>1</b>"), (bs "a.b"). vm_compute. auto. Qed.
Print Assumptions C41_malformed_refuted.

(** docs/path-syntax.md:1275-1291: the String() of `root|@ugly` is the compacted markup,
    including the element itself. It is the text; only Raw is compacted, and is the inside. *)
Theorem C45_string_refuted : exists xml path, valid xml = true /\ match get env0 xml path with
  | Ok r => r_string r = bs "value" /\ r_raw r = bs "<child><item>value</item></child>" | _ => False end.
Proof. exists (bs "<root> <child> <item>value</item> </child> </root>"), (bs "root|@ugly"). vm_compute. auto. Qed.
Print Assumptions C45_string_refuted.

(** set.go:430-453: a nil slice is no document, whatever the path, the value and the options
    are; an empty one that is not nil is a new document. *)
Theorem C13_nil_bytes : forall E g (o : options) path v,
  set_bytes_opts E g o None path v = Ok (None, Some ErrMalformedXML) /\
  (forall d e, set_opts E g o [] path v = Ok (d, e) -> set_bytes_opts E g o (Some []) path v = Ok (Some d, e)).
Proof. intros E g o path v. split; [reflexivity|]. intros d e H. cbn [set_bytes_opts]. now rewrite H. Qed.
Print Assumptions C13_nil_bytes.
Example C13_nil_bytes_example :
  set_bytes_opts env0 (fun _ => []) default_options None (bs "a") VNil = Ok (None, Some ErrMalformedXML) /\
  set_bytes_opts env0 (fun _ => []) default_options (Some []) (bs "a") (VBool true) = Ok (Some (bs "<a>true</a>"), None).
Proof. vm_compute. auto. Qed.
