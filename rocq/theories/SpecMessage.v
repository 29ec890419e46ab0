(** How the report about a document that is refused is worded. Only the names of the
    messages are taken from the model of the library. *)
From Coq Require Import List Ascii String NArith ZArith Bool.
From Verif Require Import GoStr ModelValidate SpecText SpecPath SpecValid SpecFault SpecContent.
Import ListNotations.

Definition dec (n : nat) : bytes := decimal (Z.of_nat n).
(** Line and column of the place in [whole] where the text [r] begins: lines are counted
    from 1, columns from 0. *)
Definition place (whole r : bytes) (line col : nat) : Prop :=
  exists p, whole = p ++ r /\ line = 1 + newlines p /\ last_line p col.
(** Why a text made of name characters is not a name. *)
Inductive misnamed : bytes -> bytes -> Prop :=
| mn_digit : forall c n, digit c -> misnamed (c :: n) (bs "name cannot start with a digit")
| mn_other : forall c n, ~ digit c -> ~ name_head c -> misnamed (c :: n) (bs "invalid first character '" ++ [c] ++ bs "'").
(** The sentence for each kind of fault. *)
Inductive worded (whole : bytes) : vmsg -> bytes -> Prop :=
| wo_size : worded whole VDocSize (bs "document exceeds maximum size of 10485760 bytes")
| wo_empty : worded whole VEmptyDoc (bs "empty document")
| wo_outside : worded whole VOutsideRoot (bs "content not allowed outside root element")
| wo_unclosed : forall n, worded whole (VUnclosedTag n) (bs "unclosed tag '" ++ n ++ bs "'")
| wo_root : worded whole VNoRoot (bs "no root element found")
| wo_end : worded whole VEndInTag (bs "unexpected end of document in tag")
| wo_long : worded whole VNameSize (bs "element name exceeds maximum token size")
| wo_nameless : worded whole VEmptyName (bs "empty element name")
| wo_name : forall n why, misnamed n why -> worded whole (VBadName n) (bs "invalid element name '" ++ n ++ bs "': " ++ why)
| wo_depth : worded whole VDepth (bs "nesting depth exceeds maximum of 100")
| wo_gt : worded whole VExpectGt (bs "expected '>' to close tag")
| wo_close : worded whole VEmptyClose (bs "empty closing tag name")
| wo_no_open : forall n, worded whole (VNoOpen n) (bs "closing tag '" ++ n ++ bs "' without matching opening tag")
| wo_mismatch : forall n o t line col, place whole t line col ->
    worded whole (VMismatch n o t) (bs "mismatched closing tag '" ++ n ++ bs "' (expected '" ++ o ++ bs "' opened at line " ++
                                    dec line ++ bs ", column " ++ dec col ++ bs ")")
| wo_many : worded whole VTooManyAttrs (bs "too many attributes (maximum 100)")
| wo_attr_nameless : worded whole (VBadAttrName None) (bs "invalid attribute name")
| wo_attr_name : forall n why, misnamed n why -> worded whole (VBadAttrName (Some n)) (bs "invalid attribute name '" ++ n ++ bs "': " ++ why)
| wo_equals : worded whole VExpectEq (bs "expected '=' after attribute name")
| wo_quote : worded whole VUnquoted (bs "attribute value must be quoted")
| wo_token : worded whole VTokenSize (bs "token exceeds maximum size")
| wo_unended : forall d, worded whole (VEndOfDoc d) (bs "unexpected end of document (expected '" ++ [d] ++ bs "')")
| wo_hyphens : worded whole VDashDash (bs "'--' not allowed in comment")
| wo_comment : worded whole VUnclosedComment (bs "unclosed comment")
| wo_cdata : worded whole VUnclosedCDATA (bs "unclosed CDATA section")
| wo_doctype : worded whole VUnclosedDoctype (bs "unclosed DOCTYPE declaration").
(** The whole text of the error. *)
Definition error_sentence (line col : nat) (t : bytes) : bytes :=
  bs "XML validation error at line " ++ dec line ++ bs ", column " ++ dec col ++ bs ": " ++ t.
