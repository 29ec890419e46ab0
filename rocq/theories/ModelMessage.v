(** Model of the texts of validation errors: /repo/validate.go:15-17 and the messages built
    at the places where [ModelValidate] puts its constructors. *)
From Coq Require Import List Ascii String NArith ZArith Bool.
From Verif Require Import GoStr ModelParser ModelValidate ModelResult.
Import ListNotations.

(** '%c' in fmt.Sprintf with a byte: the character with that code (validate.go:503, 587, 596). *)
Definition show_char (c : ascii) : bytes := encode_rune (code c).
(** validate.go:590-599: the loop over the bytes after the first; [i] is the position. *)
Fixpoint name_rest_error (i : nat) (n : bytes) : option bytes :=
  match n with
  | [] => None
  | c :: n' =>
      if negb (is_lower c) && negb (is_upper c) && negb (is_digit c) && negb (Ascii.eqb c ".") &&
         negb (Ascii.eqb c "-") && negb (Ascii.eqb c "_") && negb (Ascii.eqb c ":")
      then Some (bs "invalid character '" ++ show_char c ++ bs "' at position " ++ itoa i)
      else name_rest_error (S i) n'
  end.
(** validate.go:576-602: the text of the error, [None] when there is none. *)
Definition name_error (n : bytes) : option bytes :=
  match n with
  | [] => Some (bs "empty name")
  | c :: n' =>
      if negb (is_lower c) && negb (is_upper c) && negb (Ascii.eqb c "_") && negb (Ascii.eqb c ":") then
        if is_digit c then Some (bs "name cannot start with a digit")
        else Some (bs "invalid first character '" ++ show_char c ++ bs "'")
      else name_rest_error 1 n'
  end.
(** %s with the error of validateName; it is only printed when there is one
    (validate.go:248-255, 409-416). *)
Definition show_name_error (n : bytes) : bytes :=
  match name_error n with Some t => t | None => bs "%!s(<nil>)" end.

(** The Message fields: validate.go:85, 94, 120, 138, 147, 172, 239, 245, 254, 263, 285,
    323, 334, 344, 354, 380, 394, 406, 415, 428, 441, 489, 503, 520, 529, 548, 571. *)
Definition message (data : bytes) (m : vmsg) : bytes :=
  match m with
  | VDocSize => bs "document exceeds maximum size of 10485760 bytes"
  | VEmptyDoc => bs "empty document"
  | VOutsideRoot => bs "content not allowed outside root element"
  | VUnclosedTag n => bs "unclosed tag '" ++ n ++ bs "'"
  | VNoRoot => bs "no root element found"
  | VEndInTag => bs "unexpected end of document in tag"
  | VNameSize => bs "element name exceeds maximum token size"
  | VEmptyName => bs "empty element name"
  | VBadName n => bs "invalid element name '" ++ n ++ bs "': " ++ show_name_error n
  | VDepth => bs "nesting depth exceeds maximum of 100"
  | VExpectGt => bs "expected '>' to close tag"
  | VEmptyClose => bs "empty closing tag name"
  | VNoOpen n => bs "closing tag '" ++ n ++ bs "' without matching opening tag"
  | VMismatch n o at_ =>
      let '(line, col) := line_col data at_ in
      bs "mismatched closing tag '" ++ n ++ bs "' (expected '" ++ o ++ bs "' opened at line " ++
      itoa line ++ bs ", column " ++ itoa col ++ bs ")"
  | VTooManyAttrs => bs "too many attributes (maximum 100)"
  | VBadAttrName None => bs "invalid attribute name"
  | VBadAttrName (Some n) => bs "invalid attribute name '" ++ n ++ bs "': " ++ show_name_error n
  | VExpectEq => bs "expected '=' after attribute name"
  | VUnquoted => bs "attribute value must be quoted"
  | VTokenSize => bs "token exceeds maximum size"
  | VEndOfDoc d => bs "unexpected end of document (expected '" ++ show_char d ++ bs "')"
  | VDashDash => bs "'--' not allowed in comment"
  | VUnclosedComment => bs "unclosed comment"
  | VUnclosedCDATA => bs "unclosed CDATA section"
  | VUnclosedDoctype => bs "unclosed DOCTYPE declaration"
  end.
(** validate.go:9-13, 617-625: Line, Column and Message of the error returned. *)
Definition validate_report (data : bytes) : option (nat * nat * bytes) :=
  match validate_with_error data with
  | Some (line, col, m) => Some (line, col, message data m)
  | None => None
  end.
(** validate.go:15-17: ValidateWithError(data).Error(). *)
Definition validate_error_text (data : bytes) : option bytes :=
  match validate_report data with
  | Some (line, col, t) =>
      Some (bs "XML validation error at line " ++ itoa line ++ bs ", column " ++ itoa col ++ bs ": " ++ t)
  | None => None
  end.
