(** Model of /repo/validate.go. The position of the validating parser is the
    unread suffix of the document. Line and column are changed only by advance
    (validate.go:52-68), the only function that moves the position, so they are a
    function of the consumed prefix: [line_col]. Messages are constructors carrying what
    the code puts into the text; ModelMessage.v has the texts. *)
From Coq Require Import List Ascii String NArith ZArith Bool Lia.
From Verif Require Import GoStr ModelParser.
Import ListNotations.

(** validate.go:60-65 *)
Definition advance_lc (lc : nat * nat) (c : ascii) : nat * nat :=
  if Ascii.eqb c lf then (S (fst lc), 0) else (fst lc, S (snd lc)).
(** Line and column once the prefix has been consumed; validate.go:45-46 start
    at (1, 0). *)
Definition line_col (data rest : bytes) : nat * nat :=
  fold_left advance_lc (firstn (List.length data - List.length rest) data) (1, 0).

(** The messages of validate.go:82-152, 169-173, 236-311, 318-357, 378-447, 487-505,
    518-531, 545-550, 568-573. *)
Inductive vmsg :=
| VDocSize | VEmptyDoc | VOutsideRoot | VUnclosedTag (name : bytes) | VNoRoot | VEndInTag
| VNameSize | VEmptyName | VBadName (name : bytes) | VDepth | VExpectGt | VEmptyClose
| VNoOpen (name : bytes) | VMismatch (name opened opened_at : bytes)
| VTooManyAttrs | VBadAttrName (name : option bytes) | VExpectEq | VUnquoted | VTokenSize
| VEndOfDoc (delim : ascii)
| VDashDash | VUnclosedComment | VUnclosedCDATA | VUnclosedDoctype.
(** ValidateError (validate.go:9-13): the message and the unread suffix at the
    reported position. *)
Record verr := mkVerr { ve_msg : vmsg; ve_at : bytes }.

(** validate.go:20-27: stack of open tags (name, position), newest first. *)
Record vstate := mkV {
  v_rest : bytes;
  v_stack : list (bytes * bytes);
  v_root_found : bool;
  v_root_closed : bool
}.

(** validate.go:467-473 *)
Definition name_char (c : ascii) : bool :=
  is_lower c || is_upper c || is_digit c || mem c (bs ".-_:").
(** validate.go:456-478: the same loop as readUntilAny, with the complementary
    stop condition; "" when the name exceeds MaxTokenSize. *)
Definition v_read_name (s : bytes) : bytes * bytes := read_stop (fun c => negb (name_char c)) s.
(** validate.go:576-601: true when there is no error. *)
Definition name_start (c : ascii) : bool := is_lower c || is_upper c || mem c (bs "_:").
Definition validate_name (n : bytes) : bool :=
  match n with
  | [] => false
  | c :: n' => name_start c && forallb name_char n'
  end.

(** validate.go:481-505 *)
Definition v_skip_until (d : ascii) (s : bytes) : verr + bytes :=
  let '(_, r, o) := read_loop (Ascii.eqb d) 0 s in
  if o then inl (mkVerr VTokenSize r)
  else match r with
       | [] => inl (mkVerr (VEndOfDoc d) [])
       | _ :: r' => inr r'
       end.

(** validate.go:508-531; the loop runs while at least three bytes are unread. *)
Fixpoint v_comment (s : bytes) : verr + bytes :=
  match s with
  | a :: ((b :: ((c :: r) as s2)) as s1) =>
      if Ascii.eqb a "-" && Ascii.eqb b "-" then
        if Ascii.eqb c ">" then inr r else inl (mkVerr VDashDash s2)
      else v_comment s1
  | _ => inl (mkVerr VUnclosedComment s)
  end.
(** validate.go:534-550 *)
Fixpoint v_cdata (s : bytes) : verr + bytes :=
  match s with
  | a :: ((b :: c :: r) as s1) =>
      if Ascii.eqb a "]" && Ascii.eqb b "]" && Ascii.eqb c ">" then inr r else v_cdata s1
  | _ => inl (mkVerr VUnclosedCDATA s)
  end.
(** validate.go:553-573 *)
Fixpoint v_doctype (depth : Z) (s : bytes) : verr + bytes :=
  match s with
  | [] => inl (mkVerr VUnclosedDoctype [])
  | c :: s' =>
      if Ascii.eqb c "[" then v_doctype (depth + 1) s'
      else if Ascii.eqb c "]" then v_doctype (depth - 1) s'
      else if Ascii.eqb c ">" && (depth =? 0)%Z then inr s'
      else v_doctype depth s'
  end.

(** validate.go:370-453. [n] is MaxAttributes - attrCount. *)
Fixpoint v_attributes (n : nat) (s0 : bytes) : verr + bytes :=
  let s := skip_ws s0 in
  match s with
  | [] => inl (mkVerr VEndInTag [])
  | c :: _ =>
      if Ascii.eqb c ">" || Ascii.eqb c "/" then inr s
      else
        match n with
        | O => inl (mkVerr VTooManyAttrs s)
        | S n' =>
            let '(name, s1) := v_read_name s in
            match name with
            | [] => inl (mkVerr (VBadAttrName None) s)
            | _ :: _ =>
                if negb (validate_name name) then inl (mkVerr (VBadAttrName (Some name)) s)
                else
                  let s2 := skip_ws s1 in
                  if negb (Ascii.eqb (peek s2) "=") then inl (mkVerr VExpectEq s2)
                  else
                    let s3 := skip_ws (next s2) in
                    let q := peek s3 in
                    if negb (Ascii.eqb q dquote) && negb (Ascii.eqb q squote)
                    then inl (mkVerr VUnquoted s3)
                    else
                      match v_skip_until q (next s3) with
                      | inl e => inl e
                      | inr s4 => v_attributes n' s4
                      end
            end
        end
  end.

(** validate.go:227-311; [at_tag] is the position of the '<', [s] the text after it. *)
Definition v_open (st : vstate) (at_tag s : bytes) : verr + vstate :=
  let '(name, s1) := v_read_name s in
  match name with
  | [] => inl (mkVerr (if Nat.ltb (List.length s1) (List.length s) then VNameSize else VEmptyName) s)
  | _ :: _ =>
      if negb (validate_name name) then inl (mkVerr (VBadName name) s)
      else if Nat.leb MaxNestingDepth (List.length (v_stack st)) then inl (mkVerr VDepth at_tag)
      else
        match v_attributes MaxAttributes s1 with
        | inl e => inl e
        | inr s2 =>
            let s3 := skip_ws s2 in
            let '(self, s4) := if Ascii.eqb (peek s3) "/" then (true, next s3) else (false, s3) in
            if negb (Ascii.eqb (peek s4) ">") then inl (mkVerr VExpectGt s4)
            else
              let empty := match v_stack st with [] => true | _ :: _ => false end in
              let closed := if v_root_found st && empty && v_root_closed st then false
                            else v_root_closed st in
              inr (if self
                   then mkV (next s4) (v_stack st) true (if empty then true else closed)
                   else mkV (next s4) ((name, at_tag) :: v_stack st) true closed)
        end
  end.

(** validate.go:314-367 *)
Definition v_close (st : vstate) (at_tag s : bytes) : verr + vstate :=
  let '(name, s1) := v_read_name s in
  match name with
  | [] => inl (mkVerr VEmptyClose s)
  | _ :: _ =>
      let s2 := skip_ws s1 in
      if negb (Ascii.eqb (peek s2) ">") then inl (mkVerr VExpectGt s2)
      else
        match v_stack st with
        | [] => inl (mkVerr (VNoOpen name) at_tag)
        | (open, open_at) :: stack' =>
            if negb (bytes_eqb open name) then inl (mkVerr (VMismatch name open open_at) at_tag)
            else inr (mkV (next s2) stack' (v_root_found st)
                          (match stack' with [] => true | _ :: _ => v_root_closed st end))
        end
  end.

Definition v_with_rest (st : vstate) (r : verr + bytes) : verr + vstate :=
  match r with
  | inl e => inl e
  | inr s => inr (mkV s (v_stack st) (v_root_found st) (v_root_closed st))
  end.

(** validate.go:162-224; [at_tag] starts with '<', [s] is the rest. *)
Definition v_tag (st : vstate) (at_tag s : bytes) : verr + vstate :=
  match s with
  | [] => inl (mkVerr VEndInTag at_tag)
  | n :: s1 =>
      if Ascii.eqb n "?" then v_with_rest st (v_skip_until ">" s1)
      else if Ascii.eqb n "!" then
        if has_prefix (bs "DOCTYPE") s1 || has_prefix (bs "doctype") s1
        then v_with_rest st (v_doctype 0 s1)
        else
          match strip_prefix (bs "--") s1 with
          | Some s2 => v_with_rest st (v_comment s2)
          | None =>
              match strip_prefix (bs "[CDATA[") s1 with
              | Some s2 => v_with_rest st (v_cdata s2)
              | None => v_with_rest st (v_skip_until ">" s1)
              end
          end
      else if Ascii.eqb n "/" then v_close st at_tag s1
      else v_open st at_tag s
  end.

(** validate.go:98-131; [None]: out of fuel, proved impossible. *)
Fixpoint v_loop (fuel : nat) (st : vstate) : option (verr + vstate) :=
  match fuel with
  | O => None
  | S f =>
      let s := skip_ws (v_rest st) in
      match s with
      | [] => Some (inr (mkV [] (v_stack st) (v_root_found st) (v_root_closed st)))
      | c :: s1 =>
          if Ascii.eqb c "<" then
            match v_tag st s s1 with
            | inl e => Some (inl e)
            | inr st' => v_loop f st'
            end
          else if negb (v_root_found st) || v_root_closed st then
            Some (inl (mkVerr VOutsideRoot s))
          else v_loop f (mkV s1 (v_stack st) (v_root_found st) (v_root_closed st))
      end
  end.

(** validate.go:79-152: [Some (Some e)] error, [Some None] valid. *)
Definition v_finish (data : bytes) (st : vstate) : option verr :=
  match v_stack st with
  | (name, at_tag) :: _ => Some (mkVerr (VUnclosedTag name) at_tag)
  | [] => if v_root_found st then None else Some (mkVerr VNoRoot data)
  end.
Definition validate (data : bytes) : option (option verr) :=
  if (MaxDocumentSize <? blen data)%N then Some (Some (mkVerr VDocSize data))
  else
    match data with
    | [] => Some (Some (mkVerr VEmptyDoc data))
    | _ :: _ =>
        match v_loop (S (List.length data)) (mkV data [] false false) with
        | None => None
        | Some (inl e) => Some (Some e)
        | Some (inr st) => Some (v_finish data st)
        end
    end.
(** validate.go:605-613 *)
Definition valid (data : bytes) : bool :=
  match validate data with Some None => true | _ => false end.
(** validate.go:617-625: ValidateWithError and ValidateBytesWithError. *)
Definition validate_with_error (data : bytes) : option (nat * nat * vmsg) :=
  match validate data with
  | Some (Some e) => Some (line_col data (ve_at e), ve_msg e)
  | _ => None
  end.
