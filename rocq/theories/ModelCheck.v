(** The validating parser of ModelValidate.v (/repo/validate.go) with a count of the bytes it
    looks at: 1 for every round of a loop and for the test that ends it, 1 for every byte a
    name is compared with or checked for, 1 for every single look at the next byte, and 23 for
    the four comparisons with fixed texts after "<!" (validate.go:187-207).  Erasing the count
    gives the functions of ModelValidate.v (ProofCheck.v).  advance (validate.go:52-68) changes
    position, line and column by additions only; it goes with the byte that was looked at.
    The making of the message of an error, once at the end, is not counted. *)
From Coq Require Import List Ascii String NArith ZArith Bool.
From Verif Require Import GoStr ModelParser ModelValidate.
Import ListNotations.

(** validate.go:155-159; see [skip_ws]. *)
Fixpoint c_skip_ws (s : bytes) : bytes * nat :=
  match s with
  | c :: s' => if is_ws c then let '(r, k) := c_skip_ws s' in (r, S k) else (s, 1)
  | [] => ([], 1)
  end.
(** The loops of validate.go:456-505; see [read_loop]. *)
Fixpoint c_read_loop (stop : ascii -> bool) (n : N) (s : bytes) : (bytes * bytes * bool) * nat :=
  match s with
  | [] => (([], [], false), 1)
  | c :: s' =>
      if (MaxTokenSize <? n)%N then (([], s, true), 1)
      else if stop c then (([], s, false), 1)
      else let '((t, r, o), k) := c_read_loop stop (n + 1) s' in ((c :: t, r, o), S k)
  end.
(** validate.go:456-478; see [v_read_name]. *)
Definition c_read_name (s : bytes) : (bytes * bytes) * nat :=
  let '((t, r, o), k) := c_read_loop (fun c => negb (name_char c)) 0 s in
  ((if o then [] else t, r), k).
(** validate.go:576-601; see [validate_name]. *)
Fixpoint c_name_rest (n : bytes) : bool * nat :=
  match n with
  | [] => (true, 1)
  | c :: n' => if name_char c then let '(b, k) := c_name_rest n' in (b, S k) else (false, 1)
  end.
Definition c_validate_name (n : bytes) : bool * nat :=
  match n with
  | [] => (false, 1)
  | c :: n' => if name_start c then let '(b, k) := c_name_rest n' in (b, S k) else (false, 1)
  end.
(** validate.go:481-505; see [v_skip_until]. *)
Definition c_skip_until (d : ascii) (s : bytes) : (verr + bytes) * nat :=
  let '((_, r, o), k) := c_read_loop (Ascii.eqb d) 0 s in
  (if o then inl (mkVerr VTokenSize r)
   else match r with
        | [] => inl (mkVerr (VEndOfDoc d) [])
        | _ :: r' => inr r'
        end, k).
(** validate.go:508-531; see [v_comment]. *)
Fixpoint c_comment (s : bytes) : (verr + bytes) * nat :=
  match s with
  | a :: ((b :: ((c :: r) as s2)) as s1) =>
      if Ascii.eqb a "-" && Ascii.eqb b "-" then
        (if Ascii.eqb c ">" then inr r else inl (mkVerr VDashDash s2), 3)
      else let '(x, k) := c_comment s1 in (x, 2 + k)
  | _ => (inl (mkVerr VUnclosedComment s), 1)
  end.
(** validate.go:534-550; see [v_cdata]. *)
Fixpoint c_cdata (s : bytes) : (verr + bytes) * nat :=
  match s with
  | a :: ((b :: c :: r) as s1) =>
      if Ascii.eqb a "]" && Ascii.eqb b "]" && Ascii.eqb c ">" then (inr r, 3)
      else let '(x, k) := c_cdata s1 in (x, 3 + k)
  | _ => (inl (mkVerr VUnclosedCDATA s), 1)
  end.
(** validate.go:553-573; see [v_doctype]. *)
Fixpoint c_doctype (depth : Z) (s : bytes) : (verr + bytes) * nat :=
  match s with
  | [] => (inl (mkVerr VUnclosedDoctype []), 1)
  | c :: s' =>
      if Ascii.eqb c "[" then let '(x, k) := c_doctype (depth + 1) s' in (x, S k)
      else if Ascii.eqb c "]" then let '(x, k) := c_doctype (depth - 1) s' in (x, S k)
      else if Ascii.eqb c ">" && (depth =? 0)%Z then (inr s', 1)
      else let '(x, k) := c_doctype depth s' in (x, S k)
  end.

(** validate.go:370-453; see [v_attributes]. *)
Fixpoint c_attributes (n : nat) (s0 : bytes) : (verr + bytes) * nat :=
  let '(s, k0) := c_skip_ws s0 in
  match s with
  | [] => (inl (mkVerr VEndInTag []), k0)
  | c :: _ =>
      if Ascii.eqb c ">" || Ascii.eqb c "/" then (inr s, k0 + 1)
      else
        match n with
        | O => (inl (mkVerr VTooManyAttrs s), k0 + 1)
        | S n' =>
            let '((name, s1), k1) := c_read_name s in
            match name with
            | [] => (inl (mkVerr (VBadAttrName None) s), k0 + 1 + k1)
            | _ :: _ =>
                let '(good, k2) := c_validate_name name in
                if negb good then (inl (mkVerr (VBadAttrName (Some name)) s), k0 + 1 + k1 + k2)
                else
                  let '(s2, k3) := c_skip_ws s1 in
                  if negb (Ascii.eqb (peek s2) "=") then (inl (mkVerr VExpectEq s2), k0 + 1 + k1 + k2 + k3 + 1)
                  else
                    let '(s3, k4) := c_skip_ws (next s2) in
                    let q := peek s3 in
                    if negb (Ascii.eqb q dquote) && negb (Ascii.eqb q squote)
                    then (inl (mkVerr VUnquoted s3), k0 + 1 + k1 + k2 + k3 + 1 + k4 + 1)
                    else
                      let '(x, k5) := c_skip_until q (next s3) in
                      match x with
                      | inl e => (inl e, k0 + 1 + k1 + k2 + k3 + 1 + k4 + 1 + k5)
                      | inr s4 => let '(y, k6) := c_attributes n' s4 in (y, k0 + 1 + k1 + k2 + k3 + 1 + k4 + 1 + k5 + k6)
                      end
            end
        end
  end.

(** validate.go:227-311; see [v_open]. *)
Definition c_open (st : vstate) (at_tag s : bytes) : (verr + vstate) * nat :=
  let '((name, s1), k1) := c_read_name s in
  match name with
  | [] => (inl (mkVerr (if Nat.ltb (List.length s1) (List.length s) then VNameSize else VEmptyName) s), k1)
  | _ :: _ =>
      let '(good, k2) := c_validate_name name in
      if negb good then (inl (mkVerr (VBadName name) s), k1 + k2)
      else if Nat.leb MaxNestingDepth (List.length (v_stack st)) then (inl (mkVerr VDepth at_tag), k1 + k2)
      else
        let '(x, k3) := c_attributes MaxAttributes s1 in
        match x with
        | inl e => (inl e, k1 + k2 + k3)
        | inr s2 =>
            let '(s3, k4) := c_skip_ws s2 in
            let '(self, s4) := if Ascii.eqb (peek s3) "/" then (true, next s3) else (false, s3) in
            if negb (Ascii.eqb (peek s4) ">") then (inl (mkVerr VExpectGt s4), k1 + k2 + k3 + k4 + 2)
            else
              let empty := match v_stack st with [] => true | _ :: _ => false end in
              let closed := if v_root_found st && empty && v_root_closed st then false
                            else v_root_closed st in
              (inr (if self
                    then mkV (next s4) (v_stack st) true (if empty then true else closed)
                    else mkV (next s4) ((name, at_tag) :: v_stack st) true closed), k1 + k2 + k3 + k4 + 2)
        end
  end.

(** The comparison of names in validate.go:347; see [bytes_eqb]. *)
Fixpoint c_eqb (a b : bytes) : bool * nat :=
  match a, b with
  | [], [] => (true, 1)
  | x :: a', y :: b' => if Ascii.eqb x y then let '(e, k) := c_eqb a' b' in (e, S k) else (false, 1)
  | _, _ => (false, 1)
  end.
(** validate.go:314-367; see [v_close]. *)
Definition c_close (st : vstate) (at_tag s : bytes) : (verr + vstate) * nat :=
  let '((name, s1), k1) := c_read_name s in
  match name with
  | [] => (inl (mkVerr VEmptyClose s), k1)
  | _ :: _ =>
      let '(s2, k2) := c_skip_ws s1 in
      if negb (Ascii.eqb (peek s2) ">") then (inl (mkVerr VExpectGt s2), k1 + k2 + 1)
      else
        match v_stack st with
        | [] => (inl (mkVerr (VNoOpen name) at_tag), k1 + k2 + 1)
        | (open, open_at) :: stack' =>
            let '(same, k3) := c_eqb open name in
            if negb same then (inl (mkVerr (VMismatch name open open_at) at_tag), k1 + k2 + 1 + k3)
            else (inr (mkV (next s2) stack' (v_root_found st)
                           (match stack' with [] => true | _ :: _ => v_root_closed st end)), k1 + k2 + 1 + k3)
        end
  end.

(** validate.go:162-224; see [v_tag]. *)
Definition c_with_rest (st : vstate) (r : (verr + bytes) * nat) (k0 : nat) : (verr + vstate) * nat :=
  let '(x, k) := r in (v_with_rest st x, k0 + k).
Definition c_tag (st : vstate) (at_tag s : bytes) : (verr + vstate) * nat :=
  match s with
  | [] => (inl (mkVerr VEndInTag at_tag), 1)
  | n :: s1 =>
      if Ascii.eqb n "?" then c_with_rest st (c_skip_until ">" s1) 1
      else if Ascii.eqb n "!" then
        if has_prefix (bs "DOCTYPE") s1 || has_prefix (bs "doctype") s1
        then c_with_rest st (c_doctype 0 s1) 24
        else
          match strip_prefix (bs "--") s1 with
          | Some s2 => c_with_rest st (c_comment s2) 24
          | None =>
              match strip_prefix (bs "[CDATA[") s1 with
              | Some s2 => c_with_rest st (c_cdata s2) 24
              | None => c_with_rest st (c_skip_until ">" s1) 24
              end
          end
      else if Ascii.eqb n "/" then let '(x, k) := c_close st at_tag s1 in (x, S k)
      else let '(x, k) := c_open st at_tag s in (x, S k)
  end.

(** validate.go:98-131; see [v_loop]. *)
Fixpoint c_loop (fuel : nat) (st : vstate) : option (verr + vstate) * nat :=
  match fuel with
  | O => (None, 0)
  | S f =>
      let '(s, k0) := c_skip_ws (v_rest st) in
      match s with
      | [] => (Some (inr (mkV [] (v_stack st) (v_root_found st) (v_root_closed st))), k0)
      | c :: s1 =>
          if Ascii.eqb c "<" then
            let '(x, k1) := c_tag st s s1 in
            match x with
            | inl e => (Some (inl e), k0 + 1 + k1)
            | inr st' => let '(y, k2) := c_loop f st' in (y, k0 + 1 + k1 + k2)
            end
          else if negb (v_root_found st) || v_root_closed st then
            (Some (inl (mkVerr VOutsideRoot s)), k0 + 2)
          else let '(y, k2) := c_loop f (mkV s1 (v_stack st) (v_root_found st) (v_root_closed st)) in (y, k0 + 1 + k2)
      end
  end.
(** validate.go:79-152; see [validate]. *)
Definition c_validate (data : bytes) : option (option verr) * nat :=
  if (MaxDocumentSize <? blen data)%N then (Some (Some (mkVerr VDocSize data)), 0)
  else
    match data with
    | [] => (Some (Some (mkVerr VEmptyDoc data)), 0)
    | _ :: _ =>
        let '(x, k) := c_loop (S (List.length data)) (mkV data [] false false) in
        match x with
        | None => (None, k)
        | Some (inl e) => (Some (Some e), k)
        | Some (inr st) => (Some (v_finish data st), k)
        end
    end.
