(** Model of the part of [@pretty] that is in /repo (modifier.go:361-466). The decoder and
    the encoder of encoding/xml are parameters: what is modelled is the copying of tokens
    from one to the other. *)
From Coq Require Import List Ascii String Bool.
From Verif Require Import GoStr.
Import ListNotations.

(** xml.Name, xml.Attr and xml.Token as used in modifier.go:367-418. *)
Record xname := mkName { n_space : bytes; n_local : bytes }.
Record xattr := mkAttr { a_name : xname; a_value : bytes }.
Inductive token :=
| TStart (n : xname) (attrs : list xattr) | TEnd (n : xname)
| TText (s : bytes) | TComment (s : bytes) | TInst (target inst : bytes) | TDirective (s : bytes).

(** modifier.go:367-370: [decode] gives the tokens up to EOF, None when Token fails before
    that; [encode] gives what the indenting encoder has written after Flush, None when
    EncodeToken or Flush fails. Both errors lead to the same result (modifier.go:375-382,
    410-412, 416-418), so it does not matter which comes first. *)
Record codec := mkCodec { decode : bytes -> option (list token); encode : list token -> option bytes }.
(** A codec that reads nothing, for examples. *)
Definition no_codec : codec := mkCodec (fun _ => None) (fun _ => None).

(** modifier.go:441-459 *)
Definition attr_key (a : xattr) : bytes :=
  if bytes_eqb (n_local (a_name a)) (bs "xmlns") && bytes_eqb (n_space (a_name a)) [] then bs "xmlns=" ++ a_value a
  else if bytes_eqb (n_space (a_name a)) (bs "xmlns") then bs "xmlns:" ++ n_local (a_name a) ++ bs "=" ++ a_value a
  else match n_space (a_name a) with
       | [] => n_local (a_name a)
       | _ :: _ => n_space (a_name a) ++ bs ":" ++ n_local (a_name a)
       end.
(** modifier.go:438-466; [seen] holds the keys of the map. *)
Fixpoint dedup_loop (seen : list bytes) (l : list xattr) : list xattr :=
  match l with
  | [] => []
  | a :: l' => if existsb (bytes_eqb (attr_key a)) seen then dedup_loop seen l' else a :: dedup_loop (attr_key a :: seen) l'
  end.
(** modifier.go:433-436 *)
Definition dedup_attrs (l : list xattr) : list xattr :=
  match l with [] | [_] => l | _ => dedup_loop [] l end.
(** modifier.go:384-408 *)
Definition pretty_token (t : token) : token :=
  match t with
  | TStart n l => TStart (mkName [] (n_local n)) (dedup_attrs l)
  | TEnd n => TEnd (mkName [] (n_local n))
  | _ => t
  end.
(** modifier.go:366-423: the new Raw, None when the result is returned unchanged. *)
Definition pretty_text (C : codec) (raw : bytes) : option bytes :=
  match decode C raw with
  | None => None
  | Some l => encode C (map pretty_token l)
  end.
