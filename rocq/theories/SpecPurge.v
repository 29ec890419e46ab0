(** Programs that delete until nothing changes. *)
From Coq Require Import List Ascii String NArith ZArith Bool.
From Verif Require Import GoStr ModelParser ModelPath ModelResult ModelQuery ModelBuilder.
Import ListNotations.

(** A program around DeleteWithOptions (set.go:492-519): it deletes at a path again and again
    until the text returned is the text given, or there is an error.  The count limits the
    rounds; used up, it is [OutOfFuel]. *)
Fixpoint purge (E : env) (o : options) (rounds : nat) (path xml : bytes) : Res edit_result :=
  match rounds with
  | 0 => OutOfFuel
  | S k =>
      let* r := delete_opts E o xml path in
      match snd r with
      | Some e => Ok (xml, Some e)
      | None => if bytes_eqb (fst r) xml then Ok (xml, None) else purge E o k path (fst r)
      end
  end.
(** Calls of DeleteWithOptions (set.go:492-519) one after the other, with any options and
    paths, each of which changes the text. *)
Inductive deletions (E : env) : list (options * bytes) -> bytes -> bytes -> Prop :=
| dl_none : forall xml, deletions E [] xml xml
| dl_one : forall o path l xml d d', delete_opts E o xml path = Ok (d, None) -> d <> xml ->
    deletions E l d d' -> deletions E ((o, path) :: l) xml d'.
(** What is left of a text when stretches of it are taken out. *)
Inductive left_of : bytes -> bytes -> Prop :=
| lo_all : forall t, left_of t t
| lo_cut : forall t a c b, left_of t (a ++ c ++ b) -> left_of t (a ++ b).
