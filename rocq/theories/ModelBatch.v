(** The batch edits of ModelBuilder.v with the count of ModelToil.v. Erasing the count gives
    the functions of ModelBuilder.v (ProofBatch.v). *)
From Coq Require Import List Ascii String NArith ZArith Bool.
From Verif Require Import GoStr ModelParser ModelPath ModelResult ModelQuery ModelValidate ModelBuilder ModelWork ModelLoad ModelToil.
Import ListNotations.

(** set.go:301-308; see [set_each]. *)
Fixpoint tset_each (E : env) (fmt_g : f64 -> bytes) (xml0 xml : bytes) (l : list (bytes * value)) : W edit_result :=
  match l with
  | [] => wret (xml, None)
  | (p, v) :: l' =>
      let! r := tset_opts E fmt_g default_options xml p v in
      match snd r with
      | Some e => wret (xml0, Some e)
      | None => tset_each E fmt_g xml0 (fst r) l'
      end
  end.
(** set.go:271-310; see [set_many]. *)
Definition tset_many (E : env) (fmt_g : f64 -> bytes) (xml : bytes) (paths : list bytes) (values : list value) : W edit_result :=
  if (MaxDocumentSize <? blen xml)%N then wret (xml, Some ErrMalformedXML)
  else if negb (Nat.eqb (List.length paths) (List.length values)) then wret (xml, Some ErrInvalidPath)
  else tset_each E fmt_g xml xml (combine paths values).
(** set.go:402-416; see [delete_each]. *)
Fixpoint tdelete_each (E : env) (xml0 xml : bytes) (l : list bytes) : W edit_result :=
  match l with
  | [] => wret (xml, None)
  | p :: l' =>
      let! r := tdelete_opts E default_options xml p in
      match snd r with
      | Some e => wret (xml0, Some e)
      | None => tdelete_each E xml0 (fst r) l'
      end
  end.
(** set.go:373-418; see [delete_many]. *)
Definition tdelete_many (E : env) (xml : bytes) (paths : list bytes) : W edit_result :=
  if (MaxDocumentSize <? blen xml)%N then wret (xml, Some ErrMalformedXML)
  else tdelete_each E xml xml (dedupe [] paths).
