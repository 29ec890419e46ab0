(** Programs that ask and edit a document, what they ask and do depending on the answers, and
    the same programs working on a map. *)
From Coq Require Import List Ascii String NArith ZArith Bool.
From Verif Require Import GoStr ModelResult ModelParser ModelQuery ModelBuilder SpecText SpecPath SpecTree SpecQuery SpecEdit SpecMod SpecValid SpecHistory SpecTable SpecStore SpecFill SpecLayer.
Import ListNotations.

(** A program ends with an answer, or asks for the value at a place and goes on as the answer
    tells, or makes an edit and goes on. *)
Inductive agent (A : Type) :=
| Finish (a : A)
| Ask (q : place) (next : option bytes -> agent A)
| Do (o : store_op) (next : agent A).
Arguments Finish {A} _.
Arguments Ask {A} _ _.
Arguments Do {A} _ _.

(** On a document: Ask is r := Get(d, path), answered by r.String() if r.Exists(); Do is Set or
    Delete.  The first error ends the program. *)
Fixpoint on_document {A} (E : env) (fmt_g : f64 -> bytes) (P : agent A) (d : bytes) : Res (option A * bytes) :=
  match P with
  | Finish a => Ok (Some a, d)
  | Ask q next =>
      let* r := get E d (place_path q) in
      on_document E fmt_g (next (if r_exists r then Some (r_string r) else None)) d
  | Do o next =>
      let* x := call E fmt_g (store_edit o) d in
      match x with
      | (d', None) => on_document E fmt_g next d'
      | (d', Some _) => Ok (None, d')
      end
  end.
(** On a map. *)
Fixpoint on_map {A} (P : agent A) (D : store) : A * store :=
  match P with
  | Finish a => (a, D)
  | Ask q next => on_map (next (value_at D q)) D
  | Do o next => on_map next (do_store o D)
  end.
(** The edits made on the way. *)
Fixpoint deeds {A} (P : agent A) (D : store) : list store_op :=
  match P with
  | Finish _ => []
  | Ask q next => deeds (next (value_at D q)) D
  | Do o next => o :: deeds next (do_store o D)
  end.
(** What is asked and edited on the way are keys of the map. *)
Fixpoint keeps_to {A} (K : list bytes -> Prop) (P : agent A) (D : store) : Prop :=
  match P with
  | Finish _ => True
  | Ask q next => K (place_key q) /\ good_place q /\ keeps_to K (next (value_at D q)) D
  | Do o next => K (key_of o) /\ keeps_to K next (do_store o D)
  end.
