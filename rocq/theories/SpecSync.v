(** Making a document agree with another one at given places; the program calls the library,
    its outcome is described with maps. *)
From Coq Require Import List Ascii String NArith ZArith Bool.
From Verif Require Import GoStr ModelResult ModelParser ModelQuery ModelBuilder SpecText SpecPath SpecTree SpecQuery SpecEdit SpecMod SpecValid SpecHistory SpecTable SpecStore SpecFill SpecLayer.
Import ListNotations.

(** For every place: r := Get(target, path); s := Get(d, path); what the target has and d has
    not, or has with another value, is set; what d has and the target has not is deleted. *)
Definition adjust (E : env) (fmt_g : f64 -> bytes) (target : bytes) (q : place) (d : bytes) : Res (bytes * option err) :=
  let* r := get E target (place_path q) in
  let* s := get E d (place_path q) in
  if r_exists r then
    if r_exists s && bytes_eqb (r_string r) (r_string s) then Ok (d, None) else set E fmt_g d (place_path q) (VStr (r_string r))
  else if r_exists s then delete E d (place_path q) else Ok (d, None).
Fixpoint sync (E : env) (fmt_g : f64 -> bytes) (target : bytes) (ps : list place) (d : bytes) : Res (bytes * option err) :=
  match ps with
  | [] => Ok (d, None)
  | q :: ps' =>
      let* x := adjust E fmt_g target q d in
      match x with
      | (d', None) => sync E fmt_g target ps' d'
      | (_, Some _) => Ok x
      end
  end.

(** The same with maps: the operations, and the map after them. *)
Definition removing (q : place) : store_op := match q with Content k => Forget k | Named k x => Unmark k x end.
Definition adjustment (T : store) (q : place) (D : store) : list store_op :=
  match value_at T q, value_at D q with
  | Some v, Some w => if bytes_eqb v w then [] else [writing q v]
  | Some v, None => [writing q v]
  | None, Some _ => [removing q]
  | None, None => []
  end.
Fixpoint adjustments (T : store) (ps : list place) (D : store) : list store_op :=
  match ps with
  | [] => []
  | q :: ps' => adjustment T q D ++ adjustments T ps' (do_all (adjustment T q D) D)
  end.
