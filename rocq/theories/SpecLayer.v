(** Values from several documents laid over one document; the programs call the library,
    their outcomes are described with maps. *)
From Coq Require Import List Ascii String NArith ZArith Bool.
From Verif Require Import GoStr ModelResult ModelParser ModelQuery ModelBuilder SpecText SpecPath SpecTree SpecQuery SpecEdit SpecMod SpecValid SpecHistory SpecTable SpecStore SpecFill.
Import ListNotations.

(** ** Programs *)
(** For every place: r := Get(over, path); if r.Exists() then Set(d, path, r.String()). *)
Fixpoint lay_over (E : env) (fmt_g : f64 -> bytes) (over : bytes) (ps : list place) (d : bytes) : Res (bytes * option err) :=
  match ps with
  | [] => Ok (d, None)
  | q :: ps' =>
      let* r := get E over (place_path q) in
      if r_exists r then
        let* x := set E fmt_g d (place_path q) (VStr (r_string r)) in
        match x with
        | (d', None) => lay_over E fmt_g over ps' d'
        | (_, Some _) => Ok x
        end
      else lay_over E fmt_g over ps' d
  end.
(** The documents one after the other. *)
Fixpoint lay_all (E : env) (fmt_g : f64 -> bytes) (overs : list bytes) (ps : list place) (d : bytes) : Res (bytes * option err) :=
  match overs with
  | [] => Ok (d, None)
  | over :: overs' =>
      let* x := lay_over E fmt_g over ps d in
      match x with
      | (d', None) => lay_all E fmt_g overs' ps d'
      | (_, Some _) => Ok x
      end
  end.

(** ** Maps *)
Definition place_key (q : place) : list bytes := match q with Content k | Named k _ => k end.
(** The value at a place, without the white space around a content. *)
Definition value_at (D : store) (q : place) : option bytes :=
  match D (place_key q) with
  | None => None
  | Some e => match q with Content _ => Some (trim_space (content_of e)) | Named _ x => attribute e x end
  end.
(** The last map that has the place decides. *)
Fixpoint latest (Ls : list store) (q : place) : option bytes :=
  match Ls with
  | [] => None
  | L :: Ls' => match latest Ls' q with Some v => Some v | None => value_at L q end
  end.
Definition same_place (q q' : place) : bool :=
  match q, q' with
  | Content k, Content k' => same_key k k'
  | Named k x, Named k' x' => same_key k k' && bytes_eqb x x'
  | _, _ => false
  end.
Definition listed (q : place) (ps : list place) : bool := existsb (same_place q) ps.
(** An attribute that is given makes its element, if there is none. *)
Definition brought (Ls : list store) (ps : list place) (k : list bytes) : bool :=
  existsb (fun q => match q with Named k' _ => same_key k k' && match latest Ls q with Some _ => true | None => false end | Content _ => false end) ps.
(** What is at a place in the end: the value of the last layer that has it, if the place is
    one of those gone through; otherwise what was there before. *)
Definition outcome (D : store) (Ls : list store) (ps : list place) (q : place) : option bytes :=
  match (if listed q ps then latest Ls q else None) with
  | Some v => Some v
  | None =>
      match value_at D q with
      | Some v => Some v
      | None => match q with Content k => if brought Ls ps k then Some [] else None | Named _ _ => None end
      end
  end.

(** ** Documents *)
Record layer := mkLayer { ly_prolog : bytes; ly_forest : list node; ly_store : store }.
Definition layer_text (l : layer) : bytes := ly_prolog l ++ forest_text (ly_forest l).
Definition layer_ok (K : list bytes -> Prop) (l : layer) : Prop :=
  prolog (ly_prolog l) /\ strict_prolog (ly_prolog l) /\ Forall good (ly_forest l) /\ Forall top_node (ly_forest l) /\ shallow (ly_forest l) /\
  room (ly_prolog l) (ly_forest l) /\ stores K (ly_forest l) (ly_store l).
(** A place that can be asked for. *)
Definition good_place (q : place) : Prop :=
  match q with Content k => good_tpath (by_name k) TheElement | Named k x => good_tpath (by_name k) (TheAttribute x) end.
(** The values that are written, for the limits on sizes. *)
Definition writing (q : place) (v : bytes) : store_op := match q with Content k => Give k v | Named k x => Mark k x v end.
Definition writings_of (ps : list place) (L : store) : list store_op :=
  flat_map (fun q => match value_at L q with Some v => [writing q v] | None => [] end) ps.
Definition all_writings (ps : list place) (Ls : list store) : list store_op := flat_map (writings_of ps) Ls.
