(** Numbers kept in contents and attributes of a document; the programs call the library,
    their outcomes are described with integers. *)
From Coq Require Import List Ascii String NArith ZArith Bool.
From Verif Require Import GoStr ModelResult ModelParser ModelQuery ModelBuilder SpecText SpecPath SpecTree SpecQuery SpecEdit SpecMod SpecHistory SpecTable SpecStore SpecBudget SpecFill SpecLayer SpecLedger.
Import ListNotations.

(** ** Arithmetic *)
(** An amount is added at a place. *)
Definition counting := (place * Z)%type.
Definition moved (o : counting) (f : place -> Z) : place -> Z :=
  fun q => if same_place q (fst o) then (f q + snd o)%Z else f q.
Definition all_moved (ops : list counting) (f : place -> Z) : place -> Z := fold_left (fun f o => moved o f) ops f.
Fixpoint stays_in_range (ops : list counting) (f : place -> Z) : Prop :=
  match ops with
  | [] => True
  | o :: ops' => in_range (f (fst o) + snd o) /\ stays_in_range ops' (moved o f)
  end.

(** ** Programs *)
(** Set(doc, path, Get(doc, path).Int() + z) *)
Definition count (E : env) (fmt_g : f64 -> bytes) (o : counting) (d : bytes) : Res (bytes * option err) :=
  let* r := get E d (place_path (fst o)) in
  set E fmt_g d (place_path (fst o)) (VInt (r_int r + snd o)).
Fixpoint count_all (E : env) (fmt_g : f64 -> bytes) (ops : list counting) (d : bytes) : Res (bytes * option err) :=
  match ops with
  | [] => Ok (d, None)
  | o :: ops' =>
      let* x := count E fmt_g o d in
      match x with
      | (d', None) => count_all E fmt_g ops' d'
      | (_, Some _) => Ok x
      end
  end.

(** ** Counters in a store *)
(** What is absent or empty stands for zero; otherwise there is a numeral. *)
Definition stands_for (D : store) (q : place) (z : Z) : Prop :=
  match value_at D q with
  | None => z = 0%Z
  | Some v => in_range z /\ (numeral v z \/ (v = [] /\ z = 0%Z))
  end.
(** A counter to write to. *)
Definition counter (q : place) : Prop :=
  good_place q /\ Forall xml_name (place_key q) /\ match q with Named _ x => xml_name x | Content _ => True end /\ List.length (place_key q) < 100.
(** What counters may add to the document, however often they are changed, and the number of
    different names of those that are attributes. *)
Definition price (q : place) : nat := match q with Content k => tags k + 20 | Named k x => tags k + List.length x + 24 end.
Definition counters_room (Qs : list place) : nat := list_sum (map price Qs).
Definition counter_names (Qs : list place) : list bytes := flat_map (fun q => match q with Named _ x => [x] | Content _ => [] end) Qs.
Definition counters_named (Qs : list place) : nat := List.length (nodup (list_eq_dec ascii_dec) (counter_names Qs)).
