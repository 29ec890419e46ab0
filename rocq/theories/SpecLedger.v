(** Numbers kept in a document and changed by amounts; the programs call the library, their
    outcomes are described with integers. *)
From Coq Require Import List Ascii String NArith ZArith Bool.
From Verif Require Import GoStr ModelResult ModelParser ModelQuery ModelBuilder SpecText SpecPath SpecTree SpecQuery SpecEdit SpecMod SpecHistory SpecTable SpecStore SpecBudget.
Import ListNotations.

(** ** Arithmetic *)
(** An amount is added to an account. *)
Definition posting := (list bytes * Z)%type.
Definition posted (o : posting) (f : list bytes -> Z) : list bytes -> Z :=
  fun k => if same_key k (fst o) then (f k + snd o)%Z else f k.
Definition all_posted (ops : list posting) (f : list bytes -> Z) : list bytes -> Z := fold_left (fun f o => posted o f) ops f.
(** Go's int64. *)
Definition in_range (z : Z) : Prop := (- 2 ^ 63 <= z < 2 ^ 63)%Z.
Fixpoint all_in_range (ops : list posting) (f : list bytes -> Z) : Prop :=
  match ops with
  | [] => True
  | o :: ops' => in_range (f (fst o) + snd o) /\ all_in_range ops' (posted o f)
  end.
Definition total (Ks : list (list bytes)) (f : list bytes -> Z) : Z := fold_right (fun k z => (f k + z)%Z) 0%Z Ks.

(** ** Programs *)
(** Set(doc, path, Get(doc, path).Int() + z) *)
Definition post (E : env) (fmt_g : f64 -> bytes) (o : posting) (d : bytes) : Res (bytes * option err) :=
  let* r := get E d (tpath (by_name (fst o)) TheElement) in
  set E fmt_g d (tpath (by_name (fst o)) TheElement) (VInt (r_int r + snd o)).
Fixpoint post_all (E : env) (fmt_g : f64 -> bytes) (ops : list posting) (d : bytes) : Res (bytes * option err) :=
  match ops with
  | [] => Ok (d, None)
  | o :: ops' =>
      let* x := post E fmt_g o d in
      match x with
      | (d', None) => post_all E fmt_g ops' d'
      | (_, Some _) => Ok x
      end
  end.

(** ** Accounts in a store *)
(** A key that is absent, or blank, stands for zero; otherwise it holds a numeral, possibly
    with white space around it. *)
Definition worth (D : store) (k : list bytes) (z : Z) : Prop :=
  match D k with
  | None => z = 0%Z
  | Some e => in_range z /\ (numeral (trim_space (content_of e)) z \/ (trim_space (content_of e) = [] /\ z = 0%Z))
  end.
(** An account to write to: a path of names. *)
Definition account_path (k : list bytes) : Prop := good_tpath (by_name k) TheElement /\ Forall xml_name k /\ List.length k < 100.
(** What the accounts may add to the document, however many postings there are. *)
Definition accounts_room (Ks : list (list bytes)) : nat := list_sum (map (fun k => tags k + 20) Ks).
