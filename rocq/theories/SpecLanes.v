(** Entries that go from one list of a document to another; the programs call the library,
    their outcomes are described on lists. *)
From Coq Require Import List Ascii String NArith ZArith Bool.
From Verif Require Import GoStr ModelResult ModelParser ModelQuery ModelBuilder SpecText SpecPath SpecTree SpecQuery SpecEdit SpecContent SpecFrame SpecLoop SpecOrder.
Import ListNotations.

(** Entry [i] of list [from] goes to the end of list [to]. *)
Record transfer := { from : nat; which : nat; to : nat }.

(** ** Lists *)
Definition without {A} (i : nat) (l : list A) : list A := firstn i l ++ skipn (S i) l.
Definition transferred {A} (d : A) (o : transfer) (W : list (list A)) : list (list A) :=
  let W1 := placed (to o) (nth (to o) W [] ++ [nth (which o) (nth (from o) W []) d]) W in
  placed (from o) (without (which o) (nth (from o) W1 [])) W1.
Fixpoint all_transferred {A} (d : A) (ops : list transfer) (W : list (list A)) : list (list A) :=
  match ops with
  | [] => W
  | o :: ops' => all_transferred d ops' (transferred d o W)
  end.
(** There are such lists and such an entry, with a number Get can reach. *)
Definition possible {A} (o : transfer) (W : list (list A)) : Prop :=
  from o < List.length W /\ to o < List.length W /\ which o < List.length (nth (from o) W []) /\ which o < 1000.
Fixpoint all_possible {A} (d : A) (ops : list transfer) (W : list (list A)) : Prop :=
  match ops with
  | [] => True
  | o :: ops' => possible o W /\ all_possible d ops' (transferred d o W)
  end.

(** ** Documents *)
(** The lists are children with the names [ls] of one element. *)
Definition lane (s : list tstep) (ls : list bytes) (k : nat) : list tstep := s ++ [(nth k ls [], None)].
(** x := Get(doc, parent.a.m.i).Raw; SetRaw(doc, parent.b.m.-1, x); Delete(doc, parent.a.m.i) *)
Definition hand_over (E : env) (fmt_g : f64 -> bytes) (s : list tstep) (m : bytes) (ls : list bytes) (o : transfer) (d : bytes) : Res (bytes * option err) :=
  let* r := get E d (tpath (item (lane s ls (from o)) m (which o)) TheElement) in
  let* x := set_raw E fmt_g d (tpath (lane s ls (to o) ++ [(m, None)]) TheElement ++ bs ".-1") (r_raw r) in
  match x with
  | (d', None) => delete E d' (tpath (item (lane s ls (from o)) m (which o)) TheElement)
  | (_, Some _) => Ok x
  end.
Fixpoint hand_over_all (E : env) (fmt_g : f64 -> bytes) (s : list tstep) (m : bytes) (ls : list bytes) (ops : list transfer) (d : bytes) : Res (bytes * option err) :=
  match ops with
  | [] => Ok (d, None)
  | o :: ops' =>
      let* x := hand_over E fmt_g s m ls o d in
      match x with
      | (d', None) => hand_over_all E fmt_g s m ls ops' d'
      | (_, Some _) => Ok x
      end
  end.
(** One child of each name, with two tags; its entries have two tags and these contents. *)
Definition list_in (m : bytes) (kids : list node) (l : bytes) (xs : list (list node)) : Prop :=
  exists e b Kl, called (selects l) kids = [Elem e b false Kl] /\ Forall two_tags (called (selects m) Kl) /\ Forall2 holds xs (called (selects m) Kl).
Definition board (m : bytes) (ls : list bytes) (kids : list node) (W : list (list (list node))) : Prop := Forall2 (list_in m kids) ls W.
(** The children with none of the names. *)
Definition outside (ls : list bytes) (kids : list node) : list node := filter (fun nd => negb (existsb (fun l => named (selects l) nd) ls)) kids.
(** No element has two of the names. *)
Definition distinct (ls : list bytes) : Prop := forall i j, i < List.length ls -> j < List.length ls -> i <> j -> separate (nth i ls []) (nth j ls []).
