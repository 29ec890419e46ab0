(** Edits of element trees under options: comparison of names with or without regard to
    case, and indentation of new elements; independent of the model of the library. *)
From Coq Require Import List Ascii String NArith ZArith Bool.
From Verif Require Import GoStr SpecText SpecPath SpecTree SpecQuery SpecEdit SpecContent SpecFilter SpecLang SpecCase.
Import ListNotations.

(** Whether a step selects a name, and how a new name is spelled. *)
Definition finds (exact : bool) (n m : bytes) : bool := if exact then selects n m else alike n m.
Definition spelled (exact : bool) (n : bytes) : bytes := if exact then n else folded n.
(** The element the path designates, with the bytes of the document around it. *)
Inductive designated (exact : bool) : list tstep -> list node -> bytes -> node -> bytes -> Prop :=
| des_here : forall n idx F1 nd F2, named (finds exact n) nd = true ->
    List.length (called (finds exact n) F1) = index_of idx ->
    designated exact [(n, idx)] (F1 ++ nd :: F2) (forest_text F1) nd (forest_text F2)
| des_down : forall n idx rest F1 m a kids F2 A nd B, finds exact n m = true ->
    List.length (called (finds exact n) F1) = index_of idx -> designated exact rest kids A nd B ->
    designated exact ((n, idx) :: rest) (F1 ++ Elem m a false kids :: F2)
      (forest_text F1 ++ start_tag m a false ++ A) nd (B ++ end_tag m ++ forest_text F2).

(** The same path in another spelling; positions Get can read. *)
Definition respelled (s s' : tstep) : Prop := folded (fst s) = folded (fst s') /\ snd s = snd s'.
Definition early (s : tstep) : Prop := match snd s with Some ds => (decimal_value ds < 1000)%N | None => True end.

(** ** Attributes *)
Definition attr_is (exact : bool) (x n : bytes) : bool :=
  if exact then bytes_eqb n x else bytes_eqb (folded n) (folded x).
(** Every attribute with that name gets the value; without one, it is added. *)
Definition put_attrs (exact : bool) (x v : bytes) (a : list (bytes * bytes)) : list (bytes * bytes) :=
  if existsb (fun p => attr_is exact x (fst p)) a
  then map (fun p => if attr_is exact x (fst p) then (fst p, v) else p) a
  else a ++ [(spelled exact x, v)].
Definition drop_attrs (exact : bool) (x : bytes) (a : list (bytes * bytes)) : list (bytes * bytes) :=
  filter (fun p => negb (attr_is exact x (fst p))) a.
(** Lexicographic order of names, and attributes sorted by name. *)
Inductive precedes : bytes -> bytes -> Prop :=
| pre_end : forall c s, precedes [] (c :: s)
| pre_byte : forall c d s t, (N_of_ascii c < N_of_ascii d)%N -> precedes (c :: s) (d :: t)
| pre_next : forall c s t, precedes s t -> precedes (c :: s) (c :: t).
Inductive sorted_by_name : list (bytes * bytes) -> Prop :=
| sbn_nil : sorted_by_name []
| sbn_cons : forall p l, Forall (fun q => ~ precedes (fst q) (fst p)) l -> sorted_by_name l -> sorted_by_name (p :: l).

(** ** New elements *)
Fixpoint times (n : nat) (s : bytes) : bytes := match n with O => [] | S n' => s ++ times n' s end.
(** With an indentation, a new element starts on a new line. *)
Definition new_line (indent : bytes) (i : nat) : list node :=
  match indent with [] => [] | _ :: _ => [Text (lf :: times i indent)] end.
Fixpoint nest_lines (indent : bytes) (i : nat) (names : list bytes) (a : list (bytes * bytes)) (inside : list node) : list node :=
  match names with
  | [] => inside
  | n :: rest =>
      new_line indent i ++
      [Elem n (match rest with [] => a | _ :: _ => [] end) false (nest_lines indent (S i) rest a inside)]
  end.
(** The chain of new elements, each within the one before, the last with [a] and [inside]. *)
Definition new_chain (exact : bool) (indent : bytes) (names : list bytes) (a : list (bytes * bytes)) (inside : list node) : list node :=
  nest_lines indent 0 (map (spelled exact) names) a inside.
(** The place after the last element whose name satisfies [f], or at the end. *)
Inductive parted (f : bytes -> bool) : list node -> list node -> list node -> Prop :=
| parted_end : forall F, called f F = [] -> parted f F F []
| parted_last : forall F1 nd F2, named f nd = true -> called f F2 = [] -> parted f (F1 ++ nd :: F2) (F1 ++ [nd]) F2.
(** An appended element starts on a new line unless it is the first thing in its parent. *)
Definition line_after (before : list node) (indent : bytes) (i : nat) : list node :=
  match forest_text before with [] => [] | _ :: _ => new_line indent i end.
