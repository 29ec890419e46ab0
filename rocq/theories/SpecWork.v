(** Paths and the searches in them; independent of the model of the library except for the
    type of operators in paths (SpecGrammar). *)
From Coq Require Import List Ascii String NArith ZArith Bool.
From Verif Require Import GoStr SpecTree SpecGrammar.
Import ListNotations.

(** No step is a search, and the conditions contain none either. *)
Inductive quiet : list (gstep * list bytes) -> Prop :=
| quiet_steps : forall l, (forall ms, ~ In (GDeep, ms) l) ->
    (forall all p op v ms l', In (GWhere all p op v, ms) l -> path_means p (Steps l') -> (forall x, p <> "@"%char :: x) -> quiet l') ->
    quiet l.
(** [n] choose [k]. *)
Fixpoint choose (n k : nat) : N :=
  match n, k with
  | _, O => 1
  | O, S _ => 0
  | S n', S k' => choose n' k' + choose n' k
  end%N.
(** [n] elements a within each other. *)
Fixpoint tower (n : nat) : list node :=
  match n with O => [] | S n' => [Elem (bs "a") [] false (tower n')] end.
(** The path `**.a`, [m] times, and `**.z`. *)
Definition searching (m : nat) : bytes := flat_map (fun _ => bs "**.a.") (seq 0 m) ++ bs "**.z".
(** The searches in a path and in its conditions. *)
Inductive depths : list (gstep * list bytes) -> nat -> Prop :=
| dp_none : depths [] 0
| dp_step : forall st ms l k, st <> GDeep -> (forall all p op v, st <> GWhere all p op v) -> depths l k -> depths ((st, ms) :: l) k
| dp_attribute : forall all x op v ms l k, depths l k -> depths ((GWhere all ("@"%char :: x) op v, ms) :: l) k
| dp_pathless : forall all p op v ms l k o, path_means p o -> o = Unusable \/ o = Fatal -> depths l k -> depths ((GWhere all p op v, ms) :: l) k
| dp_where : forall all p op v ms l k l' k', path_means p (Steps l') -> (forall x, p <> "@"%char :: x) -> depths l' k' -> depths l k -> depths ((GWhere all p op v, ms) :: l) (k' + k)
| dp_deep : forall ms l k, depths l k -> depths ((GDeep, ms) :: l) (S k).
(** How many opening brackets a text contains. *)
Definition brackets (s : bytes) : N := N.of_nat (List.length (filter (Ascii.eqb "<") s)).
