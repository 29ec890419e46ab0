(** The effort a path asks for; independent of the model of the library except for the type of
    operators in paths (SpecGrammar). *)
From Coq Require Import List Ascii String NArith ZArith Bool.
From Verif Require Import GoStr SpecGrammar SpecWork.
Import ListNotations.

(** Every step counts 1, a condition also what its own path counts, and a search multiplies
    the effort for what follows it. *)
Inductive effort : list (gstep * list bytes) -> N -> Prop :=
| eff_none : effort [] 0
| eff_step : forall st ms l n, st <> GDeep -> (forall all p op v, st <> GWhere all p op v) -> effort l n -> effort ((st, ms) :: l) (1 + n)
| eff_attribute : forall all x op v ms l n, effort l n -> effort ((GWhere all ("@"%char :: x) op v, ms) :: l) (1 + n)
| eff_pathless : forall all p op v ms l n o, path_means p o -> o = Unusable \/ o = Fatal -> effort l n -> effort ((GWhere all p op v, ms) :: l) (1 + n)
| eff_where : forall all p op v ms l n l' m, path_means p (Steps l') -> (forall x, p <> "@"%char :: x) -> effort l' m -> effort l n -> effort ((GWhere all p op v, ms) :: l) (1 + m + n)
| eff_deep : forall ms l n, effort l n -> effort ((GDeep, ms) :: l) (102 * (1 + n)).
