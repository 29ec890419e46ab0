(** Edits that turn one element into another; independent of the model of the library. *)
From Coq Require Import List Ascii String NArith Bool.
From Verif Require Import GoStr SpecText SpecPath SpecTree SpecQuery SpecEdit SpecContent SpecHistory.
Import ListNotations.

(** The names of the attributes that are not wanted any more. *)
Definition unwanted (a b : list (bytes * bytes)) : list bytes :=
  filter (fun x => negb (existsb (bytes_eqb x) (map fst b))) (map fst a).
(** New content, then the attributes: the unwanted ones removed, the others set. *)
Definition script (s : list tstep) (a b : list (bytes * bytes)) (K : list node) : list edit :=
  SetContent s (AsForest K) :: map (RemoveAttr s) (unwanted a b) ++ map (fun q => SetAttr s (fst q) (snd q)) b.
(** For a self-closing element: first a child of any name, which gives it two tags. *)
Definition open_script (s : list tstep) (m : bytes) (a b : list (bytes * bytes)) (K : list node) : list edit :=
  SetContent (s ++ [(m, None)]) (AsText []) :: script s a b K.
