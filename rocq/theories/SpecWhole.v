(** Queries whose modifiers act on the whole answer; independent of the model of the library
    except for the type of results. *)
From Coq Require Import List Ascii String NArith Bool.
From Verif Require Import GoStr SpecPath SpecTree SpecQuery SpecLang ModelPath ModelResult.
Import ListNotations.

(** Steps that go on with a single element. *)
Definition narrow (s : qstep) : Prop :=
  match s with
  | Child _ Leading | Child _ (Number _) | Child _ (Where _ false) | Kid _ false => True
  | _ => False
  end.
(** Only the last step may choose several elements, and it is not a search. A number or a
    count below the first name is about the roots of a fragment. *)
Definition whole (steps : list qstep) (e : qend) : Prop :=
  exists pre s, steps = pre ++ [s] /\ Forall narrow pre /\ (forall n, s <> Descendant n) /\
    (pre = [] -> (forall n ds, s <> Child n (Number ds)) /\ e <> ECount).
(** Names of modifiers in a path. *)
Definition plain_mod (m : bytes) : Prop := good_mod m /\ ~ In "."%char m /\ ~ In backslash m.
(** Something a modifier can work on: a value, or a list of values with an entry. *)
Definition value (r : result) : Prop := r_type r <> RNull /\ r_type r <> RArray.
Definition workable (r : result) : Prop :=
  value r \/ r_type r = RArray /\ r_raw r = [] /\ r_results r <> [] /\ Forall value (r_results r).
(** Modifiers apply to what there is. *)
Definition nothing (r : result) : bool :=
  match r_type r with RNull => true | RArray => match r_results r with [] => true | _ => false end | _ => false end.
(** What the modifiers do to a reply. *)
Definition act (m : bytes) (a : reply) : reply :=
  match a with
  | Many (i :: l) =>
      if bytes_eqb m (bs "reverse") then Many (rev (i :: l))
      else if bytes_eqb m (bs "first") then One i
      else if bytes_eqb m (bs "last") then One (last l i)
      else a
  | _ => a
  end.
Definition acts (ms : list bytes) (a : reply) : reply := fold_left (fun a m => act m a) ms a.
