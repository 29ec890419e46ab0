(** Queries on results, as walks over the element tree; independent of the model of the
    library. *)
From Coq Require Import List Ascii String NArith ZArith Bool.
From Verif Require Import GoStr SpecText SpecPath SpecTree SpecQuery SpecEdit SpecContent SpecFilter SpecLang SpecCase.
Import ListNotations.

(** The result itself, or the first entry of a list. *)
Definition opening (a : reply) : option item := match items a with i :: _ => Some i | [] => None end.
(** With at most one child, the children are a document of their own, whose top level is
    treated like that of a document. *)
Definition alone (kids : list node) : bool := Nat.ltb (List.length (elems kids)) 2.
Definition ask_within (sat : condition -> node -> bool) (e : qend) (steps : list qstep) (i : option item) : reply :=
  match i with Some (AnElement kids) => ask sat e (alone kids) steps kids | _ => NoReply end.
Definition ask_within_ci (sat : condition -> node -> bool) (e : qend) (steps : list qstep) (i : option item) : reply :=
  match i with Some (AnElement kids) => ask_ci sat e steps kids | _ => NoReply end.
(** The query does not begin with a condition. *)
Definition begins_with_step (steps : list qstep) : Prop := match steps with Kid _ _ :: _ => False | _ => True end.
