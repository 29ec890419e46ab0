(** Independent description of the reasons for which edits are refused. *)
From Coq Require Import List Ascii String NArith ZArith Bool.
From Verif Require Import GoStr ModelParser ModelResult ModelQuery ModelBuilder SpecPath SpecGrammar SpecValid.
Import ListNotations.

(** A path without any step. *)
Definition pathless (path : bytes) : Prop := path_means path Unusable \/ path_means path (Steps []).
(** A path that is an attribute and nothing else. *)
Definition bare_attribute (path : bytes) : Prop := exists n ms, path_means path (Steps [(GAttr n, ms)]).
(** A negative number other than a final -1. *)
Definition misplaced (l : list (gstep * list bytes)) : Prop :=
  exists pre i ms post, l = pre ++ (GNth i, ms) :: post /\ ((i < -1)%Z \/ (i = -1)%Z /\ post <> []).
(** A final -1, asking for a new element. *)
Definition appends (l : list (gstep * list bytes)) : Prop := exists pre ms, l = pre ++ [(GNth (-1), ms)].
Definition appends_named (l : list (gstep * list bytes)) (n : bytes) : Prop :=
  exists pre ms0 ms, l = pre ++ [(GName n, ms0); (GNth (-1), ms)].
Definition at_attribute (l : list (gstep * list bytes)) : Prop := exists pre n ms, l = pre ++ [(GAttr n, ms)].
(** A document edits are made in: empty or accepted. *)
Definition editable (xml : bytes) : Prop := xml = [] \/ accepted_document xml.
(** A value of a kind that is not supported, or one whose text has more than 5 MiB. *)
Definition unfit (fmt_g : f64 -> bytes) (v : value) : Prop :=
  v = VOther \/ exists t, value_to_xml fmt_g v = inr t /\ (5242880 < N.of_nat (List.length t))%N.
(** The size of the document with a new element [n] of text [t] in it, below the steps
    [l], with its indentation. *)
Definition room (o : options) (l : list (gstep * list bytes)) (n t xml : bytes) : N :=
  (N.of_nat (List.length xml + 2 * List.length n + 5 + List.length t) +
   match o_indent o with [] => 0 | _ :: _ => N.of_nat (1 + (List.length l - 2) * List.length (o_indent o)) end)%N.
(** Queries see no element in the document. *)
Definition unreadable (xml : bytes) : Prop := forall E, get E xml (bs "*") = Ok r_null.
