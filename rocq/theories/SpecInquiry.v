(** Programs that ask a document with the whole query language and edit it, and the same
    programs working on a tree. *)
From Coq Require Import List Ascii String NArith ZArith Bool.
From Verif Require Import GoStr ModelResult ModelParser ModelQuery ModelBuilder SpecText SpecPath SpecTree SpecQuery SpecEdit SpecContent SpecHistory SpecFilter SpecLang.
Import ListNotations.

(** What a program learns from a result: that there is none, one text, or several. *)
Inductive findings :=
| NotFound
| Found (s : bytes)
| FoundAll (l : list bytes).
(** From the library: Type, String() and the entries of Results. *)
Definition findings_of (r : result) : findings :=
  match r_type r with
  | RNull => NotFound
  | RArray => FoundAll (map r_string (r_results r))
  | _ => Found (r_string r)
  end.
(** From the tree. *)
Definition item_text (i : item) (s : bytes) : Prop :=
  match i with
  | AnElement kids => Decodes (trim_space (all_text kids)) s
  | AnAttribute v => s = v
  | AText kids => Decodes (trim_space (own_text kids)) s
  | ACount n => s = decimal (Z.of_nat n)
  end.
Inductive finds : reply -> findings -> Prop :=
| finds_none : finds NoReply NotFound
| finds_one : forall i s, item_text i s -> finds (One i) (Found s)
| finds_all : forall l ss, Forall2 item_text l ss -> finds (Many l) (FoundAll ss).

Inductive inquirer (A : Type) :=
| Halt (a : A)
| Inquire (steps : list qstep) (e : qend) (next : findings -> inquirer A)
| Act (o : edit) (next : inquirer A).
Arguments Halt {A} _.
Arguments Inquire {A} _ _ _.
Arguments Act {A} _ _.
(** On a document. *)
Fixpoint works {A} (E : env) (fmt_g : f64 -> bytes) (P : inquirer A) (d : bytes) : Res (option A * bytes) :=
  match P with
  | Halt a => Ok (Some a, d)
  | Inquire steps e next => let* r := get E d (query_text steps e) in works E fmt_g (next (findings_of r)) d
  | Act o next =>
      let* x := call E fmt_g o d in
      match x with
      | (d', None) => works E fmt_g next d'
      | (d', Some _) => Ok (None, d')
      end
  end.
(** On a tree that stays within the limits [ok]; [sat] is the truth of conditions. *)
Inductive worked {A} (sat : condition -> node -> bool) (ok : list node -> Prop) : inquirer A -> list node -> A -> list node -> Prop :=
| worked_halt : forall a F, worked sat ok (Halt a) F a F
| worked_inquire : forall steps e next F n a F', good_query steps e -> (elements F < 9999)%N -> finds (ask sat e true steps F) n -> worked sat ok (next n) F a F' ->
    worked sat ok (Inquire steps e next) F a F'
| worked_act : forall o next F F1 a F', legal o -> apply_edit o F = Some F1 -> ok F1 -> worked sat ok next F1 a F' -> worked sat ok (Act o next) F a F'.
