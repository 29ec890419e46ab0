(** Programs that ask and edit a document, what they ask and do depending on the answers, and
    the same programs working on a tree. *)
From Coq Require Import List Ascii String NArith ZArith Bool.
From Verif Require Import GoStr ModelResult ModelParser ModelQuery ModelBuilder SpecText SpecPath SpecTree SpecQuery SpecEdit SpecHistory.
Import ListNotations.

(** What a program learns from a result: that there is none, the text of an element, an
    attribute or a text, a number of elements, or the texts of several elements. *)
Inductive news :=
| Absent
| Said (s : bytes)
| Amount (n : N)
| Many (l : list bytes).
(** From the library: Type, String() and the entries of Results. *)
Definition news_of (r : result) : news :=
  match r_type r with
  | RNull => Absent
  | RNumber => Amount (decimal_value (r_string r))
  | RArray => Many (map r_string (r_results r))
  | _ => Said (r_string r)
  end.
(** From the tree. *)
Definition text_of (kids : list node) (s : bytes) : Prop := Decodes (trim_space (all_text kids)) s.
Inductive tells : answer -> news -> Prop :=
| tells_nothing : tells Nothing Absent
| tells_element : forall kids s, text_of kids s -> tells (Element kids) (Said s)
| tells_attribute : forall v, tells (Attribute v) (Said v)
| tells_text : forall kids s, Decodes (trim_space (own_text kids)) s -> tells (TextAnswer kids) (Said s)
| tells_count : forall n, tells (Count n) (Amount (N.of_nat n))
| tells_many : forall l ss, Forall2 text_of l ss -> tells (Elements l) (Many ss).

(** A program ends, or asks with a path and goes on as the answer tells, or makes an edit and
    goes on. *)
Inductive actor (A : Type) :=
| Stop (a : A)
| Query (steps : list tstep) (fin : final) (next : news -> actor A)
| Perform (o : edit) (next : actor A).
Arguments Stop {A} _.
Arguments Query {A} _ _ _.
Arguments Perform {A} _ _.
(** On a document: Get, and the call an edit stands for.  The first error ends it. *)
Fixpoint plays {A} (E : env) (fmt_g : f64 -> bytes) (P : actor A) (d : bytes) : Res (option A * bytes) :=
  match P with
  | Stop a => Ok (Some a, d)
  | Query steps fin next => let* r := get E d (tpath steps fin) in plays E fmt_g (next (news_of r)) d
  | Perform o next =>
      let* x := call E fmt_g o d in
      match x with
      | (d', None) => plays E fmt_g next d'
      | (d', Some _) => Ok (None, d')
      end
  end.
(** On a tree that stays within the limits [ok]. *)
Inductive played {A} (ok : list node -> Prop) : actor A -> list node -> A -> list node -> Prop :=
| played_stop : forall a F, played ok (Stop a) F a F
| played_query : forall steps fin next F n a F', good_tpath steps fin -> tells (query true steps fin F) n -> played ok (next n) F a F' ->
    played ok (Query steps fin next) F a F'
| played_perform : forall o next F F1 a F', legal o -> apply_edit o F = Some F1 -> ok F1 -> played ok next F1 a F' -> played ok (Perform o next) F a F'.
