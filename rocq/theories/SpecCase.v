(** Case-insensitive queries as walks over the element tree; independent of the model of the
    library. Names are compared after folding ASCII letters to lower case. *)
From Coq Require Import List Ascii String NArith ZArith Bool.
From Verif Require Import GoStr SpecText SpecPath SpecTree SpecQuery SpecEdit SpecContent SpecFilter SpecLang.
Import ListNotations.

Definition folded (s : bytes) : bytes := map ascii_lower s.
Definition alike (n m : bytes) : bool := selects (folded n) (folded m).
(** No element has two attributes whose names differ in case only. *)
Definition apart (F : list node) : Prop :=
  forall nd, inside nd F -> NoDup (map (fun a => folded (fst a)) (attrs_of nd)).

Definition attribute_ci (x : bytes) (nd : node) : list item :=
  match filter (fun a => bytes_eqb (folded (fst a)) (folded x)) (attrs_of nd) with
  | [] => []
  | a :: _ => [AnAttribute (snd a)]
  end.
Definition fields_of_ci (f : field) (nd : node) : list item :=
  match f with
  | FieldName n => map element (called (fun m => bytes_eqb (folded m) (folded n)) (kids_of nd))
  | FieldAttr x => attribute_ci x nd
  | FieldText => fields_of FieldText nd
  end.
Definition fields_ci (f : field) (l : list node) : reply := Many (firstn 1000 (flat_map (fields_of_ci f) l)).
Definition leaf_ci (e : qend) (nd : node) : reply :=
  match e with
  | EElement => One (element nd)
  | EAttr x => pack (attribute_ci x nd)
  | EText => One (AText (kids_of nd))
  | ECount => NoReply
  | EField f => fields_ci f [nd]
  end.

Section Meaning.
  (** Conditions keep distinguishing case. *)
  Variable sat : condition -> node -> bool.
  Variable e : qend.

  Fixpoint ask_ci (steps : list qstep) (F : list node) : reply :=
    match steps with
    | [] => NoReply
    | s :: rest =>
        let go_on := fun nd => match rest with [] => leaf_ci e nd | _ => ask_ci rest (kids_of nd) end in
        let chosen := fun (all : bool) l =>
          match l with
          | [] => NoReply
          | nd :: _ =>
              if all then
                match rest, e with
                | [], EElement => Many (map element l)
                | [], EField f => fields_ci f l
                | _, _ => pack (flat_map (fun nd => items (go_on nd)) l)
                end
              else go_on nd
          end in
        match s with
        | Child n w =>
            let named := called (alike n) F in
            let listed := firstn 1000 named in
            match w with
            | Number ds => match nth_error listed (N.to_nat (decimal_value ds)) with Some nd => go_on nd | None => NoReply end
            | Where c all => chosen all (filter (sat c) listed)
            | Leading =>
                match rest, e with
                | [], ECount => match listed with [] => NoReply | _ => One (ACount (List.length listed)) end
                | [], EField f => fields_ci f listed
                | [], _ => match named with nd :: _ => go_on nd | [] => NoReply end
                | _, _ => first_reply go_on named
                end
            end
        | AnyKid => pack (flat_map (fun nd => items (go_on nd)) (firstn 1000 (elems F)))
        | Kid c all => chosen all (firstn 1000 (filter (sat c) (elems F)))
        | Descendant n =>
            (* searches do not list fields *)
            pack (gather (map (fun nd => match rest, e with [], EField _ => [] | _, _ => items (go_on nd) end)
              (called (match n with Some n => alike n | None => fun _ => true end) (post F))))
        end
    end.
End Meaning.

(** Queries that differ in the case of names only. *)
Inductive spelled_step : qstep -> qstep -> Prop :=
| sp_child : forall n n' w, folded n = folded n' -> spelled_step (Child n w) (Child n' w)
| sp_any : spelled_step AnyKid AnyKid
| sp_kid : forall c all, spelled_step (Kid c all) (Kid c all)
| sp_deep : forall n n', folded n = folded n' -> spelled_step (Descendant (Some n)) (Descendant (Some n'))
| sp_deep_any : spelled_step (Descendant None) (Descendant None).
Inductive spelled_end : qend -> qend -> Prop :=
| sp_same : forall e, spelled_end e e
| sp_attr : forall x x', folded x = folded x' -> spelled_end (EAttr x) (EAttr x')
| sp_field : forall n n', folded n = folded n' -> spelled_end (EField (FieldName n)) (EField (FieldName n'))
| sp_field_attr : forall x x', folded x = folded x' -> spelled_end (EField (FieldAttr x)) (EField (FieldAttr x')).
