(** The types of answer that a path can have, read off the path alone; independent of the
    model of the library except for the types of results. *)
From Coq Require Import List Ascii String Bool NArith.
From Verif Require Import GoStr ModelResult SpecText SpecPath SpecGrammar.
Import ListNotations.

(** Types of a single answer, types of the entries of a list, and whether the list can be
    empty. There may always be no answer. *)
Record kinds := mkKinds { alone : list rtype; within : list rtype; maybe_empty : bool }.
Definition never : kinds := mkKinds [] [] false.
Definition always_one (t : rtype) : kinds := mkKinds [t] [] false.
Definition list_of (t : rtype) : kinds := mkKinds [] [t] true.
Definition full_list_of (t : rtype) : kinds := mkKinds [] [t] false.
(** One value, or a list of several. *)
Definition one_or_more (ts : list rtype) : kinds := mkKinds ts ts false.
(** Many answers are collected. *)
Definition together (k : kinds) : kinds := one_or_more (alone k ++ within k).

(** ** Modifiers *)
Definition stock : list bytes := map bs ["reverse"; "sort"; "first"; "last"; "flatten"; "pretty"; "ugly"]%string.
Definition is (a b : bytes) : bool := if list_eq_dec ascii_dec a b then true else false.
Definition after_one (m : bytes) (k : kinds) : kinds :=
  if existsb (is m) (map bs ["first"; "last"]%string) then mkKinds (alone k ++ within k) [] (maybe_empty k)
  else if is m (bs "flatten") then mkKinds (alone k) (within k) false
  else if existsb (is m) stock then k
  else never.
(** At most 20. *)
Definition after (ms : list bytes) (k : kinds) : kinds :=
  if Nat.leb (List.length ms) 20 then fold_left (fun k m => after_one m k) ms k else never.

(** ** Paths *)
Definition field_type (f : bytes) : rtype :=
  match f with
  | "@"%char :: _ => RAttribute
  | _ => if is f (bs "%") then RString else RElement
  end.
(** The modifiers are not applied to an empty list. *)
Definition fields_kinds (f : bytes) (ms : list bytes) : kinds :=
  let k := after ms (list_of (field_type f)) in mkKinds (alone k) (within k) true.
Section Kinds.
  (** Under options many modifiers are ignored. *)
  Variable deaf : bool.
  Definition heard (ms : list bytes) (k : kinds) : kinds := if deaf then k else after ms k.

  (** [literal]: at the beginning of a path, where names followed by list operations are
      literal. *)
  Fixpoint kinds_of (literal : bool) (l : list (gstep * list bytes)) : kinds :=
    match l with
    | [] => never
    | (GName _, ms) :: rest =>
        match rest with
        | [] => heard ms (always_one RElement)
        | (GAttr _, ms') :: more => match more with [] => heard ms' (always_one RAttribute) | _ => never end
        | (GText, ms') :: _ => heard ms' (always_one RString)
        | (GCount, ms') :: _ => if literal then always_one RNumber else heard ms' (always_one RNumber)
        | (GField f, ms') :: _ => fields_kinds f ms'
        | (GNth _, ms') :: more =>
            match more with
            | [] => if literal then always_one RElement else heard ms' (always_one RElement)
            | (GAttr _, ms2) :: more2 =>
                if literal then always_one RAttribute
                else match more2 with [] => heard ms2 (always_one RAttribute) | _ => always_one RAttribute end
            | (GText, _) :: _ => if literal then always_one RString else never
            | _ => kinds_of false more
            end
        | (GWhere all _ _ _, ms') :: more =>
            match more with
            | [] => after ms' (if all then full_list_of RElement else always_one RElement)
            | (GAttr _, ms2) :: _ => after ms2 (if all then one_or_more [RAttribute] else always_one RAttribute)
            | (GText, ms2) :: _ => after ms2 (if all then one_or_more [RString] else always_one RString)
            | (GField f, ms2) :: _ => fields_kinds f ms2
            | (_, ms2) :: _ => if all then after ms2 (together (kinds_of false more)) else kinds_of false more
            end
        | _ => kinds_of false rest
        end
    | (GWhere all _ _ _, ms) :: rest =>
        match rest with
        | [] => after ms (if all then full_list_of RElement else always_one RElement)
        | (GAttr _, ms2) :: _ => after ms2 (if all then one_or_more [RAttribute] else always_one RAttribute)
        | (GText, ms2) :: _ => after ms2 (if all then one_or_more [RString] else always_one RString)
        | (GField f, ms2) :: _ => fields_kinds f ms2
        | (_, ms2) :: _ => if all then after ms2 (together (kinds_of false rest)) else kinds_of false rest
        end
    (* a list operation without a list *)
    | (GField _, _) :: _ => mkKinds [] [] true
    | (GNth _, _) :: _ | (GCount, _) :: _ | (GText, _) :: _ | (GAttr _, _) :: _ => never
    | (GAny, ms) :: rest =>
        match rest with
        | [] => heard ms (one_or_more [RElement])
        | (GAttr _, ms') :: more => match more with [] => after ms' (one_or_more [RAttribute]) | _ => never end
        | (GText, ms') :: _ => after ms' (one_or_more [RString])
        | (_, ms') :: _ =>
            let k := kinds_of false rest in
            let c := after ms' (together k) in
            mkKinds (alone c) (within c) (maybe_empty c || (negb deaf && maybe_empty k))
        end
    | (GDeep, _) :: (GName _, _) :: rest | (GDeep, _) :: (GAny, _) :: rest | (GDeep, _) :: (GDeep, _) :: rest =>
        match rest with
        | [] => one_or_more [RElement]
        | (GAttr _, _) :: more => match more with [] => one_or_more [RAttribute] | _ => never end
        | (GText, _) :: _ => one_or_more [RString]
        | (GField f, ms') :: _ =>
            if deaf then never
            else one_or_more (within (fields_kinds f ms'))
        | _ => together (kinds_of false rest)
        end
    | (GDeep, _) :: _ => never
    end.
End Kinds.

(** A result is of one of the kinds. *)
Definition of_kind (k : kinds) (r : result) : Prop :=
  match r_type r with
  | RNull => True
  | RArray => r_raw r = [] /\ Forall (fun x => In (r_type x) (within k)) (r_results r) /\ (r_results r = [] -> maybe_empty k = true)
  | t => In t (alone k)
  end.

(** ** A document for every query without conditions *)
From Verif Require Import SpecTree SpecQuery SpecLang.
Definition unconditional (s : qstep) : Prop :=
  match s with Child _ (Where _ _) | Kid _ _ => False | _ => True end.
(** Names that elements and attributes can have, and numbers below 1000. *)
Definition feasible (s : qstep) : Prop :=
  match s with
  | Child n Leading | Descendant (Some n) => xml_name n
  | Child n (Number ds) => xml_name n /\ (decimal_value ds < 1000)%N
  | _ => True
  end.
Definition feasible_end (e : qend) : Prop :=
  match e with EAttr x | EField (FieldAttr x) | EField (FieldName x) => xml_name x | _ => True end.
Definition end_attrs (e : qend) : list (bytes * bytes) :=
  match e with EAttr x | EField (FieldAttr x) => [(x, bs "v")] | _ => [] end.
Definition end_kids (e : qend) : list node :=
  match e with
  | EField (FieldName n) => [Elem n [] false []]
  | EField FieldText => [Text (bs "v")]
  | _ => []
  end.
Fixpoint specimen (e : qend) (steps : list qstep) : list node :=
  match steps with
  | [] => []
  | s :: rest =>
      let nd := fun n => match rest with
        | [] => Elem n (end_attrs e) false (end_kids e)
        | _ => Elem n [] false (specimen e rest)
        end in
      match s with
      | Child n (Number ds) => repeat (Elem n [] false []) (N.to_nat (decimal_value ds)) ++ [nd n]
      | Child n _ | Descendant (Some n) => [nd n]
      | _ => [nd (bs "a")]
      end
  end.
