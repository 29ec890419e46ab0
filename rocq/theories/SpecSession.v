(** Sequences of edits of element trees in which every edit has its own options; independent
    of the model of the library except for the calls the edits stand for (at the end). *)
From Coq Require Import List Ascii String NArith ZArith Bool Permutation.
From Verif Require Import GoStr ModelResult ModelParser ModelQuery ModelValidate ModelBuilder SpecText SpecPath SpecTree SpecQuery SpecEdit SpecContent SpecValid SpecHistory SpecFilter SpecLang SpecCase SpecOptions.
Import ListNotations.

(** ** Changing one place *)
(** As [change] of SpecHistory.v, with names compared as [exact] says. *)
Fixpoint alter (exact : bool) (g : node -> option (list node)) (miss : list tstep -> option (list node)) (steps : list tstep) (F : list node)
  : option (list node) :=
  match steps with
  | [] => None
  | (n, idx) :: rest =>
      match nth_error (called (finds exact n) F) (index_of idx) with
      | None => option_map (fun l => F ++ l) (miss steps)
      | Some _ =>
          edit_nth (finds exact n) (index_of idx)
            (fun nd =>
               match rest with
               | [] => g nd
               | _ :: _ =>
                   match nd with
                   | Elem m a _ kids => option_map (fun kids' => [Elem m a false kids']) (alter exact g miss rest kids)
                   | _ => None
                   end
               end) F
      end
  end.
(** The children up to the last one whose name satisfies [f], and those after it; all of them
    and none if there is no such child. *)
Fixpoint divide (f : bytes -> bool) (F : list node) : list node * list node :=
  match F with
  | [] => ([], [])
  | nd :: F' =>
      match called f F' with
      | [] => if named f nd then ([nd], F') else (F, [])
      | _ :: _ => (nd :: fst (divide f F'), snd (divide f F'))
      end
  end.

(** ** Edits *)
Definition attr_under (exact : bool) (x v : bytes) (nd : node) : option (list node) :=
  match nd with
  | Elem n a self kids => if List.length (put_attrs exact x v a) <=? 100 then Some [Elem n (put_attrs exact x v a) self kids] else None
  | _ => None
  end.
Definition without_under (exact : bool) (x : bytes) (nd : node) : option (list node) :=
  match nd with Elem n a self kids => Some [Elem n (drop_attrs exact x a) self kids] | _ => None end.
(** The new element follows the last one of its name, on a line of its own. *)
Definition more_under (exact : bool) (indent : bytes) (i : nat) (m v : bytes) (nd : node) : option (list node) :=
  match nd with
  | Elem n a self kids =>
      let K := divide (finds exact m) kids in
      Some [Elem n a false (fst K ++ line_after (fst K) indent i ++ [Elem (spelled exact m) [] false [Text (esc v)]] ++ snd K)]
  | _ => None
  end.
Definition new_under (exact : bool) (indent : bytes) (a : list (bytes * bytes)) (K : list node) (steps : list tstep) : option (list node) :=
  option_map (fun names => new_chain exact indent names a K) (names_only steps).
(** What an edit does to the tree; [None] when it is not described here (contents that are not
    texts, content of a self-closing element, missing indexes, too many attributes, missing
    parent of an appended element). *)
Definition apply_under (exact : bool) (indent : bytes) (o : edit) (F : list node) : option (list node) :=
  match o with
  | SetContent steps (AsText v) => alter exact (with_kids [Text (esc v)]) (new_under exact indent [] [Text (esc v)]) steps F
  | SetAttr steps x v => alter exact (attr_under exact x v) (new_under exact indent [(spelled exact x, v)] []) steps F
  | Remove steps => match alter exact (fun _ => Some []) nothing steps F with Some F' => Some F' | None => Some F end
  | RemoveAttr steps x => match alter exact (without_under exact x) nothing steps F with Some F' => Some F' | None => Some F end
  | Append [] m (AsText v) =>
      let K := divide (finds exact m) F in Some (fst K ++ [Elem (spelled exact m) [] false [Text (esc v)]] ++ snd K)
  | Append steps m (AsText v) => alter exact (more_under exact indent (List.length (flat_map tstep_steps steps)) m v) nothing steps F
  | _ => None
  end.
(** Edits in order, each with its comparison of names and its indentation (white space). *)
Inductive session (p : bytes) : list (options * edit) -> list node -> list node -> Prop :=
| ses_nil : forall F, session p [] F F
| ses_cons : forall o e rest F F1 F2, blanks (o_indent o) -> legal e -> apply_under (o_case o) (o_indent o) e F = Some F1 -> room p F1 ->
    session p rest F1 F2 -> session p ((o, e) :: rest) F F2.

(** ** The calls of the library *)
Definition call_under (E : env) (fmt_g : f64 -> bytes) (o : options) (e : edit) (d : bytes) : Res (bytes * option err) :=
  match e with
  | SetContent steps (AsText v) => set_opts E fmt_g o d (tpath steps TheElement) (VStr v)
  | SetAttr steps x v => set_opts E fmt_g o d (tpath steps (TheAttribute x)) (VStr v)
  | Remove steps => delete_opts E o d (tpath steps TheElement)
  | RemoveAttr steps x => delete_opts E o d (tpath steps (TheAttribute x))
  | Append steps m (AsText v) => set_opts E fmt_g o d (tpath (steps ++ [(m, None)]) TheElement ++ bs ".-1") (VStr v)
  | _ => Ok (d, None)
  end.
(** Calls one after the other, until one fails. *)
Fixpoint calls_under (E : env) (fmt_g : f64 -> bytes) (l : list (options * edit)) (d : bytes) : Res (bytes * option err) :=
  match l with
  | [] => Ok (d, None)
  | (o, e) :: rest =>
      match call_under E fmt_g o e d with
      | Ok (d', None) => calls_under E fmt_g rest d'
      | other => other
      end
  end.

(** ** Trees without white space between tags *)
Fixpoint tidy_node (nd : node) : list node :=
  match nd with
  | Elem n a self kids => [Elem n a self (flat_map tidy_node kids)]
  | Text t => if forallb (fun c => existsb (Ascii.eqb c) [" "%char; tab; lf; cr]) t then [] else [nd]
  | Misc _ => [nd]
  end.
Definition tidy (F : list node) : list node := flat_map tidy_node F.
