(** Which queries an edit leaves alone, and what it does to the others; independent of the
    model of the library except for the calls compared at the end. *)
From Coq Require Import List Ascii String NArith ZArith Bool.
From Verif Require Import GoStr ModelResult ModelParser ModelQuery SpecText SpecPath SpecTree SpecQuery SpecEdit SpecContent SpecFilter SpecLang SpecHistory.
Import ListNotations.

(** No element answers to both names. *)
Definition separate (n m : bytes) : Prop := forall x, selects n x = true -> selects m x = true -> False.
(** Where an edit happens, and whether the elements there stay the same in number. *)
Definition place (o : edit) : list tstep :=
  match o with
  | SetContent steps _ | SetAttr steps _ _ | Remove steps | RemoveAttr steps _ => steps
  | Append steps m _ => steps ++ [(m, None)]
  end.
Definition keeps_number (o : edit) : bool :=
  match o with Remove _ | Append _ _ _ => false | _ => true end.
(** A query whose path leaves that of an edit: it asks for another name, or for another
    number of the same name, at some point; up to there it may ask for names, numbers and
    any children. *)
Section Aside.
  Variable keep : bool.
  Inductive aside : bool -> list tstep -> list qstep -> Prop :=
  | aside_name : forall top n i s m w q, separate n m -> aside top ((n, i) :: s) (Child m w :: q)
  | aside_number : forall n i s ds q, s <> [] \/ keep = true -> N.to_nat (decimal_value ds) <> index_of i ->
      aside false ((n, i) :: s) (Child n (Number ds) :: q)
  | aside_first : forall top n i s m q, aside false s q -> aside top ((n, i) :: s) (Child m Leading :: q)
  | aside_index : forall top n i s m ds q, aside false s q -> aside top ((n, i) :: s) (Child m (Number ds) :: q)
  | aside_any : forall top n i s q, aside false s q -> aside top ((n, i) :: s) (AnyKid :: q).
End Aside.
(** The edit finds what it changes (or the parent, if it appends) in the tree. *)
Definition finds (o : edit) (F : list node) : Prop :=
  match o with
  | SetContent steps _ | SetAttr steps _ _ => exists A nd B, located steps F A nd B
  | _ => True
  end.
(** Lists of fields become empty lists where their parent is created. *)
Definition plain_end (e : qend) : Prop := forall f, e <> EField f.
Definition spares (o : edit) (F : list node) (q : list qstep) (e : qend) : Prop :=
  aside (keeps_number o) true (place o) q /\ (plain_end e \/ finds o F).
(** The same for a sequence of edits. *)
Fixpoint spares_all (ops : list edit) (F : list node) (q : list qstep) (e : qend) : Prop :=
  match ops with
  | [] => True
  | o :: ops' => spares o F q e /\ forall F', apply_edit o F = Some F' -> spares_all ops' F' q e
  end.

(** ** Edits at different places *)
(** The element an edit changes or adds to. *)
Definition spot (o : edit) : list tstep :=
  match o with SetContent steps _ | SetAttr steps _ _ | Remove steps | RemoveAttr steps _ | Append steps _ _ => steps end.
(** Two paths that go the same way and then to different names, or to different numbers of
    a name; [k1] and [k2] tell whether the elements at the ends stay the same in number. *)
Section Apart.
  Variables k1 k2 : bool.
  Inductive apart : list tstep -> list tstep -> Prop :=
  | apart_name : forall n i s m j t, separate n m -> apart ((n, i) :: s) ((m, j) :: t)
  | apart_number : forall n i s j t, index_of i <> index_of j -> s <> [] \/ k1 = true -> t <> [] \/ k2 = true -> apart ((n, i) :: s) ((n, j) :: t)
  | apart_later : forall st s t, apart s t -> apart (st :: s) (st :: t).
End Apart.
Definition stays (o : edit) : bool := match o with Remove _ => false | _ => true end.
Definition exclusive (o1 o2 : edit) : Prop := apart (stays o1) (stays o2) (spot o1) (spot o2).

(** ** Edits that make others pointless *)
(** The second edit leaves nothing of what the first one does: new content or a new value
    at the same place, removal of what was set, and everything done inside an element
    whose content is then replaced or that is then removed. *)
Definition inside (o : edit) (s : list tstep) : Prop :=
  exists t, spot o = s ++ t /\ (t <> [] \/ exists m c, o = Append s m c).
Inductive overrides : edit -> edit -> list node -> Prop :=
| over_content : forall s c1 c2 F, overrides (SetContent s c1) (SetContent s c2) F
| over_attr : forall s x v1 v2 F, overrides (SetAttr s x v1) (SetAttr s x v2) F
| over_drop : forall s x v F A nd B, located s F A nd B -> overrides (SetAttr s x v) (RemoveAttr s x) F
| over_remove : forall o s t F A nd B, located s F A nd B -> spot o = s ++ t -> stays o = true \/ t <> [] -> overrides o (Remove s) F
| over_within : forall o s F A n a kids B c, located s F A (Elem n a false kids) B -> inside o s -> overrides o (SetContent s c) F.
(** What the edit asks for is the case already. *)
Inductive already : edit -> list node -> Prop :=
| already_content : forall s F A n a B c, located s F A (Elem n a false (content_nodes c)) B -> already (SetContent s c) F
| already_attr : forall s F A n a1 x v a2 self kids B, located s F A (Elem n (a1 ++ (x, v) :: a2) self kids) B -> ~ In x (map fst a1) ->
    (List.length (a1 ++ (x, v) :: a2) <= 100)%nat -> already (SetAttr s x v) F
| already_gone : forall s F A n a x self kids B, located s F A (Elem n a self kids) B -> ~ In x (map fst a) -> already (RemoveAttr s x) F.

(** ** Documents with the same answers *)
Definition same_answers (E : env) (d1 d2 : bytes) : Prop :=
  forall steps e, good_query steps e ->
  exists r1 r2, get E d1 (query_text steps e) = Ok r1 /\ get E d2 (query_text steps e) = Ok r2 /\ same_reading r1 r2.
(** The number an element had before the [i]-th one was removed. *)
Definition renumbered (i j : nat) : nat := if Nat.ltb j i then j else S j.
