(** Specification of the five predefined XML references, independent of the model. *)
From Coq Require Import List Ascii String.
From Verif Require Import GoStr.
Import ListNotations.

(** XML 1.0 section 4.6 (no /repo counterpart). *)
Definition predefined : list (bytes * ascii) :=
  [(bs "&amp;", "&"%char); (bs "&lt;", "<"%char); (bs "&gt;", ">"%char);
   (bs "&quot;", dquote); (bs "&apos;", squote)].

(** [Decodes t s]: text [t] denotes the character data [s]; an ampersand that starts
    none of the predefined references denotes itself. *)
Inductive Decodes : bytes -> bytes -> Prop :=
| D_nil : Decodes [] []
| D_ref : forall n c t s, In (n, c) predefined -> Decodes t s -> Decodes (n ++ t) (c :: s)
| D_raw : forall c t s,
    (forall n x r, In (n, x) predefined -> c :: t <> n ++ r) ->
    Decodes t s -> Decodes (c :: t) (c :: s).

(** Text that cannot open or close a tag or an attribute value, and in which every
    ampersand starts a predefined reference. *)
Definition Inert (t : bytes) : Prop :=
  forall pre c post, t = pre ++ c :: post ->
    c <> "<"%char /\ c <> ">"%char /\ c <> dquote /\ c <> squote /\
    (c = "&"%char -> exists n x r, In (n, x) predefined /\ c :: post = n ++ r).
