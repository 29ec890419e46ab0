(** What [@pretty] hands to the encoder of encoding/xml; independent of the model of the
    library except for the types of tokens and results. *)
From Coq Require Import List Ascii String Bool.
From Verif Require Import GoStr ModelPretty.
Import ListNotations.

(** What an attribute says: a default namespace, a prefix, or the value of a name. *)
Inductive meant := Default (uri : bytes) | Prefix (p uri : bytes) | Named (space local : bytes).
Inductive says_of : xattr -> meant -> Prop :=
| says_default : forall v, says_of (mkAttr (mkName [] (bs "xmlns")) v) (Default v)
| says_prefix : forall p v, says_of (mkAttr (mkName (bs "xmlns") p) v) (Prefix p v)
| says_named : forall s n v, s <> bs "xmlns" -> (s = [] -> n <> bs "xmlns") -> says_of (mkAttr (mkName s n) v) (Named s n).
(** Two declarations of the same, or two values for one name. *)
Definition duplicate (a b : xattr) : Prop := exists m, says_of a m /\ says_of b m.
(** The attributes that duplicate none before them. *)
Inductive firsts : list xattr -> list xattr -> Prop :=
| firsts_nil : firsts [] []
| firsts_new : forall l k a, firsts l k -> (forall b, In b l -> ~ duplicate b a) -> firsts (l ++ [a]) (k ++ [a])
| firsts_old : forall l k a b, firsts l k -> In b l -> duplicate b a -> firsts (l ++ [a]) k.
(** Names as decoders give them: no colon and no equals sign in the local part, and no name
    space that looks like a declaration. *)
Definition decent (a : xattr) : Prop :=
  ~ In ":"%char (n_local (a_name a)) /\ ~ In "="%char (n_local (a_name a)) /\
  (forall r, n_space (a_name a) = bs "xmlns" ++ r -> r = []).
Inductive retold : token -> token -> Prop :=
| retold_start : forall n l k, firsts l k -> retold (TStart n l) (TStart (mkName [] (n_local n)) k)
| retold_end : forall n, retold (TEnd n) (TEnd (mkName [] (n_local n)))
| retold_text : forall s, retold (TText s) (TText s)
| retold_comment : forall s, retold (TComment s) (TComment s)
| retold_inst : forall t s, retold (TInst t s) (TInst t s)
| retold_directive : forall s, retold (TDirective s) (TDirective s).
Definition decent_token (t : token) : Prop := match t with TStart _ l => Forall decent l | _ => True end.
