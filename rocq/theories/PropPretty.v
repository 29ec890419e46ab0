(** C69: pretty-printing. *)
From Coq Require Import List Ascii String NArith ZArith Bool Lia.
From Verif Require Import GoStr ModelPretty ModelParser ModelPath ModelResult ModelQuery SpecPretty ProofBase ProofPretty.
Import ListNotations.
Notation get := ModelQuery.get.

(** [@pretty] hands every token of the raw text to the encoder, in order, start and end tags
    without their name space, and of several equal declarations or several values of one
    name the first; what the encoder writes is the new raw text. Nothing else changes, and
    nothing at all if the encoder fails. *)
Theorem C69_pretty : forall E r toks, r_raw r <> [] -> decode (e_codec E) (r_raw r) = Some toks -> Forall decent_token toks ->
  exists f toks', get_modifier E (bs "pretty") = Some f /\ Forall2 retold toks toks' /\ (forall u, Forall2 retold toks u -> u = toks') /\
    f r = match encode (e_codec E) toks' with Some t => mkR (r_type r) t (r_str r) (r_num r) [] | None => r end.
Proof.
  intros E r toks NR D F. exists (mod_pretty E), (map pretty_token toks). split; [reflexivity|].
  assert (R : Forall2 retold toks (map pretty_token toks)).
  { clear D. induction F; cbn [map]; constructor; auto using pretty_retold. }
  split; [exact R|]. split.
  - intros u U. clear D F. revert u U. induction R as [|x y l l' H R IH]; intros u U; inversion U; subst; auto. f_equal; [eapply retold_det; eauto|now apply IH].
  - unfold mod_pretty, pretty_text. rewrite D. destruct (r_raw r); [contradiction|reflexivity].
Qed.
Print Assumptions C69_pretty.
(** What cannot be read, and what has no raw text, stays as it is. *)
Theorem C69_unreadable : forall E r, r_raw r = [] \/ decode (e_codec E) (r_raw r) = None ->
  exists f, get_modifier E (bs "pretty") = Some f /\ f r = r.
Proof.
  intros E r H. exists (mod_pretty E). split; [reflexivity|]. unfold mod_pretty, pretty_text. destruct H as [->| ->]; auto. now destruct (r_raw r).
Qed.
Print Assumptions C69_unreadable.
(** The text, the number and the kind of a result never change. *)
Theorem C69_same_value : forall E r f, get_modifier E (bs "pretty") = Some f ->
  r_type (f r) = r_type r /\ r_str (f r) = r_str r /\ r_num (f r) = r_num r /\ (r_raw r = [] -> f r = r).
Proof.
  intros E r f H. injection H as <-. unfold mod_pretty. destruct (r_raw r) eqn:R; auto. destruct (pretty_text _ _); repeat split; auto; discriminate.
Qed.
Print Assumptions C69_same_value.
(** Names are compared by a text put together from their parts: with an unusual name space,
    an attribute that duplicates nothing is lost. *)
Theorem C69_collision_refuted : exists E r toks f a l, get_modifier E (bs "pretty") = Some f /\ decode (e_codec E) (r_raw r) = Some [TStart (mkName (bs "a:b") (bs "r")) (l ++ [a]); TEnd (mkName (bs "a:b") (bs "r"))] /\
  (forall b, In b l -> ~ duplicate b a) /\ encode (e_codec E) toks = Some (r_raw (f r)) /\
  toks = [TStart (mkName [] (bs "r")) l; TEnd (mkName [] (bs "r"))].
Proof.
  pose (l := [mkAttr (mkName [] (bs "xmlns")) (bs "a:b"); mkAttr (mkName (bs "xmlns") (bs "p")) (bs "xmlns=a")]).
  pose (a := mkAttr (mkName (bs "xmlns=a") (bs "b")) (bs "lost")).
  pose (C := mkCodec (fun _ => Some [TStart (mkName (bs "a:b") (bs "r")) (l ++ [a]); TEnd (mkName (bs "a:b") (bs "r"))])
    (fun t => match t with [TStart _ [_; _]; _] => Some (bs "two") | [TStart _ [_; _; _]; _] => Some (bs "three") | _ => None end)).
  exists (mkEnv (fun _ l => l) (fun _ => None) (fun _ l => l) C to_lower_ascii (fun _ => None)), (r_element (bs "<r xmlns='a:b' xmlns:p='xmlns=a' p:b='lost'/>")).
  eexists _, _, a, l. split; [reflexivity|]. split; [vm_compute; reflexivity|]. split; [|split; [|reflexivity]].
  - intros b [<-|[<-|[]]] (m & M1 & M2); inversion M2; subst; try discriminate; inversion M1.
  - vm_compute. reflexivity.
Qed.
Print Assumptions C69_collision_refuted.
Definition nc_tokens : list token :=
  [TStart (mkName (bs "urn:x") (bs "a")) [mkAttr (mkName [] (bs "xmlns")) (bs "urn:x"); mkAttr (mkName [] (bs "k")) (bs "1"); mkAttr (mkName [] (bs "xmlns")) (bs "urn:x")];
   TText (bs "t"); TEnd (mkName (bs "urn:x") (bs "a"))].
Definition nc_codec : codec :=
  mkCodec (fun s => if bytes_eqb s (bs "<a xmlns=""urn:x"" k=""1"">t</a>") then Some nc_tokens else None)
    (fun l => match l with [TStart (mkName [] n) [x; y]; TText t; TEnd (mkName [] m)] => Some (bs "<" ++ n ++ bs " " ++ n_local (a_name x) ++ bs " " ++ n_local (a_name y) ++ bs ">" ++ t ++ bs "</" ++ m ++ bs ">") | _ => None end).
Example C69_example :
  let E := mkEnv (fun _ l => l) (fun _ => None) (fun _ l => l) nc_codec to_lower_ascii (fun _ => None) in
  Forall decent_token nc_tokens /\
  get E (bs "<r><w><a xmlns='urn:x' k='1' xmlns='urn:x'>t</a></w></r>") (bs "r.w|@pretty") =
    Ok (mkR RElement (bs "<a xmlns k>t</a>") (bs "t") f64_zero []) /\
  retold (TStart (mkName (bs "urn:x") (bs "a")) [mkAttr (mkName [] (bs "xmlns")) (bs "urn:x"); mkAttr (mkName [] (bs "k")) (bs "1"); mkAttr (mkName [] (bs "xmlns")) (bs "urn:x")])
    (TStart (mkName [] (bs "a")) [mkAttr (mkName [] (bs "xmlns")) (bs "urn:x"); mkAttr (mkName [] (bs "k")) (bs "1")]).
Proof.
  assert (D : Forall decent_token nc_tokens).
  { repeat constructor; cbn; try discriminate; intuition discriminate. }
  split; [exact D|]. split; [vm_compute; reflexivity|].
  inversion D as [|x y D1 _]; subst. exact (pretty_retold _ D1).
Qed.
