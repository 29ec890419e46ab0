(** C78: values are data; they never decide what happens to the document. *)
From Coq Require Import List Ascii String NArith ZArith Bool Lia.
From Verif Require Import GoStr ModelParser ModelPath ModelResult ModelQuery ModelValidate ModelBuilder SpecText SpecTree SpecHistory SpecInert ProofBase ProofScan ProofInert PropTree.
Import ListNotations.

(** For a document, a path and options, either every value has the same effect (the same error
    and no change, as a rule), or there is one document with gaps, and every value is written
    into these gaps; appending may in addition refuse what has grown too large. *)
Theorem C78_template : forall E g o xml path,
  (exists r, forall v t, written g v t -> (blen t <= 5242880)%N -> set_opts E g o xml path v = r) \/
  (exists T limited, forall v t, written g v t -> (blen t <= 5242880)%N ->
     set_opts E g o xml path v = (if limited && (10485760 <? blen (fill T t))%N then Ok (xml, Some ErrInvalidValue) else Ok (fill T t, None))).
Proof. exact set_answered. Qed.
Print Assumptions C78_template.
(** No string adds or removes markup: the documents two strings lead to have equally many angle
    brackets and quotes. *)
Theorem C78_markup : forall E g o xml path s s' d d' c, (blen (esc s) <= 5242880)%N -> (blen (esc s') <= 5242880)%N ->
  set_opts E g o xml path (VStr s) = Ok (d, None) -> set_opts E g o xml path (VStr s') = Ok (d', None) ->
  In c ["<"%char; ">"%char; dquote; squote] -> occurrences c d = occurrences c d'.
Proof.
  intros E g o xml path s s' d d' c L L' H H' I. destruct (C78_template E g o xml path) as [[r U]|(T & lim & U)].
  - rewrite (U _ _ (wr_str g s) L) in H. rewrite (U _ _ (wr_str g s') L') in H'. congruence.
  - rewrite (U _ _ (wr_str g s) L) in H. rewrite (U _ _ (wr_str g s') L') in H'.
    assert (D : d = fill T (esc s)) by (destruct (lim && _) in H; congruence). assert (D' : d' = fill T (esc s')) by (destruct (lim && _) in H'; congruence). subst.
    apply fill_occ. rewrite !esc_clean by exact I. reflexivity.
Qed.
Print Assumptions C78_markup.
(** What can be set to one value can be set to every value that is not longer when written. *)
Theorem C78_shorter : forall E g o xml path v t v' t' d, written g v t -> written g v' t' -> (blen t <= 5242880)%N -> (blen t' <= blen t)%N ->
  set_opts E g o xml path v = Ok (d, None) -> exists d', set_opts E g o xml path v' = Ok (d', None).
Proof.
  intros E g o xml path v t v' t' d W W' L LE H. assert (L' : (blen t' <= 5242880)%N) by lia.
  destruct (C78_template E g o xml path) as [[r U]|(T & lim & U)].
  - exists d. rewrite (U _ _ W' L'). rewrite <- H. symmetry. apply (U _ _ W L).
  - exists (fill T t'). rewrite (U _ _ W' L'). rewrite (U _ _ W L) in H.
    assert (M : (blen (fill T t') <= blen (fill T t))%N). { pose proof (fill_mono T t' t). unfold blen, bytes in *. lia. }
    destruct lim; cbn [andb] in *; [|reflexivity]. destruct (N.ltb_spec 10485760 (blen (fill T t))); [discriminate|].
    destruct (N.ltb_spec 10485760 (blen (fill T t'))); [lia|reflexivity].
Qed.
Print Assumptions C78_shorter.
(** Whether the call crashes, and every error but that of a size, has nothing to do with the value. *)
Theorem C78_errors : forall E g o xml path v t v' t' r, written g v t -> written g v' t' -> (blen t <= 5242880)%N -> (blen t' <= 5242880)%N ->
  set_opts E g o xml path v = r -> r = Panic \/ (exists d e, r = Ok (d, Some e) /\ e <> ErrInvalidValue) -> set_opts E g o xml path v' = r.
Proof.
  intros E g o xml path v t v' t' r W W' L L' H D. destruct (C78_template E g o xml path) as [[r' U]|(T & lim & U)].
  - rewrite (U _ _ W' L'). rewrite (U _ _ W L) in H. exact H.
  - exfalso. rewrite (U _ _ W L) in H. destruct D as [->|(d & e & -> & N)]; destruct (lim && _); congruence.
Qed.
Print Assumptions C78_errors.

(** An attack: a string that looks like markup. The document is well-formed afterwards, and
    has the markup it has with any other string. *)
Example C78_example :
  set_opts env0 (fun _ => []) default_options (bs "<user><name>u</name></user>") (bs "user.name") (VStr (bs "</name><admin>1</admin><name a=""")) =
    Ok (bs "<user><name>&lt;/name&gt;&lt;admin&gt;1&lt;/admin&gt;&lt;name a=&quot;</name></user>", None) /\
  set_opts env0 (fun _ => []) default_options (bs "<user><name>u</name></user>") (bs "user.name") (VStr []) = Ok (bs "<user><name></name></user>", None) /\
  fill [Some (bs "<user><name>"); None; Some (bs "</name></user>")] [] = bs "<user><name></name></user>" /\
  occurrences "<" (bs "<user><name></name></user>") = 4.
Proof. repeat split; vm_compute; reflexivity. Qed.
(** Several gaps: without respect for case an attribute may be there more than once. *)
Example C78_gaps :
  set_opts env0 (fun _ => []) (mkOpts false [] false None) (bs "<r k='1' K='2'/>") (bs "r.@k") (VInt 7) = Ok (bs "<r K=""7"" k=""7""/>", None).
Proof. vm_compute. reflexivity. Qed.
(** Bytes are markup by intention. *)
Theorem C78_bytes_refuted : exists xml path s s' d d', set_opts env0 (fun _ => []) default_options xml path (VBytes s) = Ok (d, None) /\
  set_opts env0 (fun _ => []) default_options xml path (VBytes s') = Ok (d', None) /\ occurrences "<" d <> occurrences "<" d'.
Proof.
  exists (bs "<r/>"), (bs "r"), (bs "x"), (bs "<x>"). eexists _, _.
  split; [vm_compute; reflexivity|]. split; [vm_compute; reflexivity|]. vm_compute. discriminate.
Qed.
Print Assumptions C78_bytes_refuted.
