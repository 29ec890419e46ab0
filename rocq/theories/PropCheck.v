(** C105: the work of validation grows with the document, and no faster. *)
From Coq Require Import List Ascii String NArith ZArith Bool Lia.
From Verif Require Import GoStr ModelParser ModelValidate ModelCheck ProofScan ProofCheck.
Import ListNotations.

(** The counted program gives the verdict of the validation (ModelValidate.v). *)
Theorem C105_count : forall data, fst (c_validate data) = validate data.
Proof. intros data. apply c_validate_ok. Qed.
(** At most nine looks for every byte, whatever the bytes are. *)
Theorem C105_linear : forall data, snd (c_validate data) <= 9 * len data + 9.
Proof. intros data. apply c_validate_ok. Qed.
(** A document that is found valid has been looked at in full. *)
Theorem C105_whole : forall data, valid data = true -> len data < snd (c_validate data).
Proof.
  intros data V. apply c_validate_ok. unfold valid in V. destruct (validate data) as [[e|]|]; auto; discriminate.
Qed.
(** A document above the size limit is refused without being looked at. *)
Theorem C105_oversize : forall data, (MaxDocumentSize < blen data)%N -> valid data = false /\ snd (c_validate data) = 0.
Proof.
  intros data L. unfold valid, validate, c_validate. apply N.ltb_lt in L. rewrite L. auto.
Qed.
(** Hence there is a bound for all inputs. *)
Theorem C105_bounded : forall data, (N.of_nat (snd (c_validate data)) <= 9 * MaxDocumentSize + 9)%N.
Proof.
  intros data. destruct (N.lt_ge_cases MaxDocumentSize (blen data)) as [L|L].
  - destruct (C105_oversize data L) as [_ ->]. apply N.le_0_l.
  - pose proof (C105_linear data) as B. unfold blen in L. lia.
Qed.
(** The factor cannot be less than nine: there are documents of any length that need it. *)
Fixpoint decls (n : nat) : bytes := match n with O => [] | S m => bs "<!>" ++ decls m end.
Lemma decls_length : forall n, len (decls n) = 3 * n.
Proof. induction n as [|n IH]; [reflexivity|]. cbn [decls]. rewrite app_length, IH. cbn [bs List.length list_ascii_of_string]. lia. Qed.
Lemma decls_cost : forall n f k, 3 * n < f -> k = snd (c_loop f (mkV (decls n) [] false false)) -> k = 27 * n + 1.
Proof.
  induction n as [|n IH]; intros f k F H; (destruct f as [|f]; [lia|]); [exact H|].
  specialize (IH f _ ltac:(lia) eq_refl). change (decls (S n)) with ("<"%char :: "!"%char :: ">"%char :: decls n) in H.
  cbn [c_loop v_rest c_skip_ws] in H. change (is_ws "<") with false in H. cbn iota beta in H. change (Ascii.eqb "<" "<") with true in H. cbn iota in H.
  assert (T : c_tag (mkV ("<"%char :: "!"%char :: ">"%char :: decls n) [] false false) ("<"%char :: "!"%char :: ">"%char :: decls n) ("!"%char :: ">"%char :: decls n) = (inr (mkV (decls n) [] false false), 25)) by reflexivity.
  rewrite T in H. destruct (c_loop f (mkV (decls n) [] false false)) as [y k2]. cbn [snd] in *. lia.
Qed.
Theorem C105_tight : forall n, (3 * N.of_nat (S n) <= MaxDocumentSize)%N ->
  exists data, len data = 3 * S n /\ snd (c_validate data) = 9 * len data + 1.
Proof.
  intros n L. exists (decls (S n)). rewrite decls_length. split; [reflexivity|]. unfold c_validate.
  assert (Z : (MaxDocumentSize <? blen (decls (S n)))%N = false) by (apply N.ltb_ge; unfold blen; rewrite decls_length; lia).
  rewrite Z. pose proof (decls_cost (S n) (S (len (decls (S n)))) _ ltac:(rewrite decls_length; lia) eq_refl) as D.
  change (decls (S n)) with ("<"%char :: "!"%char :: ">"%char :: decls n) at 1. cbn iota.
  destruct (c_loop (S (len (decls (S n)))) (mkV (decls (S n)) [] false false)) as [[[e|st]|] k]; cbn [snd] in *; lia.
Qed.

Example C105_example : let d := bs "<a><b id='1'>text</b><!-- c --><![CDATA[x]]></a>" in
  c_validate d = (Some None, 133) /\ len d = 48 /\ valid d = true.
Proof. vm_compute. repeat split. Qed.
Print Assumptions C105_count.
Print Assumptions C105_linear.
Print Assumptions C105_whole.
Print Assumptions C105_oversize.
Print Assumptions C105_bounded.
Print Assumptions C105_tight.
