(** C86: edits pass over markup inside comments. *)
From Coq Require Import List Ascii String NArith ZArith Bool Lia Permutation.
From Verif Require Import GoStr ModelParser ModelPath ModelResult ModelQuery ModelValidate ModelBuilder SpecText SpecPath SpecTree SpecQuery SpecFilter SpecLang SpecValid SpecEdit SpecContent SpecHistory SpecHidden
  ProofBase ProofPath ProofTree ProofTree2 ProofTree4 ProofTree5 ProofTree8 ProofEdit5 ProofEdit8 ProofValid2 PropTree PropHistory ProofHidden ProofHidden2 ProofHidden5 PropHidden.
Import ListNotations.

Lemma same_varied : forall nd nd', same nd nd' -> varied nd nd'.
Proof.
  induction nd as [n a self kids IH|t|b] using node_ind'; intros nd' H; inversion H as [? ? a' ? ? kids' P K| |]; subst; try apply varied_refl.
  constructor; auto. clear - IH K. induction K as [|x y l l' H1 H2 IH2]; [constructor|]. inversion IH; subst. constructor; auto.
Qed.
Lemma same_varied_all : forall F G, Forall2 same F G -> Forall2 varied F G.
Proof. intros F G H. induction H; constructor; auto using same_varied. Qed.

(** ** C86. After any sequence of edits of a document with markup inside comments the
    document is the text of the edited tree, comments byte for byte, and every query
    answers from the edited tree. *)
Theorem C86_history : forall E fmt_g p F ops F',
  (forall k l, Permutation l (e_ord E k l)) -> prolog p -> strict_prolog p ->
  Forall clean F -> Forall top_node F -> shallow F -> room p F -> history p ops F F' ->
  exists G, calls E fmt_g ops (p ++ forest_text F) = Ok (p ++ forest_text G, None) /\ Forall2 same F' G /\
    valid (p ++ forest_text G) = true /\
    forall steps fin, good_tpath steps fin ->
      exists r, get E (p ++ forest_text G) (tpath steps fin) = Ok r /\ sketches r (query true steps fin F').
Proof.
  intros E fmt_g p F ops F' Ho Hp SP HG HT HS [HE HZ] HH.
  destruct (clean_history_ok E fmt_g Ho p ops F F' Hp SP HH F HG HT (conj HE (conj HS HZ)) (same_all_refl F)) as [G [C [S [G' [T' FT]]]]].
  exists G. split; [exact C|]. split; [exact S|].
  assert (V : valid (p ++ forest_text G) = true).
  { apply clean_state_valid; auto; [eapply same_clean_all; eauto|eapply same_top; eauto|eapply same_fits; eauto]. }
  split; [exact V|]. intros steps fin GT.
  destruct (get_fair E Ho (p ++ forest_text G) F' steps fin) as [r [R1 R2]]; auto.
  - apply reads_text; auto using skippable_prolog, same_varied_all, clean_fair_all.
  - exact (valid_size _ V).
  - exists r. split; auto. apply denotes_sketches; auto using clean_fair_all.
Qed.
Print Assumptions C86_history.

(** One edit, of any valid document of this kind. *)
Theorem C86_edit : forall E fmt_g p F o F',
  (forall k l, Permutation l (e_ord E k l)) -> prolog p -> Forall fair F -> valid (p ++ forest_text F) = true ->
  legal o -> apply_edit o F = Some F' -> fits p F' ->
  exists G, call E fmt_g o (p ++ forest_text F) = Ok (p ++ forest_text G, None) /\ Forall2 same F' G.
Proof. intros. now apply call_ok. Qed.
Print Assumptions C86_edit.

(** The edits of the first item leave both comments as they are. *)
Fixpoint twice (s : bytes) : bool :=
  match s with
  | a :: r => (Ascii.eqb a "-" && match r with b :: _ => Ascii.eqb b "-" | [] => false end) || twice r
  | [] => false
  end.
Lemma twice_here : forall x y, twice (x ++ bs "--" ++ y) = true.
Proof. induction x as [|c x IH]; intros y; [reflexivity|]. cbn [app twice]. rewrite IH. apply orb_true_r. Qed.
Lemma retired_clean : clean (comment_of retired).
Proof.
  pose proof retired_fair as H. apply clean_comment.
  - repeat (constructor; try (apply xml_name_b_ok; vm_compute; reflexivity); try (apply attrs_b_ok; vm_compute; reflexivity); try discriminate; try (vm_compute; intuition discriminate)).
  - apply dash_arrow; vm_compute; discriminate.
  - intros x y Q. assert (K : twice (forest_text retired ++ bs "-") = true) by (rewrite Q; apply twice_here). vm_compute in K. discriminate.
Qed.
Lemma listing_clean : Forall clean (listing [comment_of retired]).
Proof.
  assert (T : forall t, existsb (Ascii.eqb "<") t = false -> ~ In "<"%char t).
  { intros t H K. assert (existsb (Ascii.eqb "<") t = true); [|congruence]. apply existsb_exists. exists "<"%char. split; auto. }
  constructor; [|constructor]. constructor; [apply xml_name_b_ok; reflexivity|apply attrs_b_ok; vm_compute; reflexivity|discriminate|].
  constructor; [apply retired_clean|]. constructor.
  { constructor; [apply xml_name_b_ok; reflexivity|apply attrs_b_ok; vm_compute; reflexivity|discriminate|].
    constructor; [apply clean_text, T; reflexivity|]. constructor; [apply retired_clean|constructor]. }
  constructor; [apply (clean_cdata (bs "p")); [apply T; reflexivity|]|].
  { intros x y Q. assert (K : In ">"%char (bs "p" ++ bs "]]")) by (rewrite Q; apply in_or_app; right; apply in_or_app; left; cbn; auto).
    vm_compute in K. intuition discriminate. }
  constructor; [|constructor].
  constructor; [apply xml_name_b_ok; reflexivity|apply attrs_b_ok; vm_compute; reflexivity|discriminate|]. constructor; [apply clean_text, T; reflexivity|constructor].
Qed.
Definition reviewed : list edit :=
  [ SetContent [(bs "r", None); (bs "item", None); (bs "name", None)] (AsText (bs "n"));
    Append [(bs "r", None)] (bs "item") (AsText (bs "3"));
    SetAttr [(bs "r", None); (bs "item", Some (bs "1"))] (bs "id") (bs "9");
    Remove [(bs "r", None); (bs "note", None)] ].
Fixpoint legal_steps (ops : list edit) (F : list node) : Prop :=
  match ops with
  | [] => True
  | o :: ops' => legal o /\ match apply_edit o F with
      | Some F' => existsb is_elem F' = true /\ (N.of_nat (List.length (forest_text F')) <=? 10485760)%N = true /\ legal_steps ops' F'
      | None => False end
  end.
Lemma run_steps : forall ops F F', run ops F = Some F' -> legal_steps ops F -> history [] ops F F'.
Proof.
  induction ops as [|o ops IH]; intros F F' R L; cbn [run] in R; cbn [legal_steps] in L; [injection R as <-; constructor|]. destruct L as [L1 L2].
  destruct (apply_edit o F) as [F1|] eqn:Q; [|discriminate]. destruct L2 as [L2 [L3 L4]]. econstructor; eauto. split; [|now apply N.leb_le].
  apply existsb_exists in L2. destruct L2 as [[n a s k| |] [IN K]]; try discriminate. now exists n, a, s, k.
Qed.
Example C86_example :
  let F := listing [comment_of retired] in
  Forall clean F /\ Forall top_node F /\ shallow F /\ room [] F /\
  exists F', history [] reviewed F F' /\
  calls env0 (fun _ => []) reviewed (forest_text F) = Ok (forest_text F', None) /\
  forest_text F' = bs "<r k=""1""><!-- old: <item id=""7""><name>a > b</name></item><note/>--><item id=""1"">x > y<!-- old: <item id=""7""><name>a > b</name></item><note/>--><name>n</name></item><![CDATA[p]]><item id=""9"">z</item><item>3</item></r>".
Proof.
  cbv zeta. split; [apply listing_clean|]. split; [repeat constructor|]. split; [repeat constructor|].
  split; [split; [eexists _, _, _, _; left; reflexivity|vm_compute; discriminate]|].
  destruct (run reviewed (listing [comment_of retired])) as [F'|] eqn:R; [|vm_compute in R; discriminate R]. exists F'.
  split; [|revert R; vm_compute; intros R; injection R as <-; split; reflexivity].
  apply run_steps; auto. clear F' R. unfold reviewed, legal_steps.
  repeat match goal with
  | |- True => exact I
  | |- context [apply_edit ?o ?F] => let x := eval vm_compute in (apply_edit o F) in change (apply_edit o F) with x; cbv iota
  | |- legal _ /\ _ => split
  | |- _ = true /\ _ => split; [vm_compute; reflexivity|]
  | |- legal _ => cbn [legal]
  | |- _ /\ _ => split
  | |- good_tpath _ _ => apply tpath_b_ok; vm_compute; reflexivity
  | |- xml_name _ => apply xml_name_b_ok; vm_compute; reflexivity
  | |- Forall good_tstep _ => eapply (fun l H => gt_steps l TheElement H); apply tpath_b_ok; vm_compute; reflexivity
  | |- Forall _ (_ :: _) => apply Forall_cons
  | |- Forall _ [] => apply Forall_nil
  | |- Forall xml_name _ => cbn [map fst by_name]
  | |- _ < _ => vm_compute; lia
  | |- (_ <= _)%nat => vm_compute; lia
  | |- good_content _ => split; cbn [content_nodes]
  | |- good _ => apply good_b_ok; vm_compute; reflexivity
  | |- (_ <= _)%N => vm_compute; discriminate
  | |- small _ => vm_compute; discriminate
  end.
Qed.

(** With ">" inside an attribute value Set succeeds and leaves a document that is not valid. *)
Theorem C86_attribute_refuted : exists x new, valid x = true /\
  set env0 (fun _ => []) x (bs "r.a") (VStr (bs "N")) = Ok (new, None) /\ valid new = false.
Proof.
  exists (bs "<r><b k='a>b'><c>y</c></b><a>1</a></r>"), (bs "<r><b k='a>b'><c>y</c></b><a>1</N></r>").
  repeat split; vm_compute; reflexivity.
Qed.
Print Assumptions C86_attribute_refuted.
