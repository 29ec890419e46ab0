(** Neatly written documents can be edited like trees. *)
From Coq Require Import List Ascii String NArith ZArith Bool Lia.
From Verif Require Import GoStr ModelParser ModelValidate SpecText SpecPath SpecTree SpecQuery SpecLang SpecValid SpecNotation SpecLaid SpecPlain
  ProofBase ProofScan ProofEscape ProofTree ProofTree3 ProofTree8 ProofValid ProofValid2 ProofNotation ProofNotation2 ProofPlain ProofPlain2 ProofPlain3.
Import ListNotations.

Definition name_char (c : ascii) : Prop := letter c \/ digit c \/ In c (bs ".-_:").
Definition name_ends (s : bytes) : Prop := match s with [] => True | c :: _ => ~ name_char c end.
Lemma name_chars : forall n, xml_name n -> Forall name_char n.
Proof. intros n [_ [H _]]. apply Forall_forall. exact H. Qed.
Lemma name_split : forall n n' t s, Forall name_char n -> Forall name_char n' -> name_ends t -> name_ends s -> n ++ t = n' ++ s -> n = n' /\ t = s.
Proof.
  induction n as [|c n IH]; intros [|c' n'] t s N N' T S E; cbn [app] in E; auto.
  - subst t. inversion N'; subst. now elim T.
  - subst s. inversion N; subst. now elim S.
  - injection E as <- E. inversion N; subst. inversion N'; subst. destruct (IH n' t s) as [-> ->]; auto.
Qed.
Lemma name_char_facts : ~ name_char " "%char /\ ~ name_char "/"%char /\ ~ name_char "="%char.
Proof. unfold name_char, letter, digit. repeat split; intros H; vm_compute in H; intuition discriminate. Qed.
Lemma name_char_blank : forall c, blank c -> ~ name_char c.
Proof.
  intros c B H. unfold blank in B. cbn [In] in B. unfold name_char, letter, digit in H.
  repeat (destruct B as [<-|B]; [vm_compute in H; intuition discriminate|]). destruct B.
Qed.
Lemma blanks_ends : forall w s, blanks w -> name_ends s -> name_ends (w ++ s).
Proof. intros [|c w] s B S; auto. cbn. inversion B; subst. now apply name_char_blank. Qed.
Lemma tag_as_ends : forall a t s, tag_as a t -> name_ends s -> name_ends (t ++ s).
Proof. intros a t s [_ [->|[c [t' [-> B]]]]] S; auto. cbn. now apply name_char_blank. Qed.
Lemma tidy_ends : forall t s, tidy t -> name_ends s -> name_ends (t ++ s).
Proof. intros t s T S. destruct T; auto. cbn. apply name_char_facts. Qed.
Lemma tidy_attributes : forall s, tidy s -> exists k, attributes k s.
Proof.
  induction 1 as [|n q v s N Q I V T [k IH]]; [exists 0; repeat constructor|]. exists (S k).
  change (" "%char :: n ++ "="%char :: q :: v ++ q :: s) with (bs " " ++ n ++ [] ++ "="%char :: [] ++ q :: v ++ q :: s).
  apply at_one; auto; [repeat constructor|constructor|constructor|].
  intros K. apply in_split in K. destruct K as [l1 [l2 E]]. destruct (I l1 q l2 E) as [_ [_ [D1 [D2 _]]]]. destruct Q; contradiction.
Qed.
Ltac ne := let K := fresh in intros K; apply (f_equal (@List.length ascii)) in K; repeat (progress (rewrite ?app_length in K; cbn [List.length] in K)); lia.
Lemma attributes_slash : forall k s, attributes k s -> forall t, s <> t ++ bs "/".
Proof.
  induction 1 as [w B|k w1 n w2 w3 q v s B1 N B2 B3 Q1 Q2 V A IH]; intros t E.
  - unfold blanks in B. rewrite Forall_forall in B. assert (K : blank "/"%char) by (apply B; rewrite E; apply in_app_iff; right; now left).
    vm_compute in K. intuition discriminate.
  - assert (Last : forall (p r : bytes) t, p ++ r = t ++ bs "/" -> r <> [] -> exists t', r = t' ++ bs "/").
    { clear. induction p as [|c p IHp]; intros r t E R; [eauto|]. destruct t as [|d t]; cbn [app] in E.
      - injection E as _ E. apply app_eq_nil in E. destruct E. contradiction.
      - injection E as _ E. eauto. }
    assert (L1 : forall (c : ascii) (r : bytes) t, c :: r = t ++ bs "/" -> r <> [] -> exists t', r = t' ++ bs "/").
    { intros c r u E' R. exact (Last [c] r u E' R). }
    destruct (Last _ _ _ E ltac:(ne)) as [t1 E1]. destruct (Last _ _ _ E1 ltac:(ne)) as [t2 E2].
    destruct (Last _ _ _ E2 ltac:(ne)) as [t3 E3]. destruct (L1 _ _ _ E3 ltac:(ne)) as [t4 E4].
    destruct (Last _ _ _ E4 ltac:(ne)) as [t5 E5]. destruct (L1 _ _ _ E5 ltac:(ne)) as [t6 E6].
    destruct (Last _ _ _ E6 ltac:(ne)) as [t7 E7]. destruct s as [|c s].
    + destruct t7 as [|d [|? ?]]; try discriminate. injection E7 as E7. destruct Q1; subst; discriminate.
    + destruct (L1 _ _ _ E7 ltac:(ne)) as [t8 E8]. exact (IH t8 E8).
Qed.
Lemma tidy_tag : forall n t r a n' s r', xml_name n -> tag_as a t -> good_attrs a -> xml_name n' -> tidy s -> r = [] \/ r = bs "/" -> r' = [] \/ r' = bs "/" ->
  n ++ t ++ r = n' ++ s ++ r' -> tidy t.
Proof.
  intros n t r a n' s r' N T G N' S R R' E.
  assert (RE : forall r, r = [] \/ r = bs "/" -> name_ends r) by (intros ? [->| ->]; [exact I|apply name_char_facts]).
  destruct (name_split n n' (t ++ r) (s ++ r')) as [_ E']; auto using name_chars, tidy_ends; [eapply tag_as_ends; eauto|].
  pose proof (proj1 (tag_as_attributes a t T G)) as A1. destruct (tidy_attributes s S) as [k A2].
  destruct R as [->| ->], R' as [->| ->].
  - rewrite !app_nil_r in E'. now subst.
  - rewrite app_nil_r in E'. elim (attributes_slash _ _ A1 s E').
  - rewrite app_nil_r in E'. elim (attributes_slash _ _ A2 t). now symmetry.
  - apply app_inv_tail in E'. now subst.
Qed.
Lemma inert_length : forall x v, Decodes x v -> Inert x -> List.length (esc v) = List.length x.
Proof.
  induction 1 as [|n c t s P D IH|c t s P D IH]; intros I; auto.
  - unfold esc. cbn [flat_map]. fold (esc s). rewrite !app_length. rewrite IH.
    + f_equal. cbn in P. repeat (destruct P as [P|P]; [injection P as <- <-; reflexivity|]). destruct P.
    + intros pre d post E. apply (I (n ++ pre) d post). rewrite E. now rewrite <- app_assoc.
  - unfold esc. cbn [flat_map]. fold (esc s). rewrite app_length. cbn [List.length]. rewrite IH.
    + destruct (I [] c t eq_refl) as [C1 [C2 [C3 [C4 C5]]]].
      assert (Q : esc_byte c = [c]); [|rewrite Q; reflexivity].
      unfold esc_byte. cbn [find predefined snd].
      destruct (Ascii.eqb_spec "&" c) as [<-|_]; [destruct (C5 eq_refl) as [n [d [r [K E]]]]; elim (P n d r K E)|].
      repeat (match goal with |- context [Ascii.eqb ?x c] => destruct (Ascii.eqb_spec x c); [congruence|] end). reflexivity.
    + intros pre d post E. apply (I (c :: pre) d post). now rewrite E.
Qed.
Lemma blank_first : forall w c s t, blanks w -> w ++ s = c :: t -> ~ blank c -> w = [].
Proof. intros [|d w] c s t B E N; auto. cbn [app] in E. injection E as -> _. inversion B; subst. contradiction. Qed.
Lemma tidy_length : forall a t, attrs_as a t -> Forall xml_name (map fst a) -> tidy t -> List.length t = List.length (attrs_text a).
Proof.
  induction 1 as [w B|n v a w1 w2 w3 q x s B1 B2 B3 Q1 Q2 V D A IH]; intros N T.
  - destruct T as [|n q v s N1 Q I V T]; auto. exfalso. inversion B as [|? ? _ B']; subst. destruct N1 as [[c [r [-> _]]] [N1 _]].
    cbn [app] in B'. inversion B' as [|? ? B0 _]; subst. apply (name_char_blank c B0). apply N1. now left.
  - cbn [map fst] in N. inversion N as [|? ? N1 N2]; subst. remember (w1 ++ n ++ w2 ++ "="%char :: w3 ++ q :: x ++ q :: s) as z eqn:Z.
    destruct T as [|n' q' v' s' N' Q' I' V' T']; [destruct w1; [destruct n; [destruct w2|]|]; discriminate|].
    pose proof (name_chars n N1) as NC. pose proof (name_chars n' N') as NC'.
    destruct w1 as [|c w1].
    { exfalso. cbn [app] in Z. destruct N1 as [[c [r [-> _]]] _]. cbn [app] in Z. injection Z as <- _. inversion NC; subst. elim (proj1 name_char_facts). assumption. }
    cbn [app] in Z. injection Z as <- Z. inversion B1 as [|? ? _ B1']; subst.
    assert (w1 = []) as ->.
    { destruct N' as [[c [r [-> _]]] _]. cbn [app] in Z. eapply blank_first; [exact B1'|symmetry; exact Z|]. intros K. inversion NC'; subst. now apply (name_char_blank c). }
    cbn [app] in Z. assert (NE : forall r, name_ends ("="%char :: r)) by (intros r; exact (proj2 (proj2 name_char_facts))).
    destruct (name_split n' n ("="%char :: q' :: v' ++ q' :: s') (w2 ++ "="%char :: w3 ++ q :: x ++ q :: s) NC' NC (NE _) (blanks_ends w2 _ B2 (NE _)) Z) as [-> Z2].
    assert (w2 = []) as -> by (eapply blank_first; [exact B2|symmetry; exact Z2|intros K; vm_compute in K; intuition discriminate]).
    cbn [app] in Z2. injection Z2 as Z2.
    assert (w3 = []) as -> by (eapply blank_first; [exact B3|symmetry; exact Z2|intros K; destruct Q' as [->| ->]; vm_compute in K; intuition discriminate]).
    cbn [app] in Z2. injection Z2 as -> Z2.
    assert (NQ : ~ In q v').
    { intros K. apply in_split in K. destruct K as [l1 [l2 E]]. destruct (I' l1 q l2 E) as [_ [_ [D1 [D2 _]]]]. destruct Q'; contradiction. }
    destruct (split_at q v' x s' s NQ Q2 Z2) as [-> ->].
    unfold attrs_text. cbn [flat_map]. fold (attrs_text a). unfold attr_text. cbn [fst snd].
    pose proof (IH N2 T') as L. pose proof (inert_length x v D I') as L2.
    repeat (rewrite app_length; cbn [List.length]). rewrite <- L, <- L2. cbn [bs list_ascii_of_string List.length]. lia.
Qed.
Lemma tidy_closed : forall s, tidy s -> quotes_closed s.
Proof.
  assert (Name : forall n s, quote_free n -> quotes_closed s -> quotes_closed (n ++ s)).
  { induction n as [|c n IH]; intros s Q C; auto. cbn [app]. destruct (Q c (or_introl eq_refl)) as [C1 C2]. apply qc_char; auto. apply IH; auto.
    intros d D. apply Q. now right. }
  induction 1 as [|n q v s N Q I V T IH]; [constructor|]. apply qc_char; try discriminate. apply Name; [now apply name_quote_free|].
  apply qc_char; try discriminate. apply qc_quoted; auto.
  intros K. apply in_split in K. destruct K as [l1 [l2 E]]. destruct (I l1 q l2 E) as [_ [_ [D1 [D2 _]]]]. destruct Q; contradiction.
Qed.
Lemma neat_start : forall a n at' t r b, neat (a ++ "<"%char :: (n ++ t ++ r) ++ ">"%char :: b) -> xml_name n -> good_attrs at' -> tag_as at' t -> r = [] \/ r = bs "/" ->
  List.length t = List.length (attrs_text at').
Proof.
  intros a n at' t r b H N G T R.
  assert (Q : forall u v, n ++ u = "/"%char :: v -> False) by (intros u v E; destruct (name_head_byte n u v N); contradiction).
  assert (Q1 : forall u v, n ++ u = "!"%char :: v -> False) by (intros u v E; destruct (name_head_byte n u v N); contradiction).
  destruct (first_of ">"%char t) as [F|[s1 [s2 [E1 F]]]].
  - destruct (H a (n ++ t ++ r) b eq_refl) as [[s E]|[[n' [_ E]]|(n' & s & r' & N' & S & R' & E)]].
    + rewrite !in_app_iff. intros [K|[K|K]]; auto; [now apply (name_no_gt n)|]. destruct R as [->| ->]; cbn in K; intuition discriminate.
    + destruct (Q1 _ _ E).
    + destruct (Q _ _ E).
    + apply tidy_length; [apply T|apply G|]. exact (tidy_tag n t r at' n' s r' N T G N' S R R' E).
  - exfalso. destruct (H a (n ++ s1) (s2 ++ r ++ ">"%char :: b)) as [[s E]|[[n' [_ E]]|(n' & s & r' & N' & S & R' & E)]].
    + rewrite E1. assoc.
    + rewrite in_app_iff. intros [K|K]; auto. now apply (name_no_gt n).
    + destruct (Q1 _ _ E).
    + destruct (Q _ _ E).
    + apply (attributes_cut _ _ (proj1 (tag_as_attributes at' t T G)) s1 s2 E1).
      apply (closed_after n); [now apply name_quote_free|]. rewrite E.
      assert (Name : forall n s, quote_free n -> quotes_closed s -> quotes_closed (n ++ s)).
      { clear. induction n as [|c n IH]; intros s Q C; auto. cbn [app]. destruct (Q c (or_introl eq_refl)) as [C1 C2]. apply qc_char; auto. apply IH; auto.
        intros d D. apply Q. now right. }
      apply Name; [now apply name_quote_free|]. destruct R' as [->| ->]; [rewrite app_nil_r; now apply tidy_closed|].
      assert (App : forall u, quotes_closed u -> quotes_closed (u ++ bs "/")).
      { clear. induction 1 as [|c s C1 C2 C IH|q v s Q N C IH]; [repeat constructor; discriminate|now apply qc_char|]. cbn [app]. rewrite <- app_assoc. cbn [app]. now apply qc_quoted. }
      apply App. now apply tidy_closed.
Qed.
Lemma neat_end : forall a n w b, neat (a ++ "<"%char :: ("/"%char :: n ++ w) ++ ">"%char :: b) -> xml_name n -> blanks w -> w = [].
Proof.
  intros a n w b H N B. destruct (H a ("/"%char :: n ++ w) b eq_refl) as [[s E]|[[n' [N' E]]|(n' & s & r' & N' & S & R' & E)]].
  - intros [K|K]; [discriminate|]. apply in_app_iff in K. destruct K as [K|K]; [now apply (name_no_gt n)|now apply (blanks_no_gt w)].
  - discriminate.
  - injection E as E. destruct w as [|c w]; auto. exfalso. inversion B as [|? ? B0 _]; subst. apply (name_char_blank c B0).
    apply N'. apply in_app_iff. right. now left.
  - destruct (name_head_byte n' (s ++ r') (n ++ w) N') as [_ K]. now elim K.
Qed.
Lemma neat_laid :
  (forall nd x, written nd x -> good nd -> forall a b, neat (a ++ x ++ b) -> forall top, laid top 0 nd x) /\
  (forall F x, written_all F x -> Forall good F -> forall a b, neat (a ++ x ++ b) -> forall top, laid_all top 0 F x).
Proof.
  apply written_both.
  - intros n at' kids t x w T W IH B S G a b H top. inversion G as [? ? ? ? G1 G2 G3 G4| |]; subst.
    assert (L : List.length t = List.length (attrs_text at')).
    { apply (neat_start a n at' t [] (x ++ bs "</" ++ n ++ w ++ bs ">" ++ b)); auto. rewrite app_nil_r.
      match goal with |- neat ?u => match type of H with neat ?v => replace u with v; [exact H|] end end. assoc. }
    assert (w = []) as ->.
    { apply (neat_end (a ++ bs "<" ++ n ++ t ++ bs ">" ++ x) n w b); auto.
      match goal with |- neat ?u => match type of H with neat ?v => replace u with v; [exact H|] end end. assoc. }
    replace (bs "<" ++ n ++ t ++ bs ">" ++ x ++ bs "</" ++ n ++ [] ++ bs ">") with (opening n t false ++ x ++ end_tag n) by (unfold opening, end_tag; assoc).
    apply la_elem; auto; [lia|]. apply (IH G4 (a ++ bs "<" ++ n ++ t ++ bs ">") (bs "</" ++ n ++ bs ">" ++ b)).
    match goal with |- neat ?u => match type of H with neat ?v => replace u with v; [exact H|] end end. assoc.
  - intros n at' t T G a b H top. inversion G as [? ? ? ? G1 G2 G3 G4| |]; subst.
    assert (L : List.length t = List.length (attrs_text at')).
    { apply (neat_start a n at' t (bs "/") b); auto.
      match goal with |- neat ?u => match type of H with neat ?v => replace u with v; [exact H|] end end. assoc. }
    change (bs "<" ++ n ++ t ++ bs "/>") with (opening n t true). apply la_self; auto. lia.
  - intros t G a b H top. constructor.
  - intros m G a b H top. constructor.
  - intros G a b H top. constructor.
  - intros nd F x y W1 IH1 W2 IH2 G a b H top. inversion G; subst. apply (ls_cons top 0 0).
    + apply (IH1 ltac:(assumption) a (y ++ b)). now rewrite <- app_assoc in H.
    + apply (IH2 ltac:(assumption) (a ++ x) b). rewrite <- !app_assoc in *. exact H.
Qed.
Lemma neat_laid_all : forall F x, written_all F x -> Forall good F -> neat x -> forall top, laid_all top 0 F x.
Proof. intros F x W G H top. apply (proj2 neat_laid F x W G [] []). now rewrite app_nil_r. Qed.

(** ** Recognising neat bytes (for examples) *)
Fixpoint span_b (f : ascii -> bool) (s : bytes) : bytes * bytes :=
  match s with [] => ([], []) | c :: s' => if f c then let p := span_b f s' in (c :: fst p, snd p) else ([], s) end.
Lemma span_b_app : forall f s, s = fst (span_b f s) ++ snd (span_b f s).
Proof. intros f. induction s as [|c s IH]; auto. cbn [span_b]. destruct (f c); cbn [fst snd app]; auto. now f_equal. Qed.
Definition part_b (c : ascii) : bool := negb (existsb (Ascii.eqb c) [" "; "/"; "="; ">"]%char).
Definition inert_b (c : ascii) : bool := negb (existsb (Ascii.eqb c) ["<"%char; ">"%char; dquote; squote; "&"%char]).
Fixpoint tidy_b (k : nat) (s : bytes) : bool :=
  match k, s with
  | _, [] => true
  | S k', c :: s1 =>
      Ascii.eqb c " " &&
      let p := span_b part_b s1 in
      match snd p with
      | d :: q :: s2 =>
          let r := span_b inert_b s2 in
          match snd r with
          | q' :: s3 => xml_name_b (fst p) && Ascii.eqb d "=" && (Ascii.eqb q dquote || Ascii.eqb q squote) && Ascii.eqb q q' &&
              (N.of_nat (List.length (fst r)) <=? 1048576)%N && forallb inert_b (fst r) && tidy_b k' s3
          | [] => false
          end
      | _ => false
      end
  | 0, _ => false
  end.
Lemma inert_b_ok : forall v, forallb inert_b v = true -> Inert v.
Proof.
  intros v H pre c post ->. rewrite forallb_forall in H. specialize (H c ltac:(apply in_app_iff; right; now left)). unfold inert_b in H. cbn [existsb] in H.
  apply negb_true_iff in H. repeat (apply orb_false_iff in H; destruct H as [?H H]). apply Ascii.eqb_neq in H0, H1, H2, H3, H4. repeat split; auto. intros K. contradiction.
Qed.
Lemma tidy_b_ok : forall k s, tidy_b k s = true -> tidy s.
Proof.
  induction k as [|k IH]; intros [|c s] H; try constructor; [discriminate|]. cbn [tidy_b] in H. apply andb_true_iff in H. destruct H as [C H]. apply Ascii.eqb_eq in C. subst c.
  pose proof (span_b_app part_b s) as E1. destruct (snd (span_b part_b s)) as [|d [|q s2]]; try discriminate H.
  pose proof (span_b_app inert_b s2) as E2. destruct (snd (span_b inert_b s2)) as [|q' s3]; try discriminate H.
  repeat (apply andb_true_iff in H; destruct H as [H ?H]). apply Ascii.eqb_eq in H5, H3. subst d q'. rewrite E1, E2. apply ti_one.
  - now apply xml_name_b_ok.
  - apply orb_true_iff in H4. destruct H4 as [K|K]; apply Ascii.eqb_eq in K; auto.
  - now apply inert_b_ok.
  - unfold small. now apply N.leb_le.
  - now apply IH.
Qed.
Definition neat_markup_b (t : bytes) : bool :=
  match t with
  | [] => false
  | c :: s => Ascii.eqb c "!" || (Ascii.eqb c "/" && xml_name_b s) ||
      (let p := span_b part_b t in xml_name_b (fst p) &&
         (tidy_b (List.length t) (snd p) || (bytes_eqb (snd p) (removelast (snd p) ++ bs "/") && tidy_b (List.length t) (removelast (snd p)))))
  end.
Fixpoint neat_b (x : bytes) : bool :=
  match x with [] => true | c :: s => (if Ascii.eqb c "<" then neat_markup_b (until_gt s) else true) && neat_b s end.
Lemma neat_b_ok : forall x, neat_b x = true -> neat x.
Proof.
  intros x H a t b -> N. assert (M : neat_markup_b t = true).
  { induction a as [|c a IH]; cbn [app neat_b] in H; apply andb_true_iff in H; destruct H as [H1 H2]; auto. cbn in H1. now rewrite until_first in H1. }
  clear H N. unfold neat_markup_b in M. destruct t as [|c s]; [discriminate|]. apply orb_true_iff in M. destruct M as [M|M].
  - apply orb_true_iff in M. destruct M as [M|M].
    + apply Ascii.eqb_eq in M. subst. left. eauto.
    + apply andb_true_iff in M. destruct M as [M1 M2]. apply Ascii.eqb_eq in M1. subst. right. left. exists s. split; auto. now apply xml_name_b_ok.
  - cbv zeta in M. right. right. pose proof (span_b_app part_b (c :: s)) as E. apply andb_true_iff in M. destruct M as [M1 M2]. apply xml_name_b_ok in M1.
    apply orb_true_iff in M2. destruct M2 as [M2|M2].
    + exists (fst (span_b part_b (c :: s))), (snd (span_b part_b (c :: s))), []. rewrite app_nil_r. split; auto. split; [eapply tidy_b_ok; eauto|]. auto.
    + apply andb_true_iff in M2. destruct M2 as [M2 M3]. apply bytes_eqb_eq in M2.
      exists (fst (span_b part_b (c :: s))), (removelast (snd (span_b part_b (c :: s)))), (bs "/"). split; auto. split; [eapply tidy_b_ok; eauto|]. rewrite <- M2. auto.
Qed.
