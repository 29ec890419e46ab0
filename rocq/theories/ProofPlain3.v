(** Valid documents of plain bytes are ordinary. *)
From Coq Require Import List Ascii String NArith ZArith Bool Lia.
From Verif Require Import GoStr ModelParser ModelValidate SpecText SpecPath SpecTree SpecQuery SpecLang SpecValid SpecNotation SpecPlain
  ProofBase ProofScan ProofEscape ProofTree ProofTree3 ProofValid ProofValid2 ProofNotation ProofNotation2 ProofPlain ProofPlain2.
Import ListNotations.

Ltac assoc := repeat first [rewrite <- !app_assoc | progress cbn [app bs list_ascii_of_string]]; reflexivity.
Lemma first_of : forall (c : ascii) s, ~ In c s \/ exists s1 s2, s = s1 ++ c :: s2 /\ ~ In c s1.
Proof.
  intros c. induction s as [|x s IH]; [now left; intros []|]. destruct (ascii_dec x c) as [->|N].
  - right. exists [], s. split; auto.
  - destruct IH as [H|[s1 [s2 [-> H]]]].
    + left. intros [K|K]; auto.
    + right. exists (x :: s1), s2. split; auto. intros [K|K]; auto.
Qed.
(** ** Attributes *)
Lemma decodes_length : forall t s, Decodes t s -> List.length s <= List.length t.
Proof.
  induction 1 as [|n c t s N D IH|c t s N D IH]; cbn [List.length]; try lia.
  rewrite app_length. assert (1 <= List.length n); [|lia]. cbn in N.
  repeat (destruct N as [N|N]; [injection N as <- _; cbn; lia|]). destruct N.
Qed.
Lemma esc_byte_length : forall c, List.length (esc_byte c) <= 6.
Proof.
  intros c. unfold esc_byte. destruct (find _ predefined) as [[n d]|] eqn:F; [|cbn; lia]. apply find_some in F. destruct F as [F _]. cbn in F.
  repeat (destruct F as [F|F]; [injection F as <- _; cbn; lia|]). destruct F.
Qed.
Lemma esc_length : forall s, List.length (esc s) <= 6 * List.length s.
Proof.
  induction s as [|c s IH]; [cbn; lia|]. unfold esc in *. cbn [flat_map]. rewrite app_length. cbn [List.length]. pose proof (esc_byte_length c). lia.
Qed.
Lemma attributes_as : forall k s, attributes k s -> exists a, attrs_as a s /\ List.length a = k /\ Forall xml_name (map fst a) /\
  Forall (fun p => List.length (snd p) <= List.length s) a.
Proof.
  induction 1 as [w B|k w1 n w2 w3 q v s B1 N B2 B3 Q1 Q2 V A IH].
  - exists []. repeat split; try constructor; auto.
  - destruct IH as [a [A1 [A2 [A3 A4]]]]. exists ((n, unescape_xml v) :: a). split; [|split; [|split]].
    + apply aa_one; auto. apply unescape_decodes.
    + cbn [List.length]. now rewrite A2.
    + now constructor.
    + constructor.
      * cbn [snd]. pose proof (decodes_length _ _ (unescape_decodes v)). rewrite !app_length. cbn [List.length]. rewrite !app_length. cbn [List.length]. rewrite app_length. lia.
      * eapply Forall_impl; [|exact A4]. intros p P. cbv beta in P. rewrite !app_length. cbn [List.length]. rewrite !app_length. cbn [List.length]. rewrite app_length. cbn [List.length]. lia.
Qed.
(** ** Quotations *)
Definition quote_free (s : bytes) : Prop := forall c, In c s -> c <> dquote /\ c <> squote.
Lemma closed_after : forall p s, quote_free p -> quotes_closed (p ++ s) -> quotes_closed s.
Proof.
  induction p as [|c p IH]; intros s F H; auto. cbn [app] in H. destruct (F c (or_introl eq_refl)) as [C1 C2]. apply IH.
  - intros d D. apply F. now right.
  - inversion H as [|? ? ? ? K|q ? ? Q]; subst; auto. destruct Q; contradiction.
Qed.
Lemma closed_open : forall q v, q = dquote \/ q = squote -> ~ In q v -> ~ quotes_closed (q :: v).
Proof.
  intros q v Q N H. inversion H as [|? ? K1 K2|? v' s' Q' N' K]; subst; [destruct Q; contradiction|]. apply N. apply in_app_iff. right. now left.
Qed.
Lemma closed_quoted : forall q v s, q = dquote \/ q = squote -> ~ In q v -> quotes_closed (q :: v ++ q :: s) -> quotes_closed s.
Proof.
  intros q v s Q N H. inversion H as [|? ? K1 K2|? v' s' Q' N' K E]; subst; [destruct Q; contradiction|].
  destruct (split_at q v' v s' s N' N) as [_ <-]; auto.
Qed.
Lemma name_quote_free : forall n, xml_name n -> quote_free n.
Proof.
  intros n [_ [H _]] c C. specialize (H c C). split; intros ->; unfold letter, digit in H; vm_compute in H; intuition discriminate.
Qed.
Lemma blanks_quote_free : forall w, blanks w -> quote_free w.
Proof.
  intros w B c C. unfold blanks in B. rewrite Forall_forall in B. specialize (B c C). split; intros ->; vm_compute in B; intuition discriminate.
Qed.
Lemma name_no_gt : forall n, xml_name n -> ~ In ">"%char n.
Proof.
  intros n [_ [H _]] C. specialize (H _ C). unfold letter, digit in H. vm_compute in H. intuition discriminate.
Qed.
(** A prefix that ends before a ">" inside a value. *)
Lemma app_split : forall (a b s1 s2 : bytes) (c : ascii), a ++ b = s1 ++ c :: s2 -> (exists z, a = s1 ++ c :: z) \/ exists z, s1 = a ++ z /\ b = z ++ c :: s2.
Proof.
  induction a as [|x a IH]; intros b s1 s2 c E; cbn [app] in E.
  - right. exists s1. auto.
  - destruct s1 as [|y s1]; cbn [app] in E.
    + injection E as -> E. left. exists a. reflexivity.
    + injection E as -> E. destruct (IH _ _ _ _ E) as [[z ->]|[z [-> ->]]]; [left; exists z; reflexivity|right; exists z; auto].
Qed.
Lemma attributes_cut : forall k s, attributes k s -> forall s1 s2, s = s1 ++ ">"%char :: s2 -> ~ quotes_closed s1.
Proof.
  induction 1 as [w B|k w1 n w2 w3 q v s B1 N B2 B3 Q1 Q2 V A IH]; intros s1 s2 E C.
  - apply (blanks_no_gt w B). rewrite E. apply in_app_iff. right. now left.
  - assert (Cut : forall p r s1, quote_free p -> ~ In ">"%char p -> p ++ r = s1 ++ ">"%char :: s2 -> quotes_closed s1 -> exists z, r = z ++ ">"%char :: s2 /\ quotes_closed z).
    { clear. intros p r s1 F N E C. destruct (app_split _ _ _ _ _ E) as [[z ->]|[z [-> E']]].
      - elim N. apply in_app_iff. right. now left.
      - exists z. split; auto. eapply closed_after; eauto. }
    destruct (Cut _ _ _ (blanks_quote_free _ B1) (blanks_no_gt _ B1) E C) as [z1 [E1 C1]].
    destruct (Cut _ _ _ (name_quote_free _ N) (name_no_gt _ N) E1 C1) as [z2 [E2 C2]].
    destruct (Cut _ _ _ (blanks_quote_free _ B2) (blanks_no_gt _ B2) E2 C2) as [z3 [E3 C3]].
    destruct (Cut ["="%char] _ _ ltac:(intros c [<-|[]]; split; discriminate) ltac:(intros [K|[]]; discriminate) E3 C3) as [z4 [E4 C4]].
    destruct (Cut _ _ _ (blanks_quote_free _ B3) (blanks_no_gt _ B3) E4 C4) as [z5 [E5 C5]].
    destruct z5 as [|c z5]; [destruct Q1; subst; discriminate|]. cbn [app] in E5. injection E5 as <- E5.
    destruct (app_split _ _ _ _ _ E5) as [[z Ev]|[z [-> E6]]].
    + apply (closed_open q z5 Q1); auto. intros K. apply Q2. rewrite Ev. apply in_app_iff. now left.
    + destruct z as [|c z]; [destruct Q1; subst; discriminate|]. cbn [app] in E6. injection E6 as <- E6.
      apply (IH z s2 E6). eapply closed_quoted; eauto.
Qed.
Lemma name_head_byte : forall n s u, xml_name n -> n ++ s <> "!"%char :: u /\ n ++ s <> "/"%char :: u.
Proof. intros n s u N. destruct (name_first_byte n N) as [c [r [-> [C1 C2]]]]. split; cbn [app]; intros K; injection K as -> _; auto. Qed.
Lemma markup_tag : forall t, plain_markup t -> (forall u, t <> "!"%char :: u) -> (6 * N.of_nat (List.length t) <= 1048576)%N /\ quotes_closed t /\
   forall n a s r, t = n ++ s ++ r -> xml_name n -> r = [] \/ r = bs "/" -> tag_as a s -> Forall xml_name (map fst a) -> NoDup (map fst a).
Proof.
  intros t [[c [[->| ->] _]]|[_ [_ H]]] N; auto; elim (N _ eq_refl).
Qed.
Lemma plain_tag : forall x a n k at' r s, plain x -> xml_name n -> k <= 100 -> tag_attributes k at' -> r = [] \/ r = bs "/" ->
  x = a ++ "<"%char :: (n ++ at' ++ r) ++ ">"%char :: s -> exists l, good_attrs l /\ tag_as l at'.
Proof.
  intros x a n k at' r s P N K [A T] R E. destruct (first_of ">"%char at') as [G|[s1 [s2 [E1 G]]]].
  - assert (M : plain_markup (n ++ at' ++ r)).
    { apply (pl_markup x P a _ s E). rewrite !in_app_iff. intros [H|[H|H]]; auto; [now apply (name_no_gt n)|]. destruct R as [->| ->]; cbn in H; intuition discriminate. }
    destruct (markup_tag _ M) as [M1 [M2 M3]]; [intros u; now apply name_head_byte|].
    destruct (attributes_as _ _ A) as [l [L1 [L2 [L3 L4]]]]. exists l. split; [constructor|split; auto].
    + lia.
    + apply (M3 n l at' r); auto. split; auto.
    + exact L3.
    + eapply Forall_impl; [|exact L4]. intros p H. cbv beta in H. unfold small. pose proof (esc_length (snd p)). rewrite !app_length in M1. unfold bytes in *. lia.
  - exfalso. assert (M : plain_markup (n ++ s1)).
    { apply (pl_markup x P a _ (s2 ++ r ++ ">"%char :: s)).
      - rewrite E, E1. assoc.
      - rewrite in_app_iff. intros [H|H]; auto. now apply (name_no_gt n). }
    destruct (markup_tag _ M) as [M1 [M2 M3]]; [intros u; now apply name_head_byte|].
    apply (attributes_cut _ _ A s1 s2 E1). eapply closed_after; [|exact M2]. now apply name_quote_free.
Qed.
Lemma plain_aside : forall x a m s, plain x -> aside m -> x = a ++ m ++ s ->
  (exists c, m = bs "<!--" ++ c ++ bs "-->" /\ no_angle c /\ forall u v, c ++ bs "-" <> u ++ bs "--" ++ v) \/
  (exists c, m = bs "<![CDATA[" ++ c ++ bs "]]>" /\ no_angle c).
Proof.
  intros x a m s P A E. destruct A as [b B1 B2|c C|c C|w b W B1 B2|b B1 B2 B3].
  - exfalso. assert (M : plain_markup ("?"%char :: b)).
    { apply (pl_markup x P a _ s); [rewrite E; assoc|]. intros [K|K]; [discriminate|auto]. }
    destruct M as [[c [[M|M] _]]|[_ [M _]]]; [discriminate|discriminate|]. now elim (M b).
  - left. exists c. split; auto. split; [|exact C]. destruct (first_of ">"%char c) as [G|[s1 [s2 [E1 G]]]].
    + assert (M : plain_markup (bs "!--" ++ c ++ bs "--")).
      { apply (pl_markup x P a _ s); [rewrite E; assoc|]. rewrite !in_app_iff. cbn. intuition discriminate. }
      destruct M as [[c' [[M|M] N]]|[M _]]; [|discriminate|now elim (M _ eq_refl)].
      apply app_inv_head in M. apply app_inv_tail in M. subst c'. split; auto.
    + exfalso. assert (M : plain_markup (bs "!--" ++ s1)).
      { apply (pl_markup x P a _ (s2 ++ bs "-->" ++ s)); [rewrite E, E1; assoc|]. rewrite !in_app_iff. cbn. intuition discriminate. }
      destruct M as [[c' [[M|M] N]]|[M _]]; [|discriminate|now elim (M _ eq_refl)].
      apply app_inv_head in M. subst s1. apply (C c' (">"%char :: s2 ++ bs "-")). rewrite E1. assoc.
  - right. exists c. split; auto. destruct (first_of ">"%char c) as [G|[s1 [s2 [E1 G]]]].
    + assert (M : plain_markup (bs "![CDATA[" ++ c ++ bs "]]")).
      { apply (pl_markup x P a _ s); [rewrite E; assoc|]. rewrite !in_app_iff. cbn. intuition discriminate. }
      destruct M as [[c' [[M|M] N]]|[M _]]; [discriminate| |now elim (M _ eq_refl)].
      apply app_inv_head in M. apply app_inv_tail in M. subst c'. split; auto.
    + exfalso. assert (M : plain_markup (bs "![CDATA[" ++ s1)).
      { apply (pl_markup x P a _ (s2 ++ bs "]]>" ++ s)); [rewrite E, E1; assoc|]. rewrite !in_app_iff. cbn. intuition discriminate. }
      destruct M as [[c' [[M|M] N]]|[M _]]; [discriminate| |now elim (M _ eq_refl)].
      apply app_inv_head in M. subst s1. apply (C c' (s2 ++ bs "]]")). rewrite E1. assoc.
  - exfalso. assert (M : exists t, plain_markup ("!"%char :: w ++ t)).
    { destruct (first_of ">"%char b) as [G|[s1 [s2 [E1 G]]]].
      - exists b. apply (pl_markup x P a _ s); [rewrite E; assoc|].
        intros [K|K]; [discriminate|]. apply in_app_iff in K. destruct K as [K|K]; auto. destruct W as [->| ->]; cbn in K; intuition discriminate.
      - exists s1. apply (pl_markup x P a _ (s2 ++ bs ">" ++ s)); [rewrite E, E1; assoc|].
        intros [K|K]; [discriminate|]. apply in_app_iff in K. destruct K as [K|K]; auto. destruct W as [->| ->]; cbn in K; intuition discriminate. }
    destruct M as [t [[c [[M|M] _]]|[M _]]]; [destruct W; subst; discriminate|destruct W; subst; discriminate|now elim (M _ eq_refl)].
  - exfalso. assert (M : plain_markup ("!"%char :: b)).
    { apply (pl_markup x P a _ s); [rewrite E; assoc|]. intros [K|K]; [discriminate|auto]. }
    destruct M as [[c [[M|M] _]]|[M _]]; [| |now elim (M _ eq_refl)].
    + injection M as M. apply (B3 (bs "--") (c ++ bs "--" ++ bs ">")); [cbn; auto|]. rewrite M. assoc.
    + injection M as M. apply (B3 (bs "[CDATA[") (c ++ bs "]]" ++ bs ">")); [cbn; auto|]. rewrite M. assoc.
Qed.
Lemma plain_ordinary_from : forall x, plain x -> forall found open s, accepted found open s -> forall a, x = a ++ s -> Forall xml_name open ->
  (open <> [] -> exists b t, a = b ++ ">"%char :: t /\ ~ In "<"%char t) -> ordinary found open s.
Proof.
  intros x P. induction 1 as [|found open c s B A IH|found open c s O C A IH|found open m s M A IH|found open n k at' s N K L T A IH|found open n k at' s N K L T A IH|found open n w s B A IH];
    intros a E ON I.
  - constructor.
  - apply or_blank; auto. apply (IH (a ++ [c])); auto; [rewrite <- app_assoc; exact E|]. intros O. destruct (I O) as [b [t [-> N]]].
    exists b, (t ++ [c]). split; [now rewrite <- app_assoc|]. rewrite in_app_iff. intros [H|[H|[]]]; auto. destruct (blank_angle c B). auto.
  - destruct (I O) as [b [t [-> N]]]. apply or_text; auto.
    + intros ->. apply N. apply (pl_single x P b t s). now rewrite E, <- app_assoc.
    + apply (IH ((b ++ ">"%char :: t) ++ [c])); auto; [now rewrite <- app_assoc|]. intros _. exists b, (t ++ [c]). split; [now rewrite <- app_assoc|].
      rewrite in_app_iff. intros [H|[H|[]]]; auto.
  - assert (R : ordinary found open s).
    { apply (IH (a ++ m)); auto; [now rewrite <- app_assoc|]. intros _.
      destruct (plain_aside x a m s P M E) as [[c [-> _]]|[c [-> _]]].
      - exists (a ++ bs "<!--" ++ c ++ bs "--"), []. split; [assoc|intros []].
      - exists (a ++ bs "<![CDATA[" ++ c ++ bs "]]"), []. split; [assoc|intros []]. }
    destruct (plain_aside x a m s P M E) as [[c [-> [C1 C2]]]|[c [-> C1]]]; rewrite <- !app_assoc.
    + now apply or_comment.
    + now apply or_cdata.
  - destruct (plain_tag x a n k at' [] s P N K T) as [l [G1 G2]]; [now left|rewrite E, app_nil_r; assoc|].
    apply (or_open found open n l at' s); auto. apply (IH (a ++ "<"%char :: n ++ at' ++ [">"%char])).
    + rewrite E. assoc.
    + now constructor.
    + intros _. exists (a ++ "<"%char :: n ++ at'), []. split; [assoc|intros []].
  - destruct (plain_tag x a n k at' (bs "/") s P N K T) as [l [G1 G2]]; [now right|rewrite E; assoc|].
    apply (or_self found open n l at' s); auto. apply (IH (a ++ "<"%char :: n ++ at' ++ bs "/>")); auto.
    + rewrite E. assoc.
    + intros _. exists (a ++ "<"%char :: n ++ at' ++ bs "/"), []. split; [assoc|intros []].
  - inversion ON as [|? ? N ON']; subst.
    assert (M : plain_markup ("/"%char :: n ++ w)).
    { apply (pl_markup _ P a _ s); [assoc|]. intros [K|K]; [discriminate|].
      apply in_app_iff in K. destruct K as [K|K]; [now apply (name_no_gt n)|now apply (blanks_no_gt w)]. }
    destruct (markup_tag _ M) as [M1 _]; [discriminate|].
    apply (or_close found open n w s); auto.
    + unfold small. cbn [List.length] in M1. lia.
    + apply (IH (a ++ "<"%char :: "/"%char :: n ++ w ++ [">"%char])); auto.
      * assoc.
      * intros _. exists (a ++ "<"%char :: "/"%char :: n ++ w), []. split; [assoc|intros []].
Qed.
Lemma plain_ordinary : forall x, valid x = true -> plain x -> ordinary_document x.
Proof.
  intros x V P. apply valid_accepted in V. destruct V as [A _]. apply (plain_ordinary_from x P false [] x A []); auto. intros K. now elim K.
Qed.

(** ** The number of elements *)
Lemma count_app : forall (c : ascii) a b, count_occ ascii_dec (a ++ b) c = count_occ ascii_dec a c + count_occ ascii_dec b c.
Proof. intros c a b. apply count_occ_app. Qed.
Lemma elements_count :
  (forall nd x, written nd x -> List.length (post [nd]) <= count_occ ascii_dec x "<"%char) /\
  (forall F x, written_all F x -> List.length (post F) <= count_occ ascii_dec x "<"%char).
Proof.
  apply written_both.
  - intros n a kids t x w T W IH B S. unfold post. cbn [flat_map post_node]. fold (post kids). rewrite app_nil_r, !app_length, !count_app. cbn [List.length].
    change (count_occ ascii_dec (bs "<") "<"%char) with 1. lia.
  - intros n a t T. unfold post. cbn [flat_map post_node]. rewrite !count_app. cbn [List.length app]. change (count_occ ascii_dec (bs "<") "<"%char) with 1. lia.
  - intros t. cbn. lia.
  - intros b. cbn. lia.
  - cbn. lia.
  - intros nd F x y W1 IH1 W2 IH2. rewrite count_app. unfold post in *. cbn [flat_map] in *. rewrite app_nil_r in IH1. rewrite app_length. lia.
Qed.

(** ** Recognising plain bytes (for examples) *)
Fixpoint quotes_b (q : option ascii) (t : bytes) : bool :=
  match t with
  | [] => match q with None => true | Some _ => false end
  | c :: t' =>
      match q with
      | Some d => quotes_b (if Ascii.eqb c d then None else q) t'
      | None => quotes_b (if Ascii.eqb c dquote || Ascii.eqb c squote then Some c else None) t'
      end
  end.
Lemma quotes_b_ok : forall t, (quotes_b None t = true -> quotes_closed t) /\
  forall q, quotes_b (Some q) t = true -> exists v s, t = v ++ q :: s /\ ~ In q v /\ quotes_closed s.
Proof.
  induction t as [|c t [IH1 IH2]]; (split; [|intros q]); cbn [quotes_b]; intros H; try discriminate.
  - constructor.
  - destruct (Ascii.eqb c dquote || Ascii.eqb c squote) eqn:Q.
    + destruct (IH2 c H) as [v [s [-> [N K]]]]. apply qc_quoted; auto. apply orb_true_iff in Q. destruct Q as [Q|Q]; apply Ascii.eqb_eq in Q; auto.
    + apply orb_false_iff in Q. destruct Q as [Q1 Q2]. apply Ascii.eqb_neq in Q1, Q2. apply qc_char; auto.
  - destruct (Ascii.eqb c q) eqn:Q.
    + apply Ascii.eqb_eq in Q. subst c. exists [], t. auto.
    + apply Ascii.eqb_neq in Q. destruct (IH2 q H) as [v [s [-> [N K]]]]. exists (c :: v), s. split; auto. split; auto. intros [A|A]; auto.
Qed.
Lemma attrs_as_count : forall a s, attrs_as a s -> List.length a <= count_occ ascii_dec s "="%char.
Proof.
  induction 1 as [w B|n v a w1 w2 w3 q x s B1 B2 B3 Q1 Q2 V D A IH]; [cbn; lia|].
  assert (O : forall p t, count_occ ascii_dec t "="%char <= count_occ ascii_dec (p ++ t) "="%char) by (intros; rewrite count_app; lia).
  assert (O1 : forall c t, count_occ ascii_dec t "="%char <= count_occ ascii_dec (c :: t) "="%char) by (intros c t; cbn; destruct (ascii_dec c "="); lia).
  cbn [List.length]. eapply Nat.le_trans; [|apply O]. eapply Nat.le_trans; [|apply O]. eapply Nat.le_trans; [|apply O].
  cbn [count_occ]. destruct (ascii_dec "=" "=") as [_|K]; [|now elim K]. apply le_n_S.
  eapply Nat.le_trans; [|apply O]. eapply Nat.le_trans; [|apply O1]. eapply Nat.le_trans; [|apply O]. eapply Nat.le_trans; [|apply O1]. exact IH.
Qed.
Definition starts_b (c : ascii) (t : bytes) : bool := match t with d :: _ => Ascii.eqb d c | [] => false end.
Definition markup_b (t : bytes) : bool :=
  (let c := firstn (List.length t - 5) (skipn 3 t) in bytes_eqb t (bs "!--" ++ c ++ bs "--") && negb (existsb (Ascii.eqb "<"%char) c)) ||
  (let c := firstn (List.length t - 10) (skipn 8 t) in bytes_eqb t (bs "![CDATA[" ++ c ++ bs "]]") && negb (existsb (Ascii.eqb "<"%char) c)) ||
  (negb (starts_b "!" t) && negb (starts_b "?" t) && (6 * N.of_nat (List.length t) <=? 1048576)%N && quotes_b None t && Nat.leb (count_occ ascii_dec t "="%char) 1).
Lemma existsb_not_in : forall c s, negb (existsb (Ascii.eqb c) s) = true -> ~ In c s.
Proof.
  intros c s H K. apply negb_true_iff in H. assert (E : existsb (Ascii.eqb c) s = true); [|congruence]. apply existsb_exists. exists c. split; auto. apply Ascii.eqb_refl.
Qed.
Lemma markup_b_ok : forall t, markup_b t = true -> plain_markup t.
Proof.
  intros t H. unfold markup_b in H. cbv zeta in H. apply orb_true_iff in H. destruct H as [H|H]; [apply orb_true_iff in H; destruct H as [H|H]|].
  - apply andb_true_iff in H. destruct H as [H1 H2]. apply bytes_eqb_eq in H1. left. eexists. split; [left; exact H1|]. now apply existsb_not_in.
  - apply andb_true_iff in H. destruct H as [H1 H2]. apply bytes_eqb_eq in H1. left. eexists. split; [right; exact H1|]. now apply existsb_not_in.
  - right. repeat (apply andb_true_iff in H; destruct H as [H ?H]). apply negb_true_iff in H, H3. apply N.leb_le in H2. apply Nat.leb_le in H0.
    split; [intros s ->; discriminate H|]. split; [intros s ->; discriminate H3|]. split; auto. split; [now apply quotes_b_ok|].
    intros n a s r -> N R [A _] X. pose proof (attrs_as_count _ _ A). rewrite !count_app in H0.
    destruct a as [|p [|p' a]]; cbn [List.length map] in *; [constructor| |lia]. constructor; [intros []|constructor].
Qed.
Fixpoint until_gt (s : bytes) : bytes := match s with [] => [] | c :: s' => if Ascii.eqb c ">" then [] else c :: until_gt s' end.
Fixpoint markups_b (x : bytes) : bool :=
  match x with [] => true | c :: s => (if Ascii.eqb c "<" then markup_b (until_gt s) else true) && markups_b s end.
Fixpoint singles_b (seen : bool) (x : bytes) : bool :=
  match x with
  | [] => true
  | c :: s => if Ascii.eqb c ">" then negb seen && singles_b true s else singles_b (if Ascii.eqb c "<" then false else seen) s
  end.
Lemma until_first : forall t b, ~ In ">"%char t -> until_gt (t ++ ">"%char :: b) = t.
Proof.
  induction t as [|c t IH]; intros b H; cbn [app until_gt]; [now rewrite Ascii.eqb_refl|]. destruct (Ascii.eqb_spec c ">") as [->|N].
  - elim H. now left.
  - f_equal. apply IH. intros K. apply H. now right.
Qed.
Lemma plain_b_ok : forall x, markups_b x && singles_b false x = true -> plain x.
Proof.
  intros x H. apply andb_true_iff in H. destruct H as [H1 H2]. constructor.
  - intros a t b -> N. apply markup_b_ok. clear H2. induction a as [|c a IH]; cbn [app markups_b] in H1; apply andb_true_iff in H1; destruct H1 as [H1 H3]; auto.
    cbn in H1. now rewrite until_first in H1.
  - intros a t b ->. clear H1. enough (X : forall seen, singles_b seen (a ++ ">"%char :: t ++ ">"%char :: b) = true -> In "<"%char t) by eauto. clear H2.
    induction a as [|c a IH]; intros seen H; cbn [app singles_b] in H.
    + change (Ascii.eqb ">" ">") with true in H. cbn iota in H. apply andb_true_iff in H. destruct H as [_ H].
      revert H. induction t as [|c t IHt]; cbn [app singles_b]; intros H; [discriminate H|].
      destruct (Ascii.eqb c ">"); [discriminate H|]. destruct (Ascii.eqb_spec c "<") as [->|N]; [now left|right; auto].
    + destruct (Ascii.eqb c ">"); [apply andb_true_iff in H; destruct H as [_ H]|]; eauto.
Qed.
