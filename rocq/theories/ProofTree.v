(** The scanner on canonical text. *)
From Coq Require Import List Ascii String NArith ZArith Bool Lia Permutation.
From Verif Require Import GoStr ModelParser SpecText SpecPath SpecTree ProofBase ProofEscape ProofScan.
Import ListNotations.

(** ** Trees *)
Section NodeInd.
  Variable P : node -> Prop.
  Hypothesis H1 : forall n a self kids, Forall P kids -> P (Elem n a self kids).
  Hypothesis H2 : forall t, P (Text t).
  Hypothesis H3 : forall b, P (Misc b).
  Fixpoint node_ind' (nd : node) : P nd :=
    match nd with
    | Elem n a self kids =>
        H1 n a self kids ((fix all (l : list node) : Forall P l :=
          match l with [] => Forall_nil P | x :: l' => Forall_cons x (node_ind' x) (all l') end) kids)
    | Text t => H2 t
    | Misc b => H3 b
    end.
End NodeInd.

Lemma esc_escape : forall s, esc s = escape_xml s.
Proof.
  intros s. unfold esc, escape_xml. apply flat_map_ext. intros c. unfold esc_byte, escape_char, predefined.
  cbn [find snd]. rewrite !(ascii_eqb_sym _ c).
  destruct (Ascii.eqb c "&"); auto. destruct (Ascii.eqb c "<"); auto. destruct (Ascii.eqb c ">"); auto.
  destruct (Ascii.eqb c dquote); auto. destruct (Ascii.eqb c squote); auto.
Qed.
Lemma esc_In : forall s c, In c (esc s) -> c <> "<"%char /\ c <> ">"%char /\ c <> dquote /\ c <> squote.
Proof.
  intros s c H. rewrite esc_escape in H. destruct (in_split _ _ H) as [a [b E]].
  destruct (escape_inert s a c b E) as [H1 [H2 [H3 [H4 _]]]]. auto.
Qed.

Lemma same_refl : forall nd, same nd nd.
Proof.
  apply node_ind'; intros; constructor; auto. induction H; constructor; auto.
Qed.
Lemma same_all_refl : forall F, Forall2 same F F.
Proof. induction F; constructor; auto using same_refl. Qed.
Lemma flat_map_length_perm : forall (A B : Type) (f : A -> list B) l l', Permutation l l' ->
  List.length (flat_map f l) = List.length (flat_map f l').
Proof. intros A B f l l' H. induction H; cbn [flat_map]; rewrite ?app_length in *; lia. Qed.
Lemma same_length : forall nd nd', same nd nd' -> List.length (node_text nd) = List.length (node_text nd').
Proof.
  induction nd as [n a self kids IH|t|b] using node_ind'; intros nd' H; inversion H; subst; auto.
  cbn [node_text]. rewrite !app_length. f_equal.
  - unfold start_tag. rewrite !app_length. unfold attrs_text. rewrite (flat_map_length_perm _ _ attr_text a a'); auto.
  - destruct self; auto. rewrite !app_length. f_equal.
    clear - IH H6. induction H6; auto. cbn [flat_map]. rewrite !app_length. inversion IH; subst. auto.
Qed.
Lemma same_length_all : forall F F', Forall2 same F F' -> List.length (forest_text F) = List.length (forest_text F').
Proof.
  intros F F' H. unfold forest_text. induction H; auto. cbn [flat_map]. rewrite !app_length, IHForall2.
  f_equal. now apply same_length.
Qed.
Lemma good_attrs_perm : forall a a', Permutation a a' -> good_attrs a -> good_attrs a'.
Proof.
  intros a a' H [H1 H2 H3 H4]. split.
  - now rewrite <- (Permutation_length H).
  - apply (Permutation_NoDup (l := map fst a)); auto. now apply Permutation_map.
  - eapply Permutation_Forall; [|exact H3]. now apply Permutation_map.
  - eapply Permutation_Forall; eauto.
Qed.
Lemma same_good : forall nd nd', same nd nd' -> good nd -> good nd'.
Proof.
  induction nd as [n a self kids IH|t|b] using node_ind'; intros nd' H G; inversion H; subst; auto.
  inversion G as [? ? ? ? G1 G2 G3 G4| |]; subst. constructor; auto.
  - eapply good_attrs_perm; eauto.
  - intros K. rewrite (G3 K) in H6. now inversion H6.
  - clear - IH H6 G4. induction H6; auto. inversion IH; subst. inversion G4; subst. constructor; auto.
Qed.
Lemma same_good_all : forall F F', Forall2 same F F' -> Forall good F -> Forall good F'.
Proof. intros F F' H G. induction H; auto. inversion G; subst. constructor; eauto using same_good. Qed.
Lemma same_trans : forall a b c, same a b -> same b c -> same a c.
Proof.
  induction a as [n at0 self kids IH|t|bb] using node_ind'; intros b c H1 H2;
    inversion H1 as [? ? a1 ? ? k1 P1 K1| |]; subst; inversion H2 as [? ? a2 ? ? k2 P2 K2| |]; subst; constructor.
  - now transitivity a1.
  - clear - IH K1 K2. revert k2 K2. induction K1 as [|x y l l' Hxy Hl IHl]; intros m Hm; inversion Hm; subst; constructor; auto.
    + inversion IH; subst. eauto.
    + apply IHl; auto. now inversion IH.
Qed.
Lemma same_all_trans : forall a b c, Forall2 same a b -> Forall2 same b c -> Forall2 same a c.
Proof.
  intros a b c H. revert c. induction H; intros c H2; inversion H2; subst; constructor; eauto using same_trans.
Qed.

(** ** Tokens *)
Lemma read_loop_token : forall stop t c s n, Forall (fun x => stop x = false) t -> stop c = true ->
  (n + N.of_nat (List.length t) <= MaxTokenSize)%N -> read_loop stop n (t ++ c :: s) = (t, c :: s, false).
Proof.
  intros stop t c s. induction t as [|x t IH]; intros n H1 H2 H3; cbn [app read_loop].
  - cbn [List.length] in H3. rewrite (proj2 (N.ltb_ge _ _)) by lia. now rewrite H2.
  - cbn [List.length] in H3. rewrite (proj2 (N.ltb_ge _ _)) by lia. inversion H1; subst.
    rewrite H4, IH; auto. lia.
Qed.
Lemma read_stop_token : forall stop t c s, Forall (fun x => stop x = false) t -> stop c = true ->
  small t -> read_stop stop (t ++ c :: s) = (t, c :: s).
Proof.
  intros stop t c s H1 H2 H3. unfold read_stop. rewrite read_loop_token; auto.
Qed.

(** Facts about name characters. *)
Definition name_byte (c : ascii) : Prop := letter c \/ digit c \/ In c (bs ".-_:").
Lemma name_byte_not : forall c d, name_byte c ->
  In d [" "%char; tab; lf; cr; "/"%char; ">"%char; "<"%char; "="%char; dquote; squote; "!"%char; "?"%char; "&"%char] -> c <> d.
Proof.
  intros c d H Hd ->. unfold name_byte, letter, digit in H.
  cbn [In] in Hd. repeat (destruct Hd as [<-|Hd]; [vm_compute in H; intuition (try congruence; try discriminate)|]). exact Hd.
Qed.
Lemma mem_name : forall c ds, name_byte c ->
  (forall d, In d ds -> In d [" "%char; tab; lf; cr; "/"%char; ">"%char; "<"%char; "="%char; dquote; squote; "!"%char; "?"%char; "&"%char]) ->
  mem c ds = false.
Proof.
  intros c ds H Hd. destruct (mem c ds) eqn:E; auto. apply mem_In in E. exfalso. apply (name_byte_not c c H); auto.
Qed.
Lemma name_eqb : forall c d, name_byte c ->
  In d [" "%char; tab; lf; cr; "/"%char; ">"%char; "<"%char; "="%char; dquote; squote; "!"%char; "?"%char; "&"%char] ->
  Ascii.eqb c d = false.
Proof. intros c d H Hd. apply ascii_eqb_false. now apply name_byte_not. Qed.
Lemma name_first : forall n, xml_name n -> exists c r, n = c :: r /\ name_byte c.
Proof.
  intros n [[c [r [-> H]]] [H2 _]]. exists c, r. split; auto. apply H2. now left.
Qed.
Lemma name_all : forall n, xml_name n -> Forall name_byte n.
Proof. intros n [_ [H _]]. apply Forall_forall. exact H. Qed.
Lemma name_small : forall n, xml_name n -> small n.
Proof. intros n [_ [_ H]]. exact H. Qed.
Ltac inlist := cbn [In bs list_ascii_of_string app ws_chars name_delims attr_delims] in *; tauto.
Lemma read_name : forall n ds c s, xml_name n -> mem c ds = true ->
  (forall d, In d ds -> In d [" "%char; tab; lf; cr; "/"%char; ">"%char; "<"%char; "="%char; dquote; squote; "!"%char; "?"%char; "&"%char]) ->
  read_until_any ds (n ++ c :: s) = (n, c :: s).
Proof.
  intros n ds c s Hn Hc Hd. unfold read_until_any. apply read_stop_token; auto using name_small.
  eapply Forall_impl; [|apply name_all; eauto]. intros x Hx. now apply mem_name.
Qed.
Lemma is_ws_name : forall c, name_byte c -> is_ws c = false.
Proof.
  intros c H. unfold is_ws.
  rewrite (name_eqb c " " H), (name_eqb c tab H), (name_eqb c lf H), (name_eqb c cr H) by inlist. reflexivity.
Qed.
Lemma skip_ws_name : forall c s, name_byte c -> skip_ws (c :: s) = c :: s.
Proof. intros c s H. cbn [skip_ws]. now rewrite is_ws_name. Qed.

(** ** Attributes *)
Definition tag_end (s : bytes) : Prop := exists c r, s = c :: r /\ (c = "/"%char \/ c = ">"%char).
Lemma parse_attrs_text : forall a n acc s, Forall xml_name (map fst a) ->
  Forall (fun p => small (esc (snd p))) a -> NoDup (map fst (acc ++ a)) -> (List.length a <= n)%nat -> tag_end s ->
  parse_attrs_loop n acc (attrs_text a ++ s) = (acc ++ a, s).
Proof.
  induction a as [|[k v] a IH]; intros n acc s H1 H2 H3 H4 Hs.
  - rewrite app_nil_r. cbn [attrs_text flat_map app]. destruct Hs as [c [r [-> Hc]]].
    assert (K : skip_ws (c :: r) = c :: r) by (destruct Hc; subst; reflexivity).
    destruct n as [|n]; cbn [parse_attrs_loop]; rewrite K; auto.
    destruct Hc; subst; reflexivity.
  - cbn [map fst] in H1. inversion H1 as [|? ? N1 N2]; subst. inversion H2 as [|? ? V1 V2]; subst.
    destruct n as [|n]; [cbn [List.length] in H4; lia|].
    unfold attrs_text. cbn [flat_map]. unfold attr_text at 1. cbn [fst snd].
    rewrite <- !app_assoc. change (bs " ") with [" "%char]. cbn [app parse_attrs_loop].
    destruct (name_first k N1) as [c [r [Ek Hc]]].
    assert (S1 : skip_ws (" "%char :: k ++ bs "=" ++ dquote :: esc v ++ dquote :: flat_map attr_text a ++ s) =
                 k ++ "="%char :: dquote :: esc v ++ dquote :: flat_map attr_text a ++ s).
    { change (bs "=") with ["="%char]. cbn [skip_ws is_ws orb app]. change (is_ws " ") with true. cbn iota.
      rewrite Ek at 1. cbn [app]. rewrite skip_ws_name; auto. rewrite Ek. reflexivity. }
    rewrite S1. clear S1.
    assert (S2 : read_until_any attr_delims (k ++ "="%char :: dquote :: esc v ++ dquote :: flat_map attr_text a ++ s) =
                 (k, "="%char :: dquote :: esc v ++ dquote :: flat_map attr_text a ++ s)).
    { apply read_name; auto. intros d. inlist. }
    rewrite S2. clear S2. rewrite Ek at 1. cbn [app].
    assert (S3 : forall (X : Type) (x y : X), (if Ascii.eqb c ">" || Ascii.eqb c "/" then x else y) = y).
    { intros X x y. rewrite (name_eqb c ">" Hc), (name_eqb c "/" Hc) by inlist. reflexivity. }
    rewrite S3. clear S3. rewrite Ek at 1. cbn [skip_ws]. change (is_ws "=") with false. cbn iota. cbn [peek next].
    change (negb (Ascii.eqb "=" "=")) with false. cbn iota. cbn [skip_ws]. change (is_ws dquote) with false. cbn iota.
    cbn [peek next]. change (Ascii.eqb dquote dquote || Ascii.eqb dquote squote) with true. cbn iota.
    assert (S4 : read_until dquote (esc v ++ dquote :: flat_map attr_text a ++ s) = (esc v, dquote :: flat_map attr_text a ++ s)).
    { unfold read_until. apply read_stop_token; auto.
      apply Forall_forall. intros x Hx. apply ascii_eqb_false. intros <-. now apply esc_In in Hx. }
    rewrite S4. cbn [next].
    assert (S5 : map_set k (unescape_xml (esc v)) acc = acc ++ [(k, v)]).
    { rewrite esc_escape, unescape_escape. apply map_set_new. intros K. rewrite map_app in H3.
      cbn [map fst] in H3. apply NoDup_remove_2 in H3. apply H3. apply in_or_app. now left. }
    rewrite S5. change (flat_map attr_text a) with (attrs_text a). rewrite IH; auto.
    + now rewrite <- app_assoc.
    + rewrite <- app_assoc. exact H3.
    + cbn [List.length] in H4. lia.
Qed.
Lemma parse_attributes_text : forall a s, good_attrs a -> tag_end s -> parse_attributes (attrs_text a ++ s) = (a, s).
Proof. intros a s [H1 H2 H3 H4] Hs. unfold parse_attributes. now rewrite parse_attrs_text. Qed.
Lemma attrs_head : forall a s, tag_end s -> exists c r, attrs_text a ++ s = c :: r /\ mem c name_delims = true.
Proof.
  intros [|p a] s [c [r [-> Hc]]]; cbn [attrs_text flat_map app].
  - exists c, r. split; auto. destruct Hc; subst; reflexivity.
  - eexists _, _. split; [reflexivity|]. reflexivity.
Qed.
Lemma start_tag_split : forall n a self, start_tag n a self = "<"%char :: n ++ attrs_text a ++ (if self then bs "/>" else bs ">").
Proof. reflexivity. Qed.
Lemma tag_end_self : forall (self : bool) s, tag_end ((if self then bs "/>" else bs ">") ++ s).
Proof. intros [] s; eexists _, _; split; try reflexivity; auto. Qed.
(** The text after the '<' of a start tag. *)
Lemma parse_element_name_text : forall n a (self : bool) s, xml_name n -> good_attrs a ->
  parse_element_name (n ++ attrs_text a ++ (if self then bs "/>" else bs ">") ++ s) = (n, a, self, s).
Proof.
  intros n a self s Hn Ha. unfold parse_element_name.
  destruct (attrs_head a _ (tag_end_self self s)) as [c [r [E Hc]]]. rewrite E.
  rewrite read_name; auto; [|intros d; inlist]. rewrite <- E, parse_attributes_text; auto using tag_end_self.
  destruct self; reflexivity.
Qed.

(** ** Element content *)
Lemma write_attrs_text : forall l, write_attrs l = attrs_text l.
Proof.
  intros l. unfold write_attrs, attrs_text. apply flat_map_ext. intros [k v]. unfold write_attr, attr_text. cbn [fst snd].
  now rewrite esc_escape.
Qed.
Lemma content_more : forall ord key f ename d s x, content_loop ord key f ename d s = Some x ->
  content_loop ord key (S f) ename d s = Some x.
Proof.
  intros ord key. induction f as [|f IH]; intros ename d s x H; [discriminate|].
  remember (S f) as f1. cbn [content_loop]. rewrite Heqf1 in H. cbn [content_loop] in H. subst f1.
  destruct d as [|d]; auto. destruct s as [|c s1]; auto.
  Local Ltac leaf IH H := match type of H with
    | match content_loop ?o ?k ?f ?e ?d ?s with _ => _ end = _ =>
        let Q := fresh in destruct (content_loop o k f e d s) as [[? ?]|] eqn:Q; [|discriminate];
        rewrite (IH _ _ _ _ Q); exact H end.
  destruct (Ascii.eqb c "<"); [|leaf IH H]. destruct s1 as [|n s2]; [leaf IH H|].
  destruct (Ascii.eqb n "/").
  - destruct (read_until ">" s2) as [t0 s3]. destruct (if bytes_eqb (close_name t0) ename then d else S d); auto. leaf IH H.
  - destruct (Ascii.eqb n "!"); [leaf IH H|].
    destruct (read_until_any name_delims (n :: s2)) as [nn s3]. destruct (parse_attributes s3) as [attrs s4].
    destruct (if Ascii.eqb (peek s4) "/" then (true, next s4) else (false, s4)) as [self s5].
    destruct (if Ascii.eqb (peek s5) ">" then (bs ">", next s5) else ([], s5)) as [gt s6]. leaf IH H.
Qed.
Lemma content_mono : forall ord key f f' ename d s x, content_loop ord key f ename d s = Some x -> f <= f' ->
  content_loop ord key f' ename d s = Some x.
Proof. intros ord key f f' ename d s x H L. induction L; auto. now apply content_more. Qed.
(** The content loop started on [s] with depth [d] writes [t] and leaves [r]. *)
Definition contents (ord : order) (key : list nat) (ename : bytes) (d : nat) (s t r : bytes) : Prop :=
  exists f, content_loop ord key f ename d s = Some (t, r).
Lemma contents_eq : forall ord key ename s t r, contents ord key ename 1 s t r ->
  parse_content ord key ename s = Some (t, r).
Proof.
  intros ord key ename s t r [f H]. unfold parse_content.
  destruct (content_loop_total ord key (S (len s)) ename 1 s) as [t' [r' [H' _]]]; [lia|]. rewrite H'.
  destruct (Nat.le_ge_cases f (S (len s))) as [L|L].
  - now rewrite <- (content_mono _ _ _ _ _ _ _ _ H L), <- H'.
  - now rewrite <- (content_mono _ _ _ _ _ _ _ _ H' L), <- H.
Qed.
Section Contents.
  Variable ord : order.
  Hypothesis Hord : forall k l, Permutation l (ord k l).
  Variable key : list nat.
  Variable ename : bytes.
  Notation C := (contents ord key ename).
  Lemma contents_char : forall d c s t r, c <> "<"%char -> C (S d) s t r -> C (S d) (c :: s) (c :: t) r.
  Proof.
    intros d c s t r Hc [f H]. exists (S f). cbn [content_loop]. apply ascii_eqb_false in Hc. now rewrite Hc, H.
  Qed.
  Lemma contents_text : forall x d s t r, ~ In "<"%char x -> C (S d) s t r -> C (S d) (x ++ s) (x ++ t) r.
  Proof.
    induction x as [|c x IH]; intros d s t r Hx H; auto. cbn [app]. apply contents_char; auto.
    - intros ->. apply Hx. now left.
    - apply IH; auto. intros K. apply Hx. now right.
  Qed.
  Lemma contents_misc : forall b d s t r, misc_body b -> C (S d) s t r ->
    C (S d) (bs "<!" ++ b ++ bs ">" ++ s) (bs "<!" ++ b ++ bs ">" ++ t) r.
  Proof.
    intros b d s t r Hb H.
    assert (Hb' : ~ In "<"%char ("!"%char :: b ++ bs ">")).
    { intros [K|K]; [discriminate|]. apply in_app_or in K. destruct K as [K|[K|[]]]; [|discriminate].
      destruct Hb as [[c [-> [[Hc _] _]]]|[c [-> [Hc _]]]]; repeat (apply in_app_or in K; destruct K as [K|K]); auto;
        vm_compute in K; intuition discriminate. }
    destruct (contents_text _ _ _ _ _ Hb' H) as [f K]. exists (S f).
    change (bs "<!" ++ b ++ bs ">" ++ s) with ("<"%char :: "!"%char :: b ++ bs ">" ++ s).
    change (bs "<!" ++ b ++ bs ">" ++ t) with ("<"%char :: "!"%char :: b ++ bs ">" ++ t).
    cbn [content_loop]. change (Ascii.eqb "<" "<") with true. change (Ascii.eqb "!" "/") with false.
    change (Ascii.eqb "!" "!") with true. cbn iota.
    cbn [app] in K. rewrite <- !app_assoc in K. cbn [app] in *. now rewrite K.
  Qed.
  Lemma contents_start : forall n a (self : bool) d s t r, xml_name n -> good_attrs a ->
    C (if negb self && bytes_eqb n ename then S (S d) else S d) s t r ->
    exists a', Permutation a a' /\ C (S d) (start_tag n a self ++ s) (start_tag n a' self ++ t) r.
  Proof.
    intros n a self d s t r Hn Ha [f H].
    exists (ord (List.length (start_tag n a self ++ s) :: key) a). split; auto. exists (S f).
    destruct (name_first n Hn) as [c [n' [En Hc]]].
    set (k := List.length (start_tag n a self ++ s) :: key).
    rewrite start_tag_split. cbn [app]. rewrite <- !app_assoc.
    assert (E : n ++ attrs_text a ++ (if self then bs "/>" else bs ">") ++ s = c :: n' ++ attrs_text a ++ (if self then bs "/>" else bs ">") ++ s)
      by (rewrite En; reflexivity).
    cbn [content_loop]. change (Ascii.eqb "<" "<") with true. cbn iota.
    rewrite E. rewrite (name_eqb c "/" Hc), (name_eqb c "!" Hc) by inlist. rewrite <- E.
    destruct (attrs_head a _ (tag_end_self self s)) as [x [y [E2 Hx]]]. rewrite E2.
    rewrite read_name; auto; [|intros q; inlist]. rewrite <- E2, parse_attributes_text; auto using tag_end_self.
    assert (Kk : List.length ("<"%char :: n ++ attrs_text a ++ (if self then bs "/>" else bs ">") ++ s) :: key = k).
    { unfold k. f_equal. rewrite start_tag_split. cbn [app]. now rewrite <- !app_assoc. }
    destruct self; cbn [bs list_ascii_of_string app peek next negb andb] in *;
      change (Ascii.eqb "/" "/") with true; change (Ascii.eqb ">" "/") with false; change (Ascii.eqb ">" ">") with true;
      cbn iota; cbn [peek next negb andb]; change (Ascii.eqb ">" ">") with true; cbn iota; rewrite H, Kk;
      rewrite write_attrs_text, <- ?app_assoc; cbn [app]; idtac.
    all: rewrite start_tag_split; cbn [app]; rewrite <- !app_assoc; reflexivity.
  Qed.
  Lemma close_name_name : forall n, xml_name n -> close_name n = n.
  Proof.
    intros n Hn. unfold close_name.
    assert (Sp : forall c, name_byte c -> ascii_space c = false /\ (code c < 128)%N).
    { intros c H. unfold name_byte, letter, digit in H. unfold ascii_space, in_range, code.
      assert (K : (33 <= N_of_ascii c < 128)%N).
      { destruct H as [H|[H|H]]; [lia|lia|]. cbn [In bs list_ascii_of_string] in H.
        repeat (destruct H as [<-|H]; [vm_compute; split; congruence|]). destruct H. }
      split; [|lia]. apply orb_false_iff. split; [|apply N.eqb_neq; lia].
      apply andb_false_iff. right. apply N.leb_gt. lia. }
    assert (U2 : forall a b, name_byte a \/ name_byte b -> uni_space2 a b = false).
    { intros a b H. unfold uni_space2. destruct H as [H|H]; destruct (Sp _ H) as [_ L].
      - rewrite (proj2 (N.eqb_neq _ _)) by lia. reflexivity.
      - rewrite (proj2 (N.eqb_neq (code b) 133)), (proj2 (N.eqb_neq (code b) 160)) by lia. apply andb_false_r. }
    assert (U3 : forall a b c, name_byte a -> name_byte c -> uni_space3 a b c = false).
    { intros a b c H H'. unfold uni_space3. destruct (Sp _ H) as [_ L].
      rewrite (proj2 (N.eqb_neq (code a) 225)), (proj2 (N.eqb_neq (code a) 226)), (proj2 (N.eqb_neq (code a) 227)) by lia. reflexivity. }
    assert (TL : forall s, Forall name_byte s -> trim_left s = s).
    { intros s H. destruct H as [|a s Ha H]; auto. cbn [trim_left]. rewrite (proj1 (Sp a Ha)).
      destruct H as [|b s Hb H]; auto. rewrite U2; auto. destruct H as [|c s Hc H]; auto. rewrite U3; auto. }
    assert (TR : forall s, Forall name_byte s -> trim_left_rev s = s).
    { intros s H. destruct H as [|a s Ha H]; auto. cbn [trim_left_rev]. rewrite (proj1 (Sp a Ha)).
      destruct H as [|b s Hb H]; auto. rewrite U2; auto. destruct H as [|c s Hc H]; auto. rewrite U3; auto. }
    pose proof (name_all n Hn) as Hall.
    unfold trim_space, trim_right. rewrite TL; auto. rewrite TR by (now apply Forall_rev). rewrite rev_involutive.
    clear - Hall. induction Hall as [|c n Hc H IH]; auto. cbn [cut_at_any]. rewrite mem_name; auto; [now rewrite IH|].
    intros d. inlist.
  Qed.
  Lemma read_end_tag : forall n s, xml_name n -> read_until ">" (n ++ ">"%char :: s) = (n, ">"%char :: s).
  Proof.
    intros n s Hn. unfold read_until. apply read_stop_token; auto using name_small.
    eapply Forall_impl; [|apply name_all; eauto]. intros c Hc. rewrite ascii_eqb_sym. apply name_eqb; auto. inlist.
  Qed.
  Lemma end_tag_split : forall n s, end_tag n ++ s = "<"%char :: "/"%char :: n ++ ">"%char :: s.
  Proof. intros n s. unfold end_tag. rewrite <- !app_assoc. reflexivity. Qed.
  Lemma contents_end : forall n d s t r, xml_name n ->
    C (S d) s t r -> C (if bytes_eqb n ename then S (S d) else S d) (end_tag n ++ s) (end_tag n ++ t) r.
  Proof.
    intros n d s t r Hn [f H]. exists (S f). rewrite !end_tag_split.
    assert (G : forall d2, (if bytes_eqb n ename then d2 else S d2) = S d ->
      content_loop ord key (S f) ename (S d2) ("<"%char :: "/"%char :: n ++ ">"%char :: s) =
      Some ("<"%char :: "/"%char :: n ++ ">"%char :: t, r)).
    { intros d2 E. cbn [content_loop]. change (Ascii.eqb "<" "<") with true. change (Ascii.eqb "/" "/") with true. cbn iota.
      rewrite read_end_tag, close_name_name; auto. cbn [next]. rewrite E, H. reflexivity. }
    destruct (bytes_eqb n ename) eqn:E; apply G; reflexivity.
  Qed.
  Lemma contents_stop : forall s, xml_name ename -> C 1 (end_tag ename ++ s) [] s.
  Proof.
    intros s Hn. exists 1. rewrite end_tag_split. cbn [content_loop].
    change (Ascii.eqb "<" "<") with true. change (Ascii.eqb "/" "/") with true. cbn iota.
    rewrite read_end_tag, close_name_name, bytes_eqb_refl; auto.
  Qed.
  Lemma contents_node : forall nd, good nd -> forall d s t r, C (S d) s t r ->
    exists nd', same nd nd' /\ C (S d) (node_text nd ++ s) (node_text nd' ++ t) r.
  Proof.
    induction nd as [n a self kids IH|x|b] using node_ind'; intros G d s t r H.
    - inversion G as [? ? ? ? G1 G2 G3 G4| |]; subst. cbn [node_text]. destruct self.
      + destruct (contents_start n a true d s t r G1 G2 H) as [a' [P1 P2]]. exists (Elem n a' true kids).
        split; [constructor; auto using same_all_refl|]. cbn [node_text]. now rewrite !app_nil_r.
      + pose proof (contents_end n d s t r G1 H) as H1.
        assert (K : exists kids', Forall2 same kids kids' /\
          C (if bytes_eqb n ename then S (S d) else S d) (forest_text kids ++ end_tag n ++ s) (forest_text kids' ++ end_tag n ++ t) r).
        { set (D := if bytes_eqb n ename then S (S d) else S d) in *.
          assert (exists d', D = S d') as [d' E] by (unfold D; destruct (bytes_eqb n ename); eauto).
          rewrite E in *. clear - IH G4 H1. revert H1. generalize (end_tag n ++ s) (end_tag n ++ t). intros s0 t0 H1.
          induction kids as [|k kids IHk]; [exists []; split; auto|].
          inversion IH as [|? ? I1 I2]; subst. inversion G4 as [|? ? J1 J2]; subst.
          destruct (IHk I2 J2) as [kids' [P1 P2]].
          destruct (I1 J1 _ _ _ _ P2) as [k' [P3 P4]]. exists (k' :: kids'). split; [constructor; auto|].
          unfold forest_text in *. cbn [flat_map]. now rewrite <- !app_assoc. }
        destruct K as [kids' [K1 K2]].
        destruct (contents_start n a false d _ _ r G1 G2 K2) as [a' [P1 P2]].
        exists (Elem n a' false kids'). split; [constructor; auto|]. cbn [node_text].
        unfold forest_text in P2. now rewrite <- !app_assoc.
    - exists (Text x). split; [constructor|]. cbn [node_text]. apply contents_text; auto. inversion G as [|? [K _]|]; auto.
    - exists (Misc b). split; [constructor|]. cbn [node_text]. rewrite <- !app_assoc. apply contents_misc; auto. now inversion G.
  Qed.
  Lemma contents_forest : forall F, Forall good F -> forall d s t r, C (S d) s t r ->
    exists F', Forall2 same F F' /\ C (S d) (forest_text F ++ s) (forest_text F' ++ t) r.
  Proof.
    unfold forest_text. induction 1 as [|nd F G1 G2 IH]; intros d s t r H; [exists []; split; auto|].
    destruct (IH _ _ _ _ H) as [F' [P1 P2]]. destruct (contents_node nd G1 _ _ _ _ P2) as [nd' [P3 P4]].
    exists (nd' :: F'). split; [constructor; auto|]. cbn [flat_map]. now rewrite <- !app_assoc.
  Qed.
  (** The content of an element is its children, attributes possibly reordered. *)
  Lemma parse_content_text : forall F s, xml_name ename -> Forall good F ->
    exists F', Forall2 same F F' /\
      parse_content ord key ename (forest_text F ++ end_tag ename ++ s) = Some (forest_text F', s).
  Proof.
    intros F s Hn G. destruct (contents_forest F G _ _ _ _ (contents_stop s Hn)) as [F' [P1 P2]].
    exists F'. split; auto. apply contents_eq. now rewrite app_nil_r in P2.
  Qed.
End Contents.
