(** Proofs about the built-in modifiers: @ugly, and the text of arrays. *)
From Coq Require Import List Ascii String NArith ZArith Bool Lia SpecFloat Permutation.
From Verif Require Import GoStr ModelParser ModelPattern ModelPath ModelResult ModelQuery SpecPath SpecMod
  ProofBase ProofPath ProofFuel ProofMono ProofSyntax ProofMod.
Import ListNotations.
Local Notation len := List.length.

Lemma white_is_ws : forall c, white c = is_ws c.
Proof. intros c. destruct c as [[] [] [] [] [] [] [] []]; vm_compute; reflexivity. Qed.
Lemma subseq_refl : forall s, subseq s s.
Proof. induction s; constructor; auto. Qed.
Lemma subseq_app : forall p a b, subseq a b -> subseq (p ++ a) (p ++ b).
Proof. induction p; intros; cbn; auto. constructor. auto. Qed.
Lemma unspaced_app : forall a b, unspaced (a ++ b) = unspaced a ++ unspaced b.
Proof. intros. unfold unspaced. apply filter_app. Qed.

Lemma compact_sub : forall f t c s, len s <= f ->
  subseq (compact_loop f t c s) s /\ unspaced (compact_loop f t c s) = unspaced s.
Proof.
  induction f as [|f IH]; intros t c s H; [destruct s; [split; [constructor|reflexivity]|cbn in H; lia]|].
  destruct s as [|x s]; [split; [constructor|reflexivity]|]. cbn [compact_loop]. cbn [len] in H.
  assert (ST : forall t c, subseq (x :: compact_loop f t c s) (x :: s) /\
                           unspaced (x :: compact_loop f t c s) = unspaced (x :: s)).
  { intros t0 c0. destruct (IH t0 c0 s ltac:(lia)) as [A B]. split; [constructor; auto|].
    unfold unspaced in *. cbn [filter]. rewrite B. reflexivity. }
  assert (PR : forall p r t c, strip_prefix p (x :: s) = Some r -> p <> [] ->
     subseq (p ++ compact_loop f t c r) (x :: s) /\ unspaced (p ++ compact_loop f t c r) = unspaced (x :: s)).
  { intros p r t0 c0 K Hp. apply strip_prefix_spec in K.
    assert (len r <= f).
    { assert (L : len (x :: s) = len (p ++ r)) by now rewrite K. rewrite app_length in L. cbn [len] in L. destruct p; [easy|]. cbn [len] in L. lia. }
    destruct (IH t0 c0 r ltac:(lia)) as [A B]. rewrite K. split; [now apply subseq_app|].
    rewrite !unspaced_app, B. reflexivity. }
  destruct (if t then None else strip_prefix cdata_start (x :: s)) as [r|] eqn:Q.
  { destruct t; [discriminate|]. apply PR; [auto|discriminate]. }
  destruct (if c then strip_prefix cdata_end (x :: s) else None) as [r|] eqn:Q2.
  { destruct c; [|discriminate]. apply PR; [auto|discriminate]. }
  destruct c; [apply ST|]. destruct (Ascii.eqb x "<"); [apply ST|]. destruct (Ascii.eqb x ">"); [apply ST|].
  destruct t; [apply ST|]. destruct (is_ws x) eqn:W; [|apply ST].
  destruct (IH false false s ltac:(lia)) as [A B]. split; [constructor; auto|].
  unfold unspaced in *. cbn [filter]. rewrite white_is_ws, W. exact B.
Qed.
Lemma subseq_len : forall a b, subseq a b -> len a <= len b.
Proof. induction 1; cbn; lia. Qed.

(** More fuel changes nothing. *)
Lemma compact_fuel : forall f f' t c s, len s <= f -> len s <= f' -> compact_loop f t c s = compact_loop f' t c s.
Proof.
  induction f as [|f IH]; intros f' t c s H H'; [destruct s; [destruct f'; reflexivity|cbn in H; lia]|].
  destruct s as [|x s]; [destruct f'; reflexivity|]. destruct f' as [|f']; [cbn in H'; lia|].
  cbn [compact_loop]. cbn [len] in H, H'.
  assert (L : forall p r, strip_prefix p (x :: s) = Some r -> p <> [] -> len r <= f /\ len r <= f').
  { intros p r K Hp. apply strip_prefix_spec in K.
    assert (L : len (x :: s) = len (p ++ r)) by now rewrite K. rewrite app_length in L. cbn [len] in L. destruct p; [easy|]. cbn [len] in L. lia. }
  destruct (if t then None else strip_prefix cdata_start (x :: s)) as [r|] eqn:Q.
  { destruct t; [discriminate|]. destruct (L _ _ Q ltac:(discriminate)). f_equal. now apply IH. }
  destruct (if c then strip_prefix cdata_end (x :: s) else None) as [r|] eqn:Q2.
  { destruct c; [|discriminate]. destruct (L _ _ Q2 ltac:(discriminate)). f_equal. now apply IH. }
  destruct c; [f_equal; apply IH; lia|]. destruct (Ascii.eqb x "<"); [f_equal; apply IH; lia|].
  destruct (Ascii.eqb x ">"); [f_equal; apply IH; lia|].
  destruct t; [f_equal; apply IH; lia|]. destruct (is_ws x); [apply IH; lia|f_equal; apply IH; lia].
Qed.
(** The scan as a function of the text only. *)
Definition compact (t c : bool) (s : bytes) : bytes := compact_loop (len s) t c s.
Lemma compact_eq : forall t c x s, compact t c (x :: s) =
  match (if t then None else strip_prefix cdata_start (x :: s)) with
  | Some r => cdata_start ++ compact t true r
  | None =>
      match (if c then strip_prefix cdata_end (x :: s) else None) with
      | Some r => cdata_end ++ compact t false r
      | None =>
          if c then x :: compact t c s
          else if Ascii.eqb x "<" then x :: compact true c s
          else if Ascii.eqb x ">" then x :: compact false c s
          else if t then x :: compact t c s
          else if is_ws x then compact t c s
          else x :: compact t c s
      end
  end.
Proof.
  intros t c x s. unfold compact at 1. cbn [len compact_loop].
  assert (L : forall p r, strip_prefix p (x :: s) = Some r -> p <> [] -> len r <= len s).
  { intros p r K Hp. apply strip_prefix_spec in K.
    assert (L : len (x :: s) = len (p ++ r)) by now rewrite K. rewrite app_length in L. cbn [len] in L. destruct p; [easy|]. cbn [len] in L. lia. }
  destruct (if t then None else strip_prefix cdata_start (x :: s)) as [r|] eqn:Q.
  { destruct t; [discriminate|]. f_equal. apply compact_fuel; [|lia]. apply (L _ _ Q). discriminate. }
  destruct (if c then strip_prefix cdata_end (x :: s) else None) as [r|] eqn:Q2.
  { destruct c; [|discriminate]. f_equal. apply compact_fuel; [|lia]. apply (L _ _ Q2). discriminate. }
  reflexivity.
Qed.
Lemma compact_nil : forall t c, compact t c [] = []. Proof. reflexivity. Qed.

(** Inside a tag the next bytes are kept up to a '>', so no CDATA start can appear. *)
Lemma compact_tag_prefix : forall p s, (forall x, In x p -> x <> ">"%char) -> (forall r, s <> p ++ r) ->
  forall r, compact true false s <> p ++ r.
Proof.
  induction p as [|a p IH]; intros s Hp Hs r K; [now apply (Hs s)|].
  destruct s as [|x s]; [discriminate K|]. rewrite compact_eq in K. cbn [app] in K.
  assert (x = a /\ x <> ">"%char).
  { destruct (Ascii.eqb x "<"); [injection K as -> _; split; auto; apply Hp; now left|].
    destruct (Ascii.eqb x ">"); injection K as -> _; split; auto; apply Hp; now left. }
  destruct H as [-> Hx]. apply ascii_eqb_false in Hx.
  assert (K2 : compact true false s = p ++ r).
  { destruct (Ascii.eqb a "<"); [injection K as K; exact K|]. rewrite Hx in K. injection K as K; exact K. }
  revert K2. apply IH; [intros; apply Hp; now right|]. intros r2 ->. now apply (Hs r2).
Qed.
(** In a CDATA section bytes are kept one by one. *)
Lemma compact_cdata_step : forall s a k, compact false true s = a :: k ->
  exists s', s = a :: s' /\
    (k = compact false true s' \/ a = "<"%char \/ (a = "]"%char /\ exists k', k = "]"%char :: ">"%char :: k')).
Proof.
  intros s a k H. destruct s as [|x s]; [discriminate|]. rewrite compact_eq in H.
  destruct (strip_prefix cdata_start (x :: s)) as [r|] eqn:Q.
  { apply strip_prefix_spec in Q. injection H as <- H. injection Q as -> _. exists s. split; auto. }
  destruct (strip_prefix cdata_end (x :: s)) as [r|] eqn:Q2.
  { apply strip_prefix_spec in Q2. injection H as <- H. injection Q2 as -> _. exists s. split; auto.
    right. right. split; auto. exists (compact false false r). symmetry. exact H. }
  injection H as <- H. exists s. auto.
Qed.
Lemma strip_head : forall p s x, p <> [] -> strip_prefix p (x :: s) <> None -> exists q, p = x :: q /\ strip_prefix q s <> None.
Proof.
  intros [|a p] s x Hp H; [easy|]. cbn [strip_prefix] in H. destruct (Ascii.eqb a x) eqn:Q; [|easy].
  apply ascii_eqb_true in Q. subst. exists p. auto.
Qed.
Lemma cdata_keeps : forall p s, ~ In "<"%char p -> (forall a r, p <> a ++ bs "]]" ++ r) ->
  strip_prefix p (compact false true s) <> None -> strip_prefix p s <> None.
Proof.
  induction p as [|a p IH]; intros s H1 H2 H; [destruct s; discriminate|].
  destruct (compact false true s) as [|b k] eqn:K; [now cbn in H|].
  destruct (compact_cdata_step _ _ _ K) as [s' [-> D]]. cbn [strip_prefix] in *.
  destruct (Ascii.eqb a b) eqn:Q; [|easy]. apply ascii_eqb_true in Q. subst b.
  destruct D as [->|[->|[-> [k' ->]]]].
  - apply IH; auto; [intros C; apply H1; now right|]. intros u r ->. now apply (H2 (a :: u) r).
  - exfalso. apply H1. now left.
  - destruct p as [|b p]; [destruct s'; discriminate|]. cbn [strip_prefix] in H.
    destruct (Ascii.eqb b "]") eqn:Q; [|easy]. apply ascii_eqb_true in Q. subst b.
    exfalso. now apply (H2 [] p).
Qed.
Ltac no_double :=
  let a := fresh "a" in let r := fresh "r" in let H := fresh "H" in
  intros a r H; cbn in H;
  repeat first [discriminate H | (destruct a as [|? a]; cbn in H; [discriminate H|first [discriminate H|injection H as _ H]])].
Lemma compact_idem : forall n t c s, len s <= n -> (t = true -> c = false) ->
  compact t c (compact t c s) = compact t c s.
Proof.
  induction n as [|n IH]; intros t c s H TC; [destruct s; [reflexivity|cbn in H; lia]|].
  destruct s as [|x s]; [reflexivity|]. cbn [len] in H.
  assert (L : forall p r, strip_prefix p (x :: s) = Some r -> p <> [] -> len r <= n).
  { intros p r K Hp. apply strip_prefix_spec in K.
    assert (L : len (x :: s) = len (p ++ r)) by now rewrite K. rewrite app_length in L. cbn [len] in L. destruct p; [easy|]. cbn [len] in L. lia. }
  rewrite (compact_eq t c x s).
  destruct (if t then None else strip_prefix cdata_start (x :: s)) as [r|] eqn:Q.
  { destruct t; [discriminate|]. pose proof (L _ _ Q ltac:(discriminate)) as Lr.
    change (cdata_start ++ compact false true r) with ("<"%char :: (bs "![CDATA[" ++ compact false true r)).
    rewrite compact_eq. change ("<"%char :: (bs "![CDATA[" ++ compact false true r)) with (cdata_start ++ compact false true r).
    rewrite strip_prefix_app. rewrite IH; auto. }
  destruct (if c then strip_prefix cdata_end (x :: s) else None) as [r|] eqn:Q2.
  { destruct c; [|discriminate]. destruct t; [discriminate (TC eq_refl)|].
    pose proof (L _ _ Q2 ltac:(discriminate)) as Lr.
    change (cdata_end ++ compact false false r) with ("]"%char :: (bs "]>" ++ compact false false r)).
    rewrite compact_eq. change ("]"%char :: (bs "]>" ++ compact false false r)) with (cdata_end ++ compact false false r).
    rewrite strip_prefix_app. cbn [strip_prefix cdata_start bs app]. rewrite IH; auto. }
  destruct c.
  { destruct t; [discriminate (TC eq_refl)|]. rewrite compact_eq.
    destruct (strip_prefix cdata_start (x :: compact false true s)) eqn:Q3.
    { exfalso. assert (Q4 : strip_prefix cdata_start (x :: compact false true s) <> None) by now rewrite Q3.
      apply strip_head in Q4; [|discriminate]. destruct Q4 as [q [E Q4]]. injection E as <- <-.
      apply cdata_keeps in Q4; [|vm_compute; intuition discriminate|no_double].
      change (strip_prefix cdata_start ("<"%char :: s)) with (strip_prefix (bs "![CDATA[") s) in Q. contradiction. }
    destruct (strip_prefix cdata_end (x :: compact false true s)) eqn:Q5.
    { exfalso. assert (Q4 : strip_prefix cdata_end (x :: compact false true s) <> None) by now rewrite Q5.
      apply strip_head in Q4; [|discriminate]. destruct Q4 as [q [E Q4]]. injection E as <- <-.
      apply cdata_keeps in Q4; [|vm_compute; intuition discriminate|no_double].
      change (strip_prefix cdata_end ("]"%char :: s)) with (strip_prefix (bs "]>") s) in Q2. contradiction. }
    rewrite IH; auto. lia. }
  destruct (Ascii.eqb x "<") eqn:X1.
  { apply ascii_eqb_true in X1. subst x. rewrite compact_eq.
    assert (Q3 : (if t then None else strip_prefix cdata_start ("<"%char :: compact true false s)) = None).
    { destruct t; [reflexivity|]. apply strip_prefix_none. intros r K. injection K as K.
      revert K. apply (compact_tag_prefix (bs "![CDATA[")); [cbn; intuition (subst; discriminate)|].
      intros r2 ->. revert Q. change ("<"%char :: bs "![CDATA[" ++ r2) with (cdata_start ++ r2).
      rewrite strip_prefix_app. discriminate. }
    rewrite Q3. cbn [Ascii.eqb]. rewrite IH; auto. lia. }
  assert (NS : forall k, (if t then None else strip_prefix cdata_start (x :: k)) = None).
  { intros k. destruct t; [reflexivity|]. cbn [strip_prefix cdata_start bs list_ascii_of_string].
    rewrite ascii_eqb_sym, X1. reflexivity. }
  destruct (Ascii.eqb x ">") eqn:X2.
  { rewrite compact_eq, NS, X1, X2. rewrite IH; auto. lia. }
  destruct t.
  { rewrite compact_eq, X1, X2. rewrite IH; auto. lia. }
  destruct (is_ws x) eqn:W; [apply IH; auto; lia|].
  rewrite compact_eq, (NS (compact false false s)), X1, X2, W. rewrite IH; auto. lia.
Qed.

(** Pieces. *)
Lemma compact_tag_body : forall b r, ~ In ">"%char b -> compact true false (b ++ ">"%char :: r) = b ++ ">"%char :: compact false false r.
Proof.
  induction b as [|x b IH]; intros r H; cbn [app].
  - rewrite compact_eq. reflexivity.
  - rewrite compact_eq. assert (X : Ascii.eqb x ">" = false) by (apply ascii_eqb_false; intros ->; apply H; now left).
    rewrite X, IH by (intros C; apply H; now right). destruct (Ascii.eqb x "<"); reflexivity.
Qed.
Lemma compact_cdata_body : forall n b r, len b <= n -> (forall u v, b ++ bs "]]" <> u ++ bs "]]>" ++ v) ->
  compact false true (b ++ bs "]]>" ++ r) = b ++ bs "]]>" ++ compact false false r.
Proof.
  induction n as [|n IH]; intros b r L H; [destruct b; [|cbn in L; lia]|].
  - cbn [app]. change (bs "]]>" ++ r) with ("]"%char :: bs "]>" ++ r). rewrite compact_eq. reflexivity.
  - destruct b as [|x b].
    { change ([] ++ bs "]]>" ++ r) with ("]"%char :: bs "]>" ++ r). rewrite compact_eq. reflexivity. }
    cbn [len] in L. cbn [app]. rewrite compact_eq.
    destruct (strip_prefix cdata_start (x :: b ++ bs "]]>" ++ r)) as [q|] eqn:Q.
    { (* a nested start lies wholly inside the body *)
      apply strip_prefix_spec in Q.
      assert (exists b2, x :: b = cdata_start ++ b2 /\ q = b2 ++ bs "]]>" ++ r) as [b2 [E1 E2]].
      { clear - Q. change (x :: b ++ bs "]]>" ++ r = cdata_start ++ q) with ((x :: b) ++ bs "]]>" ++ r = cdata_start ++ q) in Q.
        revert Q. generalize (x :: b). clear. intros b.
        do 9 (destruct b as [|? b]; [intros Q; discriminate Q|cbn [app cdata_start bs list_ascii_of_string]; intros Q; injection Q as -> Q; revert Q]).
        intros Q. exists b. split; auto. }
      subst q. rewrite IH.
      - change (x :: b ++ bs "]]>" ++ compact false false r) with ((x :: b) ++ bs "]]>" ++ compact false false r).
        rewrite E1, <- app_assoc. reflexivity.
      - assert (K : len (x :: b) = len (cdata_start ++ b2)) by now rewrite E1. rewrite app_length in K. cbn in K. lia.
      - intros u v E. apply (H (cdata_start ++ u) v). rewrite E1, <- !app_assoc. f_equal. exact E. }
    destruct (strip_prefix cdata_end (x :: b ++ bs "]]>" ++ r)) as [q|] eqn:Q2.
    { exfalso. apply strip_prefix_spec in Q2. change (x :: b ++ bs "]]>" ++ r = cdata_end ++ q) with ((x :: b) ++ bs "]]>" ++ r = bs "]]>" ++ q) in Q2.
      destruct b as [|y b]; [injection Q2; discriminate|]. destruct b as [|z b].
      - injection Q2 as -> -> Q3. discriminate Q3.
      - injection Q2 as -> -> -> Q3. apply (H [] (b ++ bs "]]")). reflexivity. }
    rewrite IH; [reflexivity|lia|]. intros u v E. apply (H (x :: u) v). cbn. f_equal. exact E.
Qed.
Lemma compact_text_body : forall t r, ~ In "<"%char t -> compact false false (t ++ r) = unspaced t ++ compact false false r.
Proof.
  induction t as [|x t IH]; intros r H; [reflexivity|]. cbn [app]. rewrite compact_eq.
  assert (X : Ascii.eqb x "<" = false) by (apply ascii_eqb_false; intros ->; apply H; now left).
  cbn [strip_prefix cdata_start bs list_ascii_of_string]. rewrite ascii_eqb_sym, X. rewrite IH by (intros C; apply H; now right).
  unfold unspaced. cbn [filter]. rewrite white_is_ws.
  destruct (Ascii.eqb x ">") eqn:X2; [apply ascii_eqb_true in X2; subst; reflexivity|].
  destruct (is_ws x); reflexivity.
Qed.
Lemma compact_pieces : forall l, Forall good_piece l -> compact_xml (pieces_text l) = pieces_text (map tighten l).
Proof.
  intros l H. change (compact_xml (pieces_text l)) with (compact false false (pieces_text l)).
  induction H as [|p l Hp H IH]; [reflexivity|]. cbn [pieces_text flat_map map]. fold (pieces_text l). fold (pieces_text (map tighten l)).
  destruct p as [b|b|t]; cbn [piece_text tighten good_piece] in *.
  - destruct Hp as [H1 H2]. cbn [app]. rewrite <- app_assoc. cbn [app]. rewrite compact_eq.
    destruct (strip_prefix cdata_start ("<"%char :: b ++ ">"%char :: pieces_text l)) as [q|] eqn:Q.
    { exfalso. apply strip_prefix_spec in Q. injection Q as Q.
      assert (exists r, b = bs "![CDATA[" ++ r) as [r E]; [|now apply (H2 r)].
      clear - Q. revert Q. change (bs "![CDATA[" ++ q) with ("!"%char :: "["%char :: "C"%char :: "D"%char :: "A"%char :: "T"%char :: "A"%char :: "["%char :: q).
      do 8 (destruct b as [|? b]; [intros Q; discriminate Q|cbn [app]; intros Q; injection Q as -> Q; revert Q]).
      intros _. exists b. reflexivity. }
    change (Ascii.eqb "<" "<") with true. cbn iota. rewrite compact_tag_body by auto. rewrite IH, <- app_assoc. reflexivity.
  - rewrite <- !app_assoc. change (bs "<![CDATA[" ++ b ++ bs "]]>" ++ pieces_text l) with ("<"%char :: bs "![CDATA[" ++ b ++ bs "]]>" ++ pieces_text l).
    rewrite compact_eq. change ("<"%char :: bs "![CDATA[" ++ b ++ bs "]]>" ++ pieces_text l) with (cdata_start ++ b ++ bs "]]>" ++ pieces_text l).
    rewrite strip_prefix_app. rewrite (compact_cdata_body (len b)), IH by auto. reflexivity.
  - rewrite compact_text_body, IH by auto. reflexivity.
Qed.

(** ** Text of arrays *)
Definition quote_char (c : ascii) : bytes :=
  if Ascii.eqb c dquote || Ascii.eqb c backslash then [backslash; c] else [c].
Lemma code_eq : forall n, (n < 256)%N -> code (ascii_of_N n) = n.
Proof. intros n H. unfold code. now apply N_ascii_embedding. Qed.
Lemma ascii_of_code : forall c n, n = code c -> ascii_of_N n = c.
Proof. intros c n ->. unfold code. apply ascii_N_embedding. Qed.
Lemma high_quote : forall c, (128 <= code c)%N -> quote_char c = [c].
Proof.
  intros c H. unfold quote_char. destruct (Ascii.eqb c dquote) eqn:A; [apply ascii_eqb_true in A; subst; vm_compute in H; now exfalso; apply H|].
  destruct (Ascii.eqb c backslash) eqn:B; [apply ascii_eqb_true in B; subst; vm_compute in H; now exfalso; apply H|]. reflexivity.
Qed.
Lemma in_range_iff : forall lo hi c, in_range lo hi c = true <-> (lo <= code c <= hi)%N.
Proof. intros. unfold in_range. rewrite andb_true_iff, !N.leb_le. reflexivity. Qed.
Lemma in_range_no : forall lo hi c, ~ (lo <= code c <= hi)%N -> in_range lo hi c = false.
Proof. intros. apply not_true_iff_false. rewrite in_range_iff. auto. Qed.
Lemma quote_rune_high : forall r, (128 <= r)%N -> quote_rune r = encode_rune r.
Proof.
  intros r H. unfold quote_rune. rewrite (proj2 (N.eqb_neq r 34)) by lia. rewrite (proj2 (N.eqb_neq r 92)) by lia. reflexivity.
Qed.
Lemma runes_fuel_le : forall f f' s, len s <= f -> len s <= f' -> runes_fuel f s = runes_fuel f' s.
Proof.
  induction f as [|f IH]; intros f' s H H'; [destruct s; [destruct f'; reflexivity|cbn in H; lia]|].
  destruct s as [|c s]; [destruct f'; reflexivity|]. destruct f' as [|f']; [cbn in H'; lia|]. cbn [runes_fuel len] in *.
  assert (L : len (snd (decode_rune c s)) <= len s).
  { unfold decode_rune. repeat (match goal with |- context [if ?b then _ else _] => destruct b
      | |- context [match ?x with [] => _ | _ => _ end] => destruct x end; cbn [snd len]; try lia). }
  destruct (decode_rune c s) as [r s2]. cbn [snd] in L. f_equal. apply IH; lia.
Qed.
Lemma runes_cons : forall c s, runes (c :: s) = fst (decode_rune c s) :: runes (snd (decode_rune c s)).
Proof.
  intros c s. unfold runes. cbn [len runes_fuel].
  assert (L : len (snd (decode_rune c s)) <= len s).
  { unfold decode_rune. repeat (match goal with |- context [if ?b then _ else _] => destruct b
      | |- context [match ?x with [] => _ | _ => _ end] => destruct x end; cbn [snd len]; try lia). }
  destruct (decode_rune c s) as [r s2]. cbn [fst snd] in *. f_equal. apply runes_fuel_le; lia.
Qed.
Lemma quote_utf8 : forall s, utf8 s -> flat_map quote_rune (runes s) = flat_map quote_char s.
Proof.
  intros s H. induction H as [|a s Ha H IH|a b s Ha Hb H IH|a b c s Hab Hc H IH|a b c d s Hab Hc Hd H IH]; unfold between in *.
  - reflexivity.
  - rewrite runes_cons. unfold decode_rune. fold (code a) in Ha. rewrite (proj2 (N.ltb_lt (code a) 128)) by lia. cbn [fst snd flat_map].
    rewrite IH. f_equal. unfold quote_rune, quote_char.
    destruct (N.eqb_spec (code a) 34) as [E|E].
    { assert (a = dquote) by (apply code_inj; exact E). subst a. reflexivity. }
    destruct (N.eqb_spec (code a) 92) as [E2|E2].
    { assert (a = backslash) by (apply code_inj; exact E2). subst a. reflexivity. }
    replace (Ascii.eqb a dquote) with false by (symmetry; apply ascii_eqb_false; intros ->; now apply E).
    replace (Ascii.eqb a backslash) with false by (symmetry; apply ascii_eqb_false; intros ->; now apply E2).
    unfold encode_rune. rewrite (proj2 (N.ltb_lt (code a) 128)) by lia. cbn [orb]. f_equal. now apply ascii_of_code.
  - fold (code a) in Ha. fold (code b) in Hb. cbn [flat_map]. rewrite !high_quote by lia. cbn [app].
    rewrite runes_cons. unfold decode_rune. rewrite (proj2 (N.ltb_ge (code a) 128)) by lia.
    rewrite (proj2 (in_range_iff 194 223 a)) by lia. unfold cont. rewrite (proj2 (in_range_iff 128 191 b)) by lia.
    cbn [fst snd flat_map]. unfold low6. rewrite IH.
    set (r := ((code a - 192) * 64 + (code b - 128))%N).
    assert (R1 : (r / 64 = code a - 192)%N) by (symmetry; apply (N.div_unique _ _ _ (code b - 128)); unfold r; lia).
    assert (R2 : (r mod 64 = code b - 128)%N) by (symmetry; apply (N.mod_unique _ _ (code a - 192)); unfold r; lia).
    rewrite quote_rune_high by (unfold r; lia). unfold encode_rune.
    rewrite (proj2 (N.ltb_ge r 128)) by (unfold r; lia). rewrite (proj2 (N.ltb_lt r 2048)) by (unfold r; lia).
    rewrite R1, R2. rewrite (ascii_of_code a), (ascii_of_code b) by lia. reflexivity.
  - fold (code a) in Hab. fold (code b) in Hab. fold (code c) in Hc.
    assert (Ra : (224 <= code a <= 239)%N) by lia. assert (Rb : (128 <= code b <= 191)%N) by lia.
    cbn [flat_map]. rewrite !high_quote by lia. cbn [app].
    rewrite runes_cons. unfold decode_rune. rewrite (proj2 (N.ltb_ge (code a) 128)) by lia.
    rewrite (in_range_no 194 223 a) by lia. rewrite (proj2 (in_range_iff 224 239 a)) by lia.
    replace (if (code a =? 224)%N then in_range 160 191 b else if (code a =? 237)%N then in_range 128 159 b else cont b) with true.
    2:{ symmetry. unfold cont. destruct (N.eqb_spec (code a) 224); [apply in_range_iff; lia|].
        destruct (N.eqb_spec (code a) 237); apply in_range_iff; lia. }
    unfold cont. rewrite (proj2 (in_range_iff 128 191 c)) by lia. cbn [andb fst snd flat_map]. unfold low6. rewrite IH.
    set (r := ((code a - 224) * 4096 + (code b - 128) * 64 + (code c - 128))%N).
    assert (R0 : (r / 64 = (code a - 224) * 64 + (code b - 128))%N) by (symmetry; apply (N.div_unique _ _ _ (code c - 128)); unfold r; lia).
    assert (R1 : (r / 4096 = code a - 224)%N) by (symmetry; apply (N.div_unique _ _ _ ((code b - 128) * 64 + (code c - 128))); unfold r; lia).
    assert (R2 : ((r / 64) mod 64 = code b - 128)%N) by (symmetry; apply (N.mod_unique _ _ (code a - 224)); rewrite ?R0; lia).
    assert (R3 : (r mod 64 = code c - 128)%N) by (symmetry; apply (N.mod_unique _ _ ((code a - 224) * 64 + (code b - 128))); unfold r; lia).
    rewrite quote_rune_high by (unfold r; lia). unfold encode_rune.
    rewrite (proj2 (N.ltb_ge r 128)) by (unfold r; lia). rewrite (proj2 (N.ltb_ge r 2048)) by (unfold r; lia).
    rewrite (proj2 (N.ltb_lt r 65536)) by (unfold r; lia).
    replace ((55296 <=? r)%N && (r <=? 57343)%N) with false.
    2:{ symmetry. apply not_true_iff_false. rewrite andb_true_iff, !N.leb_le. unfold r. lia. }
    rewrite R1, R2, R3. rewrite (ascii_of_code a), (ascii_of_code b), (ascii_of_code c) by lia. reflexivity.
  - fold (code a) in Hab. fold (code b) in Hab. fold (code c) in Hc. fold (code d) in Hd.
    assert (Ra : (240 <= code a <= 244)%N) by lia. assert (Rb : (128 <= code b <= 191)%N) by lia.
    cbn [flat_map]. rewrite !high_quote by lia. cbn [app].
    rewrite runes_cons. unfold decode_rune. rewrite (proj2 (N.ltb_ge (code a) 128)) by lia.
    rewrite (in_range_no 194 223 a) by lia. rewrite (in_range_no 224 239 a) by lia. rewrite (proj2 (in_range_iff 240 244 a)) by lia.
    replace (if (code a =? 240)%N then in_range 144 191 b else if (code a =? 244)%N then in_range 128 143 b else cont b) with true.
    2:{ symmetry. unfold cont. destruct (N.eqb_spec (code a) 240); [apply in_range_iff; lia|].
        destruct (N.eqb_spec (code a) 244); apply in_range_iff; lia. }
    unfold cont. rewrite (proj2 (in_range_iff 128 191 c)) by lia. rewrite (proj2 (in_range_iff 128 191 d)) by lia.
    cbn [andb fst snd flat_map]. unfold low6. rewrite IH.
    set (r := ((code a - 240) * 262144 + (code b - 128) * 4096 + (code c - 128) * 64 + (code d - 128))%N).
    assert (R0 : (r / 64 = (code a - 240) * 4096 + (code b - 128) * 64 + (code c - 128))%N) by (symmetry; apply (N.div_unique _ _ _ (code d - 128)); unfold r; lia).
    assert (R0' : (r / 4096 = (code a - 240) * 64 + (code b - 128))%N) by (symmetry; apply (N.div_unique _ _ _ ((code c - 128) * 64 + (code d - 128))); unfold r; lia).
    assert (R1 : (r / 262144 = code a - 240)%N) by (symmetry; apply (N.div_unique _ _ _ ((code b - 128) * 4096 + (code c - 128) * 64 + (code d - 128))); unfold r; lia).
    assert (R2 : ((r / 4096) mod 64 = code b - 128)%N) by (symmetry; apply (N.mod_unique _ _ (code a - 240)); rewrite ?R0'; lia).
    assert (R3 : ((r / 64) mod 64 = code c - 128)%N) by (symmetry; apply (N.mod_unique _ _ ((code a - 240) * 64 + (code b - 128))); rewrite ?R0; lia).
    assert (R4 : (r mod 64 = code d - 128)%N) by (symmetry; apply (N.mod_unique _ _ ((code a - 240) * 4096 + (code b - 128) * 64 + (code c - 128))); unfold r; lia).
    rewrite quote_rune_high by (unfold r; lia). unfold encode_rune.
    rewrite (proj2 (N.ltb_ge r 128)) by (unfold r; lia). rewrite (proj2 (N.ltb_ge r 2048)) by (unfold r; lia).
    rewrite (proj2 (N.ltb_ge r 65536)) by (unfold r; lia). rewrite (proj2 (N.leb_le r 1114111)) by (unfold r; lia).
    rewrite R1, R2, R3, R4. rewrite (ascii_of_code a), (ascii_of_code b), (ascii_of_code c), (ascii_of_code d) by lia. reflexivity.
Qed.
Lemma read_quoted : forall s r, read_item (flat_map quote_char s ++ dquote :: r) = Some (s, r).
Proof.
  induction s as [|c s IH]; intros r; [reflexivity|]. cbn [flat_map]. unfold quote_char at 1.
  destruct (Ascii.eqb c dquote) eqn:A.
  - cbn [orb app read_item]. change (Ascii.eqb backslash dquote) with false. change (Ascii.eqb backslash backslash) with true.
    cbn iota. rewrite IH. reflexivity.
  - destruct (Ascii.eqb c backslash) eqn:B; cbn [orb app read_item].
    + change (Ascii.eqb backslash dquote) with false. change (Ascii.eqb backslash backslash) with true. cbn iota. rewrite IH. reflexivity.
    + rewrite A, B, IH. reflexivity.
Qed.
Lemma read_quoted_items : forall l f, l <> [] -> Forall utf8 l -> len l <= f ->
  read_items f (join_comma (map quote_item l) ++ bs "]") = Some l.
Proof.
  induction l as [|x l IH]; intros f Hne H Hf; [easy|]. inversion H as [|? ? Hx Hl]; subst.
  destruct f as [|f]; [cbn in Hf; lia|]. cbn [len] in Hf.
  destruct l as [|y l].
  - cbn [map join_comma]. unfold quote_item. rewrite (quote_utf8 x Hx). rewrite <- !app_assoc. cbn [app read_items].
    change (Ascii.eqb dquote dquote) with true. cbn iota. rewrite read_quoted. reflexivity.
  - assert (K : join_comma (map quote_item (x :: y :: l)) = dquote :: flat_map quote_char x ++ dquote :: ","%char :: join_comma (map quote_item (y :: l))).
    { change (join_comma (map quote_item (x :: y :: l))) with (quote_item x ++ bs "," ++ join_comma (map quote_item (y :: l))).
      unfold quote_item at 1. rewrite (quote_utf8 x Hx). rewrite <- !app_assoc. reflexivity. }
    rewrite K. cbn [app read_items]. change (Ascii.eqb dquote dquote) with true. cbn iota.
    rewrite <- app_assoc. cbn [app]. rewrite read_quoted.
    specialize (IH f ltac:(discriminate) Hl ltac:(cbn [len] in *; lia)).
    destruct (join_comma (map quote_item (y :: l)) ++ bs "]") as [|z zs] eqn:Q; [destruct f; discriminate IH|].
    rewrite IH. reflexivity.
Qed.
Lemma quote_item_len : forall x, 2 <= len (quote_item x).
Proof. intros x. unfold quote_item. rewrite !app_length. cbn. lia. Qed.
Lemma join_len : forall l, len l <= len (join_comma (map quote_item l)).
Proof.
  induction l as [|x l IH]; [cbn; lia|]. destruct l as [|y l].
  - cbn [map join_comma len]. pose proof (quote_item_len x). lia.
  - change (join_comma (map quote_item (x :: y :: l))) with (quote_item x ++ bs "," ++ join_comma (map quote_item (y :: l))).
    rewrite !app_length. pose proof (quote_item_len x). change (len (bs ",")) with 1. cbn [len] in *. lia.
Qed.
Lemma decode_array_string : forall r, r_type r = RArray -> Forall (fun x => utf8 (r_string x)) (r_results r) ->
  decode_array (r_string r) = Some (map r_string (r_results r)).
Proof.
  intros [t w s n l] Ht H. cbn [r_type r_results] in *. subst t. cbn [r_string].
  destruct l as [|x l]; [reflexivity|]. rewrite <- (map_map r_string quote_item).
  assert (HF : Forall utf8 (map r_string (x :: l))) by (apply Forall_map; exact H).
  assert (HN : map r_string (x :: l) <> []) by discriminate.
  generalize dependent (map r_string (x :: l)). intros L HF HN.
  change (bs "[" ++ join_comma (map quote_item L) ++ bs "]") with ("["%char :: join_comma (map quote_item L) ++ bs "]").
  unfold decode_array. change (Ascii.eqb "[" "[") with true. cbn iota.
  replace (bytes_eqb (join_comma (map quote_item L) ++ bs "]") (bs "]")) with false.
  - apply read_quoted_items; auto. rewrite app_length. pose proof (join_len L). lia.
  - symmetry. apply bytes_eqb_neq. intros K. assert (K2 : len (join_comma (map quote_item L) ++ bs "]") = 1) by now rewrite K.
    rewrite app_length in K2. cbn in K2. pose proof (join_len L). destruct L; [easy|]. cbn [len] in *. lia.
Qed.
