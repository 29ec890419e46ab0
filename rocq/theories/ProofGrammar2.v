(** The path parser accepts exactly the language of SpecGrammar: steps and paths. *)
From Coq Require Import List Ascii String NArith ZArith Bool Lia.
From Verif Require Import GoStr ModelParser ModelPath SpecPath SpecGrammar ProofBase ProofPath ProofFuel ProofFuel2 ProofSyntax ProofGrammar.
Import ListNotations.

(** ** Numerals *)
Lemma is_digit_digit : forall c, is_digit c = true <-> digit c.
Proof. intros c. unfold is_digit, in_range, code, digit. rewrite andb_true_iff, !N.leb_le. reflexivity. Qed.
Lemma numeral_b : forall h, numeral h <-> is_numeric h = true.
Proof.
  intros h. unfold numeral, is_numeric. destruct h as [|c h]; [split; [intros [? _]; easy|discriminate]|].
  rewrite forallb_forall. split.
  - intros (_ & N & F) x I. rewrite Forall_forall in F. apply orb_true_iff. destruct (F x I) as [D|D]; [left; now apply is_digit_digit|right].
    subst x. cbn [Ascii.eqb Bool.eqb andb]. change (Ascii.eqb "-" "-") with true. cbn [andb]. apply N.ltb_lt. unfold blen. cbn [List.length].
    destruct h as [|d h]; [|cbn [List.length]; lia]. destruct I as [->|[]]. now elim N.
  - intros F. split; [discriminate|]. split.
    + intros E. injection E as -> ->. specialize (F "-"%char (or_introl eq_refl)). discriminate.
    + apply Forall_forall. intros x I. specialize (F x I). apply orb_true_iff in F. destruct F as [F|F]; [left; now apply is_digit_digit|right].
      apply andb_true_iff in F. destruct F as [F _]. now apply Ascii.eqb_eq in F.
Qed.
Lemma digits_val_dash : forall p acc q, digits_val acc (p ++ "-"%char :: q) = None.
Proof. induction p as [|c p IH]; intros acc q; cbn [app digits_val]; [reflexivity|]. destruct (is_digit c); auto. Qed.
Lemma number_fun : forall h i, numeral h -> number h i -> atoi h = i.
Proof.
  intros h i (N1 & N2 & F) H. destruct H as [ds D|ds D|p q P].
  - rewrite (atoi_digits ds N1 D). reflexivity.
  - unfold atoi, parse_int64. change (Ascii.eqb "-" "-") with true. cbv iota beta. destruct ds as [|c ds]; [now elim N2|].
    pose proof (digits_val_spec (c :: ds) 0%N D) as K. change (Z.of_N 0) with 0%Z in K. rewrite K.
    fold (decimal_value (c :: ds)). change (- 2 ^ 63)%Z with int64_min. destruct (Z.ltb_spec (- Z.of_N (decimal_value (c :: ds))) int64_min); lia.
  - unfold atoi, parse_int64. destruct p as [|c p]; [easy|]. cbn [app].
    destruct (Ascii.eqb c "-").
    + destruct (p ++ "-"%char :: q) eqn:E; auto. rewrite <- E, digits_val_dash. auto.
    + destruct (Ascii.eqb c "+").
      * destruct (p ++ "-"%char :: q) eqn:E; auto. rewrite <- E, digits_val_dash. auto.
      * change (c :: p ++ "-"%char :: q) with ((c :: p) ++ "-"%char :: q). destruct ((c :: p) ++ "-"%char :: q) eqn:E; auto. rewrite <- E, digits_val_dash. auto.
Qed.
Lemma number_ex : forall h, numeral h -> exists i, number h i.
Proof.
  intros h (N1 & N2 & F).
  assert (K : forall s, Forall (fun c => digit c \/ c = "-"%char) s -> Forall digit s \/ exists p q, s = p ++ "-"%char :: q).
  { induction s as [|c s IH]; intros FS; [now left|]. inversion FS as [|? ? A B]; subst. destruct (IH B) as [IH'|(p & q & ->)].
    - destruct A as [A| ->]; [left; now constructor|right; exists [], s; reflexivity].
    - right. exists (c :: p), q. reflexivity. }
  destruct h as [|c h]; [easy|]. inversion F as [|? ? A B]; subst.
  destruct (K _ B) as [D|(p & q & ->)].
  - destruct A as [A| ->]; [eexists; constructor; now constructor|eexists; now constructor].
  - exists 0%Z. apply (number_odd (c :: p) q). discriminate.
Qed.

(** ** The text before the modifiers *)
Definition head_part (pp : bytes) (mods : list bytes) : Res part_out :=
      match strip_prefix (bs "#(") pp with
      | Some body =>
          let cut :=
            if has_suffix (bs ")#") pp then Some (true, List.length pp - 2)
            else if has_suffix (bs ")") pp then Some (false, List.length pp - 1)
            else None in
          match cut with
          | None => Ok PSkip
          | Some (all, endidx) =>
              if Nat.leb endidx 2 then Ok PSkip
              else
                let* f := parse_filter_condition (firstn (endidx - 2) body) in
                match f with
                | None => Ok PReject
                | Some f => Ok (PSeg (mkSeg SFilter [] 0 false (Some f) all [] mods))
                end
          end
      | None =>
          let plain ty v := Ok (PSeg (mkSeg ty v 0 false None false [] mods)) in
          match pp with
          | c :: v =>
              if Ascii.eqb c "@" then plain SAttr v
              else if bytes_eqb pp (bs "%") then plain SText []
              else if bytes_eqb pp (bs "#") then plain SCount []
              else if bytes_eqb pp (bs "*") then plain SWild []
              else if bytes_eqb pp (bs "**") then
                Ok (PSeg (mkSeg SWild [] 0 true None false [] mods))
              else if is_numeric pp then
                Ok (PSeg (mkSeg SIndex [] (atoi pp) false None false [] mods))
              else plain SElem pp
          | [] => plain SElem []
          end
      end.
Lemma parse_part_head : forall part h l, part <> [] -> split_on "|" part = (h, l) ->
  parse_part part = head_part h (mods_of l).
Proof. intros part h l N E. unfold parse_part. destruct part; [easy|]. unfold parse_modifiers. rewrite E. reflexivity. Qed.

Definition means_res (m : means) (ms : list bytes) : Res part_out :=
  match m with
  | Nothing => Ok PSkip
  | Meant st => Ok (PSeg (seg_of (st, ms)))
  | Rejected => Ok PReject
  | Crash => Panic
  end.
Lemma suffix_all : forall e, has_suffix (bs ")#") (bs "#(" ++ e ++ bs ")#") = true.
Proof. intros e. apply has_suffix_spec. exists (bs "#(" ++ e). now rewrite <- app_assoc. Qed.
Lemma suffix_one : forall e, has_suffix (bs ")") (bs "#(" ++ e ++ bs ")") = true.
Proof. intros e. apply has_suffix_spec. exists (bs "#(" ++ e). now rewrite <- app_assoc. Qed.
Lemma suffix_not : forall e, has_suffix (bs ")#") (bs "#(" ++ e ++ bs ")") = false.
Proof.
  intros e. destruct (has_suffix (bs ")#") (bs "#(" ++ e ++ bs ")")) eqn:K; auto. apply has_suffix_spec in K. destruct K as [k K].
  rewrite app_assoc in K. change (bs ")#") with (bs ")" ++ bs "#") in K.
  rewrite (app_assoc k) in K. apply app_inj_tail in K. destruct K as [_ K]. discriminate.
Qed.
Lemma judged_res : forall all e t mods, condition e t ->
  (let* f := parse_filter_condition e in
   match f with None => Ok PReject | Some f => Ok (PSeg (mkSeg SFilter [] 0 false (Some f) all [] mods)) end) =
  means_res (judged all t) mods.
Proof. intros all e t mods H. rewrite (condition_fun _ _ H). now destruct t. Qed.
Lemma head_res : forall h m ms, head h m -> head_part h ms = means_res m ms.
Proof.
  intros h m ms H. destruct H as [n| | | | |e t N C|e t N C|s NS|h i NU NM|h N1 N2 N3 N4]; unfold head_part.
  - reflexivity.
  - reflexivity.
  - reflexivity.
  - reflexivity.
  - reflexivity.
  - rewrite strip_hash, suffix_all. cbv zeta. rewrite !app_length. cbn [bs list_ascii_of_string List.length].
    replace (2 + (List.length e + 2) - 2) with (2 + List.length e) by lia.
    destruct (Nat.leb_spec (2 + List.length e) 2); [destruct e; [easy|cbn [List.length] in *; lia]|].
    replace (2 + List.length e - 2) with (List.length e) by lia. rewrite firstn_app, firstn_all, Nat.sub_diag. cbn [firstn]. rewrite app_nil_r.
    now apply judged_res.
  - rewrite strip_hash, suffix_not, suffix_one. cbv zeta. rewrite !app_length. cbn [bs list_ascii_of_string List.length].
    replace (2 + (List.length e + 1) - 1) with (2 + List.length e) by lia.
    destruct (Nat.leb_spec (2 + List.length e) 2); [destruct e; [easy|cbn [List.length] in *; lia]|].
    replace (2 + List.length e - 2) with (List.length e) by lia. rewrite firstn_app, firstn_all, Nat.sub_diag. cbn [firstn]. rewrite app_nil_r.
    now apply judged_res.
  - rewrite strip_hash. cbv zeta.
    assert (K : forall suf k, bs "#(" ++ s = k ++ suf -> (2 < List.length (bs "#(" ++ s) - List.length suf)%nat -> exists e, e <> [] /\ s = e ++ suf).
    { intros suf k E L. rewrite E, app_length in L. destruct k as [|a [|b [|c k]]]; cbn [List.length] in L; try lia.
      cbn [bs list_ascii_of_string app] in E. injection E as _ _ E. exists (c :: k). split; [discriminate|exact E]. }
    destruct (has_suffix (bs ")#") (bs "#(" ++ s)) eqn:S1.
    + apply has_suffix_spec in S1. destruct S1 as [k S1].
      destruct (Nat.leb_spec (List.length (bs "#(" ++ s) - 2) 2) as [|L]; [reflexivity|].
      destruct (K _ _ S1 L) as (e & E1 & E2). destruct (NS e E1) as [X _]. now elim X.
    + destruct (has_suffix (bs ")") (bs "#(" ++ s)) eqn:S2; [|reflexivity].
      apply has_suffix_spec in S2. destruct S2 as [k S2].
      destruct (Nat.leb_spec (List.length (bs "#(" ++ s) - 1) 2) as [|L]; [reflexivity|].
      destruct (K _ _ S2 L) as (e & E1 & E2). destruct (NS e E1) as [_ X]. now elim X.
  - assert (FC : forall c r, h = c :: r -> digit c \/ c = "-"%char) by (intros c r ->; destruct NU as (_ & _ & F); now inversion F).
    pose proof (number_fun _ _ NU NM) as A. apply numeral_b in NU. destruct h as [|c r]; [discriminate|].
    assert (NE : forall x, is_digit x = false -> x <> "-"%char -> Ascii.eqb c x = false).
    { intros x X1 X2. destruct (Ascii.eqb_spec c x) as [->|]; auto. destruct (FC x r eq_refl) as [D|D]; [apply is_digit_digit in D|]; congruence. }
    unfold bs; cbn [list_ascii_of_string strip_prefix bytes_eqb].
    rewrite (Ascii.eqb_sym "#" c), (NE "#"%char), (NE "@"%char), (NE "%"%char), (NE "*"%char) by (reflexivity || discriminate).
    cbn [andb]. rewrite NU, A. reflexivity.
  - assert (SP : strip_prefix (bs "#(") h = None) by (apply strip_prefix_none; auto). rewrite SP.
    destruct h as [|c r]; [reflexivity|].
    destruct (Ascii.eqb_spec c "@") as [->|]; [now elim (N1 r)|].
    assert (BE : forall x, In x [bs "%"; bs "#"; bs "*"; bs "**"] -> bytes_eqb (c :: r) x = false).
    { intros x I. destruct (bytes_eqb (c :: r) x) eqn:E; auto. apply bytes_eqb_eq in E. subst x. now elim N3. }
    rewrite !BE by (cbn [In]; auto 6). destruct (is_numeric (c :: r)) eqn:NU; [now apply numeral_b in NU|]. reflexivity.
Qed.
Lemma ends_dec : forall (s suf : bytes), {e | e <> [] /\ s = e ++ suf} + {forall e, e <> [] -> s <> e ++ suf}.
Proof.
  intros s suf. destruct (has_suffix suf s) eqn:S.
  - apply has_suffix_spec in S.
    destruct (le_gt_dec (List.length s) (List.length suf)) as [L|L].
    + right. intros e N E. subst s. rewrite app_length in L. destruct e; [easy|cbn [List.length] in L; lia].
    + left. exists (firstn (List.length s - List.length suf) s). destruct S as [e ->]. rewrite app_length in *.
      replace (List.length e + List.length suf - List.length suf) with (List.length e) by lia.
      rewrite firstn_app, firstn_all, Nat.sub_diag. cbn [firstn]. rewrite app_nil_r. split; auto. intros ->. cbn [List.length] in L. lia.
  - right. intros e N E. assert (has_suffix suf s = true) by (apply has_suffix_spec; eauto). congruence.
Qed.
Lemma head_ex : forall h, exists m, head h m.
Proof.
  intros h. destruct (strip_prefix (bs "#(") h) as [s|] eqn:SP.
  - apply strip_prefix_spec in SP. subst h.
    destruct (ends_dec s (bs ")#")) as [(e & N & ->)|NA].
    { destruct (condition_ex e) as [t C]. exists (judged true t). now apply head_all. }
    destruct (ends_dec s (bs ")")) as [(e & N & ->)|NO].
    { destruct (condition_ex e) as [t C]. exists (judged false t). now apply head_one. }
    exists Nothing. apply head_open. intros e N. split; auto.
  - rewrite strip_prefix_none in SP. destruct h as [|c r].
    { eexists. apply head_name; try discriminate; auto; [intros [X|[X|[X|[X|[]]]]]; discriminate|intros [X _]; easy]. }
    destruct (ascii_dec c "@") as [->|N1]; [eexists; apply head_attr|].
    destruct (in_dec (list_eq_dec ascii_dec) (c :: r) [bs "%"; bs "#"; bs "*"; bs "**"]) as [I|N3].
    { destruct I as [<-|[<-|[<-|[<-|[]]]]]; eexists; constructor. }
    destruct (is_numeric (c :: r)) eqn:NU.
    { apply numeral_b in NU. destruct (number_ex _ NU) as [i NM]. eexists. exact (head_nth _ i NU NM). }
    eexists. apply head_name; auto; [intros n E; injection E; auto|]. intros X. apply numeral_b in X. congruence.
Qed.
Lemma head_name_fun : forall h n, head h (Meant (GName n)) -> n <> bs "%" /\ forall m, n <> "@"%char :: m.
Proof.
  intros h n H. inversion H; subst; try (destruct t; discriminate).
  split; auto. intros ->. match goal with X : ~ In _ _ |- _ => apply X end. now left.
Qed.

(** ** Pieces *)
Lemma piece_res : forall x m ms, piece x m ms -> parse_part x = means_res m ms.
Proof.
  intros x m ms H. destruct H as [|h l m ms N B H M]; [reflexivity|].
  rewrite (parse_part_head _ h l N (barred_fun _ _ B)), (named_fun _ _ M). now apply head_res.
Qed.
Lemma piece_ex : forall x, exists m ms, piece x m ms.
Proof.
  intros x. destruct x as [|c x]; [exists Nothing, []; constructor|].
  destruct (barred_split (c :: x)) as [E B]. destruct (head_ex (fst (split_on "|" (c :: x)))) as [m H].
  exists m, (mods_of (snd (split_on "|" (c :: x)))). rewrite <- E at 1. apply piece_some; auto; [rewrite E; discriminate|apply named_ex].
Qed.
Definition steps_res (o : option (option (list (gstep * list bytes)))) : Res (option (list seg)) :=
  match o with
  | None => Panic
  | Some None => Ok None
  | Some (Some l) => Ok (Some (map seg_of l))
  end.
Lemma steps_res_of : forall l o, steps_of l o -> parse_parts l = steps_res o.
Proof.
  intros l o H. induction H as [|x ms l o P H IH|x ms l P|x ms l P|x st ms l o P H IH]; cbn [parse_parts]; auto; rewrite (piece_res _ _ _ P); cbn [means_res bind]; auto.
  rewrite IH. destruct o as [[l'|]|]; reflexivity.
Qed.
Lemma steps_ex : forall l, exists o, steps_of l o.
Proof.
  induction l as [|x l [o IH]]; [eexists; constructor|]. destruct (piece_ex x) as (m & ms & P). destruct m as [|st| |].
  - exists o. econstructor; eauto.
  - eexists. eapply steps_meant; eauto.
  - exists (Some None). eapply steps_rejected; eauto.
  - exists None. eapply steps_crash; eauto.
Qed.
Definition plain_field (x : gstep * list bytes) : Prop :=
  match fst x with GName n => n <> bs "%" /\ forall m, n <> "@"%char :: m | GField _ => False | _ => True end.
Lemma steps_plain : forall l o, steps_of l o -> forall ss, o = Some (Some ss) -> Forall plain_field ss.
Proof.
  intros l o H. induction H as [|x ms l o P H IH|x ms l P|x ms l P|x st ms l o P H IH]; intros ss E; auto; try discriminate.
  - injection E as <-. constructor.
  - destruct o as [[l'|]|]; try discriminate. injection E as <-. constructor; auto.
    inversion P as [|h l0 m ms0 N B HD M]; subst. unfold plain_field. cbn [fst]. destruct st; auto.
    + exact (head_name_fun _ _ HD).
    + inversion HD; subst; try (destruct t; discriminate).
Qed.

(** ** Fields *)
Lemma letter_b : forall c, letter c <-> is_letter c = true.
Proof. intros c. unfold letter, is_letter, is_lower, is_upper, in_range, code. rewrite orb_true_iff, !andb_true_iff, !N.leb_le. reflexivity. Qed.
Lemma identifier_b : forall s, identifier s <-> is_valid_identifier s = true.
Proof.
  intros s. unfold identifier, is_valid_identifier. split.
  - intros (c & r & -> & A & B). apply andb_true_iff. split.
    + unfold ident_start. destruct A as [A| ->]; [apply letter_b in A; now rewrite A|reflexivity].
    + apply forallb_forall. intros x I. rewrite Forall_forall in B. unfold ident_char. destruct (B x I) as [X|[X|X]].
      * apply letter_b in X. now rewrite X.
      * apply is_digit_digit in X. rewrite X. now rewrite orb_true_r.
      * destruct X as [<-|[<-|[<-|[]]]]; reflexivity.
  - destruct s as [|c r]; [discriminate|]. rewrite andb_true_iff. intros [A B]. exists c, r. split; auto. split.
    + unfold ident_start in A. apply orb_true_iff in A. destruct A as [A|A]; [left; now apply letter_b|right; now apply Ascii.eqb_eq in A].
    + apply Forall_forall. intros x I. rewrite forallb_forall in B. specialize (B x I). unfold ident_char in B.
      rewrite !orb_true_iff in B. destruct B as [[[[B|B]|B]|B]|B].
      * left. now apply letter_b.
      * right. left. now apply is_digit_digit.
      * apply Ascii.eqb_eq in B. subst x. right. right. now left.
      * apply Ascii.eqb_eq in B. subst x. right. right. right. now left.
      * apply Ascii.eqb_eq in B. subst x. right. right. right. right. now left.
Qed.
Definition field_ok (sg : seg) : bool :=
  match s_type sg with
  | SElem | SAttr | SText => is_valid_field_name (field_of sg) && (blen (field_of sg) <=? MaxFieldNameLength)%N
  | _ => false
  end.
Lemma short_b : forall f : bytes, (blen f <=? MaxFieldNameLength)%N = true <-> (List.length f <= 256)%nat.
Proof. intros f. rewrite N.leb_le. unfold blen, MaxFieldNameLength. lia. Qed.
Lemma field_b : forall x f, plain_field x ->
  (field (fst x) f <-> field_ok (seg_of x) = true /\ f = field_of (seg_of x)).
Proof.
  intros [st ms] f P. unfold field, field_ok, plain_field, field_of in *. cbn [fst] in *.
  destruct st; cbn [seg_of fst snd s_type s_value]; try (split; [intros [_ []]|intros [X _]; discriminate]).
  - destruct P as [P1 P2]. rewrite andb_true_iff, short_b.
    assert (V : is_valid_field_name n = true <-> identifier n).
    { rewrite identifier_b. unfold is_valid_field_name. destruct n as [|c r]; [reflexivity|].
      destruct (bytes_eqb (c :: r) (bs "%")) eqn:E; [apply bytes_eqb_eq in E; contradiction|].
      destruct (Ascii.eqb_spec c "@") as [->|]; [now elim (P2 r)|]. reflexivity. }
    rewrite V. split; [intros (A & -> & B); auto|intros ((A & B) & ->); auto].
  - rewrite andb_true_iff, short_b.
    assert (V : is_valid_field_name ("@"%char :: n) = true <-> identifier n) by (rewrite identifier_b; reflexivity).
    rewrite V. split; [intros (A & -> & B); auto|intros ((A & B) & ->); auto].
  - split; [intros (A & ->); auto|intros (A & ->); split; auto]. cbn. lia.
Qed.
Lemma merge_count : forall sg nx l, s_type sg = SCount -> merge_fields (sg :: nx :: l) =
  if field_ok nx then mkSeg SField [] 0 false None false (field_of nx) (s_mods nx) :: merge_fields l
  else sg :: merge_fields (nx :: l).
Proof. intros sg nx l H. unfold field_ok. cbn [merge_fields]. rewrite H. destruct (s_type nx); reflexivity. Qed.
Lemma merge_other : forall sg l, s_type sg <> SCount -> merge_fields (sg :: l) = sg :: merge_fields l.
Proof. intros sg l H. cbn [merge_fields]. destruct (s_type sg); try reflexivity. now elim H. Qed.
Lemma merge_last : forall sg, merge_fields [sg] = [sg].
Proof. intros sg. cbn [merge_fields]. now destruct (s_type sg). Qed.
Lemma seg_of_mods : forall x, s_mods (seg_of x) = snd x.
Proof. intros [[] ms]; reflexivity. Qed.
Lemma extracted_fun : forall l l', extracted l l' -> Forall plain_field l -> merge_fields (map seg_of l) = map seg_of l'.
Proof.
  intros l l' H. induction H as [|ms st ms' f l l' F H IH|st ms l l' N H IH]; intros P; cbn [map]; auto.
  - inversion P as [|? ? P1 P2]; subst. inversion P2 as [|? ? P3 P4]; subst. rewrite merge_count by reflexivity.
    apply (field_b (st, ms') f P3) in F. destruct F as [F ->]. rewrite F, IH, seg_of_mods; auto.
  - inversion P as [|? ? P1 P2]; subst. rewrite <- (IH P2).
    destruct st; try (apply merge_other; discriminate).
    destruct l as [|[st' ms'] l]; [apply merge_last|]. cbn [map]. rewrite merge_count by reflexivity.
    destruct (field_ok (seg_of (st', ms'))) eqn:F; auto. exfalso. inversion P2 as [|? ? P3 P4]; subst.
    apply (N eq_refl st' ms' (field_of (seg_of (st', ms'))) l eq_refl). apply (field_b (st', ms')); auto.
Qed.
Lemma extracted_ex : forall n l, (List.length l <= n)%nat -> Forall plain_field l -> exists l', extracted l l'.
Proof.
  induction n as [|n IH]; intros [|[st ms] l] L P; cbn [List.length] in L; try lia; try (exists []; constructor).
  inversion P as [|? ? P1 P2]; subst. destruct (IH l ltac:(lia) P2) as [l1 H1].
  destruct st; try (eexists; apply extracted_keep; [discriminate|exact H1]).
  destruct l as [|[st' ms'] l]; [eexists; apply extracted_keep; [discriminate|exact H1]|].
  inversion P2 as [|? ? P3 P4]; subst. destruct (field_ok (seg_of (st', ms'))) eqn:F.
  - destruct (IH l ltac:(cbn [List.length] in L; lia) P4) as [l2 H2]. eexists. eapply extracted_field; [|exact H2].
    apply (field_b (st', ms')); auto.
  - eexists. apply extracted_keep; [|exact H1]. intros _ st1 ms1 f rest E FF. injection E as <- <- _.
    apply (field_b (st', ms') f P3) in FF. destruct FF. congruence.
Qed.

(** ** Paths *)
Lemma path_means_nil : forall o, path_means [] o -> o = Steps [].
Proof.
  assert (C : forall p, cuts [] p -> p = [[]]) by (intros p H; now inversion H).
  assert (S : forall o, steps_of [[]] o -> o = Some (Some [])).
  { intros o H. assert (X : forall m ms, piece [] m ms -> m = Nothing) by (intros m ms P; inversion P; auto; congruence).
    inversion H; subst; try (match goal with P : piece [] _ _ |- _ => apply X in P; discriminate end).
    match goal with P : steps_of [] _ |- _ => inversion P; subst; auto end. }
  intros o H. inversion H as [path parts A B|path parts l l' A B D X|path parts A B D|path parts A B D]; subst; apply C in A; subst parts; try (apply S in D; try discriminate).
  - cbn [List.length] in B. lia.
  - injection D as ->. now inversion X.
Qed.
Lemma path_means_res : forall path o, path_means path o -> parse_path path = meaning_res o.
Proof.
  intros path o H. destruct path as [|c path]; [apply path_means_nil in H; now subst o|].
  assert (NE : c :: path <> []) by discriminate. unfold parse_path, parse_path_internal.
  remember (c :: path) as s eqn:Es. destruct H as [s parts A B|s parts l l' A B D X|s parts A B D|s parts A B D];
    rewrite (cuts_path _ _ NE A); destruct s as [|c' s']; try easy;
    unfold MaxPathSegments; try (rewrite (proj2 (Nat.ltb_ge _ _) B), (steps_res_of _ _ D); cbn [steps_res bind meaning_res]; auto).
  - unfold MaxPathSegments. rewrite (proj2 (Nat.ltb_lt _ _) B). reflexivity.
  - f_equal. apply (extracted_fun _ _ X). eapply steps_plain; eauto.
Qed.
Lemma path_means_ex : forall path, exists o, path_means path o.
Proof.
  intros path. pose proof (cuts_split _ path (le_n _)) as C. remember (fst _ :: snd _) as parts eqn:E. clear E.
  destruct (le_gt_dec (List.length parts) 100) as [L|L]; [|exists Unusable; eapply path_long; eauto].
  destruct (steps_ex parts) as [[[l|]|] S].
  - destruct (extracted_ex _ l (le_n _)) as [l' X]; [eapply steps_plain; eauto|]. exists (Steps l'). eapply path_steps; eauto.
  - exists Unusable. eapply path_rejected; eauto.
  - exists Fatal. eapply path_fatal; eauto.
Qed.
Lemma seg_of_inj : forall a b, seg_of a = seg_of b -> a = b.
Proof. intros [[] ms] [[] ms'] H; cbn [seg_of fst snd] in H; try discriminate; injection H; intros; subst; auto. Qed.
Lemma map_seg_of_inj : forall l l', map seg_of l = map seg_of l' -> l = l'.
Proof. induction l as [|x l IH]; intros [|y l'] H; cbn [map] in H; try discriminate; auto. injection H as A B. rewrite (seg_of_inj _ _ A), (IH _ B). auto. Qed.
Lemma cuts_unique : forall s l l', cuts s l -> cuts s l' -> l = l'.
Proof. intros s l l' H H'. rewrite (cuts_fun _ _ H), (cuts_fun _ _ H'). auto. Qed.
Lemma steps_unique : forall l o o', steps_of l o -> steps_of l o' -> o = o'.
Proof.
  intros l o o' H H'. apply steps_res_of in H. apply steps_res_of in H'. rewrite H in H'.
  destruct o as [[l1|]|], o' as [[l2|]|]; cbn [steps_res] in H'; try discriminate; auto. injection H' as H'. now rewrite (map_seg_of_inj _ _ H').
Qed.
Lemma path_means_unique : forall path o o', path_means path o -> path_means path o' -> o = o'.
Proof.
  intros path o o' H H'.
  inversion H as [p1 parts A B|p1 parts l l1 A B D X|p1 parts A B D|p1 parts A B D]; subst;
  inversion H' as [p1 parts' A' B'|p1 parts' l' l1' A' B' D' X'|p1 parts' A' B' D'|p1 parts' A' B' D']; subst; auto;
  rewrite (cuts_unique _ _ _ A' A) in *; try lia; pose proof (steps_unique _ _ _ D D') as E; try discriminate.
  injection E as <-. f_equal. apply map_seg_of_inj. rewrite <- (extracted_fun _ _ X), <- (extracted_fun _ _ X'); auto; eapply steps_plain; eauto.
Qed.
Lemma path_means_stored : forall path l, l <> [] -> parse_path path = Ok (map seg_of l) -> path_means path (Steps l).
Proof.
  intros path l N H. destruct (path_means_ex path) as [o P]. pose proof (path_means_res _ _ P) as R. rewrite H in R.
  destruct o as [l'| |]; cbn [meaning_res] in R; try discriminate.
  - injection R as R. now rewrite (map_seg_of_inj _ _ R).
  - injection R as R. destruct l; [easy|discriminate].
Qed.
Lemma path_means_panic : forall path, parse_path path = Panic <-> path_means path Fatal.
Proof.
  intros path. split; [|intros H; now rewrite (path_means_res _ _ H)]. intros H.
  destruct (path_means_ex path) as [o P]. pose proof (path_means_res _ _ P) as R. rewrite H in R. destruct o; try discriminate. exact P.
Qed.
Lemma path_means_none : forall path, parse_path path = Ok [] <-> path_means path Unusable \/ path_means path (Steps []).
Proof.
  intros path. split; [|intros [H|H]; now rewrite (path_means_res _ _ H)]. intros H.
  destruct (path_means_ex path) as [o P]. pose proof (path_means_res _ _ P) as R. rewrite H in R.
  destruct o as [[|x l]| |]; try discriminate; auto.
Qed.
