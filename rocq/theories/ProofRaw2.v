(** Canonical forests pass the check of SetRaw; the text of numbers. *)
From Coq Require Import Decimal DecimalString DecimalFacts DecimalN.
From Coq Require Import List Ascii String NArith ZArith Bool Lia.
From Verif Require Import GoStr ModelParser ModelPath ModelResult ModelQuery ModelValidate ModelBuilder SpecText SpecPath SpecTree SpecQuery SpecEdit SpecMod SpecRaw SpecContent
  ProofBase ProofTree ProofTree3 ProofEdit6 ProofRaw.
Import ListNotations.
Local Notation len := (@List.length ascii).

(** ** Numbers *)
Definition val (l : bytes) (a : N) : N := fold_left (fun n c => n * 10 + (N_of_ascii c - 48))%N l a.
Definition dig (c : ascii) : Prop := (48 <= N_of_ascii c <= 57)%N.
Lemma dig_ascii : forall n, (n < 10)%N -> dig (ascii_of_N (48 + n)) /\ N_of_ascii (ascii_of_N (48 + n)) = (48 + n)%N.
Proof. intros n H. unfold dig. rewrite N_ascii_embedding by lia. lia. Qed.
Lemma dig_eq : forall c c', dig c -> dig c' -> (N_of_ascii c - 48 = N_of_ascii c' - 48)%N -> c = c'.
Proof. unfold dig. intros c c' H H' Q. rewrite <- (ascii_N_embedding c), <- (ascii_N_embedding c'). f_equal. lia. Qed.
Lemma val_app : forall l l' a, val (l ++ l') a = val l' (val l a).
Proof. intros. unfold val. apply fold_left_app. Qed.
Lemma val_one : forall c a, val [c] a = (a * 10 + (N_of_ascii c - 48))%N.
Proof. reflexivity. Qed.
Lemma val_ge : forall l a, (a <= val l a)%N.
Proof. induction l as [|c l IH]; intros a; [apply N.le_refl|]. change (val (c :: l) a) with (val l (a * 10 + (N_of_ascii c - 48)))%N. etransitivity; [|apply IH]. lia. Qed.
Definition lead (l : bytes) : Prop := match l with [] => True | c :: _ => c <> "0"%char end.
Lemma lead_pos : forall l, Forall dig l -> lead l -> val l 0 = 0%N -> l = [].
Proof.
  intros [|c l] D H Q; [reflexivity|]. exfalso. cbn [lead] in H. change (val (c :: l) 0) with (val l (N_of_ascii c - 48))%N in Q. pose proof (val_ge l (N_of_ascii c - 48)%N).
  inversion D as [|? ? D1 _]; subst. apply H. apply dig_eq; auto; [vm_compute; split; discriminate|]. change (N_of_ascii "0" - 48)%N with 0%N. lia.
Qed.
Lemma val_unique : forall l l', Forall dig l -> Forall dig l' -> lead l -> lead l' -> val l 0 = val l' 0 -> l = l'.
Proof.
  induction l as [|c l IH] using rev_ind; intros l' D D' H H' Q.
  - symmetry. apply lead_pos; auto.
  - destruct l' as [|c0 l0]; [exfalso; apply lead_pos in Q; auto; symmetry in Q; now apply app_cons_not_nil in Q|].
    destruct (exists_last (l := c0 :: l0) ltac:(discriminate)) as (l1 & c1 & E1). rewrite E1 in *. clear c0 l0 E1.
    rewrite !val_app in Q. cbn [val fold_left] in Q. apply Forall_app in D, D'. destruct D as [D Dc], D' as [D' Dc']. inversion Dc as [|? ? Dc1 _]; inversion Dc' as [|? ? Dc2 _]; subst.
    change (fold_left (fun (n : N) (c2 : ascii) => (n * 10 + (N_of_ascii c2 - 48))%N) l 0%N) with (val l 0) in Q. change (fold_left (fun (n : N) (c2 : ascii) => (n * 10 + (N_of_ascii c2 - 48))%N) l1 0%N) with (val l1 0) in Q.
    assert (X : (N_of_ascii c - 48 = N_of_ascii c1 - 48)%N /\ val l 0 = val l1 0) by (unfold dig in *; lia). destruct X as [X1 X2].
    rewrite (dig_eq c c1 Dc1 Dc2 X1). f_equal. apply IH; auto; [destruct l; auto|destruct l1; auto]; constructor.
Qed.
Lemma digits_ok : forall f n, (N.size_nat n <= f)%nat -> let l := digits_of (S f) n in Forall dig l /\ val l 0 = n /\ (n <> 0%N -> lead l) /\ l <> [].
Proof.
  induction f as [|f IH]; intros n H; cbv zeta.
  - assert (n = 0%N) by (destruct n as [|q]; auto; destruct q; cbn in H; lia). subst. vm_compute. repeat split; auto; try discriminate; try congruence. repeat constructor; vm_compute; discriminate.
  - assert (M : (n mod 10 < 10)%N) by (apply N.mod_lt; discriminate). destruct (dig_ascii _ M) as [D1 D2].
    change (digits_of (S (S f)) n) with ((if (n <? 10)%N then [] else digits_of (S f) (n / 10)) ++ [ascii_of_N (48 + n mod 10)]). destruct (n <? 10)%N eqn:L.
    + apply N.ltb_lt in L. rewrite app_nil_l. assert (Q : (n mod 10 = n)%N) by (apply N.mod_small; auto). repeat split.
      * constructor; [exact D1|constructor].
      * rewrite val_one, D2. lia.
      * intros Hn. cbn [lead]. intros X. apply (f_equal N_of_ascii) in X. rewrite D2 in X. change (N_of_ascii "0") with 48%N in X. lia.
      * discriminate.
    + apply N.ltb_ge in L. assert (SZ : (N.size_nat (n / 10) <= f)%nat).
      { destruct f as [|f]; [exfalso; destruct n as [|q]; [lia|]; cbn [N.size_nat] in H; destruct q as [q|q|]; cbn in H; try lia; destruct q; cbn in H; lia|].
        assert (B : (n < 2 ^ N.of_nat (N.size_nat n))%N).
        { replace (N.of_nat (N.size_nat n)) with (N.size n) by (destruct n as [|q]; [reflexivity|]; cbn [N.size N.size_nat]; clear; induction q as [q IHq|q IHq|]; cbn [Pos.size Pos.size_nat]; try reflexivity; rewrite Nat2N.inj_succ, <- IHq; lia). apply N.size_gt. }
        assert (Z0 : (0 < n / 10)%N) by (apply N.div_str_pos; lia).
        assert (SN : (N.of_nat (N.size_nat (n / 10)) <= N.of_nat (S f))%N); [|lia].
        replace (N.of_nat (N.size_nat (n / 10))) with (N.size (n / 10)) by (destruct (n / 10)%N as [|q]; [reflexivity|]; cbn [N.size N.size_nat]; clear; induction q as [q IHq|q IHq|]; cbn [Pos.size Pos.size_nat]; try reflexivity; rewrite Nat2N.inj_succ, <- IHq; lia).
        rewrite N.size_log2 by lia. apply N.le_succ_l. apply N.log2_lt_pow2; auto.
        assert (B2 : (n < 2 ^ N.of_nat (S (S f)))%N) by (eapply N.lt_le_trans; [exact B|]; apply N.pow_le_mono_r; lia).
        apply N.div_lt_upper_bound; [discriminate|]. rewrite (Nat2N.inj_succ (S f)), N.pow_succ_r' in B2. pose proof (N.pow_nonzero 2 (N.of_nat (S f)) ltac:(discriminate)). lia. }
      destruct (IH (n / 10)%N SZ) as (I1 & I2 & I3 & I4). repeat split.
      * apply Forall_app. split; auto.
      * rewrite val_app, I2. rewrite val_one, D2. pose proof (N.div_mod n 10 ltac:(discriminate)) as DM. revert DM. clear. generalize (n / 10)%N (n mod 10)%N. intros q r DM. lia.
      * intros _. assert (NZ : (n / 10 <> 0)%N) by (pose proof (N.div_str_pos n 10); lia). specialize (I3 NZ). destruct (digits_of (S f) (n / 10)); [congruence|exact I3].
      * intros X. symmetry in X. now apply app_cons_not_nil in X.
Qed.
Lemma empty_val : forall d q, Forall dig (bs (NilEmpty.string_of_uint d)) /\ val (bs (NilEmpty.string_of_uint d)) (Npos q) = Npos (Pos.of_uint_acc d q).
Proof.
  induction d as [|d IH|d IH|d IH|d IH|d IH|d IH|d IH|d IH|d IH|d IH]; intros q; [split; [constructor|reflexivity]|..];
    cbn [NilEmpty.string_of_uint Pos.of_uint_acc]; unfold bs; cbn [list_ascii_of_string]; fold (bs (NilEmpty.string_of_uint d));
    (split; [constructor; [vm_compute; split; discriminate|apply (IH 1%positive)]|]);
    match goal with |- val (?c :: ?l) ?a = _ => change (val (c :: l) a) with (val l (a * 10 + (N_of_ascii c - 48))%N) end;
    match goal with |- context [(N_of_ascii ?c - 48)%N] => let v := eval vm_compute in (N_of_ascii c - 48)%N in change (N_of_ascii c - 48)%N with v end;
    match goal with |- context [Pos.of_uint_acc _ ?w] => rewrite <- (proj2 (IH w)) end; f_equal; lia.
Qed.
Lemma uint_val : forall d, Forall dig (bs (NilEmpty.string_of_uint d)) /\ val (bs (NilEmpty.string_of_uint d)) 0 = N.of_uint d.
Proof.
  induction d as [|d IH|d IH|d IH|d IH|d IH|d IH|d IH|d IH|d IH|d IH]; [split; [constructor|reflexivity]|..];
    cbn [NilEmpty.string_of_uint]; unfold bs; cbn [list_ascii_of_string]; fold (bs (NilEmpty.string_of_uint d));
    (split; [constructor; [vm_compute; split; discriminate|apply IH]|]);
    match goal with |- val (?c :: ?l) ?a = _ => change (val (c :: l) a) with (val l (a * 10 + (N_of_ascii c - 48))%N) end;
    match goal with |- context [(?a * 10 + (N_of_ascii ?c - 48))%N] => let v := eval vm_compute in (a * 10 + (N_of_ascii c - 48))%N in change (a * 10 + (N_of_ascii c - 48))%N with v end;
    [exact (proj2 IH)|..]; rewrite (proj2 (empty_val d _)); reflexivity.
Qed.
Lemma nzhead_lead : forall d, lead (bs (NilEmpty.string_of_uint (nzhead d))).
Proof. induction d; cbn [nzhead]; auto; cbn; try exact I; discriminate. Qed.
Lemma uint_text : forall n, n <> 0%N -> let l := bs (NilZero.string_of_uint (N.to_uint n)) in Forall dig l /\ val l 0 = n /\ lead l.
Proof.
  intros n Hn. cbv zeta. assert (U : unorm (N.to_uint n) = N.to_uint n) by (rewrite <- Unsigned.to_of, Unsigned.of_to; reflexivity).
  assert (NZ : nzhead (N.to_uint n) = N.to_uint n).
  { unfold unorm in U. destruct (nzhead (N.to_uint n)) eqn:Q; auto. exfalso. apply Hn. rewrite <- (Unsigned.of_to n), <- U. reflexivity. }
  assert (NE : NilZero.string_of_uint (N.to_uint n) = NilEmpty.string_of_uint (N.to_uint n)).
  { unfold NilZero.string_of_uint. destruct (N.to_uint n) eqn:Q; auto. exfalso. apply Hn. rewrite <- (Unsigned.of_to n), Q. reflexivity. }
  rewrite NE. destruct (uint_val (N.to_uint n)) as [D V]. repeat split; auto.
  - now rewrite V, Unsigned.of_to.
  - rewrite <- NZ. apply nzhead_lead.
Qed.
Lemma uint_digits : forall n, bs (NilZero.string_of_uint (N.to_uint n)) = digits_of (S (N.size_nat n)) n.
Proof.
  intros n. destruct (N.eq_dec n 0) as [->|Hn]; [reflexivity|]. destruct (uint_text n Hn) as (D & V & L). destruct (digits_ok (N.size_nat n) n (le_n _)) as (D2 & V2 & L2 & _).
  apply val_unique; auto. now rewrite V, V2.
Qed.
Lemma fmt_int_decimal : forall z, fmt_int z = decimal z.
Proof.
  intros z. unfold fmt_int, decimal. destruct z as [|q|q]; [reflexivity| |].
  - change (Z.to_int (Zpos q)) with (Pos (N.to_uint (Npos q))). cbn [NilZero.string_of_int]. change (Z.pos q <? 0)%Z with false. cbn iota. cbn [app Z.abs_N]. apply uint_digits.
  - change (Z.to_int (Zneg q)) with (Neg (N.to_uint (Npos q))). cbn [NilZero.string_of_int]. change (Z.neg q <? 0)%Z with true. cbn iota. cbn [Z.abs_N].
    change (bs (String "-" (NilZero.string_of_uint (N.to_uint (N.pos q))))) with ("-"%char :: bs (NilZero.string_of_uint (N.to_uint (N.pos q)))). rewrite uint_digits. reflexivity.
Qed.
Lemma decimal_numeral : forall z, numeral (decimal z) z.
Proof.
  intros z. destruct (digits_ok (N.size_nat (Z.abs_N z)) (Z.abs_N z) (le_n _)) as (D & V & _ & NE). exists (digits_of (S (N.size_nat (Z.abs_N z))) (Z.abs_N z)). split; auto. split; auto. cbv zeta.
  change (fold_left _ ?l 0%N) with (val l 0). rewrite V. unfold decimal. destruct (z <? 0)%Z eqn:L; [right|left]; cbn [app].
  - apply Z.ltb_lt in L. split; [reflexivity|]. rewrite N2Z.inj_abs_N. lia.
  - apply Z.ltb_ge in L. split; [now left|]. rewrite N2Z.inj_abs_N. lia.
Qed.
Lemma decimal_plain : forall z c, In c (decimal z) -> c = "-"%char \/ dig c.
Proof.
  intros z c H. unfold decimal in H. apply in_app_or in H. destruct H as [H|H]; [destruct (z <? 0)%Z; [destruct H as [<-|[]]; auto|destruct H]|].
  destruct (digits_ok (N.size_nat (Z.abs_N z)) (Z.abs_N z) (le_n _)) as (D & _). rewrite Forall_forall in D. auto.
Qed.

(** ** Canonical forests are fragments *)
Lemma fragment_text_app : forall t st s, ~ In "<"%char t -> fragment st s -> fragment st (t ++ s).
Proof.
  induction t as [|c t IH]; intros st s H F; [exact F|]. cbn [app]. apply fr_text; [intros ->; apply H; left; auto|]. apply IH; auto. intros Q. apply H. right. auto.
Qed.
Lemma xml_tag_name : forall n, xml_name n -> tag_name n.
Proof.
  intros n H. pose proof (name_all n H) as A. rewrite Forall_forall in A. destruct (name_first n H) as (c & r & -> & Hc). split.
  - exists c, r. split; auto. intros Q. apply (name_byte_not c c Hc); [inlist|reflexivity].
  - intros x Hx Q. apply (name_byte_not x x (A x Hx)); [inlist|reflexivity].
Qed.
Lemma attrs_rest : forall a, good_attrs a -> tag_rest (bs " /") (attrs_text a) /\ forall x, attrs_text a <> x ++ bs "/".
Proof.
  intros a G. pose proof (attrs_no_angle a (ga_names _ G)) as [_ NA]. split.
  - split; [|exact NA]. destruct a as [|p a]; [left; reflexivity|right]. eexists _, _. split; [reflexivity|]. left. reflexivity.
  - intros x Q. destruct a as [|p a _] using rev_ind; [now apply app_cons_not_nil in Q|]. unfold attrs_text in Q. rewrite flat_map_app in Q. cbn [flat_map] in Q. rewrite app_nil_r in Q. unfold attr_text at 2 in Q.
    rewrite !app_assoc in Q. apply app_inj_tail in Q. destruct Q as [_ Q]. discriminate.
Qed.
Lemma first_only : forall (pat a r : bytes) c, ~ In c a -> (forall x y, pat = x ++ y -> In c x -> y = []) -> In c pat -> pat <> [] ->
  first_cut pat (a ++ pat ++ r) a r.
Proof.
  intros pat a r c Na Hp Hc NE. split; auto. intros a' r' Q.
  destruct (le_lt_dec (len a) (len a')) as [L|L]; auto. exfalso.
  (* the last byte of the earlier occurrence would be a [c] before the end of the first *)
  destruct (exists_last NE) as (q & z & Eq). assert (z = c).
  { subst pat. apply in_app_or in Hc. destruct Hc as [Hc|[Hc|[]]]; auto. specialize (Hp q [z] eq_refl Hc). discriminate. }
  subst z. assert (Nq : ~ In c q) by (intros Hx; specialize (Hp q [c] Eq Hx); discriminate).
  assert (P1 : nth_error (a ++ pat ++ r) (len a' + len q) = Some c).
  { rewrite Q, nth_error_app2 by lia. replace (len a' + len q - len a') with (len q) by lia. rewrite Eq, <- app_assoc, nth_error_app2, Nat.sub_diag by lia. reflexivity. }
  rewrite Eq, <- app_assoc, app_assoc in P1. rewrite nth_error_app1 in P1 by (rewrite app_length; lia). apply nth_error_In in P1. apply in_app_or in P1. tauto.
Qed.
Lemma misc_fragment : forall b st s, misc_body b -> fragment st s -> fragment st (bs "<!" ++ b ++ bs ">" ++ s).
Proof.
  intros b st s H F. destruct H as [(c & -> & [N1 N2] & _)|(c & -> & [N1 N2])].
  - apply (fr_comment st _ (bs "<!--" ++ c) s); auto.
    + left. exists (bs "-" ++ c ++ bs "--" ++ bs ">" ++ s). rewrite <- !app_assoc. reflexivity.
    + replace (bs "<!" ++ (bs "--" ++ c ++ bs "--") ++ bs ">" ++ s) with ((bs "<!--" ++ c) ++ bs "-->" ++ s) by (rewrite <- !app_assoc; reflexivity).
      apply (first_only _ _ _ ">"%char); try discriminate; auto.
      * intros Q. apply in_app_or in Q. destruct Q as [Q|Q]; [|auto]. cbn in Q. repeat (destruct Q as [Q|Q]; [discriminate|]). exact Q.
      * intros x y Q Hx. destruct x as [|x1 [|x2 [|x3 x]]]; cbn in Q; inversion Q; subst; cbn in Hx; try (repeat (destruct Hx as [Hx|Hx]; [discriminate|]); contradiction).
        match goal with H : [] = _ ++ _ |- _ => symmetry in H; apply app_eq_nil in H; tauto end.
      * right. right. left. reflexivity.
  - replace (bs "<!" ++ (bs "[CDATA[" ++ c ++ bs "]]") ++ bs ">" ++ s) with (bs "<![CDATA[" ++ (c ++ bs "]]>" ++ s)) by (rewrite <- !app_assoc; reflexivity).
    apply (fr_cdata st _ c s); auto.
    + apply (first_only _ _ _ ">"%char); try discriminate; auto.
      * intros x y Q Hx. destruct x as [|x1 [|x2 [|x3 x]]]; cbn in Q; inversion Q; subst; cbn in Hx; try (repeat (destruct Hx as [Hx|Hx]; [discriminate|]); contradiction).
        match goal with H : [] = _ ++ _ |- _ => symmetry in H; apply app_eq_nil in H; tauto end.
      * right. right. left. reflexivity.
    + intros (x & y & ->). apply N1. apply in_or_app. right. left. reflexivity.
Qed.
Lemma node_fragment : forall nd, good nd -> forall st s, fragment st s -> fragment st (node_text nd ++ s).
Proof.
  induction nd as [n a self kids IH|t|b] using node_ind'; intros G st s F; inversion G as [? ? ? ? GN GA GS GK|? GT|? GM]; subst.
  - destruct (attrs_rest a GA) as [TR NE]. pose proof (xml_tag_name n GN) as TN. cbn [node_text]. unfold start_tag. destruct self.
    + rewrite app_nil_r, <- !app_assoc. now apply fr_self.
    + rewrite <- !app_assoc. apply fr_open; auto. unfold end_tag. 
      assert (K : fragment (n :: st) (bs "</" ++ n ++ [] ++ bs ">" ++ s)).
      { apply fr_close; auto; [split; [left; auto|intros []]|]. intros c Hc Q. destruct TN as [_ TN]. apply (TN c Hc). cbn in Q |- *. tauto. }
      cbn [app] in K. rewrite <- !app_assoc. revert K. generalize (bs "</" ++ n ++ bs ">" ++ s) as u. clear - IH GK. induction kids as [|k kids IHk]; intros u K; [exact K|].
      cbn [flat_map]. rewrite <- app_assoc. inversion IH; inversion GK; subst. auto.
  - cbn [node_text]. apply fragment_text_app; auto. apply GT.
  - cbn [node_text]. rewrite <- !app_assoc. now apply misc_fragment.
Qed.
Lemma forest_fragment : forall F, Forall good F -> fragment [] (forest_text F).
Proof.
  intros F H. induction H as [|nd F H1 H2 IH]; [constructor|]. cbn [forest_text flat_map]. now apply node_fragment.
Qed.
