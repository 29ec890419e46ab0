(** Prologs, chained queries and Map on canonical documents. *)
From Coq Require Import List Ascii String NArith ZArith Bool Lia Permutation.
From Verif Require Import GoStr ModelParser ModelPath ModelResult ModelQuery ModelApi SpecText SpecPath SpecTree SpecQuery
  ProofBase ProofEscape ProofPath ProofScan ProofSyntax ProofFuel ProofMono ProofTree ProofTree2 ProofTree3 ProofTree4 ProofTree5.
Import ListNotations.

(** ** Skipped text *)
Lemma exec_skip : forall E f key root x s segs, skippable x -> exec E f key root (x ++ s) segs = exec E f key root s segs.
Proof.
  intros E f key root x s segs Hx. destruct f as [|f]; [reflexivity|]. cbn [exec]. unfold exec_body.
  destruct segs as [|sg rest]; [reflexivity|]. unfold scan_res. rewrite (scan_skip _ _ _ _ Hx).
  destruct (scan (e_ord E) key s); [|reflexivity]. cbn [bind]. destruct (s_type sg); try reflexivity.
  destruct (s_wild sg); [|reflexivity]. unfold handle_recursive. destruct rest as [|target rest]; [reflexivity|].
  assert (R : forall st, rsearch E (exec E f) (S MaxNestingDepth) key target rest st (x ++ s) =
              rsearch E (exec E f) (S MaxNestingDepth) key target rest st s).
  { generalize MaxNestingDepth as n. intros n st. cbn [rsearch]. unfold scan_res. rewrite (scan_skip _ _ _ _ Hx). reflexivity. }
  now rewrite R.
Qed.
Lemma get_skip : forall E x s path, skippable x -> (blen (x ++ s) <= 10485760)%N -> get E (x ++ s) path = get E s path.
Proof.
  intros E x s path Hx HL. assert (HL2 : (blen s <= 10485760)%N) by (unfold blen in *; rewrite app_length in HL; lia).
  unfold get. change MaxDocumentSize with 10485760%N. rewrite (proj2 (N.ltb_ge _ _) HL), (proj2 (N.ltb_ge _ _) HL2).
  destruct (parse_path path) as [segs| |]; auto. cbn [bind]. destruct segs as [|sg segs]; auto. now apply exec_skip.
Qed.

(** ** Roots *)
Lemma multi_in : forall x p roots d self s, no_angle x -> p <> Some "<"%char \/ (forall r, x <> "/"%char :: r) ->
  (forall y, x <> y ++ ["/"%char]) ->
  x <> [] -> multi_loop p roots d true self (x ++ ">"%char :: s) =
  multi_loop (Some ">"%char) roots (if self then d - 1 else d)%Z false false s.
Proof.
  induction x as [|c x IH]; intros p roots d self s [H1 H2] Hp Hl Hne; [easy|].
  assert (C1 : c <> "<"%char) by (intros ->; simpl in *; tauto). assert (C2 : c <> ">"%char) by (intros ->; simpl in *; tauto).
  cbn [app multi_loop]. cbn [negb].
  assert (S1 : Ascii.eqb c "/" && match x ++ ">"%char :: s with n :: _ => Ascii.eqb n ">" | [] => false end = false).
  { destruct x as [|c2 x].
    - cbn [app]. destruct (Ascii.eqb_spec c "/"); auto. subst. exfalso. now apply (Hl []).
    - cbn [app]. apply andb_false_iff. right. apply ascii_eqb_false. intros ->. simpl in *. tauto. }
  rewrite S1. rewrite (proj2 (ascii_eqb_false c ">") C2).
  assert (S2 : Ascii.eqb c "/" && match p with Some p0 => Ascii.eqb p0 "<" | None => false end = false).
  { destruct (Ascii.eqb_spec c "/"); auto. subst. cbn [andb]. destruct p as [p|]; auto.
    apply ascii_eqb_false. intros ->. destruct Hp as [Hp|Hp]; [congruence|]. now apply (Hp x). }
  rewrite S2. destruct x as [|c2 x].
  - cbn [app multi_loop negb]. change (Ascii.eqb ">" "/") with false. change (Ascii.eqb ">" ">") with true. cbn [andb]. reflexivity.
  - apply IH.
    + split; simpl in *; tauto.
    + left. congruence.
    + intros y Hy. apply (Hl (c :: y)). now rewrite Hy.
    + discriminate.
Qed.
Lemma multi_in_self : forall x p roots d s, no_angle x -> p <> Some "<"%char \/ (forall r, x ++ ["/"%char] <> "/"%char :: r) ->
  x <> [] ->
  multi_loop p roots d true false ((x ++ ["/"%char]) ++ ">"%char :: s) = multi_loop (Some ">"%char) roots (d - 1)%Z false false s.
Proof.
  induction x as [|c x IH]; intros p roots d s [H1 H2] Hp Hne; [easy|].
  assert (C1 : c <> "<"%char) by (intros ->; simpl in *; tauto). assert (C2 : c <> ">"%char) by (intros ->; simpl in *; tauto).
  cbn [app multi_loop]. cbn [negb].
  assert (S1 : Ascii.eqb c "/" && match (x ++ ["/"%char]) ++ ">"%char :: s with n :: _ => Ascii.eqb n ">" | [] => false end = false).
  { apply andb_false_iff. right. destruct x as [|c2 x]; [reflexivity|]. cbn [app]. apply ascii_eqb_false. intros ->. simpl in *. tauto. }
  rewrite S1. rewrite (proj2 (ascii_eqb_false c ">") C2).
  assert (S2 : Ascii.eqb c "/" && match p with Some p0 => Ascii.eqb p0 "<" | None => false end = false).
  { destruct (Ascii.eqb_spec c "/"); auto. subst. cbn [andb]. destruct p as [p|]; auto.
    apply ascii_eqb_false. intros ->. destruct Hp as [Hp|Hp]; [congruence|]. now apply (Hp (x ++ ["/"%char])). }
  rewrite S2. destruct x as [|c2 x].
  - cbn [app multi_loop negb]. change (Ascii.eqb "/" "/") with true. change (Ascii.eqb ">" "/") with false.
    change (Ascii.eqb ">" ">") with true. cbn [andb].
    replace (Ascii.eqb c "<") with false by (symmetry; now apply ascii_eqb_false). reflexivity.
  - apply IH.
    + split; simpl in *; tauto.
    + left. congruence.
    + discriminate.
Qed.
Lemma multi_out : forall x p roots d self s, no_angle x -> exists p',
  multi_loop p roots d false self (x ++ s) = multi_loop p' roots d false self s.
Proof.
  induction x as [|c x IH]; intros p roots d self s [H1 H2]; [exists p; reflexivity|].
  cbn [app multi_loop negb]. rewrite (proj2 (ascii_eqb_false c "<")) by (intros ->; simpl in *; tauto).
  apply IH. split; simpl in *; tauto.
Qed.
Lemma multi_misc : forall b p roots d self s, misc_body b ->
  multi_loop p roots d false self ((bs "<!" ++ b ++ bs ">") ++ s) = multi_loop (Some ">"%char) roots d false false s.
Proof.
  intros b p roots d self s Hb. rewrite misc_inside. remember ("!"%char :: b) as x eqn:Ex.
  assert (NA : no_angle x) by (subst x; now apply bang_no_angle). cbn [multi_loop negb].
  change (Ascii.eqb "<" "<") with true. cbn iota.
  assert (NL : forall y, x <> y ++ ["/"%char]).
  { intros y K. assert (LB : forall z, b <> z ++ ["/"%char]).
    { intros z Kz. destruct Hb as [[c [Eb _]]|[c [Eb _]]]; rewrite Eb in Kz.
      - replace (bs "--" ++ c ++ bs "--") with ((bs "--" ++ c ++ bs "-") ++ ["-"%char]) in Kz by (now rewrite <- !app_assoc).
        apply app_inj_tail in Kz. destruct Kz. discriminate.
      - replace (bs "[CDATA[" ++ c ++ bs "]]") with ((bs "[CDATA[" ++ c ++ bs "]") ++ ["]"%char]) in Kz by (now rewrite <- !app_assoc).
        apply app_inj_tail in Kz. destruct Kz. discriminate. }
    subst x. destruct y as [|y0 y]; cbn [app] in K; [discriminate|]. injection K as _ K. now apply (LB y). }
  assert (HD : exists t, x ++ ">"%char :: s = "!"%char :: t) by (subst x; eexists; reflexivity).
  destruct HD as [t Et]. rewrite Et. change (Ascii.eqb "!" "/" || Ascii.eqb "!" "!" || Ascii.eqb "!" "?") with true. cbn iota.
  rewrite <- Et. rewrite multi_in; auto.
  - right. intros r K. subst x. discriminate.
  - subst x. discriminate.
Qed.
Lemma multi_start : forall n a (self : bool) p roots d sf s, xml_name n -> good_attrs a -> (d <> 0%Z \/ roots = 0) ->
  multi_loop p roots d false sf (start_tag n a self ++ s) =
  multi_loop (Some ">"%char) (if (d =? 0)%Z then 1 else roots) (if self then d else d + 1)%Z false false s.
Proof.
  intros n a self p roots d sf s Hn Ha Hd. rewrite start_tag_inside. assert (NA := inside_no_angle n a self Hn Ha).
  destruct (name_first n Hn) as [c0 [r [En Hc]]].
  assert (H : exists r2, tag_inside n a self = c0 :: r2) by (unfold tag_inside; rewrite En; eexists; reflexivity).
  destruct H as [r2 E3]. remember (tag_inside n a self) as x eqn:Ex. cbn [multi_loop negb].
  change (Ascii.eqb "<" "<") with true. cbn iota. rewrite E3 at 1. cbn [app].
  rewrite (name_eqb c0 "/" Hc), (name_eqb c0 "!" Hc), (name_eqb c0 "?" Hc) by inlist. cbn [orb].
  assert (NS : c0 <> "/"%char) by (apply (name_byte_not c0 "/" Hc); inlist).
  assert (B : forall rt, multi_loop (Some "<"%char) rt (d + 1) true false (x ++ ">"%char :: s) =
              multi_loop (Some ">"%char) rt (if self then d else d + 1)%Z false false s).
  { intros rt. destruct self.
    - replace x with ((n ++ attrs_text a) ++ ["/"%char]) in * by (rewrite Ex; unfold tag_inside; now rewrite <- app_assoc).
      rewrite multi_in_self.
      + f_equal. lia.
      + destruct NA as [K1 K2]. split; intros K; [apply K1|apply K2]; apply in_or_app; now left.
      + right. intros r' K. rewrite E3 in K. injection K as K _. congruence.
      + rewrite En. discriminate.
    - rewrite multi_in; auto.
      + right. intros r' K. rewrite E3 in K. injection K as K _. congruence.
      + intros y K. destruct (inside_last n a false Hn) as [z [c [L1 L2]]]. rewrite <- Ex, K in L1.
        apply app_inj_tail in L1. destruct L1 as [_ <-]. discriminate.
      + rewrite E3. discriminate. }
  destruct (d =? 0)%Z eqn:D.
  - destruct Hd as [Hd| ->]; [apply Z.eqb_eq in D; congruence|]. apply B.
  - apply B.
Qed.
Lemma multi_end : forall n p roots d sf s, xml_name n ->
  multi_loop p roots d false sf (end_tag n ++ s) = multi_loop (Some ">"%char) roots (d - 1)%Z false false s.
Proof.
  intros n p roots d sf s Hn. rewrite end_tag_inside. assert (NA := name_no_angle n Hn). cbn [app].
  remember (n ++ ">"%char :: s) as t eqn:Et. cbn [multi_loop negb]. change (Ascii.eqb "<" "<") with true. cbn iota.
  change (Ascii.eqb "/" "/" || Ascii.eqb "/" "!" || Ascii.eqb "/" "?") with true. cbn iota. cbn [negb].
  change (Ascii.eqb "/" "/") with true. change (Ascii.eqb "/" ">") with false. change (Ascii.eqb "<" "<") with true. cbn [andb].
  destruct (name_first n Hn) as [c0 [r [En Hc]]].
  assert (T : exists t', t = c0 :: t') by (rewrite Et, En; eexists; reflexivity). destruct T as [t' Et'].
  rewrite Et' at 1. rewrite (name_eqb c0 ">" Hc) by inlist. rewrite Et. apply multi_in; auto.
  - left. congruence.
  - intros y K. assert (I : In "/"%char n) by (rewrite K; apply in_or_app; right; now left).
    apply (proj1 (Forall_forall _ _) (name_all n Hn)) in I. apply (name_byte_not _ "/" I); [inlist|reflexivity].
  - rewrite En. discriminate.
Qed.
Lemma multi_deep : forall nd, good nd -> forall p roots d sf s, (0 < d)%Z -> exists p' sf',
  multi_loop p roots d false sf (node_text nd ++ s) = multi_loop p' roots d false sf' s.
Proof.
  induction nd as [n a self kids IH|t|b] using node_ind'; intros G p roots d sf s Hd; inversion G as [? ? ? ? N A S K|? T|? M]; subst.
  - cbn [node_text]. exists (Some ">"%char), false. rewrite <- app_assoc, multi_start by (auto; lia).
    rewrite (proj2 (Z.eqb_neq d 0)) by lia.
    destruct self; [reflexivity|]. rewrite <- app_assoc.
    assert (L : forall r q f, exists q' f', multi_loop q roots (d + 1) false f (flat_map node_text kids ++ r) = multi_loop q' roots (d + 1) false f' r).
    { clear -IH K Hd. induction IH as [|k kids IH1 IH2 IHl]; intros r q f; [exists q, f; reflexivity|]. inversion K as [|? ? K1 K2]; subst.
      cbn [flat_map]. rewrite <- !app_assoc.
      destruct (IH1 K1 q roots (d + 1)%Z f (flat_map node_text kids ++ r)) as [q1 [f1 E1]]; [lia|]. rewrite E1.
      apply (IHl K2 r q1 f1). }
    destruct (L (end_tag n ++ s) (Some ">"%char) false) as [q [f E]]. rewrite E, multi_end by auto. f_equal. lia.
  - destruct (multi_out t p roots d sf s T) as [p' E]. exists p', sf. exact E.
  - cbn [node_text]. exists (Some ">"%char), false. now apply multi_misc.
Qed.
Lemma multi_deep_all : forall F, Forall good F -> forall p roots d sf s, (0 < d)%Z -> exists p' sf',
  multi_loop p roots d false sf (flat_map node_text F ++ s) = multi_loop p' roots d false sf' s.
Proof.
  induction 1 as [|nd F G1 G2 IH]; intros p roots d sf s Hd; [exists p, sf; reflexivity|]. cbn [flat_map]. rewrite <- app_assoc.
  destruct (multi_deep nd G1 p roots d sf (flat_map node_text F ++ s) Hd) as [q [f E]]. rewrite E. apply IH; auto.
Qed.
Lemma multi_forest : forall F, Forall good F -> forall p roots sf, (roots = 0 \/ roots = 1) ->
  multi_loop p roots 0 false sf (forest_text F) = Nat.leb 2 (roots + len (elems F)).
Proof.
  unfold forest_text. induction 1 as [|nd F G1 G2 IH]; intros p roots sf Hr.
  - cbn [flat_map multi_loop elems filter List.length]. destruct Hr as [-> | ->]; reflexivity.
  - cbn [flat_map]. destruct nd as [n a self kids|t|b]; inversion G1 as [? ? ? ? N A S K|? T|? M]; subst.
    + unfold elems in *. cbn [filter is_elem List.length]. cbn [node_text]. rewrite <- app_assoc.
      destruct Hr as [-> | ->].
      * rewrite multi_start by auto. cbn [Z.eqb]. destruct self.
        -- cbn [app]. rewrite IH by auto. reflexivity.
        -- rewrite <- !app_assoc.
           destruct (multi_deep_all kids K (Some ">"%char) 1 (0 + 1)%Z false (end_tag n ++ flat_map node_text F)) as [q [f E]]; [lia|].
           rewrite E, multi_end by auto. change (0 + 1 - 1)%Z with 0%Z. rewrite IH by auto. reflexivity.
      * rewrite start_tag_split. destruct (name_first n N) as [c [r [-> Hc]]]. cbn [app multi_loop negb].
        change (Ascii.eqb "<" "<") with true. cbn iota.
        rewrite (name_eqb c "/" Hc), (name_eqb c "!" Hc), (name_eqb c "?" Hc) by inlist. cbn [orb Z.eqb]. reflexivity.
    + destruct (multi_out t p roots 0 sf (flat_map node_text F) T) as [p' E]. cbn [node_text]. rewrite E. apply IH; auto.
    + cbn [node_text]. rewrite multi_misc by auto. apply IH; auto.
Qed.
Lemma is_multi_root_forest : forall F, Forall good F -> is_multi_root (forest_text F) = Nat.leb 2 (len (elems F)).
Proof. intros F G. unfold is_multi_root. apply (multi_forest F G None 0 false). now left. Qed.
