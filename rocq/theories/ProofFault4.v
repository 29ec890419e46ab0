(** The reports about documents that are canonical up to some place. *)
From Coq Require Import List Ascii String NArith ZArith Bool Lia.
From Verif Require Import GoStr ModelParser ModelValidate SpecText SpecPath SpecTree SpecQuery SpecValid SpecFault
  ProofBase ProofScan ProofTree ProofTree2 ProofTree3 ProofEdit ProofValid ProofValid2 ProofValid3 ProofFault ProofFault2 ProofFault3.
Import ListNotations.

Lemma depth_le : forall d F, d <= 100 -> (Forall (fun nd => d + levels nd <= 100) F <-> d + depth_of F <= 100).
Proof.
  intros d F D. unfold depth_of. induction F as [|x F IH]; [split; [cbn; lia|constructor]|]. cbn [fold_right]. rewrite Forall_cons_iff, IH. lia.
Qed.
Lemma forest_passes : forall F s stack found, Forall good F -> (stack <> [] -> found = true) -> (stack <> [] \/ Forall top_node F) -> len stack <= 100 ->
  Forall (fun nd => len stack + levels nd <= 100) F ->
  passes (st_of (forest_text F ++ s) stack found) (st_of s stack (found || existsb is_elem F)).
Proof.
  intros F s stack found G HF T L D. apply depth_le in D; auto. destruct (forest_yields F (proj1 (Forall_forall _ _) G)
    (fun nd Hn => node_yields nd (proj1 (Forall_forall _ _) G nd Hn)) s stack found HF T L) as [[X _]|[_ X]]; [lia|exact X].
Qed.
Lemma start_passes : forall n a s stack found, xml_name n -> good_attrs a -> (stack <> [] -> found = true) -> len stack < 100 ->
  passes (st_of (start_tag n a false ++ s) stack found) (st_of s ((n, start_tag n a false ++ s) :: stack) true).
Proof.
  intros n a s stack found N A HF L. set (d := "<"%char :: n ++ attrs_text a ++ bs ">" ++ s).
  assert (E : start_tag n a false ++ s = d) by (unfold d; rewrite start_tag_split; cbn [app]; rewrite <- !app_assoc; reflexivity). rewrite E.
  pose proof (v_open_complete (st_of d stack found) d n (len a) (attrs_text a) false s N (ga_count a A) (tag_attributes_text a A)) as V.
  rewrite <- (tag_char n _ N) in V. unfold st_of in V at 2 3 4 5 6 7. cbn [v_stack v_root_found v_root_closed] in V. apply Nat.leb_gt in L. rewrite L in V.
  intros x Y. eapply yields_tag; [exact V|]. destruct stack as [|p stack]; cbn [List.length]; [|rewrite andb_false_r; exact Y]. rewrite andb_true_r. destruct found; exact Y.
Qed.
Lemma level_passes : forall n a F s stack found, xml_name n -> good_attrs a -> Forall good F -> (stack <> [] -> found = true) -> S (len stack) <= 100 ->
  Forall (fun nd => S (len stack) + levels nd <= 100) F ->
  passes (st_of (level_text (n, a, F) ++ s) stack found) (st_of s ((n, level_text (n, a, F) ++ s) :: stack) true).
Proof.
  intros n a F s stack found N A G HF L D x Y. unfold level_text in *. rewrite <- app_assoc in *. apply start_passes; auto.
  apply forest_passes; auto. left. discriminate.
Qed.
(** The elements that are open after the levels, innermost first. *)
Fixpoint open_after (L : list level) (s : bytes) (stack : list (bytes * bytes)) : list (bytes * bytes) :=
  match L with
  | [] => stack
  | (n, a, F) :: L' => open_after L' s ((n, levels_text ((n, a, F) :: L') ++ s) :: stack)
  end.
Lemma levels_passes : forall L s stack found, writable (len stack) L -> (stack <> [] -> found = true) ->
  passes (st_of (levels_text L ++ s) stack found) (st_of s (open_after L s stack) (match L with [] => found | _ => true end)).
Proof.
  induction L as [|[[n a] F] L IH]; intros s stack found W HF x Y; [exact Y|]. inversion W as [|? ? ? ? ? N A G D DF WL]; subst.
  cbn [open_after] in Y. assert (E : levels_text ((n, a, F) :: L) ++ s = level_text (n, a, F) ++ levels_text L ++ s) by (unfold levels_text; cbn [map List.concat]; now rewrite <- app_assoc).
  rewrite E in Y. refine (eq_ind_r (fun z => yields (st_of z stack found) x) _ E). apply level_passes; auto. apply IH; auto. destruct L; exact Y.
Qed.
Lemma open_after_snoc : forall L n a F s stack, open_after (L ++ [(n, a, F)]) s stack = (n, level_text (n, a, F) ++ s) :: open_after L (level_text (n, a, F) ++ s) stack.
Proof.
  induction L as [|[[m b] K] L IH]; intros n a F s stack.
  - cbn [app open_after]. unfold levels_text. cbn [map List.concat]. now rewrite app_nil_r.
  - cbn [app open_after]. rewrite IH. f_equal. f_equal. f_equal. f_equal. unfold levels_text. cbn [map List.concat]. rewrite map_app, concat_app. cbn [map List.concat].
    rewrite app_nil_r, <- !app_assoc. reflexivity.
Qed.
Lemma levels_snoc : forall L l, levels_text (L ++ [l]) = levels_text L ++ level_text l.
Proof. intros L l. unfold levels_text. rewrite map_app, concat_app. cbn [map List.concat]. now rewrite app_nil_r. Qed.
Lemma document_passes : forall p F L s, strict_prolog p -> Forall good F -> Forall top_node F -> shallow F -> writable 0 L ->
  passes (st_of (p ++ forest_text F ++ levels_text L ++ s) [] false) (st_of s (open_after L s []) (existsb is_elem F || match L with [] => false | _ => true end)).
Proof.
  intros p F L s P G T S W x Y. apply prolog_passes; auto. apply forest_passes; auto; [cbn; lia|]. cbn [orb].
  apply levels_passes; [exact W|intros NN; now contradiction NN|]. destruct L; [rewrite orb_false_r in Y|rewrite orb_true_r in Y]; exact Y.
Qed.
Lemma report_validate : forall d e, d <> [] -> (N.of_nat (len d) <= 10485760)%N -> reports d (st_of d [] false) e -> validate d = Some (Some e).
Proof.
  intros d e NE L [x [Y R]]. unfold validate. change MaxDocumentSize with 10485760%N. rewrite (proj2 (N.ltb_ge 10485760 (blen _)) L).
  destruct d as [|c d0] eqn:E; [contradiction|]. rewrite <- E in *. clear c d0 E.
  destruct (v_loop_total (S (len d)) (mkV d [] false false)) as [y VL]; [cbn [v_rest]; lia|]. rewrite VL. rewrite (yields_eq _ _ _ _ Y VL).
  destruct R as [->|[st [-> F]]]; [reflexivity|now rewrite F].
Qed.
(** The document goes wrong after the levels. *)
Lemma report_document : forall p F L s e r, strict_prolog p -> Forall good F -> Forall top_node F -> shallow F -> writable 0 L ->
  (N.of_nat (len (p ++ forest_text F ++ levels_text L ++ s)) <= 10485760)%N -> p ++ forest_text F ++ levels_text L ++ s <> [] ->
  reports (p ++ forest_text F ++ levels_text L ++ s) (st_of s (open_after L s []) (existsb is_elem F || match L with [] => false | _ => true end)) (mkVerr e r) ->
  forall x, p ++ forest_text F ++ levels_text L ++ s = x ++ r -> exists line col,
  validate_with_error (p ++ forest_text F ++ levels_text L ++ s) = Some (line, col, e) /\ line = 1 + newlines x /\ last_line x col.
Proof.
  intros p F L s e r P G T S W SZ NE R x E. assert (V : validate (p ++ forest_text F ++ levels_text L ++ s) = Some (Some (mkVerr e r))).
  { apply report_validate; auto. eapply passes_reports; [|exact R]. now apply document_passes. }
  unfold validate_with_error. rewrite V. cbn [ve_at ve_msg]. rewrite E, line_col_prefix. destruct (line_col_spec x) as [K1 K2].
  destruct (fold_left advance_lc x (1, 0)) as [l c]. exists l, c. auto.
Qed.
Lemma unclosed_report : forall p F L n a K, strict_prolog p -> Forall good F -> Forall top_node F -> shallow F -> writable 0 (L ++ [(n, a, K)]) ->
  let before := p ++ forest_text F ++ levels_text L in
  (N.of_nat (len (before ++ start_tag n a false ++ forest_text K)) <= 10485760)%N -> exists line col,
  validate_with_error (before ++ start_tag n a false ++ forest_text K) = Some (line, col, VUnclosedTag n) /\ line = 1 + newlines before /\ last_line before col.
Proof.
  intros p F L n a K P G T S W before SZ.
  assert (E : before ++ start_tag n a false ++ forest_text K = p ++ forest_text F ++ levels_text (L ++ [(n, a, K)]) ++ []).
  { unfold before. rewrite levels_snoc, app_nil_r, <- !app_assoc. reflexivity. }
  rewrite E in SZ. rewrite E. apply (report_document p F _ [] (VUnclosedTag n) (start_tag n a false ++ forest_text K)); auto.
  - rewrite <- E. intros Z. apply app_eq_nil in Z. destruct Z as [_ Z]. discriminate.
  - rewrite open_after_snoc. unfold level_text at 1. eexists. split; [exists 1; reflexivity|]. right. eexists. split; [reflexivity|]. unfold v_finish. cbn [v_stack st_of]. now rewrite app_nil_r.
Qed.
Lemma mismatch_report : forall p F L n a K m w s, strict_prolog p -> Forall good F -> Forall top_node F -> shallow F -> writable 0 (L ++ [(n, a, K)]) ->
  xml_name m -> blanks w -> n <> m ->
  let before := p ++ forest_text F ++ levels_text L ++ start_tag n a false ++ forest_text K in
  (N.of_nat (len (before ++ bs "</" ++ m ++ w ++ bs ">" ++ s)) <= 10485760)%N -> exists line col,
  validate_with_error (before ++ bs "</" ++ m ++ w ++ bs ">" ++ s) = Some (line, col, VMismatch m n (start_tag n a false ++ forest_text K ++ bs "</" ++ m ++ w ++ bs ">" ++ s)) /\ line = 1 + newlines before /\ last_line before col.
Proof.
  intros p F L n a K m w s P G T S W M B D before SZ. set (t := bs "</" ++ m ++ w ++ bs ">" ++ s) in *.
  assert (E : before ++ t = p ++ forest_text F ++ levels_text (L ++ [(n, a, K)]) ++ t).
  { unfold before. rewrite levels_snoc. unfold level_text. rewrite <- !app_assoc. reflexivity. }
  rewrite E in SZ. rewrite E. apply (report_document p F _ t (VMismatch m n (start_tag n a false ++ forest_text K ++ t)) t); auto.
  - rewrite <- E. unfold t. intros Z. apply app_eq_nil in Z. destruct Z as [_ Z]. discriminate.
  - rewrite open_after_snoc.
    replace (start_tag n a false ++ forest_text K ++ t) with (level_text (n, a, K) ++ t) by (unfold level_text; now rewrite <- app_assoc).
    apply loop_fault_complete.
    + unfold t. apply fa_end_bad. eapply (ef_other _ _ m w s); eauto. apply xml_leading; auto.
      destruct (attr_name_end w ">" s B) as [d [x [E1 E2]]]; [apply not_name; cbn; tauto|]. change (bs ">" ++ s) with (">"%char :: s). rewrite E1. right. exists d, x. auto.
    + constructor; cbn [v_stack v_root_found v_root_closed]; try discriminate; auto.
      * intros _. split; auto. destruct (L ++ [(n, a, K)]) eqn:Q; [destruct L; discriminate|]. now rewrite orb_true_r.
      * assert (X : forall L d st t, writable d L -> Forall xml_name (map fst st) -> Forall xml_name (map fst (open_after L t st))).
        { clear. induction L as [|[[n a] F] L IH]; intros d st t W H; [exact H|]. inversion W; subst. cbn [open_after]. eapply IH; eauto. cbn [map fst]. constructor; auto. }
        rewrite <- (open_after_snoc L n a K t []). apply (X _ 0); [exact W|constructor].
Qed.
Lemma outside_report : forall p F c s, strict_prolog p -> Forall good F -> Forall top_node F -> shallow F -> ~ blank c -> c <> "<"%char ->
  let before := p ++ forest_text F in
  (N.of_nat (len (before ++ c :: s)) <= 10485760)%N -> exists line col,
  validate_with_error (before ++ c :: s) = Some (line, col, VOutsideRoot) /\ line = 1 + newlines before /\ last_line before col.
Proof.
  intros p F c s P G T S B N before SZ.
  assert (E : before ++ c :: s = p ++ forest_text F ++ levels_text [] ++ c :: s) by (unfold before; rewrite <- !app_assoc; reflexivity).
  rewrite E in SZ. rewrite E. apply (report_document p F [] (c :: s) VOutsideRoot (c :: s)); auto; [constructor| |].
  - rewrite <- E. intros Z. apply app_eq_nil in Z. destruct Z as [_ Z]. discriminate.
  - cbn [open_after]. apply loop_fault_complete; [now apply fa_outside|]. constructor; cbn [v_stack v_root_found v_root_closed]; auto; [congruence|constructor].
Qed.
