(** Deleting what a query does not find; option variants of queries. *)
From Coq Require Import List Ascii String NArith ZArith Bool Lia.
From Verif Require Import GoStr ModelParser ModelPath ModelResult ModelQuery ModelValidate ModelBuilder ModelQueryOpts
  ModelApi SpecPath ProofBase ProofScan ProofPath ProofFuel ProofFuel2 ProofSyntax ProofApi.
Import ListNotations.

(** ** The key only selects map orders *)
Definition one_order (ord : order) : Prop := forall k k' l, ord k l = ord k' l.
Lemma content_key : forall ord, one_order ord -> forall fuel k k' ename d s,
  content_loop ord k fuel ename d s = content_loop ord k' fuel ename d s.
Proof.
  intros ord H. induction fuel as [|f IH]; intros k k' ename d s; auto. cbn [content_loop].
  destruct d as [|d]; auto. destruct s as [|c s1]; auto.
  destruct (Ascii.eqb c "<"); [|now rewrite (IH k k')].
  destruct s1 as [|n s2]; [now rewrite (IH k k')|].
  destruct (Ascii.eqb n "/").
  - destruct (read_until ">" s2) as [t0 s3]. destruct (bytes_eqb (close_name t0) ename).
    + destruct d; auto. now rewrite (IH k k').
    + now rewrite (IH k k').
  - destruct (Ascii.eqb n "!"); [now rewrite (IH k k')|].
    destruct (read_until_any name_delims (n :: s2)) as [nn s3]. destruct (parse_attributes s3) as [attrs s4].
    destruct (if Ascii.eqb (peek s4) "/" then (true, next s4) else (false, s4)) as [self s5].
    destruct (if Ascii.eqb (peek s5) ">" then (bs ">", next s5) else ([], s5)) as [gt s6].
    rewrite (IH k k'). rewrite (H (List.length (c :: n :: s2) :: k) (List.length (c :: n :: s2) :: k')). reflexivity.
Qed.
Lemma scan_loop_key : forall ord, one_order ord -> forall fuel k k' s,
  scan_loop ord k fuel s = scan_loop ord k' fuel s.
Proof.
  intros ord H. induction fuel as [|f IH]; intros k k' s; auto. cbn [scan_loop].
  destruct (skip_to_next s) as [[s1|]|]; auto.
  destruct (parse_element_name (next s1)) as [[[name attrs] self] s2]. destruct self; [now rewrite (IH k k')|].
  unfold parse_content. rewrite (content_key ord H _ k k').
  destruct (content_loop ord k' (S (len s2)) name 1 s2) as [[content s3]|]; auto. now rewrite (IH k k').
Qed.
Lemma scan_res_key : forall E k k' s, one_order (e_ord E) -> scan_res E k s = scan_res E k' s.
Proof. intros E k k' s H. unfold scan_res, scan. now rewrite (scan_loop_key _ H _ k k'). Qed.

(** ** What find_loc finds, a query finds *)
Definition attr_seg (a : bytes) : seg := mkSeg SAttr a 0 false None false [] [].
Lemma match_plain_opts : forall sg es, filter (fun e => seg_matches_opts true sg (e_name e)) es = matching sg es.
Proof. intros. unfold matching. apply filter_ext. intros e. apply match_cs. Qed.
Lemma find_loc_get : forall E, one_order (e_ord E) -> forall names key key' base d root fuel l tail,
  find_loc E default_options key d (map elem_seg names) base = Ok (Some l) -> List.length names <= fuel ->
  (tail = [] \/ exists a v, tail = [attr_seg a] /\ map_get a (l_attrs l) = Some v) ->
  exists r, exec E fuel key' root d (map elem_seg names ++ tail) = Ok r /\ is_null r = false.
Proof.
  intros E HO. induction names as [|n names IH]; intros key key' base d root fuel l tail H Hf Ht.
  { cbn [map find_loc] in H. destruct (MaxPositionOffset <? base)%Z; discriminate. }
  destruct fuel as [|fuel]; [cbn [List.length] in Hf; lia|]. cbn [List.length] in Hf.
  cbn [map app exec]. unfold exec_body. cbn [map find_loc] in H.
  destruct (MaxPositionOffset <? base)%Z; [discriminate|].
  rewrite (scan_res_key E key' key d HO). destruct (scan_res E key d) as [es| |]; cbn [bind] in *; try discriminate.
  change (o_case default_options) with true in H. rewrite match_plain_opts in H.
  cbn [s_type elem_seg].
  assert (G : exec_element E (exec E fuel) key' es (elem_seg n) (map elem_seg names ++ tail) =
              first_loop E (exec E fuel) key' (matching (elem_seg n) es) (elem_seg n) (map elem_seg names ++ tail)).
  { unfold exec_element. destruct names; cbn [map app]; auto. destruct Ht as [->|[a [v [-> _]]]]; auto. }
  assert (Key : exists r, first_loop E (exec E fuel) key' (matching (elem_seg n) es) (elem_seg n) (map elem_seg names ++ tail)
                = Ok r /\ is_null r = false).
  { destruct names as [|n2 names].
    - cbn [map] in *. destruct (matching (elem_seg n) es) as [|e ms]; [discriminate|]. injection H as <-.
      cbn [first_loop app]. destruct Ht as [->|[a [v [-> Hv]]]].
      + eexists. split; [reflexivity|]. reflexivity.
      + cbn [s_type attr_seg s_value]. change (l_attrs (elem_location d base e)) with (e_attrs e) in Hv. rewrite Hv.
        eexists. split; reflexivity.
    - cbn [map s_type elem_seg] in H. destruct (matching (elem_seg n) es) as [|e ms]; [discriminate|].
      destruct (MaxPositionOffset <? base + pos_of d (e_body e))%Z; [discriminate|].
      cbn [map app first_loop s_type elem_seg].
      destruct (IH _ (child_key site_query e key') _ _ false fuel l tail H) as [r [R1 R2]]; [cbn [List.length] in *; lia|exact Ht|].
      cbn [map app elem_seg] in R1. rewrite R1. cbn [bind]. rewrite R2. eauto. }
  destruct root; [|rewrite G; exact Key].
  destruct (map elem_seg names ++ tail) as [|nx more] eqn:Erest; [rewrite G; exact Key|].
  assert (T : s_type nx = SElem \/ s_type nx = SAttr).
  { destruct names; cbn [map app] in Erest.
    - destruct Ht as [->|[a [v [-> _]]]]; [discriminate|]. injection Erest as <- _. auto.
    - injection Erest as <- _. auto. }
  destruct T as [T|T]; rewrite T; rewrite G; exact Key.
Qed.

Lemma delete_absent_names : forall E xml names, one_order (e_ord E) -> valid xml = true -> (blen xml <= 10485760)%N ->
  names <> [] -> Forall plain_name names -> List.length names <= 100 ->
  get E xml (path_text names) = Ok r_null -> delete E xml (path_text names) = Ok (xml, None).
Proof.
  intros E xml names HO Hv Hx Hne Hp Hl H. unfold get in H. unfold delete, delete_opts, parse_path_opts.
  change 10485760%N with MaxDocumentSize in Hx. rewrite (proj2 (N.ltb_ge _ _) Hx) in *. rewrite Hv. cbn [negb].
  pose proof (parse_path_plain names Hne Hp Hl) as PP. rewrite PP in *. cbn [bind] in *.
  change (o_case default_options) with true. cbn iota.
  destruct (find_loc_ok E default_options (map elem_seg names) [6] xml 0) as [l Hloc].
  destruct (map elem_seg names) as [|s0 ss] eqn:Em; [destruct names; [easy|discriminate]|]. rewrite <- Em in *.
  unfold edit_of, delete_element. rewrite Em at 1. rewrite (proj2 (N.ltb_ge _ _) Hx).
  assert (L : s_type (last (map elem_seg names) (mkSeg SElem [] 0 false None false [] [])) = SElem).
  { clear. induction names as [|n names IH]; auto. destruct names; auto. }
  rewrite L. cbn [segtype_eqb]. rewrite Hloc. cbn [bind]. destruct l as [l|]; [|reflexivity].
  exfalso.
  assert (F : List.length names <= query_fuel (path_text names)).
  { unfold query_fuel.
    assert (K : forall ns, List.length ns <= S (List.length (path_text ns))).
    { clear. induction ns as [|n ns IH]; [simpl; lia|]. cbn [List.length]. destruct ns as [|m ns]; [simpl; lia|].
      change (path_text (n :: m :: ns)) with (quote_name n ++ "."%char :: path_text (m :: ns)).
      rewrite app_length. cbn [List.length] in *. lia. }
    specialize (K names). lia. }
  destruct (find_loc_get E HO names [6] [] 0 xml true _ l [] Hloc F (or_introl eq_refl)) as [r [R1 R2]].
  rewrite app_nil_r in R1. assert (R : Ok r = Ok r_null) by (rewrite <- R1; exact H). injection R as ->. discriminate.
Qed.

Lemma delete_absent_attr : forall E xml names a, one_order (e_ord E) -> valid xml = true -> (blen xml <= 10485760)%N ->
  names <> [] -> Forall plain_name names -> ~ In "|"%char a -> List.length names < 100 ->
  get E xml (path_text (names ++ ["@"%char :: a])) = Ok r_null ->
  delete E xml (path_text (names ++ ["@"%char :: a])) = Ok (xml, None).
Proof.
  intros E xml names a HO Hv Hx Hne Hp Ha Hl H.
  set (steps := map (fun n => (Name n, @nil bytes)) names ++ [(Attr a, [])]).
  assert (ET : steps_text steps = path_text (names ++ ["@"%char :: a])).
  { unfold steps_text, steps. f_equal. rewrite map_app, map_map. cbn [map fst snd step_text mods_text flat_map].
    f_equal; [|now rewrite app_nil_r]. clear. induction names; auto. cbn [map fst snd step_text].
    rewrite IHnames. f_equal. apply app_nil_r. }
  assert (ES : map step_seg steps = map elem_seg names ++ [attr_seg a]).
  { unfold steps. rewrite map_app, map_map. reflexivity. }
  assert (PP : parse_path (path_text (names ++ ["@"%char :: a])) = Ok (map elem_seg names ++ [attr_seg a])).
  { rewrite <- ET, <- ES. apply parse_steps.
    - unfold steps. destruct names; discriminate.
    - unfold steps. apply Forall_app. split; [|repeat constructor; exact Ha].
      clear - Hp. induction Hp; cbn [map]; constructor; auto. split; auto. constructor.
    - unfold steps. clear. induction names as [|n names IH]; cbn [map app no_field]; auto.
    - unfold steps. rewrite app_length, map_length. cbn [List.length]. lia. }
  unfold get in H. unfold delete, delete_opts, parse_path_opts.
  change 10485760%N with MaxDocumentSize in Hx. rewrite (proj2 (N.ltb_ge _ _) Hx) in *. rewrite Hv. cbn [negb].
  rewrite PP in *. cbn [bind] in *. change (o_case default_options) with true. cbn iota.
  destruct (find_loc_ok E default_options (map elem_seg names) [5] xml 0) as [l Hloc].
  destruct (map elem_seg names ++ [attr_seg a]) as [|s0 ss] eqn:Em; [destruct names; discriminate|]. rewrite <- Em in *.
  unfold edit_of, delete_element. rewrite Em at 1. rewrite (proj2 (N.ltb_ge _ _) Hx).
  rewrite last_last, removelast_last. cbn [s_type attr_seg segtype_eqb].
  destruct (map elem_seg names) as [|s1 ss1] eqn:En; [destruct names; [easy|discriminate]|]. rewrite <- En in *.
  rewrite Hloc. cbn [bind]. destruct l as [l|]; [|reflexivity].
  unfold lift, delete_attribute. change (o_case default_options) with true. cbn iota.
  cbn [s_value attr_seg].
  destruct (map_get a (l_attrs l)) as [v|] eqn:G; cbn [negb bind].
  - exfalso.
    assert (F : List.length names <= query_fuel (path_text (names ++ ["@"%char :: a]))).
    { unfold query_fuel.
      assert (K : forall ns, List.length ns <= S (List.length (path_text ns))).
      { clear. induction ns as [|n ns IH]; [simpl; lia|]. cbn [List.length]. destruct ns as [|m ns]; [simpl; lia|].
        change (path_text (n :: m :: ns)) with (quote_name n ++ "."%char :: path_text (m :: ns)).
        rewrite app_length. cbn [List.length] in *. lia. }
      specialize (K (names ++ ["@"%char :: a])). rewrite app_length in K. cbn [List.length] in K. lia. }
    destruct (find_loc_get E HO names [5] [] 0 xml true _ l [attr_seg a] Hloc F) as [r [R1 R2]]; [right; eauto|].
    assert (R : Ok r = Ok r_null) by (rewrite <- R1; exact H). injection R as ->. discriminate.
  - unfold get_result. destruct xml; reflexivity.
Qed.
