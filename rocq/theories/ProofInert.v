(** Lemmas for C78: what an edit does with the text it is given. *)
From Coq Require Import List Ascii String NArith ZArith Bool Lia Permutation.
From Verif Require Import GoStr ModelParser ModelPath ModelResult ModelQuery ModelValidate ModelBuilder SpecText SpecTree SpecHistory SpecInert ProofBase ProofScan ProofTree ProofRaw2.
Import ListNotations.

Lemma fill_app : forall T T' t, fill (T ++ T') t = fill T t ++ fill T' t.
Proof. intros. unfold fill. apply flat_map_app. Qed.
Definition capped (lim : bool) (d : bytes) : Res (err + bytes) :=
  if lim && (MaxDocumentSize <? blen d)%N then Ok (inl ErrInvalidValue) else Ok (inr d).
(** The outcome does not depend on the text, or is the text in a template. *)
Definition uniform (f : bytes -> Res (err + bytes)) : Prop :=
  (exists r, forall t, f t = r) \/ (exists T lim, forall t, f t = capped lim (fill T t) /\ fill T t <> []).
Lemma uniform_const : forall r, uniform (fun _ => r).
Proof. intros r. left. exists r. reflexivity. Qed.
Lemma uniform_bind : forall A (m : Res A) (f : A -> bytes -> Res (err + bytes)), (forall x, m = Ok x -> uniform (f x)) -> uniform (fun t => let* x := m in f x t).
Proof. intros A m f H. destruct m as [x| |]; cbn [bind]; [now apply H|apply uniform_const|apply uniform_const]. Qed.
Lemma uniform_done : forall (f : bytes -> bytes) T, (forall t, f t = fill T t /\ f t <> []) -> uniform (fun t => Ok (inr (f t))).
Proof. intros f T H. right. exists T, false. intros t. unfold capped. cbn [andb]. destruct (H t) as [<- N]. auto. Qed.
Lemma uniform_limit : forall (f : bytes -> bytes) T, (forall t, f t = fill T t /\ f t <> []) ->
  uniform (fun t => let r := f t in if (MaxDocumentSize <? blen r)%N then Ok (inl ErrInvalidValue) else Ok (inr r)).
Proof. intros f T H. right. exists T, true. intros t. unfold capped. cbn [andb]. destruct (H t) as [<- N]. auto. Qed.

Fixpoint path_template (indent : bytes) (i : nat) (path : list seg) : template :=
  match path with
  | [] => []
  | sg :: rest =>
      match s_type sg with
      | SAttr => path_template indent (S i) rest
      | _ =>
          Some (match indent with [] => [] | _ :: _ => lf :: repeat_bytes i indent end)
            :: Some (open_tag (s_value sg))
            :: (match rest with [] => [None] | _ :: _ => [] end)
            ++ path_template indent (S i) rest
            ++ [Some (close_tag (s_value sg))]
      end
  end.
Lemma build_fill : forall indent path i t, build_path indent i path t = fill (path_template indent i path) t.
Proof.
  intros indent. induction path as [|sg rest IH]; intros i t; [reflexivity|]. cbn [build_path path_template].
  destruct (s_type sg); auto; unfold fill; cbn [flat_map]; rewrite !flat_map_app; cbn [flat_map]; rewrite app_nil_r;
    rewrite (IH (S i) t); unfold fill; destruct rest; cbn [flat_map]; rewrite ?app_nil_r; reflexivity.
Qed.
Lemma built_solid : forall indent path i, (forall t, build_path indent i path t = []) \/ (forall t, build_path indent i path t <> []).
Proof.
  intros indent. induction path as [|sg rest IH]; intros i; [left; reflexivity|]. cbn [build_path].
  destruct (s_type sg); auto; right; intros t K; apply app_eq_nil in K as [_ K]; apply app_eq_nil in K as [K _]; discriminate K.
Qed.
Lemma uniform_built : forall indent i path a b, uniform (fun t => Ok (inr (a ++ build_path indent i path t ++ b))).
Proof.
  intros indent i path a b. destruct (built_solid indent path i) as [N|N].
  - left. exists (Ok (inr (a ++ [] ++ b))). intros t. now rewrite N.
  - apply (uniform_done _ (Some a :: path_template indent i path ++ [Some b])). intros t. split.
    + rewrite build_fill. unfold fill. cbn [flat_map]. rewrite flat_map_app. cbn [flat_map]. now rewrite app_nil_r.
    + intros K. apply app_eq_nil in K as [_ K]. apply app_eq_nil in K as [K _]. exact (N t K).
Qed.
Lemma uniform_ext : forall f f', (forall t, f t = f' t) -> uniform f -> uniform f'.
Proof.
  intros f f' H [[r U]|(T & lim & U)]; [left; exists r|right; exists T, lim]; intros t; rewrite <- H; apply U.
Qed.
Lemma uniform_parent : forall E o key d l path, uniform (fun t => let* r := create_in_parent E o key d l path t in Ok (inr r)).
Proof.
  intros. unfold create_in_parent. destruct (l_self l).
  - destruct (slice_to d (l_start l)) as [a| |]; cbn [bind]; try apply uniform_const.
    destruct (slice_from d (l_content_end l)) as [b| |]; cbn [bind]; try apply uniform_const.
    apply (uniform_ext (fun t => Ok (inr ((a ++ reopen_tag E key (l_name l) (l_attrs l)) ++ build_path (o_indent o) 0 path t ++ close_tag (l_name l) ++ b)))).
    + intros t. now rewrite <- !app_assoc.
    + apply uniform_built.
  - destruct (slice_to d (l_content_end l)) as [a| |]; cbn [bind]; try apply uniform_const.
    destruct (slice_from d (l_content_end l)) as [b| |]; cbn [bind]; try apply uniform_const.
    apply uniform_built.
Qed.
Lemma uniform_root : forall E o key d path, uniform (create_in_root E o key d path).
Proof.
  intros. unfold create_in_root. apply uniform_bind. intros es _.
  cbv zeta. destruct (match path with [] => false | sg :: _ => segtype_eqb (s_type sg) SElem && should_create_sibling es (s_value sg) end).
  - apply (uniform_ext (fun t => Ok (inr (d ++ build_path (o_indent o) 0 path t ++ [])))); [intros t; now rewrite app_nil_r|]. apply uniform_built.
  - destruct es as [|e es]; [apply uniform_const|].
    destruct (match path with [] => path | sg :: rest => if segtype_eqb (s_type sg) SElem && bytes_eqb (s_value sg) (e_name e) then rest else path end) as [|x q];
      [apply uniform_const|].
    destruct (e_self e).
    + destruct (slice_to d (pos_of d (e_start e))) as [a| |]; cbn [bind]; try apply uniform_const.
      destruct (slice_from d (pos_of d (e_body e))) as [b| |]; cbn [bind]; try apply uniform_const.
      apply (uniform_ext (fun t => Ok (inr ((a ++ reopen_tag E (1%nat :: key) (e_name e) (e_attrs e)) ++ build_path (o_indent o) 0 (x :: q) t ++ close_tag (e_name e) ++ b)))).
      * intros t. now rewrite <- !app_assoc.
      * apply uniform_built.
    + cbv zeta. match goal with |- context [slice_to d ?z] => destruct (slice_to d z) as [a| |] end; cbn [bind]; try apply uniform_const.
      match goal with |- context [slice_from d ?z] => destruct (slice_from d z) as [b| |] end; cbn [bind]; try apply uniform_const.
      apply uniform_built.
Qed.
Lemma uniform_create : forall E o key d path, uniform (create_element E o key d path).
Proof.
  intros. unfold create_element. destruct d as [|c d].
  - apply (uniform_ext (fun t => Ok (inr ([] ++ build_path (o_indent o) 0 path t ++ [])))); [intros t; now rewrite app_nil_r|]. apply uniform_built.
  - apply uniform_bind. intros [[l i]|] _; [|apply uniform_root]. apply uniform_parent.
Qed.
Definition attr_template (o : options) (l : location) (name : bytes) (names : list bytes) : template :=
  flat_map (fun n => [Some (bs " " ++ n ++ ["="%char; dquote]); if attr_eqb o n name then None else Some (escape_xml (attr_value (l_attrs l) n)); Some [dquote]]) names.
Lemma attr_fill : forall o l name names t,
  flat_map (fun n => bs " " ++ n ++ ["="%char; dquote] ++ (if attr_eqb o n name then t else escape_xml (attr_value (l_attrs l) n)) ++ [dquote]) names =
  fill (attr_template o l name names) t.
Proof.
  intros o l name names t. unfold attr_template. induction names as [|n names IH]; [reflexivity|]. cbn [flat_map]. rewrite fill_app, <- IH.
  unfold fill. cbn [flat_map]. rewrite app_nil_r, <- !app_assoc. destruct (attr_eqb o n name); reflexivity.
Qed.
(** The text of the replaced attribute, if the places are in the document. *)
Lemma attribute_template : forall o d l name, (exists r, forall t, replace_attribute o d l name t = r /\ forall x, r <> Ok x) \/
  (exists T, forall t, replace_attribute o d l name t = Ok (fill T t) /\ fill T t <> []).
Proof.
  intros o d l name. unfold replace_attribute.
  destruct (slice_to d (l_start l)) as [a| |]; cbn [bind]; try (left; eexists; intros t; split; [reflexivity|discriminate]).
  destruct (slice_from d (l_content_start l)) as [b| |]; cbn [bind]; try (left; eexists; intros t; split; [reflexivity|discriminate]).
  right. set (names := sort_strings _).
  exists (Some a :: Some (bs "<") :: Some (l_name l) :: attr_template o l name names ++ [Some (if l_self l then bs "/>" else bs ">"); Some b]).
  intros t. rewrite attr_fill. unfold fill. cbn [flat_map]. rewrite flat_map_app. cbn [flat_map]. rewrite app_nil_r. split; [reflexivity|].
  intros K. apply app_eq_nil in K as [_ K]. discriminate.
Qed.
Lemma for_attr_template : forall E o key d path name,
  (exists r, forall t, create_element_for_attr E o key d path name t = r) \/
  (exists T, forall t, create_element_for_attr E o key d path name t = Ok (inr (fill T t)) /\ fill T t <> []).
Proof.
  intros. unfold create_element_for_attr.
  destruct (create_element E o (0%nat :: key) d path []) as [[e|r]| |]; cbn [bind]; try (left; eexists; reflexivity). cbv zeta.
  destruct (MaxDocumentSize <? _)%N; [left; eexists; reflexivity|].
  destruct (find_loc E o (1%nat :: key) (get_result d r) path 0) as [[l|]| |]; cbn [bind]; try (left; eexists; reflexivity).
  destruct (attribute_template o (get_result d r) l name) as [[x H]|[T H]].
  - destruct x as [y| |]; [exfalso; destruct (H []) as [_ K]; now apply (K y)| |];
    left; eexists; intros t; destruct (H t) as [-> _]; reflexivity.
  - right. exists T. intros t. destruct (H t) as [-> N]. cbn [bind]. split; [|exact N]. unfold get_result.
    destruct (fill T t); [congruence|reflexivity].
Qed.
Lemma elem_solid : forall a n t b, a ++ new_elem n t ++ b <> [].
Proof. intros a n t b K. apply app_eq_nil in K as [_ K]. discriminate K. Qed.
Lemma elem_fill : forall a n t b, a ++ new_elem n t ++ b = fill [Some a; Some (open_tag n); None; Some (close_tag n); Some b] t.
Proof. intros. unfold new_elem, fill. cbn [flat_map]. rewrite app_nil_r, <- !app_assoc. reflexivity. Qed.
Lemma uniform_append_root : forall E o key d sg, uniform (append_root E o key d sg).
Proof.
  intros. unfold append_root. destruct d as [|c d].
  - apply (uniform_done _ [Some []; Some (open_tag (s_value sg)); None; Some (close_tag (s_value sg)); Some []]). intros t. rewrite <- elem_fill, app_nil_r. split; [reflexivity|]. discriminate.
  - apply uniform_bind. intros es _. cbv zeta. match goal with |- context [slice_to ?d ?z] => destruct (slice_to d z) as [a| |] end; cbn [bind]; try apply uniform_const.
    match goal with |- context [slice_from ?d ?z] => destruct (slice_from d z) as [b| |] end; cbn [bind]; try apply uniform_const.
    apply (uniform_limit _ [Some a; Some (open_tag (s_value sg)); None; Some (close_tag (s_value sg)); Some b]). intros t. rewrite <- elem_fill. split; [reflexivity|apply elem_solid].
Qed.
Lemma uniform_append : forall E o key d path, uniform (append_element E o key d path).
Proof.
  intros. unfold append_element. destruct (rev path) as [|lastseg [|sg rparent]]; try apply uniform_const. cbv zeta.
  destruct (negb _ || negb _); [apply uniform_const|]. destruct (negb _); [apply uniform_const|].
  destruct (rev rparent) as [|x q]; [apply uniform_append_root|]. apply uniform_bind. intros [l|] _; [|apply uniform_create].
  destruct (l_self l).
  - destruct (slice_to d (l_start l)) as [a| |]; cbn [bind]; try apply uniform_const.
    destruct (slice_from d (l_content_end l)) as [b| |]; cbn [bind]; try apply uniform_const.
    apply (uniform_done _ [Some (a ++ bs "<" ++ l_name l ++ sorted_attrs (l_attrs l) ++ bs ">"); Some (open_tag (s_value sg)); None; Some (close_tag (s_value sg)); Some (close_tag (l_name l) ++ b)]).
    intros t. rewrite <- elem_fill. split; [now rewrite <- !app_assoc|]. intros K. apply app_eq_nil in K as [_ K]. discriminate K.
  - apply uniform_bind. intros p _. destruct (slice_to d p) as [a| |]; cbn [bind]; try apply uniform_const.
    destruct (slice_from d p) as [b| |]; cbn [bind]; try apply uniform_const.
    set (ind := match o_indent o with [] => [] | _ => _ end).
    apply (uniform_limit _ [Some (a ++ ind); Some (open_tag (s_value sg)); None; Some (close_tag (s_value sg)); Some b]).
    intros t. rewrite <- elem_fill. split; [now rewrite <- !app_assoc|]. rewrite app_assoc. apply elem_solid.
Qed.

(** A place has a start tag before its content. *)
Lemma scan_loop_body : forall ord key fuel s es, len s < fuel -> scan_loop ord key fuel s = Some es -> Forall (fun e => len (e_body e) < len s) es.
Proof.
  intros ord key. induction fuel as [|f IH]; intros s es L H; [lia|]. cbn [scan_loop] in H.
  destruct (skip_to_next_total s) as (o & K & B). rewrite K in H. destruct o as [s1|]; [|injection H as <-; constructor].
  destruct B as (B & n & s2 & -> & _). destruct (parse_element_name (next ("<"%char :: n :: s2))) as [[[name attrs] self] s3] eqn:P.
  apply parse_element_name_le in P. cbn [next List.length] in *. destruct self.
  - destruct (scan_loop ord key f s3) as [l|] eqn:Q; [|discriminate]. injection H as <-. apply IH in Q; [|lia]. constructor; [cbn [e_body]; lia|].
    eapply Forall_impl; [|exact Q]. intros e ?. cbn beta in *. lia.
  - destruct (parse_content_total ord key name s3) as (t & r & Hc & Hr). rewrite Hc in H.
    destruct (scan_loop ord key f r) as [l|] eqn:Q; [|discriminate]. injection H as <-. apply IH in Q; [|lia]. constructor; [cbn [e_body]; lia|].
    eapply Forall_impl; [|exact Q]. intros e ?. cbn beta in *. lia.
Qed.
Lemma scan_body : forall E key s es e, scan_res E key s = Ok es -> In e es -> (1 <= pos_of s (e_body e))%Z.
Proof.
  intros E key s es e H I. unfold scan_res, scan in H. destruct (scan_loop _ _ _ _) as [l|] eqn:Q; [|discriminate]. injection H as <-.
  apply scan_loop_body in Q; [|lia]. pose proof (proj1 (Forall_forall _ _) Q e I) as B. cbn beta in B. unfold pos_of, bytes in *. lia.
Qed.
Lemma nth_elem_in : forall (l : list elem) i e, nth_elem l i = Some e -> In e l.
Proof. intros l i e H. unfold nth_elem in H. repeat match type of H with (if ?b then _ else _) = _ => destruct b end; try discriminate; eapply nth_error_In; eauto. Qed.
Lemma find_loc_body : forall E o n segs key d base l, len segs <= n -> (0 <= base)%Z -> find_loc E o key d segs base = Ok (Some l) -> (1 <= l_content_start l)%Z.
Proof.
  intros E o. induction n as [|n IH]; intros segs key d base l L B H; destruct segs as [|sg rest]; cbn [find_loc] in H;
    destruct (MaxPositionOffset <? base)%Z; try discriminate H; [cbn [List.length] in L; lia|].
  destruct (scan_res E key d) as [es| |] eqn:Sc; cbn [bind] in H; try discriminate H.
  set (ms := filter _ es) in H.
  assert (W : forall e, In e ms -> (1 <= pos_of d (e_body e))%Z).
  { intros e I. apply filter_In in I as [I _]. exact (scan_body _ _ _ _ _ Sc I). }
  assert (W2 : forall e, In e ms -> elem_location d base e = l -> (1 <= l_content_start l)%Z).
  { intros e I <-. apply W in I. cbn [elem_location l_content_start]. lia. }
  assert (W3 : forall e r, In e ms -> len r <= n -> (if (MaxPositionOffset <? base + pos_of d (e_body e))%Z then Ok None
      else find_loc E o (child_key site_query e key) (e_content e) r (base + pos_of d (e_body e))) = Ok (Some l) -> (1 <= l_content_start l)%Z).
  { intros e r I Lr Q. destruct (MaxPositionOffset <? _)%Z; [discriminate|]. apply W in I. eapply (IH r); [exact Lr| |exact Q]. lia. }
  clearbody ms. cbn [List.length] in L. destruct rest as [|nx rest2].
  - destruct ms as [|e ms]; [discriminate|]. injection H as H. apply (W2 e); [now left|exact H].
  - cbn [List.length] in L. destruct (s_type nx); try (destruct ms as [|e ms]; [discriminate|]; apply (W3 e (nx :: rest2)); [now left|cbn [List.length]; lia|exact H]).
    destruct (nth_elem ms (s_index nx)) as [e|] eqn:N; [|discriminate]. apply nth_elem_in in N. destruct rest2 as [|y r2].
    + injection H as H. apply (W2 e); auto.
    + apply (W3 e (y :: r2)); [exact N|lia|exact H].
Qed.

Lemma uniform_finish : forall d f, uniform f ->
  uniform (fun t => let* r := f t in match r with inl e => Ok (inl e) | inr r => Ok (inr (get_result d r)) end).
Proof.
  intros d f [[r H]|(T & lim & H)].
  - left. eexists. intros t. rewrite H. reflexivity.
  - right. exists T, lim. intros t. destruct (H t) as [-> N]. split; [|exact N]. unfold capped. destruct (lim && _); [reflexivity|]. cbn [bind]. unfold get_result.
    destruct (fill T t); [congruence|reflexivity].
Qed.
(** Texts given to an edit: the size of the value is checked before. *)
Lemma set_uniform : forall E g o d path, (blen d <= MaxDocumentSize)%N ->
  exists f, uniform f /\ forall v t, value_to_xml g v = inr t -> (blen t <= MaxValueSize)%N -> set_element E g o d path v = f t.
Proof.
  intros E g o d path B. destruct path as [|x q].
  { exists (fun _ => Ok (inl ErrInvalidPath)). split; [apply uniform_const|]. intros v t H L. reflexivity. }
  set (path := x :: q).
  exists (fun xv => 
            let finish m :=
              let* r := m in
              match r with
              | inl e => Ok (inl e)
              | inr r => Ok (inr (get_result d r))
              end in
            match check_intents path with
            | IntentsErr => Ok (inl ErrInvalidPath)
            | IntentsAppend => finish (append_element E o [0%nat] d path xv)
            | IntentsOk =>
                let lastseg := last path (mkSeg SElem [] 0 false None false [] []) in
                if segtype_eqb (s_type lastseg) SAttr then
                  let epath := removelast path in
                  let* l := find_loc E o [1%nat] d epath 0 in
                  match l with
                  | None => create_element_for_attr E o [2%nat] d epath (s_value lastseg) xv
                  | Some l => finish (lift (replace_attribute o d l (s_value lastseg) xv) (fun x => x))
                  end
                else
                  let* l := find_loc E o [3%nat] d path 0 in
                  match l with
                  | Some l => finish (lift (replace_element d l xv) (fun x => x))
                  | None => finish (create_element E o [4%nat] d path xv)
                  end
            end).
  split.
  - cbv zeta. destruct (check_intents path).
    + destruct (segtype_eqb _ _).
      * apply uniform_bind. intros [l|] _.
        -- apply uniform_finish. destruct (attribute_template o d l (s_value (last path (mkSeg SElem [] 0 false None false [] [])))) as [[r H]|[T H]].
           ++ left. exists (lift r (fun x => x)). intros t. destruct (H t) as [-> _]. reflexivity.
           ++ right. exists T, false. intros t. destruct (H t) as [-> N]. auto.
        -- destruct (for_attr_template E o [2%nat] d (removelast path) (s_value (last path (mkSeg SElem [] 0 false None false [] [])))) as [[r H]|[T H]].
           ++ left. exists r. exact H.
           ++ right. exists T, false. exact H.
      * apply uniform_bind. intros [l|] F.
        -- apply (find_loc_body E o (len path)) in F; [|lia|lia].
           apply uniform_finish. unfold lift, replace_element.
           destruct (slice_to d (l_content_start l)) as [a| |] eqn:Sa; cbn [bind]; try apply uniform_const.
           destruct (slice_from d (l_content_end l)) as [b| |]; cbn [bind]; try apply uniform_const.
           apply (uniform_done _ [Some a; None; Some b]). intros t. split; [unfold fill; cbn [flat_map]; now rewrite app_nil_r|].
           intros K. apply app_eq_nil in K as [-> _]. unfold slice_to in Sa. destruct ((0 <=? l_content_start l)%Z && _) eqn:R; [|discriminate].
           injection Sa as Sa. apply andb_true_iff in R as [_ R]. apply Z.leb_le in R. apply (f_equal (@List.length ascii)) in Sa. rewrite firstn_length in Sa. cbn [List.length] in Sa.
           unfold bytes in *. lia.
        -- apply uniform_finish, uniform_create.
    + apply uniform_finish, uniform_append.
    + apply uniform_const.
  - intros v t H L. unfold set_element, path. rewrite H. fold path.
    replace (MaxValueSize <? blen t)%N with false by (symmetry; apply N.ltb_ge; exact L).
    replace (MaxDocumentSize <? blen d)%N with false by (symmetry; apply N.ltb_ge; exact B). reflexivity.
Qed.

(** The document that is returned. *)
Definition answered (xml : bytes) (T : template) (lim : bool) (t : bytes) : Res (bytes * option err) :=
  if lim && (MaxDocumentSize <? blen (fill T t))%N then Ok (xml, Some ErrInvalidValue) else Ok (fill T t, None).
Lemma written_value : forall g v t, written g v t -> v <> VNil /\ value_to_xml g v = inr t.
Proof. intros g v t W. destruct W; split; try discriminate; cbn [value_to_xml]; rewrite ?ProofTree.esc_escape, ?ProofRaw2.fmt_int_decimal; reflexivity. Qed.
Lemma set_answered : forall E g o xml path,
  (exists r, forall v t, written g v t -> (blen t <= 5242880)%N -> set_opts E g o xml path v = r) \/
  (exists T lim, forall v t, written g v t -> (blen t <= 5242880)%N -> set_opts E g o xml path v = answered xml T lim t).
Proof.
  intros E g o xml path. unfold set_opts. destruct (MaxDocumentSize <? blen xml)%N eqn:Z; [left; eexists; reflexivity|]. apply N.ltb_ge in Z.
  destruct (match xml with [] => false | _ :: _ => negb (valid xml) end); [left; eexists; reflexivity|].
  destruct (parse_path_opts o path) as [segs| |].
  - destruct segs as [|sg segs].
    { left. exists (Ok (xml, Some ErrInvalidPath)). intros v t W _. apply written_value in W as [N _]. destruct v; try reflexivity. now destruct N. }
    destruct (set_uniform E g o xml (sg :: segs) Z) as (f & U & F).
    assert (Q : forall v t, written g v t -> (blen t <= 5242880)%N ->
      (match v with VNil => delete_opts E o xml path | _ => let* segs := Ok (sg :: segs) in match segs with [] => Ok (xml, Some ErrInvalidPath) | _ => edit_of xml (set_element E g o xml segs v) end end) = edit_of xml (f t)).
    { intros v t W L. apply written_value in W as [N W]. rewrite <- (F v t W L). destruct v; try reflexivity. now destruct N. }
    destruct U as [[r U]|(T & lim & U)].
    + left. exists (edit_of xml r). intros v t W L. rewrite (Q v t W L), U. reflexivity.
    + right. exists T, lim. intros v t W L. rewrite (Q v t W L), (proj1 (U t)). unfold capped, answered. destruct (lim && _); reflexivity.
  - left. exists Panic. intros v t W _. apply written_value in W as [N _]. destruct v; try reflexivity. now destruct N.
  - left. exists OutOfFuel. intros v t W _. apply written_value in W as [N _]. destruct v; try reflexivity. now destruct N.
Qed.
Lemma fill_mono : forall T t t', len t <= len t' -> len (fill T t) <= len (fill T t').
Proof.
  intros T t t' L. induction T as [|[b|] T IH]; [auto| |]; unfold fill in *; cbn [flat_map]; rewrite !app_length; unfold bytes in *; lia.
Qed.
Lemma fill_occ : forall c T t t', occurrences c t = occurrences c t' -> occurrences c (fill T t) = occurrences c (fill T t').
Proof.
  intros c T t t' L. unfold occurrences in *. induction T as [|[b|] T IH]; [auto| |]; unfold fill in *; cbn [flat_map]; rewrite !count_occ_app; lia.
Qed.
Lemma esc_clean : forall c s, In c ["<"%char; ">"%char; dquote; squote] -> occurrences c (esc s) = 0.
Proof.
  intros c s I. unfold occurrences. apply count_occ_not_In. intros K. unfold esc in K. apply in_flat_map in K as (x & _ & K).
  unfold esc_byte in K. destruct (find _ predefined) as [[n y]|] eqn:F.
  - apply find_some in F as [F _]. 
    assert (A : forallb (fun p => forallb (fun c => negb (mem c (fst p))) ["<"%char; ">"%char; dquote; squote]) predefined = true) by (vm_compute; reflexivity).
    rewrite forallb_forall in A. apply A in F. rewrite forallb_forall in F. apply F in I. cbn [fst] in I. apply negb_true_iff in I.
    unfold mem in I. assert (existsb (Ascii.eqb c) n = true) by (apply existsb_exists; exists c; split; [exact K|apply Ascii.eqb_refl]). congruence.
  - destruct K as [<-|[]]. assert (A : forallb (fun c => existsb (fun p => Ascii.eqb (snd p) c) predefined) ["<"%char; ">"%char; dquote; squote] = true) by (vm_compute; reflexivity).
    rewrite forallb_forall in A. apply A in I. apply existsb_exists in I as (q & Q1 & Q2). pose proof (find_none _ _ F q Q1) as N. cbn beta in N. congruence.
Qed.
