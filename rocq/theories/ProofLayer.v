(** Lemmas for C107. *)
From Coq Require Import List Ascii String NArith ZArith Bool Lia Permutation.
From Verif Require Import GoStr ModelParser ModelPath ModelResult ModelQuery ModelValidate ModelBuilder SpecText SpecPath SpecTree SpecQuery SpecEdit SpecContent SpecValid SpecMod SpecHistory SpecTable SpecStore SpecBudget SpecFill SpecLayer
  SpecUnicode ProofBase ProofUnicode ProofStore ProofUndo PropStore PropBudget.
Import ListNotations.
Open Scope nat_scope.

Lemma same_place_spec : forall q q', same_place q q' = true <-> q = q'.
Proof.
  intros [k|k x] [k'|k' x']; cbn [same_place]; split; intros H; try discriminate.
  - apply same_key_spec in H. now subst.
  - injection H as ->. now apply same_key_spec.
  - apply andb_true_iff in H as [H1 H2]. apply same_key_spec in H1. apply bytes_eqb_eq in H2. now subst.
  - injection H as -> ->. apply andb_true_iff. split; [now apply same_key_spec|now apply bytes_eqb_eq].
Qed.

(** ** Writes one after the other *)
Definition write := (place * bytes)%type.
Definition as_op (w : write) : store_op := writing (fst w) (snd w).
Definition writes_of (ps : list place) (L : store) : list write :=
  flat_map (fun q => match value_at L q with Some v => [(q, v)] | None => [] end) ps.
Definition all_writes (ps : list place) (Ls : list store) : list write := flat_map (writes_of ps) Ls.
Lemma writings_writes : forall ps L, writings_of ps L = map as_op (writes_of ps L).
Proof. induction ps as [|q ps IH]; intros L; [reflexivity|]. cbn [writings_of writes_of flat_map]. fold (writings_of ps L) (writes_of ps L). rewrite map_app, <- IH. now destruct (value_at L q). Qed.
Lemma all_writings_writes : forall ps Ls, all_writings ps Ls = map as_op (all_writes ps Ls).
Proof. intros ps. induction Ls as [|L Ls IH]; [reflexivity|]. cbn [all_writings all_writes flat_map]. fold (all_writings ps Ls) (all_writes ps Ls). now rewrite map_app, <- IH, writings_writes. Qed.
Fixpoint last_write (ws : list write) (q : place) : option bytes :=
  match ws with
  | [] => None
  | w :: ws' => match last_write ws' q with Some v => Some v | None => if same_place q (fst w) then Some (snd w) else None end
  end.
Lemma last_write_app : forall a b q, last_write (a ++ b) q = match last_write b q with Some v => Some v | None => last_write a q end.
Proof. induction a as [|w a IH]; intros b q; cbn [app last_write]; [now destruct (last_write b q)|]. rewrite IH. now destruct (last_write b q). Qed.
Lemma last_writes_of : forall ps L q, last_write (writes_of ps L) q = if listed q ps then value_at L q else None.
Proof.
  induction ps as [|p ps IH]; intros L q; [reflexivity|]. cbn [writes_of flat_map listed existsb]. fold (writes_of ps L) (listed q ps). rewrite last_write_app, IH.
  destruct (same_place q p) eqn:Q; cbn [orb].
  - apply same_place_spec in Q. subst p. assert (X : same_place q q = true) by now apply same_place_spec. destruct (listed q ps), (value_at L q) as [v|] eqn:V; cbn [last_write fst snd]; rewrite ?X; reflexivity.
  - assert (X : last_write (match value_at L p with Some v => [(p, v)] | None => [] end) q = None) by (destruct (value_at L p); cbn [last_write fst snd]; rewrite ?Q; reflexivity).
    destruct (listed q ps); [destruct (value_at L q); [reflexivity|exact X]|exact X].
Qed.
Lemma last_all_writes : forall ps Ls q, last_write (all_writes ps Ls) q = if listed q ps then latest Ls q else None.
Proof.
  intros ps. induction Ls as [|L Ls IH]; intros q; [now destruct (listed q ps)|]. cbn [all_writes flat_map latest]. fold (all_writes ps Ls). rewrite last_write_app, IH, last_writes_of. destruct (listed q ps); reflexivity.
Qed.
(** Some attribute of the element is written. *)
Definition marked (ws : list write) (k : list bytes) : bool := existsb (fun w => match fst w with Named k' _ => same_key k k' | Content _ => false end) ws.
Lemma marked_last : forall ws k, marked ws k = true <-> exists x v, last_write ws (Named k x) = Some v.
Proof.
  intros ws k. split.
  - induction ws as [|[q v] ws IH]; [discriminate|]. cbn [marked existsb fst last_write snd]. intros H. apply orb_true_iff in H as [H|H].
    + destruct q as [|k' x]; [discriminate|]. apply same_key_spec in H. subst k'. exists x. destruct (last_write ws (Named k x)) as [u|]; [now exists u|]. assert (Q : same_place (Named k x) (Named k x) = true) by now apply same_place_spec. rewrite Q. now exists v.
    + destruct (IH H) as (x & u & Q). exists x. rewrite Q. now exists u.
  - intros (x & v & H). induction ws as [|[q u] ws IH]; [discriminate|]. cbn [marked existsb fst last_write snd] in *. destruct (last_write ws (Named k x)).
    + apply orb_true_iff. right. now apply IH.
    + destruct (same_place (Named k x) q) eqn:Q; [|discriminate]. apply same_place_spec in Q. subst q. apply orb_true_iff. left. now apply same_key_spec.
Qed.
Lemma listed_in : forall q ps, listed q ps = true <-> In q ps.
Proof.
  intros q ps. unfold listed. rewrite existsb_exists. split; [intros (q' & I & Q); apply same_place_spec in Q; now subst|intros I; exists q; split; [exact I|now apply same_place_spec]].
Qed.
Lemma made_marked : forall ps Ls k, brought Ls ps k = marked (all_writes ps Ls) k.
Proof.
  intros ps Ls k. apply eq_true_iff_eq. rewrite marked_last. unfold brought. rewrite existsb_exists. split.
  - intros ([|k' x] & I & Q); [discriminate|]. apply andb_true_iff in Q as [Q1 Q2]. apply same_key_spec in Q1. subst k'. exists x. rewrite last_all_writes, (proj2 (listed_in _ _) I). destruct (latest Ls (Named k x)) as [v|]; [now exists v|discriminate].
  - intros (x & v & Q). rewrite last_all_writes in Q. destruct (listed (Named k x) ps) eqn:I; [|discriminate]. exists (Named k x). split; [now apply listed_in|]. rewrite Q, (proj2 (same_key_spec k k) eq_refl). reflexivity.
Qed.

(** ** Their effect on the store *)
Definition raw_at (D : store) (q : place) : option bytes :=
  match D (place_key q) with None => None | Some e => match q with Content _ => Some (content_of e) | Named _ x => attribute e x end end.
Lemma do_all_snoc : forall ops o D, do_all (ops ++ [o]) D = do_store o (do_all ops D).
Proof. intros. unfold do_all. now rewrite fold_left_app. Qed.
Lemma marked_snoc : forall ws w k, marked (ws ++ [w]) k = marked ws k || match fst w with Named k' _ => same_key k k' | Content _ => false end.
Proof. intros. unfold marked. rewrite existsb_app. cbn [existsb]. now rewrite orb_false_r. Qed.
Lemma writes_store : forall ws D q, raw_at (do_all (map as_op ws) D) q =
  match last_write ws q with
  | Some v => Some v
  | None => match raw_at D q with
            | Some v => Some v
            | None => match q with Content k => if marked ws k then Some [] else None | Named _ _ => None end
            end
  end.
Proof.
  induction ws as [|[p v] ws IH] using rev_ind; intros D q; [cbn [map do_all fold_left last_write marked existsb]; destruct q; now destruct (raw_at D _)|].
  rewrite map_app. cbn [map]. rewrite do_all_snoc, last_write_app. cbn [last_write fst snd]. set (D1 := do_all (map as_op ws) D) in *. specialize (IH D). fold D1 in IH.
  assert (MS : forall k, marked (ws ++ [(p, v)]) k = marked ws k || match p with Named k' _ => same_key k k' | Content _ => false end) by (intros; apply marked_snoc).
  assert (G : raw_at (do_store (as_op (p, v)) D1) q = if same_place q p then Some v else match raw_at D1 q with Some u => Some u | None => match q, p with Content k, Named k' _ => if same_key k k' then Some [] else None | _, _ => None end end).
  { unfold raw_at, do_store, as_op. cbn [fst snd]. destruct p as [k'|k' x'], q as [k|k x]; cbn [writing key_of place_key same_place]; destruct (same_key k k') eqn:Q; cbn [andb].
    - now destruct (D1 k) as [e|].
    - now destruct (D1 k) as [e|].
    - destruct (D1 k) as [e|]; cbn [in_entry attribute]; [|reflexivity]. now destruct (attribute e x).
    - destruct (D1 k) as [e|]; [|reflexivity]. now destruct (attribute e x).
    - now destruct (D1 k) as [e|].
    - now destruct (D1 k) as [e|].
    - destruct (D1 k) as [e|]; cbn [in_entry attribute put_mark]; unfold put_mark; destruct (bytes_eqb x x'); try reflexivity. now destruct (attribute e x).
    - destruct (D1 k) as [e|]; [|reflexivity]. now destruct (attribute e x). }
  rewrite G. destruct (same_place q p) eqn:SP; [reflexivity|]. rewrite IH. destruct (last_write ws q); [reflexivity|]. destruct (raw_at D q); [reflexivity|].
  destruct q as [k|k x]; [|reflexivity]. rewrite MS. destruct (marked ws k); cbn [orb]; [reflexivity|]. now destruct p.
Qed.
Lemma value_raw : forall D q, value_at D q = match q with Content _ => option_map trim_space (raw_at D q) | Named _ _ => raw_at D q end.
Proof. intros D [k|k x]; unfold value_at, raw_at; cbn [place_key]; now destruct (D k). Qed.
Lemma trim_space_idem : forall s, trim_space (trim_space s) = trim_space s.
Proof.
  intros s. apply trim_iff. destruct (proj1 (trim_iff s _) eq_refl) as (_ & A & B). split; [|split; assumption]. exists [], []. rewrite app_nil_r. split; [reflexivity|]. now split; constructor.
Qed.
Lemma latest_trim : forall Ls k v, latest Ls (Content k) = Some v -> trim_space v = v.
Proof.
  induction Ls as [|L Ls IH]; intros k v H; [discriminate|]. cbn [latest] in H. destruct (latest Ls (Content k)) as [u|] eqn:Q; [injection H as ->; now apply (IH k)|].
  unfold value_at in H. cbn [place_key] in H. destruct (L k); [|discriminate]. injection H as <-. apply trim_space_idem.
Qed.
Lemma outcome_store : forall D Ls ps q, value_at (do_all (all_writings ps Ls) D) q = outcome D Ls ps q.
Proof.
  intros D Ls ps q. rewrite all_writings_writes, value_raw, writes_store, last_all_writes. unfold outcome. rewrite (value_raw D q). destruct q as [k|k x].
  - rewrite made_marked. destruct (listed (Content k) ps); [destruct (latest Ls (Content k)) as [v|] eqn:Q; [cbn [option_map]; now rewrite (latest_trim _ _ _ Q)|]|];
      (destruct (raw_at D (Content k)); [reflexivity|]; destruct (marked (all_writes ps Ls) k); reflexivity).
  - destruct (if listed (Named k x) ps then latest Ls (Named k x) else None); [reflexivity|]. now destruct (raw_at D (Named k x)).
Qed.

(** ** The calls *)
Lemma reads_value : forall E d K D q, reads_store E d K D -> K (place_key q) -> good_place q ->
  exists r, get E d (place_path q) = Ok r /\ match value_at D q with Some v => r_exists r = true /\ r_string r = v | None => r_exists r = false end.
Proof.
  intros E d K D [k|k x] RS Kk G; cbn [place_key good_place place_path] in *; unfold value_at; cbn [place_key].
  - destruct (rs_content _ _ _ _ RS k Kk G) as (r & H & A). exists r. split; [exact H|]. unfold r_exists. destruct (D k); [destruct A as [-> A]; now split|now rewrite A].
  - destruct (rs_attribute _ _ _ _ RS k x Kk G) as (r & H & A). exists r. split; [exact H|]. unfold r_exists. destruct (D k); [|now rewrite A]. destruct (attribute _ x); [destruct A as [-> A]; now split|now rewrite A].
Qed.
Lemma calls_cons : forall E fmt_g o ops d, calls E fmt_g (o :: ops) d = match call E fmt_g o d with Ok (d', None) => calls E fmt_g ops d' | other => other end.
Proof. reflexivity. Qed.
Lemma writing_call : forall E fmt_g q v d, call E fmt_g (store_edit (writing q v)) d = set E fmt_g d (place_path q) (VStr v).
Proof. intros E g [k|k x] v d; reflexivity. Qed.
Lemma lay_over_calls : forall E fmt_g K over L ps d, reads_store E over K L -> Forall (fun q => K (place_key q) /\ good_place q) ps ->
  lay_over E fmt_g over ps d = calls E fmt_g (map store_edit (writings_of ps L)) d.
Proof.
  intros E g K over L. induction ps as [|q ps IH]; intros d RS FP; [reflexivity|]. inversion FP as [|? ? [Kq Gq] FP']; subst. cbn [lay_over writings_of flat_map]. fold (writings_of ps L).
  destruct (reads_value E over K L q RS Kq Gq) as (r & G & A). rewrite G. cbn [bind]. destruct (value_at L q) as [v|].
  - destruct A as [-> ->]. cbn [app map]. rewrite calls_cons, writing_call. destruct (set E g d (place_path q) (VStr v)) as [[d' [e|]]| |]; cbn [bind]; try reflexivity. now apply IH.
  - rewrite A. cbn [app]. now apply IH.
Qed.
Lemma calls_app : forall E fmt_g a b d, calls E fmt_g (a ++ b) d = match calls E fmt_g a d with Ok (d', None) => calls E fmt_g b d' | other => other end.
Proof.
  intros E g. induction a as [|o a IH]; intros b d; [reflexivity|]. rewrite <- app_comm_cons, !calls_cons. destruct (call E g o d) as [[d' [e|]]| |]; try reflexivity. apply IH.
Qed.
Lemma lay_all_calls : forall E fmt_g K overs Ls ps d, Forall2 (fun over L => reads_store E over K L) overs Ls -> Forall (fun q => K (place_key q) /\ good_place q) ps ->
  lay_all E fmt_g overs ps d = calls E fmt_g (map store_edit (all_writings ps Ls)) d.
Proof.
  intros E g K overs Ls ps d H FP. revert d. induction H as [|over L overs Ls RS _ IH]; intros d; [reflexivity|]. cbn [lay_all all_writings flat_map]. fold (all_writings ps Ls).
  rewrite map_app, calls_app, (lay_over_calls E g K over L ps d RS FP). destruct (calls E g (map store_edit (writings_of ps L)) d) as [[d' [e|]]| |]; cbn [bind]; try reflexivity. apply IH.
Qed.
Lemma layer_reads : forall E K l, (forall k l, Permutation l (e_ord E k l)) -> keys K -> layer_ok K l -> reads_store E (layer_text l) K (ly_store l).
Proof.
  intros E K l Ho HK (A1 & A2 & A3 & A4 & A5 & A6 & A7). destruct (C93_store E (fun _ => []) (ly_prolog l) (ly_forest l) K (ly_store l) [] (ly_forest l) Ho A1 A2 A3 A4 A5 A6 HK A7 (Forall_nil _) (his_nil _ _)) as (d & C & _ & R).
  cbn [map calls] in C. injection C as <-. exact R.
Qed.
Lemma all_writings_in : forall ps Ls o, In o (all_writings ps Ls) -> exists q v, In q ps /\ o = writing q v.
Proof.
  intros ps Ls o I. unfold all_writings in I. apply in_flat_map in I as (L & _ & I). unfold writings_of in I. apply in_flat_map in I as (q & I1 & I2). destruct (value_at L q) as [v|]; [|destruct I2]. destruct I2 as [<-|[]]. now exists q, v.
Qed.
