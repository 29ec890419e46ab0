(** C104: numbers kept in attributes as well as in contents. *)
From Coq Require Import List Ascii String NArith ZArith Bool Lia Permutation.
From Verif Require Import GoStr ModelParser ModelPath ModelResult ModelQuery ModelValidate ModelBuilder SpecText SpecPath SpecTree SpecQuery SpecEdit SpecContent SpecValid SpecMod SpecHistory SpecTable SpecStore SpecBudget SpecFill SpecLayer SpecLedger SpecCount
  ProofBase ProofTree ProofTree5 ProofTree8 ProofEdit ProofEdit8 ProofEdit9 ProofStore ProofBudget ProofUndo ProofLedger ProofLayer ProofCount PropTree PropRaw PropHistory PropStore PropBudget.
Import ListNotations.
Open Scope nat_scope.

(** C104, for attributes too. Counters are contents and attributes of elements found by
    names.  Adding amounts with Set(path, Get(path).Int() + z), any number of times in any
    order, always succeeds as long as no counter leaves the range of int64, the attributes
    are at most 100 with those of the counters, and the counters fit into 10 MiB: every
    counter then reads as the sum, the document is valid, how large it can become depends on
    the counters, not on how often they are changed, and whatever is no counter reads as
    before, save that the element of an attribute may have been made with an empty content. *)
Theorem C104_counters : forall E fmt_g p F K D f Qs ops,
  (forall k l, Permutation l (e_ord E k l)) -> prolog p -> strict_prolog p ->
  Forall good F -> Forall top_node F -> shallow F -> has_element F ->
  keys K -> stores K F D -> NoDup Qs -> Forall (fun q => K (place_key q) /\ counter q) Qs -> (forall q, In q Qs -> stands_for D q (f q)) ->
  Forall (fun o => In (fst o) Qs) ops -> stays_in_range ops f ->
  most F + counters_named Qs <= 100 ->
  (N.of_nat (List.length p + full F + counters_room Qs) <= 10485760)%N ->
  exists d, count_all E fmt_g ops (p ++ forest_text F) = Ok (d, None) /\ valid d = true /\ List.length d <= List.length p + full F + counters_room Qs /\
    (forall q, In q Qs -> exists r, get E d (place_path q) = Ok r /\ r_int r = all_moved ops f q) /\
    forall q, K (place_key q) -> good_place q -> ~ In q (map fst ops) -> exists r, get E d (place_path q) = Ok r /\
      match value_at D q with
      | Some v => r_exists r = true /\ r_string r = v
      | None => r_exists r = false \/ (r_string r = [] /\ exists k x, q = Content k /\ In (Named k x) (map fst ops))
      end.
Proof.
  intros E g p F K D f Qs ops Ho Hp SP HG HT HS HE HK ST ND FQ WQ FO R MO Z. pose proof (reserve_counters Qs D) as RR. pose proof FQ as FQ'. rewrite Forall_forall in FQ'.
  set (X := nodup (list_eq_dec ascii_dec) (counter_names Qs)). assert (IX : incl (counter_names Qs) X) by (intros y J; now apply nodup_In).
  assert (MX : mosts X F + List.length X <= 100) by (eapply Nat.le_trans; [|exact MO]; apply Nat.add_le_mono_r; apply mosts_le).
  pose proof (full_ge F) as GE. assert (HR : room p F) by (split; [exact HE|rewrite app_length; lia]).
  assert (RUN : forall l, Forall (fun o => In (fst o) Qs) l -> stays_in_range l f ->
    exists d, calls E g (map store_edit (countings l f)) (p ++ forest_text F) = Ok (d, None) /\ valid d = true /\ List.length d <= List.length p + full F + counters_room Qs /\ reads_store E d K (do_all (countings l f) D)).
  { intros l FL RL. destruct (countings_history X K Qs p (full F + counters_room Qs) l F D f HK ST HG HT HE ND FQ FL RL IX MX ltac:(lia) ltac:(rewrite Nat.add_assoc; exact Z)) as (F' & H & ZF).
    assert (KO : Forall (fun o => K (key_of o)) (countings l f)).
    { clear - FL FQ'. revert f. induction FL as [|o l Ho _ IH]; intros f; cbn [countings]; constructor; auto. rewrite place_key_writing. now apply FQ'. }
    destruct (C93_store E g p F K D (countings l f) F' Ho Hp SP HG HT HS HR HK ST KO H) as (d & C & V & RS). destruct (C47_history E g p F _ F' Ho Hp SP HG HT HS HR H) as (G & C' & SM & _).
    exists d. split; [exact C|]. split; [exact V|]. split; [|exact RS]. rewrite C in C'. injection C' as ->. rewrite app_length, <- (same_length_all _ _ SM). pose proof (full_ge F'). lia. }
  assert (SAME : count_all E g ops (p ++ forest_text F) = calls E g (map store_edit (countings ops f)) (p ++ forest_text F)).
  { revert FO R. clear - RUN WQ FQ'. induction ops as [|o ops IH] using rev_ind; intros FO R; [reflexivity|]. apply Forall_app in FO as [FO O1]. inversion O1 as [|? ? Qo _]; subst. destruct (stays_app _ _ _ R) as [R1 R2].
    destruct (RUN ops FO R1) as (d & C & _ & _ & RS). rewrite countings_snoc, map_app.
    rewrite (count_snoc E g ops o _ d) by (rewrite (IH FO R1); exact C). rewrite (calls_then E g _ _ _ _ C). unfold count. destruct (FQ' _ Qo) as [Kq CQ].
    destruct (int_stands E d K _ (fst o) (all_moved ops f (fst o)) RS Kq (proj1 CQ)) as (r & G & RI); [now apply (countings_stand ops D f (fun q => In q Qs))|]. rewrite G. cbn [bind]. rewrite RI.
    rewrite (proj1 (C53_as_text E g d _)). cbn [map calls]. rewrite writing_call. now destruct (set E g d _ _) as [[? [?|]]| |]. }
  destruct (RUN ops FO R) as (d & C & V & L & RS). exists d. split; [rewrite SAME; exact C|]. split; [exact V|]. split; [exact L|]. split.
  - intros q Qq. destruct (FQ' _ Qq) as [Kq CQ]. apply (int_stands E d K _ q _ RS Kq (proj1 CQ)). now apply (countings_stand ops D f (fun q => In q Qs)).
  - clear X IX MX. intros q Kq Gq NI. destruct (reads_value E d K _ q RS Kq Gq) as (r & G & A). exists r. split; [exact G|].
    assert (X : value_at (do_all (countings ops f) D) q = value_at D q \/ (value_at D q = None /\ value_at (do_all (countings ops f) D) q = Some [] /\ exists k x, q = Content k /\ In (Named k x) (map fst ops))).
    { clear - NI. revert D f NI. induction ops as [|o ops IH]; intros D f NI; [now left|]. cbn [map In] in NI. cbn [countings do_all fold_left].
      set (D1 := do_store (writing (fst o) (decimal (f (fst o) + snd o))) D). fold (do_all (countings ops (moved o f)) D1).
      assert (NE : same_place q (fst o) = false) by (destruct (same_place q (fst o)) eqn:Y; [apply same_place_spec in Y; subst q; tauto|reflexivity]).
      pose proof (writing_value (fst o) (decimal (f (fst o) + snd o)) D q) as W. fold D1 in W. rewrite NE in W.
      destruct (IH D1 (moved o f) ltac:(tauto)) as [J|(J1 & J2 & k & x & -> & J3)].
      - rewrite J, W. destruct (value_at D q) as [w|] eqn:VD; [now left|]. destruct (fst o) as [k0|k0 x0] eqn:FO; [now left|]. destruct q as [k'|k' x']; [|now left]. destruct (same_key k' k0) eqn:SK; [|now left].
        apply same_key_spec in SK. subst k'. right. split; [reflexivity|]. split; [reflexivity|]. exists k0, x0. split; [reflexivity|]. cbn [map In]. left. exact FO.
      - right. rewrite J1 in W. destruct (value_at D (Content k)) as [w|] eqn:VD; [discriminate|]. split; [reflexivity|]. split; [exact J2|]. exists k, x. split; [reflexivity|]. now right. }
    destruct X as [X|(X1 & X2 & X3)]; [rewrite X in A; destruct (value_at D q); [exact A|now left]|]. rewrite X2 in A. rewrite X1. right. split; [apply A|exact X3].
Qed.
Print Assumptions C104_counters.

(** The order of the countings does not matter, and what is moved from one counter to another
    leaves the sum alone. *)
Theorem C104_counters_any_order : forall ops ops' f q, Permutation ops ops' -> all_moved ops f q = all_moved ops' f q.
Proof. intros ops ops' f q P. rewrite !all_moved_sum. f_equal. induction P as [|o a b P IH|o o' a|a b c P1 IH1 P2 IH2]; cbn [fold_right]; [reflexivity|now rewrite IH|lia|congruence]. Qed.
Print Assumptions C104_counters_any_order.
Theorem C104_counters_total : forall Qs f ops, NoDup Qs -> Forall (fun o => In (fst o) Qs) ops ->
  fold_right (fun q z => all_moved ops f q + z)%Z 0%Z Qs = (fold_right (fun q z => f q + z) 0 Qs + fold_right (fun o z => snd o + z) 0 ops)%Z.
Proof.
  intros Qs f ops ND. revert f. induction ops as [|[q0 x] ops IH]; intros f FO; cbn [all_moved fold_left fold_right]; [lia|]. inversion FO as [|? ? I1 I2]; subst. cbn [fst snd] in *.
  change (fold_right (fun q z => all_moved ops (moved (q0, x) f) q + z)%Z 0%Z Qs = (fold_right (fun q z => f q + z) 0 Qs + (x + fold_right (fun o z => snd o + z) 0 ops))%Z). rewrite IH by exact I2.
  assert (Y : fold_right (fun q z => moved (q0, x) f q + z)%Z 0%Z Qs = (fold_right (fun q z => f q + z) 0 Qs + x)%Z); [|lia].
  assert (O : forall Qs, ~ In q0 Qs -> fold_right (fun q z => moved (q0, x) f q + z)%Z 0%Z Qs = fold_right (fun q z => f q + z)%Z 0%Z Qs).
  { clear. induction Qs as [|j Qs IH]; intros N; [reflexivity|]. cbn [fold_right In] in *. rewrite IH by tauto. unfold moved. cbn [fst snd]. destruct (same_place j q0) eqn:Q; [apply same_place_spec in Q; subst j; tauto|reflexivity]. }
  clear - ND I1 O. induction Qs as [|j Qs IH]; [destruct I1|]. inversion ND as [|? ? N1 N2]; subst. cbn [fold_right]. destruct I1 as [->|I1].
  - rewrite (O Qs N1). unfold moved. cbn [fst snd]. rewrite (proj2 (same_place_spec q0 q0) eq_refl). lia.
  - rewrite (IH N2 I1). unfold moved at 1. cbn [fst snd]. destruct (same_place j q0) eqn:Q; [apply same_place_spec in Q; subst j; contradiction|lia].
Qed.
Print Assumptions C104_counters_total.

Definition site : list node :=
  [Elem (bs "site") [] false
    [Elem (bs "home") [(bs "hits", bs "41"); (bs "lang", bs "en")] false [Text (bs "hello")]; Elem (bs "total") [] false [Text (bs " 7 ")]]].
Definition site_keys (k : list bytes) : Prop := In k (map path_of [["site"; "home"]; ["site"; "total"]; ["site"; "news"]]%string).
Definition site_store : store := fun k =>
  if same_key k (path_of ["site"; "home"]%string) then Some (mkEntry (bs "hello") (put_mark (bs "hits") (Some (bs "41")) (put_mark (bs "lang") (Some (bs "en")) (fun _ => None))))
  else if same_key k (path_of ["site"; "total"]%string) then Some (mkEntry (bs " 7 ") (fun _ => None))
  else None.
Definition home_hits : place := Named (path_of ["site"; "home"]%string) (bs "hits").
Definition news_hits : place := Named (path_of ["site"; "news"]%string) (bs "hits").
Definition site_total : place := Content (path_of ["site"; "total"]%string).
Definition site_counters : list place := [home_hits; news_hits; site_total].
Definition site_start (q : place) : Z := if same_place q home_hits then 41%Z else if same_place q site_total then 7%Z else 0%Z.
Definition visits : list counting := [(home_hits, 1); (site_total, 1); (news_hits, 2); (site_total, 2); (home_hits, -50)]%Z.
Example C104_counters_example :
  Forall good site /\ Forall top_node site /\ shallow site /\ has_element site /\ keys site_keys /\ stores site_keys site site_store /\
  NoDup site_counters /\ Forall (fun q => site_keys (place_key q) /\ counter q) site_counters /\ (forall q, In q site_counters -> stands_for site_store q (site_start q)) /\
  Forall (fun o => In (fst o) site_counters) visits /\ stays_in_range visits site_start /\ most site + counters_named site_counters = 3 /\ counters_room site_counters = 156 /\
  map (all_moved visits site_start) site_counters = [-8; 2; 10]%Z /\
  count_all env0 (fun _ => []) visits (forest_text site) = Ok (bs "<site><home hits=""-8"" lang=""en"">hello</home><total>10</total><news hits=""2""></news></site>", None).
Proof.
  split; [apply forest_b_ok; vm_compute; reflexivity|]. split; [repeat constructor|]. split; [repeat constructor|]. split; [eexists _, _, _, _; left; reflexivity|]. split.
  { split.
    - intros k I. repeat (destruct I as [<-|I]; [split; [discriminate|repeat constructor]|]). destruct I.
    - intros k z I J. repeat (destruct I as [<-|I]; [destruct z as [|y z]; [reflexivity|exfalso; cbn in J; intuition discriminate]|]). destruct I. }
  split.
  { intros k I. repeat (destruct I as [<-|I]; [|]); [..|destruct I].
    - vm_compute. eexists _, _, _. split; [do 1 (eapply sole_down; [vm_compute; reflexivity|]); apply sole_here; vm_compute; reflexivity|]. split; [left; vm_compute; reflexivity|]. intros x. cbn [attr_value]. reflexivity.
    - vm_compute. eexists _, _, _. split; [do 1 (eapply sole_down; [vm_compute; reflexivity|]); apply sole_here; vm_compute; reflexivity|]. split; [left; vm_compute; reflexivity|]. intros x. cbn [attr_value]. reflexivity.
    - vm_compute. do 1 (eapply missing_below; [vm_compute; reflexivity|]). apply missing_here. vm_compute. reflexivity. }
  split; [repeat (apply NoDup_cons; [intros I; cbn in I; intuition discriminate|]); apply NoDup_nil|].
  split.
  { repeat (apply Forall_cons; [split; [cbv [site_keys map place_key home_hits news_hits site_total In]; repeat (try (left; reflexivity); right)|]; split; [apply tpath_b_ok; vm_compute; reflexivity|]; split; [cbn [place_key home_hits news_hits site_total path_of map]; repeat (apply Forall_cons; [apply xml_name_b_ok; vm_compute; reflexivity|]); apply Forall_nil|]; split; [first [exact I|apply xml_name_b_ok; vm_compute; reflexivity]|vm_compute; lia]|]). apply Forall_nil. }
  split.
  { assert (N41 : numeral (bs "41") 41) by (exists (bs "41"); split; [discriminate|]; split; [repeat constructor; vm_compute; discriminate|]; left; split; [left; reflexivity|reflexivity]).
    assert (N7 : numeral (bs "7") 7) by (exists (bs "7"); split; [discriminate|]; split; [repeat constructor; vm_compute; discriminate|]; left; split; [left; reflexivity|reflexivity]).
    intros q [<-|[<-|[<-|[]]]].
    - unfold stands_for. change (value_at site_store home_hits) with (Some (bs "41")). split; [split; vm_compute; [discriminate|reflexivity]|]. left. exact N41.
    - reflexivity.
    - unfold stands_for. change (value_at site_store site_total) with (Some (trim_space (bs " 7 "))). split; [split; vm_compute; [discriminate|reflexivity]|]. left. exact N7. }
  split; [repeat (apply Forall_cons; [cbv [site_counters fst In]; repeat (try (left; reflexivity); right)|]); apply Forall_nil|].
  split; [cbn [stays_in_range visits fst snd]; unfold in_range; repeat split; vm_compute; congruence|].
  split; [vm_compute; reflexivity|]. split; [vm_compute; reflexivity|]. split; vm_compute; reflexivity.
Qed.
Example C104_counters_total_example : fold_right (fun q z => all_moved visits site_start q + z)%Z 0%Z site_counters = 4%Z /\ fold_right (fun q z => site_start q + z)%Z 0%Z site_counters = 48%Z /\
  map (all_moved (rev visits) site_start) site_counters = map (all_moved visits site_start) site_counters.
Proof. repeat split; vm_compute; reflexivity. Qed.
