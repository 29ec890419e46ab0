(** C104: numbers kept in a document. *)
From Coq Require Import List Ascii String NArith ZArith Bool Lia Permutation.
From Verif Require Import GoStr ModelParser ModelPath ModelResult ModelQuery ModelValidate ModelBuilder SpecText SpecPath SpecTree SpecQuery SpecEdit SpecContent SpecValid SpecMod SpecHistory SpecTable SpecStore SpecBudget SpecLedger
  ProofBase ProofTree ProofTree5 ProofTree8 ProofEdit ProofEdit8 ProofEdit9 ProofStore ProofBudget ProofLedger PropTree PropHistory PropStore.
Import ListNotations.
Open Scope nat_scope.

(** C104. Accounts are elements found by names, of which none leads through another; what is
    absent or blank stands for zero.  Adding amounts with Set(path, Get(path).Int() + z), any
    number of times in any order, always succeeds as long as no account leaves the range of
    int64: every account then reads as the sum, whatever else is in the store reads as
    before, the document is valid, and how large it can become depends on the accounts, not
    on the number of postings. *)
Theorem C104_ledger : forall E fmt_g p F K D Ks f ops,
  (forall k l, Permutation l (e_ord E k l)) -> prolog p -> strict_prolog p ->
  Forall good F -> Forall top_node F -> shallow F -> has_element F ->
  keys K -> stores K F D -> NoDup Ks -> Forall K Ks -> Forall account_path Ks -> (forall k, In k Ks -> worth D k (f k)) ->
  Forall (fun o => In (fst o) Ks) ops -> all_in_range ops f ->
  (N.of_nat (List.length p + full F + accounts_room Ks) <= 10485760)%N ->
  exists d, post_all E fmt_g ops (p ++ forest_text F) = Ok (d, None) /\ valid d = true /\ List.length d <= List.length p + full F + accounts_room Ks /\
    (forall k, In k Ks -> exists r, get E d (tpath (by_name k) TheElement) = Ok r /\ r_int r = all_posted ops f k) /\
    exists D', reads_store E d K D' /\ (forall k, ~ In k (map fst ops) -> D' k = D k) /\
      forall k e, D k = Some e -> exists e', D' k = Some e' /\ attribute e' = attribute e.
Proof.
  intros E g p F K D Ks f ops Ho Hp SP HG HT HS HE HK ST ND FK FP WO FO R Z. pose proof (reserve_room Ks D) as RR.
  destruct (writings_history K Ks p (full F + accounts_room Ks) ops F D f HK ST HE ND FK FP FO R ltac:(lia) ltac:(rewrite Nat.add_assoc; exact Z)) as (F' & H & ZF).
  pose proof (full_ge F) as GE. assert (HR : room p F) by (split; [exact HE|rewrite app_length; lia]). rewrite Forall_forall in FK, FP.
  pose proof (posts_ok E g Ho p Hp SP F HG HT HS HR K HK D ST f (fun k => In k Ks) FK FP WO ops F' FO R H) as PO.
  assert (KO : Forall (fun o => K (key_of o)) (writings ops f)).
  { clear - FO FK. revert f. induction FO as [|o ops Ho _ IH]; intros f; cbn [writings]; constructor; auto. }
  destruct (C93_store E g p F K D (writings ops f) F' Ho Hp SP HG HT HS HR HK ST KO H) as (d & C & V & RS). destruct (C47_history E g p F _ F' Ho Hp SP HG HT HS HR H) as (G & C' & S & _).
  exists d. split; [rewrite PO; exact C|]. split; [exact V|]. split.
  { rewrite C in C'. injection C' as ->. rewrite app_length, <- (same_length_all _ _ S). pose proof (full_ge F'). lia. }
  split; [intros k Ik; apply (int_read E K (fun k => In k Ks) FK FP d _ k _ RS Ik); now apply (writings_worth ops D f (fun k => In k Ks))|].
  exists (do_all (writings ops f) D). split; [exact RS|]. split.
  - intros k NI. clear - NI. revert D f. induction ops as [|o ops IH]; intros D f; [reflexivity|]. cbn [writings do_all fold_left map In] in *.
    change (do_all (writings ops (posted o f)) (do_store (Give (fst o) (decimal (f (fst o) + snd o))) D) k = D k). rewrite IH by tauto. unfold do_store. cbn [key_of]. destruct (same_key k (fst o)) eqn:Q; [|reflexivity].
    apply same_key_spec in Q. exfalso. apply NI. left. now symmetry.
  - intros k e. clear. revert D f e. induction ops as [|o ops IH]; intros D f e Q; [exists e; auto|]. cbn [writings do_all fold_left].
    set (D1 := do_store (Give (fst o) (decimal (f (fst o) + snd o))) D). assert (X : exists e1, D1 k = Some e1 /\ attribute e1 = attribute e).
    { unfold D1, do_store. cbn [key_of]. destruct (same_key k (fst o)); [rewrite Q; cbn [in_entry]; eexists; split; reflexivity|exists e; auto]. }
    destruct X as (e1 & Q1 & A1). destruct (IH D1 (posted o f) e1 Q1) as (e2 & Q2 & A2). exists e2. split; [exact Q2|congruence].
Qed.
Print Assumptions C104_ledger.

(** Amounts that go from one account to another leave the sum of the accounts alone. *)
Theorem C104_total : forall Ks f ops, NoDup Ks -> Forall (fun o => In (fst o) Ks) ops ->
  total Ks (all_posted ops f) = (total Ks f + fold_right (fun o z => snd o + z) 0 ops)%Z.
Proof.
  intros Ks f ops ND. revert f. induction ops as [|[k z] ops IH]; intros f FO; cbn [all_posted fold_left fold_right]; [lia|]. inversion FO as [|? ? I1 I2]; subst. cbn [fst snd] in *.
  change (total Ks (all_posted ops (posted (k, z) f)) = (total Ks f + (z + fold_right (fun o z => snd o + z) 0 ops))%Z). rewrite IH by exact I2.
  assert (X : total Ks (posted (k, z) f) = (total Ks f + z)%Z); [|lia].
  clear - ND I1. induction Ks as [|j Ks IH]; [destruct I1|]. inversion ND as [|? ? N1 N2]; subst. cbn [total fold_right]. fold (total Ks (posted (k, z) f)) (total Ks f).
  destruct I1 as [->|I1].
  - rewrite posted_same. assert (Y : total Ks (posted (k, z) f) = total Ks f); [|lia]. clear - N1. induction Ks as [|j Ks IH]; [reflexivity|]. cbn [total fold_right]. fold (total Ks (posted (k, z) f)) (total Ks f).
    rewrite posted_other by (cbn [fst]; intros ->; apply N1; now left). rewrite IH; [reflexivity|]. intros I. apply N1. now right.
  - rewrite posted_other by (cbn [fst]; intros ->; contradiction). rewrite (IH N2 I1). lia.
Qed.
Print Assumptions C104_total.
(** The order of the postings does not matter. *)
Theorem C104_any_order : forall ops ops' f k, Permutation ops ops' -> all_posted ops f k = all_posted ops' f k.
Proof.
  assert (X : forall ops f k, all_posted ops f k = (f k + fold_right (fun o z => (if same_key k (fst o) then snd o else 0) + z) 0 ops)%Z).
  { induction ops as [|o ops IH]; intros f k; cbn [all_posted fold_left fold_right]; [lia|]. change (all_posted ops (posted o f) k = (f k + ((if same_key k (fst o) then snd o else 0) + fold_right (fun o z => (if same_key k (fst o) then snd o else 0) + z) 0 ops))%Z).
    rewrite IH. unfold posted. destruct (same_key k (fst o)); lia. }
  intros ops ops' f k P. rewrite !X. f_equal. induction P as [|o a b P IH|o o' a|a b c P1 IH1 P2 IH2]; cbn [fold_right]; [reflexivity|now rewrite IH|lia|congruence].
Qed.
Print Assumptions C104_any_order.

Definition bank : list node :=
  [Elem (bs "bank") [] false
    [Elem (bs "ann") [(bs "id", bs "7")] false [Text (bs " +100 ")]; Elem (bs "note") [] false [Text (bs "by hand")];
     Elem (bs "fees") [] true []]].
Definition bank_accounts : list (list bytes) := map path_of [["bank"; "ann"]; ["bank"; "bob"]; ["bank"; "fees"; "year"]]%string.
Definition bank_store : store := fun k =>
  if same_key k (path_of ["bank"; "ann"]%string) then Some (mkEntry (bs " +100 ") (put_mark (bs "id") (Some (bs "7")) (fun _ => None)))
  else None.
Definition bank_start (k : list bytes) : Z := if same_key k (path_of ["bank"; "ann"]%string) then 100%Z else 0%Z.
Definition bank_postings : list posting :=
  [(path_of ["bank"; "ann"]%string, -130); (path_of ["bank"; "bob"]%string, 125); (path_of ["bank"; "fees"; "year"]%string, 5); (path_of ["bank"; "bob"]%string, -30); (path_of ["bank"; "ann"]%string, 30)]%Z.
Example C104_example :
  Forall good bank /\ Forall top_node bank /\ shallow bank /\ has_element bank /\ keys (fun k => In k bank_accounts) /\ stores (fun k => In k bank_accounts) bank bank_store /\
  NoDup bank_accounts /\ Forall account_path bank_accounts /\ (forall k, In k bank_accounts -> worth bank_store k (bank_start k)) /\
  Forall (fun o => In (fst o) bank_accounts) bank_postings /\ all_in_range bank_postings bank_start /\
  map (all_posted bank_postings bank_start) bank_accounts = [0; 95; 5]%Z /\ total bank_accounts (all_posted bank_postings bank_start) = 100%Z /\
  post_all env0 (fun _ => []) bank_postings (forest_text bank) = Ok (bs "<bank><ann id=""7"">0</ann><note>by hand</note><fees><year>5</year></fees><bob>95</bob></bank>", None).
Proof.
  split; [apply forest_b_ok; vm_compute; reflexivity|]. split; [repeat constructor|]. split; [repeat constructor|]. split; [eexists _, _, _, _; left; reflexivity|]. split.
  { split.
    - intros k I. repeat (destruct I as [<-|I]; [split; [discriminate|repeat constructor]|]). destruct I.
    - intros k z I J. repeat (destruct I as [<-|I]; [destruct z as [|y z]; [reflexivity|exfalso; cbn in J; intuition discriminate]|]). destruct I. }
  split.
  { intros k I. repeat (destruct I as [<-|I]; [|]); [..|destruct I].
    - vm_compute. eexists _, _, _. split; [do 1 (eapply sole_down; [vm_compute; reflexivity|]); apply sole_here; vm_compute; reflexivity|]. split; [left; vm_compute; reflexivity|]. intros x. cbn [attr_value]. reflexivity.
    - vm_compute. do 1 (eapply missing_below; [vm_compute; reflexivity|]). apply missing_here. vm_compute. reflexivity.
    - vm_compute. do 2 (eapply missing_below; [vm_compute; reflexivity|]). apply missing_here. vm_compute. reflexivity. }
  split; [repeat (apply NoDup_cons; [intros I; cbn in I; intuition discriminate|]); apply NoDup_nil|].
  split.
  { repeat (apply Forall_cons; [split; [apply tpath_b_ok; vm_compute; reflexivity|split; [repeat (apply Forall_cons; [apply xml_name_b_ok; vm_compute; reflexivity|]); apply Forall_nil|vm_compute; lia]]|]). apply Forall_nil. }
  split.
  { intros k I. repeat (destruct I as [<-|I]; [|]); [..|destruct I].
    - split; [split; vm_compute; [discriminate|reflexivity]|]. left. exists (bs "100"). split; [discriminate|]. split; [repeat constructor; vm_compute; discriminate|]. left. split; [right; vm_compute; reflexivity|reflexivity].
    - reflexivity.
    - reflexivity. }
  split; [repeat (apply Forall_cons; [cbv [bank_accounts map fst In]; repeat (try (left; reflexivity); right)|]); apply Forall_nil|].
  split; [cbn [all_in_range bank_postings fst snd]; unfold in_range; repeat split; vm_compute; congruence|].
  split; [vm_compute; reflexivity|]. split; vm_compute; reflexivity.
Qed.

(** Int() of a number with a fraction, or beyond int64, is 0: the posting begins at zero and
    reports no error. *)
Theorem C104_fraction_refuted : exists xml d, xml = bs "<a>1.5</a>" /\ d = bs "<a>1</a>" /\ post_all env0 (fun _ => []) [([bs "a"], 1%Z)] xml = Ok (d, None).
Proof. exists (bs "<a>1.5</a>"), (bs "<a>1</a>"). vm_compute. repeat split; reflexivity. Qed.
Print Assumptions C104_fraction_refuted.
Theorem C104_overflow_refuted : exists xml d, xml = bs "<a>9223372036854775808</a>" /\ d = bs "<a>1</a>" /\ post_all env0 (fun _ => []) [([bs "a"], 1%Z)] xml = Ok (d, None).
Proof. exists (bs "<a>9223372036854775808</a>"), (bs "<a>1</a>"). vm_compute. repeat split; reflexivity. Qed.
Print Assumptions C104_overflow_refuted.
