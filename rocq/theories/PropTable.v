(** C88: a document used as a table. *)
From Coq Require Import List Ascii String NArith ZArith Bool Lia Permutation.
From Verif Require Import GoStr ModelParser ModelPath ModelResult ModelQuery ModelValidate ModelBuilder SpecText SpecPath SpecTree SpecQuery SpecEdit SpecContent SpecValid SpecFilter SpecLang SpecHistory SpecTable
  ProofBase ProofTree ProofTree5 ProofTree8 ProofEdit ProofEdit2 ProofEdit5 ProofEdit8 ProofEdit9 ProofLang3 ProofLang4 ProofTable ProofTable2 PropTree PropLang.
Import ListNotations.

(** The document answers questions about the table under [names].[m] like the table itself:
    how many rows, which field has the row with a number, all values of a field, the field
    of the first row, or of all rows, in which another field has a value.  Get looks at the
    first 1000 rows. *)
Record reads_as (E : env) (d : bytes) (names : list bytes) (m : bytes) (T : table) : Prop := {
  ra_count : T <> [] -> good_query (chain names ++ [Child m Leading]) ECount ->
    exists r, get E d (query_text (chain names ++ [Child m Leading]) ECount) = Ok r /\ describes r (Count (Nat.min 1000 (List.length T)));
  ra_cell : forall ds f, split_colon f = None -> (decimal_value ds < 1000)%N -> good_query (chain names ++ [Child m (Number ds); Child f Leading]) EElement ->
    exists r, get E d (query_text (chain names ++ [Child m (Number ds); Child f Leading]) EElement) = Ok r /\
      tells r (match nth_error T (index_of (Some ds)) with Some row => cell f row | None => None end);
  ra_column : forall f, split_colon f = None -> good_query (chain names ++ [Child m Leading]) (EField (FieldName f)) ->
    exists r, get E d (query_text (chain names ++ [Child m Leading]) (EField (FieldName f))) = Ok r /\ lists r (firstn 1000 (column f (firstn 1000 T)));
  ra_lookup : forall k v f, split_colon k = None -> split_colon f = None ->
    good_query (chain names ++ [Child m (Where (where_is k v) false); Child f Leading]) EElement ->
    exists r, get E d (query_text (chain names ++ [Child m (Where (where_is k v) false); Child f Leading]) EElement) = Ok r /\
      tells r (match find (matching k v) (firstn 1000 T) with Some row => cell f row | None => None end);
  ra_select : forall k v f, split_colon k = None -> split_colon f = None ->
    good_query (chain names ++ [Child m (Where (where_is k v) true); Child f Leading]) EElement ->
    exists r, get E d (query_text (chain names ++ [Child m (Where (where_is k v) true); Child f Leading]) EElement) = Ok r /\
      tells_all r (column f (filter (matching k v) (firstn 1000 T)))
}.

(** ** C88. Any sequence of table operations, carried out as edits of the document, leaves a
    valid document that answers like the table after the operations. *)
Theorem C88_table : forall E fmt_g p F names m T ops T',
  (forall k l, Permutation l (e_ord E k l)) -> prolog p -> strict_prolog p ->
  Forall good F -> Forall top_node F -> shallow F -> room p F -> keeps names m F T ->
  Forall good_op ops -> Forall (fun o => legal (op_edit names m o)) ops -> do_ops ops T = Some T' ->
  (blen (p ++ forest_text F) + blen (forest_text (all_added m ops)) <= 10485760)%N ->
  (elements F + elements (all_added m ops) < 9999)%N ->
  exists d, calls E fmt_g (map (op_edit names m) ops) (p ++ forest_text F) = Ok (d, None) /\ valid d = true /\ reads_as E d names m T'.
Proof.
  intros E fmt_g p F names m T ops T' Ho Hp SP HG HT HS [HE HZ] KP GO LG D SZ EL.
  destruct (ops_room p names m ops F T T' GO LG KP D SZ) as (F' & H & EL').
  destruct (table_history p names m ops F F' T GO KP H) as (T1 & D1 & KP'). rewrite D in D1. injection D1 as <-.
  destruct (history_ok E fmt_g Ho p _ F F' Hp SP H F HG HT (conj HE (conj HS HZ)) (same_all_refl F)) as [G [C [S [G' [T'' FT]]]]].
  assert (V : valid (p ++ forest_text G) = true).
  { apply state_valid; auto; [eapply same_good_all; eauto|eapply same_top; eauto|eapply same_fits; eauto]. }
  exists (p ++ forest_text G). split; [exact C|]. split; [exact V|]. pose proof (valid_size _ V) as SG. destruct FT as [_ [SH _]].
  assert (EF : (elements F' < 9999)%N) by lia.
  split; intros; [eapply kept_count|eapply kept_cell|eapply kept_column|eapply kept_lookup|eapply kept_select]; eauto.
Qed.
Print Assumptions C88_table.
(** In particular the document answers like the table it holds before any operation. *)
Theorem C88_read : forall E p F names m T,
  (forall k l, Permutation l (e_ord E k l)) -> prolog p -> Forall good F -> shallow F -> keeps names m F T ->
  (blen (p ++ forest_text F) <= 10485760)%N -> (elements F < 9999)%N -> reads_as E (p ++ forest_text F) names m T.
Proof.
  intros E p F names m T Ho Hp HG HS KP SZ EL. pose proof (same_all_refl F) as SM.
  split; intros; [eapply kept_count|eapply kept_cell|eapply kept_column|eapply kept_lookup|eapply kept_select]; eauto.
Qed.
Print Assumptions C88_read.
(** The abstract operations leave alone what they should: the other rows, and the other fields of the row. *)
Lemma table_others : forall i g T T' j, upd i g T = Some T' -> j <> i -> nth_error T' j = nth_error T j.
Proof.
  intros i g T. revert i. induction T as [|r T IH]; intros [|i] T' j H N; cbn [upd] in H; try discriminate.
  - injection H as <-. destruct j; [easy|reflexivity].
  - destruct (upd i g T) as [T1|] eqn:Q; [|discriminate]. injection H as <-. destruct j as [|j]; [reflexivity|]. cbn [nth_error]. apply (IH i T1 j Q). congruence.
Qed.
Lemma table_fields : forall f v g r,
  cell f (put_attr f v r) = Some (trim_space v) /\ cell f (drop_attr f r) = None /\
  (g <> f -> cell g (put_attr f v r) = cell g r /\ cell g (drop_attr f r) = cell g r).
Proof.
  intros f v g. unfold cell, drop_attr. induction r as [|[h w] r (IH1 & IH2 & IH3)]; cbn [put_attr attr_value filter fst].
  - rewrite bytes_eqb_refl. split; [reflexivity|]. split; [reflexivity|]. intros N. apply bytes_eqb_neq in N. now rewrite N.
  - split; [|split].
    + destruct (bytes_eqb f h) eqn:Q; cbn [attr_value]; rewrite Q; [reflexivity|exact IH1].
    + rewrite (eqb_sym h f). destruct (bytes_eqb f h) eqn:Q; cbn [negb attr_value]; [exact IH2|]. rewrite Q. exact IH2.
    + intros N. destruct (IH3 N) as [A B]. rewrite (eqb_sym h f). destruct (bytes_eqb f h) eqn:Q; cbn [negb attr_value].
      * apply bytes_eqb_eq in Q. subst h. apply bytes_eqb_neq in N. rewrite N. auto.
      * destruct (bytes_eqb g h); auto.
Qed.

(** ** C47. After any history of edits every query of the language, not only plain paths,
    answers from the edited tree. *)
Theorem C47_language : forall E fmt_g sat p F ops F',
  (forall k l, Permutation l (e_ord E k l)) ->
  (forall c nd, good nd -> (sat c nd = true <-> true_of (e_parse_float E) c nd)) -> prolog p -> strict_prolog p ->
  Forall good F -> Forall top_node F -> shallow F -> room p F -> history p ops F F' -> (elements F' < 9999)%N ->
  exists d, calls E fmt_g ops (p ++ forest_text F) = Ok (d, None) /\
    forall steps e, good_query steps e -> exists r, get E d (query_text steps e) = Ok r /\ says r (ask sat e true steps F').
Proof.
  intros E fmt_g sat p F ops F' Ho Hs Hp SP HG HT HS [HE HZ] HH EL.
  destruct (history_ok E fmt_g Ho p ops F F' Hp SP HH F HG HT (conj HE (conj HS HZ)) (same_all_refl F)) as [G [C [S [G' [T' FT]]]]].
  exists (p ++ forest_text G). split; [exact C|]. intros steps e GQ.
  assert (V : valid (p ++ forest_text G) = true).
  { apply state_valid; auto; [eapply same_good_all; eauto|eapply same_top; eauto|eapply same_fits; eauto]. }
  destruct FT as [_ [SH _]]. eapply get_ask; eauto.
  - intros f ->. apply (gq_end _ _ GQ).
  - split; [|split; auto]. apply ProofTree4.reads_text; auto using ProofTree2.skippable_prolog.
  - now apply valid_size.
Qed.
Print Assumptions C47_language.

Definition staff : list node :=
  [Elem (bs "db") [] false [Elem (bs "users") [] false [Elem (bs "note") [] true []; Text (bs " ")]; Elem (bs "log") [] true []]].
Definition staff_ops : list table_op :=
  [ Insert [(bs "id", bs "1"); (bs "name", bs "Ann")];
    Insert [(bs "id", bs "2"); (bs "name", bs "Bob & Co")];
    Insert [(bs "id", bs "2")];
    Put (bs "0") (bs "name") (bs " Eve ");
    Put (bs "1") (bs "city") (bs "<Rome>");
    DropField (bs "0") (bs "id");
    Put (bs "2") (bs "name") (bs "Cy");
    Insert [];
    DropRow (bs "3");
    DropRow (bs "7") ].
Definition staff_table : table :=
  [ [(bs "name", bs " Eve ")];
    [(bs "id", bs "2"); (bs "name", bs "Bob & Co"); (bs "city", bs "<Rome>")];
    [(bs "id", bs "2"); (bs "name", bs "Cy")] ].
Definition staff_text : bytes :=
  bs "<db><users><note/> <user><name> Eve </name></user><user><id>2</id><name>Bob &amp; Co</name><city>&lt;Rome&gt;</city></user><user><id>2</id><name>Cy</name></user></users><log/></db>".
Example C88_example :
  let names := [bs "db"; bs "users"] in let m := bs "user" in
  Forall good staff /\ Forall top_node staff /\ shallow staff /\ room [] staff /\ keeps names m staff [] /\
  Forall good_op staff_ops /\ Forall (fun o => legal (op_edit names m o)) staff_ops /\ do_ops staff_ops [] = Some staff_table /\
  (blen ([] ++ forest_text staff) + blen (forest_text (all_added m staff_ops)) <= 10485760)%N /\
  (elements staff + elements (all_added m staff_ops) < 9999)%N /\
  calls env0 (fun _ => []) (map (op_edit names m) staff_ops) (forest_text staff) = Ok (staff_text, None) /\
  good_query (chain names ++ [Child m Leading]) ECount /\
  good_query (chain names ++ [Child m (Number (bs "1")); Child (bs "city") Leading]) EElement /\
  good_query (chain names ++ [Child m Leading]) (EField (FieldName (bs "name"))) /\
  good_query (chain names ++ [Child m (Where (where_is (bs "id") (bs "2")) false); Child (bs "name") Leading]) EElement /\
  good_query (chain names ++ [Child m (Where (where_is (bs "id") (bs "2")) true); Child (bs "name") Leading]) EElement /\
  query_text (chain names ++ [Child m (Where (where_is (bs "id") (bs "2")) true); Child (bs "name") Leading]) EElement = bs "db.users.user.#(id=='2')#.name" /\
  column (bs "name") staff_table = [bs "Eve"; bs "Bob & Co"; bs "Cy"] /\
  column (bs "name") (filter (matching (bs "id") (bs "2")) staff_table) = [bs "Bob & Co"; bs "Cy"] /\
  (let* r := get env0 staff_text (bs "db.users.user.#(id=='2')#.name") in Ok (map r_string (r_results r))) = Ok [bs "Bob & Co"; bs "Cy"].
Proof.
  cbv zeta. split; [apply forest_b_ok; vm_compute; reflexivity|]. split; [repeat constructor|]. split; [repeat constructor|].
  split; [split; [eexists _, _, _, _; left; reflexivity|vm_compute; discriminate]|].
  split; [split; [constructor|]; eexists _, _, _; split; [eapply sole_down; [vm_compute; reflexivity|]; apply sole_here; vm_compute; reflexivity|vm_compute; reflexivity]|].
  split.
  { repeat constructor; cbn; try discriminate; intuition discriminate. }
  split.
  { repeat (constructor; [cbn [op_edit legal by_name map app];
      repeat match goal with
      | |- _ /\ _ => split
      | |- good_tpath _ _ => apply tpath_b_ok; vm_compute; reflexivity
      | |- Forall xml_name _ => repeat (constructor; [apply xml_name_b_ok; vm_compute; reflexivity|]); constructor
      | |- xml_name _ => apply xml_name_b_ok; vm_compute; reflexivity
      | |- Forall good_tstep _ => eapply (fun l H => gt_steps l TheElement H); apply tpath_b_ok; vm_compute; reflexivity
      | |- good_content _ => split; cbn [content_nodes]
      | |- Forall good _ => apply forest_b_ok; vm_compute; reflexivity
      | |- (_ <= _)%N => vm_compute; discriminate
      | |- (_ <= _)%nat => vm_compute; lia
      | |- _ < _ => vm_compute; lia
      | |- True => exact I
      end|]); constructor. }
  split; [vm_compute; reflexivity|]. split; [vm_compute; discriminate|]. split; [vm_compute; reflexivity|]. split; [vm_compute; reflexivity|].
  do 5 (split; [query_ok|]). repeat split; vm_compute; reflexivity.
Qed.
