(** C93: a document used as a store of values under paths. *)
From Coq Require Import List Ascii String NArith ZArith Bool Lia Permutation.
From Verif Require Import GoStr ModelParser ModelPath ModelResult ModelQuery ModelValidate ModelBuilder SpecText SpecPath SpecTree SpecQuery SpecEdit SpecContent SpecValid SpecHistory SpecTable SpecStore
  ProofBase ProofTree ProofTree5 ProofTree8 ProofEdit ProofEdit2 ProofEdit5 ProofEdit6 ProofEdit8 ProofEdit9 ProofStore PropTree PropEdit PropHistory.
Import ListNotations.

(** The document answers like the store: the content of a key with the white space around
    it removed, its attributes exactly, and nothing for what the store does not have. *)
Record reads_store (E : env) (d : bytes) (K : list bytes -> Prop) (D : store) : Prop := {
  rs_content : forall k, K k -> good_tpath (by_name k) TheElement -> exists r, get E d (tpath (by_name k) TheElement) = Ok r /\
    match D k with Some e => r_type r = RElement /\ r_string r = trim_space (content_of e) | None => r_type r = RNull end;
  rs_attribute : forall k x, K k -> good_tpath (by_name k) (TheAttribute x) -> exists r, get E d (tpath (by_name k) (TheAttribute x)) = Ok r /\
    match D k with
    | Some e => match attribute e x with Some v => r_type r = RAttribute /\ r_string r = v | None => r_type r = RNull end
    | None => r_type r = RNull
    end }.

(** C93: whatever is written to and taken out of a document under keys of which none leads
    through another, every key then reads as in a plain map that went through the same
    operations. *)
Theorem C93_store : forall E fmt_g p F K D ops F',
  (forall k l, Permutation l (e_ord E k l)) -> prolog p -> strict_prolog p ->
  Forall good F -> Forall top_node F -> shallow F -> room p F ->
  keys K -> stores K F D -> Forall (fun o => K (key_of o)) ops -> history p (map store_edit ops) F F' ->
  exists d, calls E fmt_g (map store_edit ops) (p ++ forest_text F) = Ok (d, None) /\ valid d = true /\ reads_store E d K (do_all ops D).
Proof.
  intros E fmt_g p F K D ops F' Ho Hp SP HG HT HS HR HK ST KO HH. destruct (C47_history E fmt_g p F _ F' Ho Hp SP HG HT HS HR HH) as (G & C & _ & V & R).
  exists (p ++ forest_text G). split; [exact C|]. split; [exact V|]. pose proof (ops_stores K p ops F F' D HK ST KO HH) as ST'. split.
  - intros k Kk GT. destruct (R _ _ GT) as (r & G1 & G2). exists r. split; [exact G1|]. specialize (ST' k Kk). destruct (do_all ops D k) as [e|].
    + destruct ST' as (m & a & kids & SO & HO & _). rewrite (query_sole TheElement (or_introl eq_refl) _ _ _ SO) in G2. cbn [final_answer kids_of] in G2. destruct HO as [->|[-> ->]]; [now apply element_string|now apply element_empty].
    + rewrite (query_absent TheElement (or_introl eq_refl) _ _ ST') in G2. exact G2.
  - intros k x Kk GT. destruct (R _ _ GT) as (r & G1 & G2). exists r. split; [exact G1|]. specialize (ST' k Kk). assert (RE : read_end (TheAttribute x)) by (right; now exists x). destruct (do_all ops D k) as [e|].
    + destruct ST' as (m & a & kids & SO & _ & AT). rewrite (query_sole _ RE _ _ _ SO) in G2. cbn [final_answer attrs_of] in G2. rewrite AT in G2. destruct (attribute e x); exact G2.
    + rewrite (query_absent _ RE _ _ ST') in G2. exact G2.
Qed.
Print Assumptions C93_store.
(** Every operation on such a document is possible, up to a hundred attributes. *)
Theorem C93_possible : forall K F D o, keys K -> stores K F D -> K (key_of o) ->
  (forall k x v, o = Mark k x v -> forall m a s kids, sole k F (Elem m a s kids) -> List.length a < 100) ->
  exists F', apply_edit (store_edit o) F = Some F' /\ stores K F' (do_store o D).
Proof.
  intros K F D o HK ST KO L. destruct (op_defined K F D o HK ST KO L) as (F' & A). exists F'. split; [exact A|]. eapply op_stores; eauto.
Qed.
Print Assumptions C93_possible.
(** The store may also begin with no document at all. *)
Theorem C93_from_nothing : forall E fmt_g K k v ops F',
  (forall i l, Permutation l (e_ord E i l)) -> keys K -> K k -> legal (SetText (by_name k) v) -> (blen (esc v) <= 5242880)%N ->
  room [] (chain_of k v) -> Forall (fun o => K (key_of o)) ops -> history [] (map store_edit ops) (chain_of k v) F' ->
  exists d, calls E fmt_g (map store_edit (Give k v :: ops)) [] = Ok (d, None) /\ valid d = true /\
    reads_store E d K (do_all (Give k v :: ops) (fun _ => None)).
Proof.
  intros E fmt_g K k v ops F' Ho HK Kk LG BV RM KO HH. pose proof LG as [GT [XN _]]. assert (NE : k <> []) by apply (proj1 HK k Kk).
  assert (XK : Forall xml_name k) by (unfold by_name in XN; rewrite map_map, map_id in XN; exact XN).
  destruct k as [|m ms]; [easy|]. assert (ST0 : stores K [] (fun _ => None)) by (intros [|n rest] Kn; [destruct (proj1 HK _ Kn) as [X _]; easy|now apply missing_here]).
  assert (AP : apply_edit (store_edit (Give (m :: ms) v)) [] = Some (chain_of (m :: ms) v)).
  { cbn [store_edit apply_edit content_nodes]. assert (X : forall g miss, change g miss (by_name (m :: ms)) [] = option_map (fun l => [] ++ l) (miss (by_name (m :: ms)))) by reflexivity. rewrite X. unfold new_kids. rewrite names_by_name. reflexivity. }
  pose proof (op_stores K [] _ _ (Give (m :: ms) v) HK ST0 Kk AP) as ST1.
  destruct (C93_store E fmt_g [] (chain_of (m :: ms) v) K (do_store (Give (m :: ms) v) (fun _ => None)) ops F') as (d & C & V & R); [exact Ho|constructor|constructor| | | |exact RM|exact HK|exact ST1|exact KO|exact HH|].
  - now apply chain_good.
  - apply chain_top. discriminate.
  - eapply C21_edit_keeps_shallow; [exact LG|exact AP|constructor].
  - destruct (C04_create_document E fmt_g m ms v Ho GT BV) as [S _]. exists d. split; [|split; [exact V|exact R]].
    cbn [map calls]. cbn [store_edit call set_content]. cbv zeta in S. rewrite S. exact C.
Qed.
Print Assumptions C93_from_nothing.

Definition options_file : list node :=
  [Elem (bs "config") [(bs "version", bs "2")] false
    [Elem (bs "server") [] false [Elem (bs "host") [(bs "tls", bs "no")] false [Text (bs "localhost")]; Text (bs " "); Elem (bs "port") [] false [Text (bs "80")]];
     Misc (bs "--logging--"); Elem (bs "log") [] true []]].
Definition path_of (l : list String.string) : list bytes := map bs l.
Definition config_keys (k : list bytes) : Prop :=
  In k (map path_of [["config"; "server"; "host"]; ["config"; "server"; "port"]; ["config"; "log"; "level"]; ["config"; "log"; "file"; "name"]; ["config"; "user"]]%string).
Definition config_store : store := fun k =>
  if same_key k (path_of ["config"; "server"; "host"]%string) then Some (mkEntry (bs "localhost") (put_mark (bs "tls") (Some (bs "no")) (fun _ => None)))
  else if same_key k (path_of ["config"; "server"; "port"]%string) then Some (mkEntry (bs "80") (fun _ => None))
  else None.
Definition config_ops : list store_op :=
  [ Give (path_of ["config"; "log"; "level"]%string) (bs "debug & trace");
    Mark (path_of ["config"; "server"; "host"]%string) (bs "tls") (bs "yes");
    Give (path_of ["config"; "server"; "host"]%string) (bs " example.org ");
    Mark (path_of ["config"; "log"; "file"; "name"]%string) (bs "rotate") (bs "7");
    Give (path_of ["config"; "log"; "file"; "name"]%string) (bs "<a>.log");
    Forget (path_of ["config"; "server"; "port"]%string);
    Forget (path_of ["config"; "user"]%string);
    Unmark (path_of ["config"; "server"; "host"]%string) (bs "verify");
    Unmark (path_of ["config"; "log"; "file"; "name"]%string) (bs "rotate");
    Give (path_of ["config"; "log"; "level"]%string) (bs "info") ].
Definition config_text : bytes :=
  bs "<config version=""2""><server><host tls=""yes""> example.org </host> </server><!--logging--><log><level>info</level><file><name>&lt;a&gt;.log</name></file></log></config>".
Ltac legal_op := cbn [legal by_name map app path_of];
  repeat match goal with
  | |- _ /\ _ => split
  | |- good_tpath _ _ => apply tpath_b_ok; vm_compute; reflexivity
  | |- Forall xml_name _ => repeat (constructor; [apply xml_name_b_ok; vm_compute; reflexivity|]); constructor
  | |- xml_name _ => apply xml_name_b_ok; vm_compute; reflexivity
  | |- good_content _ => split; cbn [content_nodes]
  | |- Forall good _ => apply forest_b_ok; vm_compute; reflexivity
  | |- small _ => vm_compute; discriminate
  | |- Forall good_tstep _ => eapply (fun l H => gt_steps l TheElement H); apply tpath_b_ok; vm_compute; reflexivity
  | |- (_ <= _)%N => vm_compute; discriminate
  | |- (_ <= _)%nat => vm_compute; lia
  | |- _ < _ => vm_compute; lia
  | |- True => exact I
  end.
Example C93_example :
  Forall good options_file /\ Forall top_node options_file /\ shallow options_file /\ keys config_keys /\ stores config_keys options_file config_store /\
  Forall (fun o => config_keys (key_of o)) config_ops /\
  (exists F', history [] (map store_edit config_ops) options_file F' /\ forest_text F' = config_text) /\
  map (fun k => option_map content_of (do_all config_ops config_store (path_of k))) [["config"; "server"; "host"]; ["config"; "server"; "port"]; ["config"; "log"; "level"]; ["config"; "log"; "file"; "name"]; ["config"; "user"]]%string =
    [Some (bs " example.org "); None; Some (bs "info"); Some (bs "<a>.log"); None] /\
  calls env0 (fun _ => []) (map store_edit config_ops) (forest_text options_file) = Ok (config_text, None) /\
  (let* r := get env0 config_text (bs "config.log.level") in Ok (r_string r)) = Ok (bs "info").
Proof.
  split; [apply forest_b_ok; vm_compute; reflexivity|]. split; [repeat constructor|]. split; [repeat constructor|]. split.
  { split.
    - intros k I. repeat (destruct I as [<-|I]; [split; [discriminate|repeat constructor]|]). destruct I.
    - intros k z I J. repeat (destruct I as [<-|I]; [destruct z as [|y z]; [reflexivity|exfalso; cbn in J; intuition discriminate]|]). destruct I. }
  split.
  { intros k I. repeat (destruct I as [<-|I]; [|]); [..|destruct I].
    - vm_compute. eexists _, _, _. split; [do 2 (eapply sole_down; [vm_compute; reflexivity|]); apply sole_here; vm_compute; reflexivity|]. split; [left; vm_compute; reflexivity|]. intros x. cbn [attr_value]. reflexivity.
    - vm_compute. eexists _, _, _. split; [do 2 (eapply sole_down; [vm_compute; reflexivity|]); apply sole_here; vm_compute; reflexivity|]. split; [left; vm_compute; reflexivity|]. reflexivity.
    - vm_compute. do 2 (eapply missing_below; [vm_compute; reflexivity|]). apply missing_here. vm_compute. reflexivity.
    - vm_compute. do 2 (eapply missing_below; [vm_compute; reflexivity|]). apply missing_here. vm_compute. reflexivity.
    - vm_compute. do 1 (eapply missing_below; [vm_compute; reflexivity|]). apply missing_here. vm_compute. reflexivity. }
  split; [repeat (apply Forall_cons; [cbv [config_keys map key_of In]; repeat (try (left; reflexivity); right)|]); apply Forall_nil|]. split.
  { eexists. split; [cbn [config_ops map store_edit]|].
    - repeat (eapply his_cons; [legal_op|vm_compute; reflexivity|split; [eexists _, _, _, _; left; reflexivity|vm_compute; discriminate]|]). apply his_nil.
    - vm_compute. reflexivity. }
  split; [vm_compute; reflexivity|]. split; vm_compute; reflexivity.
Qed.
(** Keys that lead through one another do disturb each other: setting the outer one wipes
    out the inner one. *)
Theorem C93_nested_refuted : exists outer inner v w d, plain_key outer /\ plain_key (outer ++ inner) /\ inner <> [] /\
  calls env0 (fun _ => []) (map store_edit [Give (outer ++ inner) v; Give outer w]) (bs "<cfg></cfg>") = Ok (d, None) /\
  do_all [Give (outer ++ inner) v; Give outer w] (fun _ => None) (outer ++ inner) = Some (mkEntry v (fun _ => None)) /\
  get env0 d (tpath (by_name (outer ++ inner)) TheElement) = Ok r_null.
Proof.
  exists [bs "cfg"; bs "a"], [bs "b"], (bs "1"), (bs "2"), (bs "<cfg><a>2</a></cfg>"). repeat split; try discriminate; try (vm_compute; reflexivity); repeat constructor.
Qed.
Print Assumptions C93_nested_refuted.
