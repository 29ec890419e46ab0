(** C108: what each option has an influence on. *)
From Coq Require Import List Ascii String NArith ZArith Bool Lia.
From Verif Require Import GoStr ModelResult ModelParser ModelPath ModelQuery ModelValidate ModelBuilder ModelQueryOpts SpecWhich ProofBase ProofOpts ProofWhich.
Import ListNotations.
Open Scope nat_scope.

(** C108. Queries depend on CaseSensitive and on whether all options have their default
    values; Delete on CaseSensitive alone; Set on CaseSensitive and Indent.  On every text,
    with every path. *)
Theorem C108_get : forall E o o' xml path, o_case o = o_case o' -> (o = default_options <-> o' = default_options) -> get_opts E o xml path = get_opts E o' xml path.
Proof.
  intros E o o' xml path CQ DQ. assert (ID : forall o, is_default_options o = true <-> o = default_options).
  { clear. intros [c i p n]. unfold is_default_options, default_options. cbn [o_case o_indent o_preserve o_namespaces]. split.
    - destruct c, i, p, n; cbn; intros H; congruence.
    - intros H. injection H as -> -> -> ->. reflexivity. }
  unfold get_opts. assert (X : is_default_options o = is_default_options o') by (apply eq_true_iff_eq; rewrite !ID; exact DQ). rewrite X, (parse_case o o' CQ), CQ. reflexivity.
Qed.
Print Assumptions C108_get.
Theorem C108_get_any_case : forall E o o' xml path, o_case o = false -> o_case o' = false -> get_opts E o xml path = get_opts E o' xml path.
Proof. intros E o o' xml path C C'. apply C108_get; [congruence|]. split; intros ->; discriminate. Qed.
Print Assumptions C108_get_any_case.
Theorem C108_delete : forall E o o' xml path, o_case o = o_case o' -> delete_opts E o xml path = delete_opts E o' xml path.
Proof. intros. now apply delete_case. Qed.
Print Assumptions C108_delete.
Theorem C108_set : forall E fmt_g o o' xml path v, o_case o = o_case o' -> o_indent o = o_indent o' -> set_opts E fmt_g o xml path v = set_opts E fmt_g o' xml path v.
Proof. intros. now apply set_case. Qed.
Print Assumptions C108_set.
(** What Indent does, for paths without attributes: the document is the one made without it
    with lines put in, a newline and copies of Indent each, and nothing else; the only other
    outcome is that appending fails because the document with the lines is too large. *)
Theorem C108_indent : forall E fmt_g o o' xml path v d e, o_case o = o_case o' -> o_indent o = [] -> ~ In "@"%char path ->
  set_opts E fmt_g o xml path v = Ok (d, e) ->
  exists d' e', set_opts E fmt_g o' xml path v = Ok (d', e') /\
    ((e' = e /\ spread (o_indent o') d d') \/
     (e = None /\ e' = Some ErrInvalidValue /\ d' = xml /\ exists r, spread (o_indent o') d r /\ (10485760 < N.of_nat (List.length r))%N)).
Proof.
  intros E g o o' xml path v d e CQ IQ NA H. pose proof (set_told E g o o' xml path v CQ IQ NA) as T. rewrite H in T. destruct (set_opts E g o' xml path v) as [[d' e']| |]; cbn [alike] in T; try contradiction.
  exists d', e'. split; [reflexivity|exact T].
Qed.
Print Assumptions C108_indent.
(** The reserved options, PreserveWhitespace and Namespaces, have no influence on edits. *)
Theorem C108_reserved : forall E fmt_g c i p p' n n' xml path v,
  set_opts E fmt_g (mkOpts c i p n) xml path v = set_opts E fmt_g (mkOpts c i p' n') xml path v /\
  delete_opts E (mkOpts c i p n) xml path = delete_opts E (mkOpts c i p' n') xml path.
Proof. intros. split; [now apply C108_set|now apply C108_delete]. Qed.
Print Assumptions C108_reserved.

Example C108_example :
  let o := mkOpts false [] false None in let o' := mkOpts false (bs "  ") true (Some [(bs "x", bs "urn:x")]) in
  let d := bs "<Cfg><net>1</net></Cfg>" in
  get_opts env0 o d (bs "cfg.NET") = get_opts env0 o' d (bs "cfg.NET") /\
  (let* r := get_opts env0 o' d (bs "cfg.NET") in Ok (r_string r)) = Ok (bs "1") /\
  delete_opts env0 o' d (bs "CFG.net") = Ok (bs "<Cfg></Cfg>", None) /\
  set_opts env0 (fun _ => []) o d (bs "cfg.log.file") (VStr (bs "f")) = Ok (bs "<Cfg><net>1</net><log><file>f</file></log></Cfg>", None) /\
  set_opts env0 (fun _ => []) o' d (bs "cfg.log.file") (VStr (bs "f")) = Ok (bs "<Cfg><net>1</net>
<log>
  <file>f</file></log></Cfg>", None) /\
  spread (bs "  ") (bs "<Cfg><net>1</net><log><file>f</file></log></Cfg>") (bs "<Cfg><net>1</net>
<log>
  <file>f</file></log></Cfg>").
Proof.
  cbv zeta. do 5 (split; [vm_compute; reflexivity|]). cbv [bs list_ascii_of_string]. do 17 apply spread_char. apply (spread_line _ 0). cbn [List.repeat List.concat app]. do 5 apply spread_char. refine (spread_line _ 1 _ (bs "<file>f</file></log></Cfg>") _). cbv [bs list_ascii_of_string].
  repeat apply spread_char. apply spread_nil.
Qed.
(** The zero value of Options is not the default: it disregards case. *)
Theorem C108_zero_refuted : exists xml path, xml = bs "<A>1</A>" /\ path = bs "a" /\
  (let* r := get_opts env0 (mkOpts false [] false None) xml path in Ok (r_exists r)) = Ok true /\
  (let* r := get_opts env0 default_options xml path in Ok (r_exists r)) = Ok false.
Proof. exists (bs "<A>1</A>"), (bs "a"). repeat split; vm_compute; reflexivity. Qed.
Print Assumptions C108_zero_refuted.
(** Indent is written as it is: markup in it becomes part of the document, which need not
    be valid any more although Set reports success. *)
Theorem C108_markup_refuted : exists o xml path d, o_indent o = bs "<" /\ valid xml = true /\
  set_opts env0 (fun _ => []) o xml path (VStr (bs "v")) = Ok (d, None) /\ valid d = false.
Proof. exists (mkOpts true (bs "<") false None), (bs "<a></a>"), (bs "a.b.c"). eexists. repeat split; vm_compute; reflexivity. Qed.
Print Assumptions C108_markup_refuted.
