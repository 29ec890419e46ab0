(** C01: escaping of text. *)
From Coq Require Import List Ascii String NArith.
From Verif Require Import GoStr ModelParser ModelBuilder SpecText ProofEscape.
Import ListNotations.

(** The text Set writes for a string value can neither open or close a tag nor a
    quote, and every ampersand in it starts a predefined reference. *)
Theorem C01_escaped_text_inert : forall fmt_g (v : bytes) t,
  value_to_xml fmt_g (VStr v) = inr t -> Inert t.
Proof. intros fmt_g v t H. injection H as <-. exact (escape_inert v). Qed.
Print Assumptions C01_escaped_text_inert.

(** It denotes exactly the value, and reading it back gives the value. *)
Theorem C01_escape_lossless : forall fmt_g (v : bytes) t,
  value_to_xml fmt_g (VStr v) = inr t -> Decodes t v /\ unescape_xml t = v.
Proof. intros fmt_g v t H. injection H as <-. exact (conj (escape_decodes v) (unescape_escape v)). Qed.
Print Assumptions C01_escape_lossless.

(** Different values are written as different texts. *)
Theorem C01_escape_injective : forall fmt_g (v w : bytes) t,
  value_to_xml fmt_g (VStr v) = inr t -> value_to_xml fmt_g (VStr w) = inr t -> v = w.
Proof. intros fmt_g v w t H1 H2. injection H1 as <-. injection H2 as H2. exact (eq_sym (escape_inj _ _ H2)). Qed.
Print Assumptions C01_escape_injective.

(** Reading decodes the predefined references of any text, and nothing else. *)
Theorem C01_unescape_decodes : forall t s, Decodes t s <-> unescape_xml t = s.
Proof.
  intros t s. split.
  - intros H. exact (decodes_fun _ _ (unescape_decodes t) _ H).
  - intros <-. exact (unescape_decodes t).
Qed.
Print Assumptions C01_unescape_decodes.

Example C01_example :
  escape_xml (bs "<a b='&amp;'>") = bs "&lt;a b=&apos;&amp;amp;&apos;&gt;" /\
  unescape_xml (bs "&lt;a b=&apos;&amp;amp;&apos;&gt;") = bs "<a b='&amp;'>" /\
  unescape_xml (bs "&amp;lt; &x; &") = bs "&lt; &x; &".
Proof. vm_compute. auto. Qed.
