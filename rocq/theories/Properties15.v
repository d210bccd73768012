(** Theorem C49: spans have no influence on the expansion. *)
From Verif Require Import SpecSpan Erase SpanExamples SLex SMacro.
Open Scope list_scope.

(** ** C49: spans only say where things are *)

(** Two inputs that differ only in spans (layout, files, which macro a token
    comes from), with any two ways of joining spans, have the same expansion
    and the same errors up to spans. *)
Theorem C49_layout E1 E2 i1 i2 : same_generic E1 -> same_generic E2 -> s_env E1 = s_env E2 ->
  erases i1 = erases i2 -> eresult (smview E1 i1) = eresult (smview E2 i2).
Proof. intros H1 H2 He Hi. now rewrite !erase_mview, He, Hi. Qed.
Print Assumptions C49_layout.

Theorem C49_layout_nightly E1 E2 i1 i2 : same_generic E1 -> same_generic E2 -> s_env E1 = s_env E2 ->
  erases i1 = erases i2 -> eanswer (smview_nightly E1 i1) = eanswer (smview_nightly E2 i2).
Proof. intros H1 H2 He Hi. now rewrite !erase_mview_nightly, He, Hi. Qed.
Print Assumptions C49_layout_nightly.

(** So everything proved about the model without spans holds for the model
    with spans. *)
Theorem C49_model E input : same_generic E ->
  eresult (smview E input) = mview (s_env E) (erases input) /\
  eanswer (smview_nightly E input) = mview_nightly (s_env E) (erases input).
Proof. intros H. split; [now apply erase_mview|now apply erase_mview_nightly]. Qed.
Print Assumptions C49_model.

(** The same view on one line and on three, without and with [Span::join]. *)
Definition one_line : string := "div.a-b { Foo<T> x=[y] |z| { {z} } }".
Definition three_lines : string :=
  "div.a-b  {
     Foo< T > x = [ y ] | z | { { z } }
   }".
Example C49_case :
  erases (slex one_line) = erases (slex three_lines) /\
  slex one_line <> slex three_lines /\
  smview SE0 (slex one_line) <> smview SE1 (slex one_line) /\
  eresult (smview SE0 (slex one_line)) = eresult (smview SE1 (slex three_lines)) /\
  (exists ts, eresult (smview SE0 (slex one_line)) = Expanded ts).
Proof.
  split; [vm_compute; reflexivity|]. split; [vm_compute; discriminate|].
  split; [vm_compute; discriminate|].
  split; [|eexists; vm_compute; reflexivity].
  apply C49_layout; [apply SE0_ok|apply SE1_ok|reflexivity|vm_compute; reflexivity].
Qed.
