(** Theorem C75: the name of an element is only written. *)
From Verif Require Import PropFacts1 CodeFacts ElementFacts Inv Fuel ExampleFacts Properties1 OrderFacts Lex.
From Verif Require Import Properties2 Properties6 Properties8 Properties13 Properties21 Properties26 Properties35 Properties37.
From Verif Require Import SpecStr SpecGrammar SpecOut SpecRead SpecOrder SpecReports SpecConfined SpecStop SpecOneChild SpecRenamed Nightly.
From Verif Require Import OneChildFacts RenamedFacts.
Open Scope list_scope.
Close Scope expand_scope.

Lemma no_component t u : written_name t = Some u -> forall p, t <> TagComponent p.
Proof. intros H p ->. discriminate H. Qed.

(** One element that is no component has another name of the same kind.  Then there is a
    panic in one view if and only if there is one in the other, and for the same reasons;
    and otherwise the same is reported. *)
Theorem C75_panics E a b t t' u cs cs' : env_ok E -> wf a -> wf b ->
  children_phrase E a cs -> children_phrase E b cs' -> written_name t = Some u -> renamed t t' cs cs' ->
  ((exists w, mview E a = Panicked w) <-> (exists w, mview E b = Panicked w)) /\
  (forall w, view_stops cs w <-> view_stops cs' w).
Proof.
  intros HE Ha Hb Hpa Hpb Hu Hr. assert (Hn := no_component _ _ Hu).
  assert (Q : forall w, view_stops cs w <-> view_stops cs' w).
  { intros w. split; [|now apply (renamed_stops t t')].
    apply (renamed_stops t' t); [now apply (renamed_tags _ _ _ _ Hr)|now apply renamed_sym]. }
  split; [|exact Q]. destruct (C55_grammar E a cs HE Ha Hpa) as [A1 A2]. destruct (C55_grammar E b cs' HE Hb Hpb) as [B1 B2].
  split; intros (w & H); [apply B2|apply A2]; exists w; apply Q; auto.
Qed.
Print Assumptions C75_panics.

Theorem C75_reports E a b t t' u cs cs' ds : env_ok E -> wf a -> wf b ->
  children_phrase E a cs -> children_phrase E b cs' -> written_name t = Some u -> renamed t t' cs cs' ->
  (mview E a = Errors ds <-> mview E b = Errors ds) /\
  ((exists out, mview E a = Expanded out) <-> (exists out, mview E b = Expanded out)).
Proof.
  intros HE Ha Hb Hpa Hpb Hu Hr. destruct (C75_panics E a b t t' u cs cs' HE Ha Hb Hpa Hpb Hu Hr) as [Hp _].
  assert (Q := renamed_reports t t' cs cs' (no_component _ _ Hu) Hr).
  assert (Ra := C47_reports E a cs HE Ha Hpa). assert (Rb := C47_reports E b cs' HE Hb Hpb). rewrite Q in Ra.
  destruct (mview E a) as [o|l|w|], (mview E b) as [o'|l'|w'|]; try contradiction;
    try (destruct (proj1 Hp) as (? & K); [now eexists|discriminate K]);
    try (destruct (proj2 Hp) as (? & K); [now eexists|discriminate K]);
    try (destruct Rb; congruence); try (destruct Ra; congruence).
  - split; split; try discriminate; eauto.
  - destruct Ra as [-> _], Rb as [-> _]. split; [tauto|]. split; intros (? & K); discriminate K.
  - split; split; try discriminate; intros (? & K); discriminate K.
Qed.
Print Assumptions C75_reports.

Theorem C75_reports_nightly E a b t t' u cs cs' o o' ds ds' : env_ok E -> wf a -> wf b ->
  children_phrase E a cs -> children_phrase E b cs' -> written_name t = Some u -> renamed t t' cs cs' ->
  mview_nightly E a = Gave o ds -> mview_nightly E b = Gave o' ds' -> ds = ds'.
Proof.
  intros HE Ha Hb Hpa Hpb Hu Hr R R'. assert (Q := renamed_reports t t' cs cs' (no_component _ _ Hu) Hr).
  assert (Ra := C47_reports_nightly E a cs HE Ha Hpa). assert (Rb := C47_reports_nightly E b cs' HE Hb Hpb).
  rewrite R in Ra. rewrite R' in Rb. congruence.
Qed.
Print Assumptions C75_reports_nightly.

(** If one expands, so does the other; and the codes are the same but for the one token
    that is the name: up to the order of slots, and literally so for some order.  (If no
    code is made for the element, they are the same.) *)
Theorem C75_code E a b t t' u v cs cs' out : env_ok E -> wf a -> wf b ->
  children_phrase E a cs -> children_phrase E b cs' ->
  written_name t = Some u -> written_name t' = Some v -> renamed t t' cs cs' ->
  mview E a = Expanded out ->
  exists out' E' out'', mview E b = Expanded out' /\
    generic_args E' = generic_args E /\ env_ok E' /\ mview E' b = Expanded out'' /\
    reordered out' out'' /\ (out = out'' \/ same_around [u] [v] out out'').
Proof.
  intros HE Ha Hb Hpa Hpb Hu Hv Hr Hm.
  destruct (C75_reports E a b t t' u cs cs' [] HE Ha Hb Hpa Hpb Hu Hr) as [_ [He _]]. destruct He as (out' & Hm'); [eauto|].
  exists out'.
  assert (Hra : root_code cs out) by (apply (expands_root E a); now split; [|split; [|split]]).
  assert (Hrb : root_code cs' out') by (apply (expands_root E b); now split; [|split; [|split]]).
  destruct (renamed_code t t' u v Hu Hv (proj1 Hr) cs cs' out out' Hr Hra Hrb) as (o & Hc & Hd).
  assert (Hsp : mview_spec E b o) by (exists cs'; now split).
  destruct (C43_every_meaning E b o HE Hb Hsp) as (E' & Hg & HE' & Hm2). exists E', o.
  split; [exact Hm'|]. split; [exact Hg|]. split; [exact HE'|]. split; [exact Hm2|]. split; [|exact Hd].
  apply (C27_order E E' b cs' cs'); [intros ts; now rewrite Hg| |].
  - now split; [|split; [|split]].
  - split; [exact HE'|]. split; [exact Hb|]. split; [|exact Hm2].
    eapply same_phrase; [intros ts; symmetry; now rewrite Hg|exact HE|exact HE'|exact Hb|exact Hpb].
Qed.
Print Assumptions C75_code.

Theorem C75_one_name E a b t t' u v cs cs' out : env_ok E -> wf a -> wf b ->
  children_phrase E a cs -> children_phrase E b cs' ->
  written_name t = Some u -> written_name t' = Some v -> renamed t t' cs cs' ->
  (forall k e, anywhere cs' k e -> one_slot_name e) ->
  mview E a = Expanded out ->
  exists out', mview E b = Expanded out' /\ (out = out' \/ same_around [u] [v] out out').
Proof.
  intros HE Ha Hb Hpa Hpb Hu Hv Hr Hone Hm.
  destruct (C75_code E a b t t' u v cs cs' out HE Ha Hb Hpa Hpb Hu Hv Hr Hm) as (out' & E' & o & Hm' & Hg & HE' & Hm2 & _ & H).
  assert (Q : mview E b = mview E' b).
  { apply C41_same; [exact HE|exact HE'|intros ts; now rewrite Hg|]. intros l (r & ds & Hl).
    assert (Hp := C03_accepts_grammar E b _ cs' HE Hb (Nat.lt_succ_diag_r _) Hpb). unfold children_of in Hl. rewrite Hp in Hl.
    inversion Hl; subst. exact Hone. }
  exists out'. split; [exact Hm'|]. rewrite Hm', Hm2 in Q. injection Q as ->. exact H.
Qed.
Print Assumptions C75_one_name.

(** ** Cases *)

Definition named_view (s : string) : list tt := view_with (s ++ ".k on:e={1} { 'm' }")%string.
Definition the_tag (s : string) : tag :=
  match first_child (tree_of (lex (s ++ ";")%string)) with CElement e => el_tag e | _ => one_name (Id false "") end.
Definition name_change (s s' : string) : Prop :=
  wf (named_view s) /\ wf (named_view s') /\
  children_phrase E0 (named_view s) (tree_of (named_view s)) /\ children_phrase E0 (named_view s') (tree_of (named_view s')) /\
  written_name (the_tag s) <> None /\ written_name (the_tag s') <> None /\
  renamed (the_tag s) (the_tag s') (tree_of (named_view s)) (tree_of (named_view s')) /\
  mview E0 (named_view s) = Expanded (out_of (named_view s)) /\
  out_of (named_view s) <> out_of (named_view s').
Ltac show_names s s' :=
  assert (H1 : expands E0 (named_view s) (tree_of (named_view s)) (out_of (named_view s))) by (apply case_expands; vm_compute; reflexivity);
  assert (H2 : expands E0 (named_view s') (tree_of (named_view s')) (out_of (named_view s'))) by (apply case_expands; vm_compute; reflexivity);
  destruct H1 as (_ & W1 & P1 & M1); destruct H2 as (_ & W2 & P2 & M2); unfold name_change;
  split; [exact W1|]; split; [exact W2|]; split; [exact P1|]; split; [exact P2|];
  split; [vm_compute; discriminate|]; split; [vm_compute; discriminate|];
  split; [split; [vm_compute; reflexivity|]; eexists _, _, _, _; vm_compute; find_edit|]; split; [exact M1|]; vm_compute; discriminate.
Example C75_case_html : name_change "i" "section".
Proof. show_names "i"%string "section"%string. Qed.
Example C75_case_svg : name_change "circle" "rect".
Proof. show_names "circle"%string "rect"%string. Qed.
Example C75_case_web : name_change "x-y" "a-b-c".
Proof. show_names "x-y"%string "a-b-c"%string. Qed.

(** Names of different kinds: the attributes, too, are written in another way. *)
Example C75_other_kind :
  kind_of (the_tag "i") <> kind_of (the_tag "circle") /\
  mview E0 (lex "i self=1;") = Panicked (PNewRaw "self") /\
  (exists out, mview E0 (lex "circle self=1;") = Expanded out).
Proof. split; [vm_compute; discriminate|]. split; [vm_compute; reflexivity|]. eexists. vm_compute. reflexivity. Qed.
