(** Theorem C77: a change of one selector changes one token. *)
From Verif Require Import PropFacts1 CodeFacts ElementFacts Inv Fuel ExampleFacts Properties1 OrderFacts Lex.
From Verif Require Import Properties2 Properties6 Properties8 Properties13 Properties21 Properties26 Properties35 Properties37.
From Verif Require Import SpecStr SpecGrammar SpecOut SpecRead SpecOrder SpecReports SpecConfined SpecStop SpecOneChild SpecSelected Nightly.
From Verif Require Import OneChildFacts RenamedFacts SelectedFacts.
Open Scope list_scope.
Close Scope expand_scope.

(** One class, or one id, of an element or component has another name.  Then there is a
    panic in one view if and only if there is one in the other, and for the same reasons;
    and otherwise the same is reported. *)
Theorem C77_panics E a b u v cs cs' : env_ok E -> wf a -> wf b ->
  children_phrase E a cs -> children_phrase E b cs' -> reselected u v cs cs' ->
  ((exists w, mview E a = Panicked w) <-> (exists w, mview E b = Panicked w)) /\
  (forall w, view_stops cs w <-> view_stops cs' w).
Proof.
  intros HE Ha Hb Hpa Hpb Hr.
  assert (Q : forall w, view_stops cs w <-> view_stops cs' w).
  { intros w. split; [|now apply (reselected_stops u v)].
    apply (reselected_stops v u). now apply reselected_sym. }
  split; [|exact Q]. destruct (C55_grammar E a cs HE Ha Hpa) as [A1 A2]. destruct (C55_grammar E b cs' HE Hb Hpb) as [B1 B2].
  split; intros (w & H); [apply B2|apply A2]; exists w; apply Q; auto.
Qed.
Print Assumptions C77_panics.

Theorem C77_reports E a b u v cs cs' ds : env_ok E -> wf a -> wf b ->
  children_phrase E a cs -> children_phrase E b cs' -> reselected u v cs cs' ->
  (mview E a = Errors ds <-> mview E b = Errors ds) /\
  ((exists out, mview E a = Expanded out) <-> (exists out, mview E b = Expanded out)).
Proof.
  intros HE Ha Hb Hpa Hpb Hr. destruct (C77_panics E a b u v cs cs' HE Ha Hb Hpa Hpb Hr) as [Hp _].
  assert (Q := reselected_reports u v cs cs' Hr).
  assert (Ra := C47_reports E a cs HE Ha Hpa). assert (Rb := C47_reports E b cs' HE Hb Hpb). rewrite Q in Ra.
  destruct (mview E a) as [o|l|w|], (mview E b) as [o'|l'|w'|]; try contradiction;
    try (destruct (proj1 Hp) as (? & K); [now eexists|discriminate K]);
    try (destruct (proj2 Hp) as (? & K); [now eexists|discriminate K]);
    try (destruct Rb; congruence); try (destruct Ra; congruence).
  - split; split; try discriminate; eauto.
  - destruct Ra as [-> _], Rb as [-> _]. split; [tauto|]. split; intros (? & K); discriminate K.
  - split; split; try discriminate; intros (? & K); discriminate K.
Qed.
Print Assumptions C77_reports.

Theorem C77_reports_nightly E a b u v cs cs' o o' ds ds' : env_ok E -> wf a -> wf b ->
  children_phrase E a cs -> children_phrase E b cs' -> reselected u v cs cs' ->
  mview_nightly E a = Gave o ds -> mview_nightly E b = Gave o' ds' -> ds = ds'.
Proof.
  intros HE Ha Hb Hpa Hpb Hr R R'. assert (Q := reselected_reports u v cs cs' Hr).
  assert (Ra := C47_reports_nightly E a cs HE Ha Hpa). assert (Rb := C47_reports_nightly E b cs' HE Hb Hpb).
  rewrite R in Ra. rewrite R' in Rb. congruence.
Qed.
Print Assumptions C77_reports_nightly.

(** If one expands, so does the other; and the codes are the same but for the one token
    that stands for the selector: up to the order of slots, and literally so for some
    order.  (If no code is made for the element, they are the same.) *)
Theorem C77_code E a b u v cs cs' out : env_ok E -> wf a -> wf b ->
  children_phrase E a cs -> children_phrase E b cs' ->
  reselected u v cs cs' ->
  mview E a = Expanded out ->
  exists out' E' out'', mview E b = Expanded out' /\
    generic_args E' = generic_args E /\ env_ok E' /\ mview E' b = Expanded out'' /\
    reordered out' out'' /\ (out = out'' \/ same_around [u] [v] out out'').
Proof.
  intros HE Ha Hb Hpa Hpb Hr Hm.
  destruct (C77_reports E a b u v cs cs' [] HE Ha Hb Hpa Hpb Hr) as [_ [He _]]. destruct He as (out' & Hm'); [eauto|].
  exists out'.
  assert (Hra : root_code cs out) by (apply (expands_root E a); now split; [|split; [|split]]).
  assert (Hrb : root_code cs' out') by (apply (expands_root E b); now split; [|split; [|split]]).
  destruct (reselected_code u v cs cs' out out' Hr Hra Hrb) as (o & Hc & Hd).
  assert (Hsp : mview_spec E b o) by (exists cs'; now split).
  destruct (C43_every_meaning E b o HE Hb Hsp) as (E' & Hg & HE' & Hm2). exists E', o.
  split; [exact Hm'|]. split; [exact Hg|]. split; [exact HE'|]. split; [exact Hm2|]. split; [|exact Hd].
  apply (C27_order E E' b cs' cs'); [intros ts; now rewrite Hg| |].
  - now split; [|split; [|split]].
  - split; [exact HE'|]. split; [exact Hb|]. split; [|exact Hm2].
    eapply same_phrase; [intros ts; symmetry; now rewrite Hg|exact HE|exact HE'|exact Hb|exact Hpb].
Qed.
Print Assumptions C77_code.

Theorem C77_one_name E a b u v cs cs' out : env_ok E -> wf a -> wf b ->
  children_phrase E a cs -> children_phrase E b cs' ->
  reselected u v cs cs' ->
  (forall k e, anywhere cs' k e -> one_slot_name e) ->
  mview E a = Expanded out ->
  exists out', mview E b = Expanded out' /\ (out = out' \/ same_around [u] [v] out out').
Proof.
  intros HE Ha Hb Hpa Hpb Hr Hone Hm.
  destruct (C77_code E a b u v cs cs' out HE Ha Hb Hpa Hpb Hr Hm) as (out' & E' & o & Hm' & Hg & HE' & Hm2 & _ & H).
  assert (Q : mview E b = mview E' b).
  { apply C41_same; [exact HE|exact HE'|intros ts; now rewrite Hg|]. intros l (r & ds & Hl).
    assert (Hp := C03_accepts_grammar E b _ cs' HE Hb (Nat.lt_succ_diag_r _) Hpb). unfold children_of in Hl. rewrite Hp in Hl.
    inversion Hl; subst. exact Hone. }
  exists out'. split; [exact Hm'|]. rewrite Hm', Hm2 in Q. injection Q as ->. exact H.
Qed.
Print Assumptions C77_one_name.

(** ** Cases *)

(** The selector [s] of an element or component with the name [n], between others. *)
Definition selected_view (n s : string) : list tt := view_with (n ++ ".k#p" ++ s ++ "#q.r on:e={1} { 'm' }")%string.
Definition the_tag (n : string) : tag :=
  match first_child (tree_of (lex (n ++ ";")%string)) with CElement e => el_tag e | _ => one_name (Id false "") end.
Definition kb (s : string) (n : nat) : kebab := Kebab s n.
Definition around_sel (s : selector) : tag -> tt := fun t =>
  selector_token t [SelClass (kb "k" 1); SelId (kb "p" 1)] [SelId (kb "q" 1); SelClass (kb "r" 1)] s.
Definition selector_change (n x x' : string) (s s' : selector) : Prop :=
  wf (selected_view n x) /\ wf (selected_view n x') /\
  children_phrase E0 (selected_view n x) (tree_of (selected_view n x)) /\
  children_phrase E0 (selected_view n x') (tree_of (selected_view n x')) /\
  reselected (around_sel s (the_tag n)) (around_sel s' (the_tag n)) (tree_of (selected_view n x)) (tree_of (selected_view n x')) /\
  mview E0 (selected_view n x) = Expanded (out_of (selected_view n x)) /\
  out_of (selected_view n x) <> out_of (selected_view n x').
Ltac show_selector n x x' s s' :=
  assert (H1 : expands E0 (selected_view n x) (tree_of (selected_view n x)) (out_of (selected_view n x))) by (apply case_expands; vm_compute; reflexivity);
  assert (H2 : expands E0 (selected_view n x') (tree_of (selected_view n x')) (out_of (selected_view n x'))) by (apply case_expands; vm_compute; reflexivity);
  destruct H1 as (_ & W1 & P1 & M1); destruct H2 as (_ & W2 & P2 & M2); unfold selector_change;
  split; [exact W1|]; split; [exact W2|]; split; [exact P1|]; split; [exact P2|];
  split; [eapply (rs_intro _ _ _ _ (the_tag n) [SelClass (kb "k" 1); SelId (kb "p" 1)] s s' [SelId (kb "q" 1); SelClass (kb "r" 1)]);
          [constructor|reflexivity|reflexivity|]; vm_compute; find_edit|];
  split; [exact M1|]; vm_compute; discriminate.
Example C77_case_class : selector_change "i" ".a" ".b-c" (SelClass (kb "a" 1)) (SelClass (kb "b-c" 2)).
Proof. show_selector "i"%string ".a"%string ".b-c"%string (SelClass (kb "a" 1)) (SelClass (kb "b-c" 2)). Qed.
Example C77_case_id : selector_change "i" "#a" "#b" (SelId (kb "a" 1)) (SelId (kb "b" 1)).
Proof. show_selector "i"%string "#a"%string "#b"%string (SelId (kb "a" 1)) (SelId (kb "b" 1)). Qed.
Example C77_case_component_class : selector_change "Q" ".a" ".b" (SelClass (kb "a" 1)) (SelClass (kb "b" 1)).
Proof. show_selector "Q"%string ".a"%string ".b"%string (SelClass (kb "a" 1)) (SelClass (kb "b" 1)). Qed.
Example C77_case_component_id : selector_change "Q" "#a" "#b" (SelId (kb "a" 1)) (SelId (kb "b" 1)).
Proof. show_selector "Q"%string "#a"%string "#b"%string (SelId (kb "a" 1)) (SelId (kb "b" 1)). Qed.
