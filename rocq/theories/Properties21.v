(** Theorem C55: which views make the macro panic. *)
From Verif Require Import StopFacts PropFacts1 CodeFacts ElementFacts TreeInv Report Inv Fuel Context ExampleFacts Properties1 Properties13.
From Verif Require Import ReportsFacts PlacedFacts SpellOnce PlacesIn SpanExamples SLex Properties17.
From Verif Require Import SpecStr SpecGrammar SpecReports SpecSpan SpecSpell SpecBroken SpecStop STokens.
From Verif Require Import BrokenFacts BrokenFacts2 BrokenFacts3 Properties15 Properties20.
Open Scope list_scope.
Close Scope sparse_scope.
Close Scope expand_scope.

(** What makes a view panic, by its description: a name while it is read, or
    something in the tree. *)
Definition panics_with (E : senv) (input : list stt) (w : panic) : Prop :=
  (exists ds, ab_children E Call input (Some w) ds) \/
  (exists cs ds, rd_children E Call input cs ds /\ view_stops (map echild cs) w).

Lemma smview_panics E input w : senv_ok E -> smview E input = SPanicked w <-> mview (s_env E) (erases input) = Panicked w.
Proof.
  intros (_ & HG & _). destruct (C49_model E input HG) as [H _]. destruct (smview E input); cbn [eresult] in H; rewrite <- H;
    split; congruence.
Qed.
Lemma smview_nightly_panics E input w : smview_nightly E input = SCrashed w <-> smview E input = SPanicked w.
Proof.
  unfold smview, smview_nightly. destruct (sparse_children E _ Call input) as [[cs|e s| |w'|] r ds]; try (split; congruence).
  destruct (sroot_tokens E cs) as [[ts| |w'] ds']; try (split; congruence). destruct (ds ++ ds'); split; congruence.
Qed.
Lemma mview_panics E input w cs r ds : children_of E input = PR (Ret cs) r ds ->
  mview E input = Panicked w <-> x_out (root_tokens E cs) = XPanic w.
Proof.
  unfold children_of, mview. intros ->. destruct (root_tokens E cs) as [[ts| |w'] ds']; cbn [x_out];
    [destruct (ds ++ ds')|..]; split; congruence.
Qed.

(** ** C55: exactly the panics of the description *)

(** If the macro panics, then at something in the description, which the
    message names; if there is something, it panics. *)
Theorem C55_panics E input : senv_ok E -> wf (erases input) ->
  (forall w, smview E input = SPanicked w -> panics_with E input w) /\
  ((exists w, panics_with E input w) -> exists w, smview E input = SPanicked w).
Proof.
  intros HE Hw. assert (Hn := Nat.lt_succ_diag_r (size (erases input))).
  destruct (children_all E HE (S (size (erases input)))) as (Hr & _ & _).
  assert (Hroot : forall cs ds, rd_children E Call input cs ds ->
    (forall w, smview E input = SPanicked w <-> x_out (root_tokens (s_env E) (map echild cs)) = XPanic w) /\
    (forall w, x_out (root_tokens (s_env E) (map echild cs)) = XPanic w -> view_stops (map echild cs) w) /\
    ((exists w, view_stops (map echild cs) w) -> exists w, x_out (root_tokens (s_env E) (map echild cs)) = XPanic w)).
  { intros cs ds Hd. assert (Hrun := Hr _ _ _ _ Hn Hw Hd). split.
    - intros w. rewrite smview_panics by auto. destruct HE as (He & HG & _).
      assert (Hs := sim_children E HG (S (size (erases input))) Call input). rewrite Hrun in Hs.
      exact (mview_panics _ _ w _ _ _ (eq_sym Hs)).
    - apply pan_root; [apply HE|]. exact (broken_plain _ _ _ _ _ HE Hrun). }
  split.
  - intros w H. destruct (C54_described E input HE Hw) as [(cs & ds & Hd)|([w'|] & ds & Hd)].
    + right. exists cs, ds. split; auto. destruct (Hroot cs ds Hd) as (H1 & H2 & _). now apply H2, H1.
    + left. exists ds. destruct (C54_panics _ _ _ _ HE Hw Hd) as [H' _]. rewrite H' in H. now injection H as <-.
    + destruct (C54_aborts _ _ _ HE Hw Hd) as [H' _]. congruence.
  - intros (w & [(ds & Hd)|(cs & ds & Hd & Hs)]).
    + exists w. now apply (C54_panics _ _ _ ds).
    + destruct (Hroot cs ds Hd) as (H1 & _ & H3). destruct H3 as (w' & H'); [eauto|]. exists w'. now apply H1.
Qed.
Print Assumptions C55_panics.

Theorem C55_panics_nightly E input : senv_ok E -> wf (erases input) ->
  (forall w, smview_nightly E input = SCrashed w -> panics_with E input w) /\
  ((exists w, panics_with E input w) -> exists w, smview_nightly E input = SCrashed w).
Proof.
  intros HE Hw. destruct (C55_panics E input HE Hw) as [H1 H2]. split.
  - intros w H. now apply H1, smview_nightly_panics.
  - intros H. destruct (H2 H) as (w & H'). exists w. now apply smview_nightly_panics.
Qed.
Print Assumptions C55_panics_nightly.

(** For a view of the grammar only the tree matters. *)
Theorem C55_grammar E input cs : env_ok E -> wf input -> children_phrase E input cs ->
  (forall w, mview E input = Panicked w -> view_stops cs w) /\
  ((exists w, view_stops cs w) -> exists w, mview E input = Panicked w).
Proof.
  intros HE Hw Hp. assert (Hrun := C03_accepts_grammar _ _ _ _ HE Hw (Nat.lt_succ_diag_r _) Hp).
  destruct (pan_root E cs HE (parsed_plain _ _ _ _ _ _ HE (Nat.lt_succ_diag_r _) Hrun)) as [H1 H2]. split.
  - intros w H. apply H1. now apply (mview_panics _ _ w _ _ _ Hrun).
  - intros H. destruct (H2 H) as (w & H'). exists w. now apply (mview_panics _ _ w _ _ _ Hrun).
Qed.
Print Assumptions C55_grammar.

(** So the views that are expanded are exactly those without an error, without
    a report about their tree, and without such a name. *)
Theorem C55_expanded E input : senv_ok E -> wf (erases input) ->
  (exists ts, smview E input = SExpanded ts) <->
  exists cs, rd_children E Call input cs [] /\ placed_reports E cs = [] /\ forall w, ~ view_stops (map echild cs) w.
Proof.
  intros HE Hw. destruct (C55_panics E input HE Hw) as [H1 H2]. split.
  - intros (ts & Hts). destruct (C54_described E input HE Hw) as [(cs & ds & Hd)|([w'|] & ds & Hd)].
    + assert (H := C54_reports _ _ _ _ HE Hw Hd). rewrite Hts in H. destruct H as [-> Hp]. exists cs. repeat split; auto.
      intros w Hv. destruct H2 as (w' & H'); [|congruence]. exists w. right. eauto.
    + destruct (C54_panics _ _ _ _ HE Hw Hd). congruence.
    + destruct (C54_aborts _ _ _ HE Hw Hd). congruence.
  - intros (cs & Hd & Hp & Hv). assert (H := C54_reports _ _ _ _ HE Hw Hd).
    destruct (smview E input) as [ts|ds|w|]; [eauto|..|tauto].
    + destruct H as [-> Hne]. rewrite Hp in Hne. now destruct Hne.
    + exfalso. destruct (H1 w eq_refl) as [(ds & Ha)|(cs' & ds & Hd' & Hv')].
      * destruct (C54_once E input HE Hw) as (_ & _ & Ho). exact (Ho _ _ _ _ Hd Ha).
      * destruct (C54_once E input HE Hw) as (Ho & _). destruct (Ho _ _ _ _ Hd Hd') as [<- _]. exact (Hv w Hv').
Qed.
Print Assumptions C55_expanded.

(** *** Cases *)

Definition stops_case (s : string) (w : panic) : Prop :=
  wf (erases (slex s)) /\ panics_with SE1 (slex s) w /\ smview SE1 (slex s) = SPanicked w.
Lemma stops_case_ok s w : wfb (erases (slex s)) = true -> smview SE1 (slex s) = SPanicked w -> stops_case s w.
Proof.
  intros Hb H. assert (Hw := wfb_ok _ Hb). split; [exact Hw|]. split; [|exact H].
  exact (proj1 (C55_panics _ _ SE1_ok Hw) _ H).
Qed.
(** A key of an element, of a component, of a slot; a slot's name and tag. *)
Example C55_case :
  stops_case "p { q self=1; }" (PNewRaw "self") /\
  stops_case "Foo { slot:Bar on:click={1} _={2}; }" (PNewRaw "_") /\
  stops_case "Foo on:super={1};" (PNewRaw "super") /\
  stops_case "Foo { slot:Bar { slot:Crate; } }" (PNewRaw "crate") /\
  stops_case "Foo { slot:p; }" PSlotTag /\
  stops_case "p a=; Foo { slot:p; }" PSlotTag.
Proof. do 5 (split; [apply stops_case_ok; vm_compute; reflexivity|]). apply stops_case_ok; vm_compute; reflexivity. Qed.
(** The same names where they are strings or not looked at. *)
Definition expands_case (s : string) : Prop :=
  wf (erases (slex s)) /\ (exists ts, smview SE1 (slex s) = SExpanded ts) /\
  exists cs, rd_children SE1 Call (slex s) cs [] /\ placed_reports SE1 cs = [] /\ forall w, ~ view_stops (map echild cs) w.
Lemma expands_case_ok s : wfb (erases (slex s)) = true ->
  (match smview SE1 (slex s) with SExpanded _ => true | _ => false end) = true -> expands_case s.
Proof.
  intros Hb H. assert (Hw := wfb_ok _ Hb). split; [exact Hw|].
  assert (He : exists ts, smview SE1 (slex s) = SExpanded ts) by (destruct (smview SE1 (slex s)); try discriminate; eauto).
  split; [exact He|]. apply C55_expanded in He; auto. apply SE1_ok.
Qed.
Example C55_expanded_case :
  Forall expands_case
    ["path self=1;"; "my-tag self=1;"; "p a=1 -=1;"; "p class:self={1};"; "p prop:self={1};"; "Foo attr:-=1;";
     "p { slot:Super self=1; }"]%string.
Proof. repeat apply Forall_cons; try apply Forall_nil; apply expands_case_ok; vm_compute; reflexivity. Qed.
