(** Theorem C54: what is reported about a view with syntax errors, and where. *)
From Verif Require Import PropFacts1 CodeFacts ElementFacts TreeInv Report Inv Fuel Context ExampleFacts Properties1 Properties13.
From Verif Require Import ReportsFacts PlacedFacts SpellOnce PlacesIn SpanExamples SLex Properties17.
From Verif Require Import SpecStr SpecGrammar SpecReports SpecSpan SpecSpell SpecBroken STokens.
From Verif Require Import BrokenFacts BrokenFacts2 BrokenFacts3 Properties15.
Open Scope list_scope.
Close Scope sparse_scope.

(** ** Trees read from views with errors *)

Scheme rd_children_ind2 := Induction for rd_children Sort Prop
  with rd_child_ind2 := Induction for rd_child Sort Prop
  with rd_element_ind2 := Induction for rd_element Sort Prop
  with rd_end_ind2 := Induction for rd_end Sort Prop.

Lemma broken_tell E : senv_ok E -> forall sc ts cs ds, rd_children E sc ts cs ds -> Forall (child_tells E) cs.
Proof.
  intros HE. intros sc ts cs ds H.
  apply (rd_children_ind2 E (fun _ _ cs _ _ => Forall (child_tells E) cs)
    (fun _ _ c _ _ _ => child_tells E c)
    (fun _ _ e _ _ _ => tag_span E (sel_tag e) = tag_place E (sel_tag e) /\
       forall at_ slot, tells (sexpand_element E at_ slot e) (p_element E slot e))
    (fun _ _ _ _ ch _ _ _ => Forall (child_tells E) (schild_list ch))) with sc ts ds;
    cbn [child_tells schild_list]; auto.
  - intros sc0 ts0 e ds0 follow _ [_ H0] _ _ _. exact H0.
  - intros. split; [eapply head_tag; eassumption|]. intros. now apply tells_element.
Qed.

Lemma broken_plain E input cs r ds : senv_ok E ->
  sparse_children E (S (size (erases input))) Call input = SPR (SRet cs) r ds -> Forall plain_child (map echild cs).
Proof.
  intros (He & HG & _) Hr. assert (Hs := sim_children E HG (S (size (erases input))) Call input). rewrite Hr in Hs.
  exact (parsed_plain _ _ _ _ _ _ He (Nat.lt_succ_diag_r _) (eq_sym Hs)).
Qed.

(** ** C54: the reports about any view *)

(** Exactly the reports of the description are made about a view with errors,
    at the places given there, and then those about the tree that could be
    read.  The view is expanded only if there are none. *)
Theorem C54_reports E input cs ds : senv_ok E -> wf (erases input) -> rd_children E Call input cs ds ->
  match smview E input with
  | SExpanded _ => ds = [] /\ placed_reports E cs = []
  | SErrors ds' => ds' = ds ++ placed_reports E cs /\ ds' <> []
  | SPanicked _ => True
  | SNoFuelLeft => False
  end.
Proof.
  intros HE Hw Hd. destruct (children_all E HE (S (size (erases input)))) as (Hr & _ & _).
  assert (Hrun := Hr _ _ _ _ (Nat.lt_succ_diag_r _) Hw Hd).
  unfold smview. rewrite Hrun.
  destruct (told_root E cs (broken_tell E HE _ _ _ _ Hd) (broken_plain _ _ _ _ _ HE Hrun)) as [(ts & ->)|[(-> & Hne)|(w & ds' & ->)]]; auto.
  - destruct (ds ++ placed_reports E cs) eqn:Ha; [now apply app_eq_nil in Ha|]. split; auto. discriminate.
  - split; auto. destruct ds; [exact Hne|discriminate].
Qed.
Print Assumptions C54_reports.

Theorem C54_reports_nightly E input cs ds : senv_ok E -> wf (erases input) -> rd_children E Call input cs ds ->
  match smview_nightly E input with
  | SGave _ ds' => ds' = ds ++ placed_reports E cs
  | SCrashed _ => True
  | SOutOfFuel => False
  end.
Proof.
  intros HE Hw Hd. destruct (children_all E HE (S (size (erases input)))) as (Hr & _ & _).
  assert (Hrun := Hr _ _ _ _ (Nat.lt_succ_diag_r _) Hw Hd).
  unfold smview_nightly. rewrite Hrun.
  destruct (told_root E cs (broken_tell E HE _ _ _ _ Hd) (broken_plain _ _ _ _ _ HE Hrun)) as [(ts & ->)|[(-> & Hne)|(w & ds' & ->)]]; auto.
Qed.
Print Assumptions C54_reports_nightly.

(** If reading ends at an incomplete directive, the reports up to there are
    made and nothing is expanded. *)
Theorem C54_aborts E input ds : senv_ok E -> wf (erases input) -> ab_children E Call input None ds ->
  smview E input = SErrors ds /\ smview_nightly E input = SGave sdummy ds /\ ds <> [].
Proof.
  intros HE Hw Hd. destruct (children_all E HE (S (size (erases input)))) as (_ & Ha & _).
  destruct (Ha _ _ _ _ (Nat.lt_succ_diag_r _) Hw Hd) as (r & Hrun).
  unfold smview, smview_nightly. rewrite Hrun. repeat split; auto.
  destruct HE as (He & HG & _). assert (Hs := sim_children E HG (S (size (erases input))) Call input). rewrite Hrun in Hs.
  destruct (children_of_cases (s_env E) (erases input) He) as [(cs & d & H)|[(q & d & H & Hne)|(w & q & d & H)]];
    unfold children_of in H; rewrite H in Hs; try discriminate.
  injection Hs as _ Hm. intros ->. now apply Hne.
Qed.
Print Assumptions C54_aborts.

(** If it ends at a name no identifier can be made of, the macro panics. *)
Theorem C54_panics E input w ds : senv_ok E -> wf (erases input) -> ab_children E Call input (Some w) ds ->
  smview E input = SPanicked w /\ smview_nightly E input = SCrashed w.
Proof.
  intros HE Hw Hd. destruct (children_all E HE (S (size (erases input)))) as (_ & Ha & _).
  destruct (Ha _ _ _ _ (Nat.lt_succ_diag_r _) Hw Hd) as (r & Hrun).
  unfold smview, smview_nightly. rewrite Hrun. auto.
Qed.
Print Assumptions C54_panics.

(** Every view has a description, and only one. *)
Theorem C54_described E input : senv_ok E -> wf (erases input) ->
  (exists cs ds, rd_children E Call input cs ds) \/ (exists o ds, ab_children E Call input o ds).
Proof.
  intros HE Hw. destruct (children_all E HE (S (size (erases input)))) as (_ & _ & Hc).
  exact (Hc Call input (Nat.lt_succ_diag_r _) Hw).
Qed.
Print Assumptions C54_described.

Theorem C54_once E input : senv_ok E -> wf (erases input) ->
  (forall cs ds cs' ds', rd_children E Call input cs ds -> rd_children E Call input cs' ds' -> cs = cs' /\ ds = ds') /\
  (forall o ds o' ds', ab_children E Call input o ds -> ab_children E Call input o' ds' -> o = o' /\ ds = ds') /\
  (forall cs ds o ds', rd_children E Call input cs ds -> ~ ab_children E Call input o ds').
Proof.
  intros HE Hw. destruct (children_all E HE (S (size (erases input)))) as (Hr & Ha & _).
  assert (Hr' := fun cs ds => Hr Call input cs ds (Nat.lt_succ_diag_r _) Hw).
  assert (Ha' := fun o ds => Ha Call input o ds (Nat.lt_succ_diag_r _) Hw).
  repeat split.
  - apply Hr' in H, H0. congruence.
  - apply Hr' in H, H0. congruence.
  - apply Ha' in H as (r & H), H0 as (r' & H'). rewrite H in H'. destruct o, o'; injection H'; congruence.
  - apply Ha' in H as (r & H), H0 as (r' & H'). congruence.
  - intros cs ds o ds' H H'. apply Hr' in H. apply Ha' in H' as (r' & H'). rewrite H in H'. destruct o; discriminate.
Qed.
Print Assumptions C54_once.

(** The views without reports in their description are those of the grammar,
    and the tree is that of [C51]. *)
Theorem C54_clean E input cs : senv_ok E -> wf (erases input) ->
  rd_children E Call input cs [] <->
  children_phrase (s_env E) (erases input) (map echild cs) /\ sp_children E input cs.
Proof.
  intros HE Hw. destruct (children_all E HE (S (size (erases input)))) as (Hr & Ha & Hc).
  assert (Hn := Nat.lt_succ_diag_r (size (erases input))). split.
  - intros Hd. assert (Hrun := Hr _ _ _ _ Hn Hw Hd).
    assert (Hp : children_phrase (s_env E) (erases input) (map echild cs)).
    { destruct HE as (He & HG & _). assert (Hs := sim_children E HG (S (size (erases input))) Call input).
      rewrite Hrun in Hs. exact (proj2 (C02_accepts_only_grammar _ _ _ _ _ He Hw Hn (eq_sym Hs))). }
    split; [exact Hp|]. destruct (read_tree _ _ _ HE Hw Hp) as (cs' & Hrun' & _ & Hs). congruence.
  - intros [Hp Hs]. assert (Hrun := read_this E input cs HE Hw Hp Hs).
    destruct (Hc Call input Hn Hw) as [(cs' & ds & H)|(o & ds & H)].
    + assert (Hrun' := Hr _ _ _ _ Hn Hw H). congruence.
    + destruct (Ha _ _ _ _ Hn Hw H) as (r & H'). rewrite Hrun in H'. destruct o; discriminate.
Qed.
Print Assumptions C54_clean.

(** *** Cases *)

(** The description of a view, found by reading it. *)
Lemma rd_by_reading E input cs r ds : senv_ok E -> wf (erases input) ->
  sparse_children E (S (size (erases input))) Call input = SPR (SRet cs) r ds -> rd_children E Call input cs ds.
Proof.
  intros HE Hw Hrun. destruct (children_all E HE (S (size (erases input)))) as (Hr & Ha & Hc).
  assert (Hn := Nat.lt_succ_diag_r (size (erases input))).
  destruct (Hc Call input Hn Hw) as [(cs' & ds' & H)|(o & ds' & H)].
  - assert (H' := Hr _ _ _ _ Hn Hw H). congruence.
  - destruct (Ha _ _ _ _ Hn Hw H) as (r' & H'). rewrite Hrun in H'. destruct o; discriminate.
Qed.
Lemma ab_by_reading E input o r ds : senv_ok E -> wf (erases input) ->
  sparse_children E (S (size (erases input))) Call input = SPR (ended o) r ds -> ab_children E Call input o ds.
Proof.
  intros HE Hw Hrun. destruct (children_all E HE (S (size (erases input)))) as (Hr & Ha & Hc).
  assert (Hn := Nat.lt_succ_diag_r (size (erases input))).
  destruct (Hc Call input Hn Hw) as [(cs' & ds' & H)|(o' & ds' & H)].
  - assert (H' := Hr _ _ _ _ Hn Hw H). rewrite Hrun in H'. destruct o; discriminate.
  - destruct (Ha _ _ _ _ Hn Hw H) as (r' & H'). rewrite Hrun in H'. destruct o, o'; injection H'; intros; subst; try discriminate; assumption.
Qed.

(** One error of each kind that is recovered from; [class:on:m] is reported
    about the tree. *)
Definition broken_view : string :=
  "p class:on:m a= b; i x-r#fn=2 c=; u { 5 ; 't' } br |x| b a=2 { f } q { A |z } em { i a=1 + } 's' & br;".
Definition broken_reports (joined : nat) : list sdiag :=
  [(DExpectedValue true, Src 0 16 17); (DRawInKebab, Src 0 23 27); (DExpectedValue false, Src 0 32 33);
   (DNonStrChild, Src 0 38 39); (DExtraSemi, Src 0 40 41); (DNoChildrenAfterArgs, Src 0 55 56);
   (DParse EClosure, Src 0 73 74); (DUnknownAttr, Src 0 89 90); (DNoChildElements, Src 0 83 joined);
   (DParse EChild, Src 0 89 90); (DParse EChild, Src 0 97 98)].
Example C54_case :
  wf (erases (slex broken_view)) /\
  rd_children SE1 Call (slex broken_view) (spelled SE1 (slex broken_view)) (broken_reports 90) /\
  placed_reports SE1 (spelled SE1 (slex broken_view)) = [(DModifier, Src 0 11 12)] /\
  smview SE1 (slex broken_view) = SErrors (broken_reports 90 ++ [(DModifier, Src 0 11 12)]) /\
  smview SE0 (slex broken_view) = SErrors (broken_reports 84 ++ [(DModifier, Src 0 11 12)]).
Proof.
  assert (Hw : wf (erases (slex broken_view))) by (apply wfb_ok; vm_compute; reflexivity).
  split; [exact Hw|]. split; [|repeat split; vm_compute; reflexivity].
  eapply rd_by_reading; [exact SE1_ok|exact Hw|]. vm_compute. reflexivity.
Qed.
(** Reading ends in a nested block; the reports made before are kept, and what
    follows is not looked at. *)
Definition cut_view : string := "p a-r#b=1 { q c=1 { i d: } } i a=; ".
Example C54_abort_case :
  wf (erases (slex cut_view)) /\
  ab_children SE1 Call (slex cut_view) None [(DRawInKebab, Src 0 4 7); (DAbortParse (EKebab AtEnd), Src 0 25 26)] /\
  smview SE1 (slex cut_view) = SErrors [(DRawInKebab, Src 0 4 7); (DAbortParse (EKebab AtEnd), Src 0 25 26)].
Proof.
  assert (Hw : wf (erases (slex cut_view))) by (apply wfb_ok; vm_compute; reflexivity).
  split; [exact Hw|]. split; [|vm_compute; reflexivity].
  eapply ab_by_reading; [exact SE1_ok|exact Hw|]. vm_compute. reflexivity.
Qed.
(** The call site is marked if something is missing at the end of the view. *)
Example C54_end_case :
  smview SE1 (slex "p |x|") = SErrors [(DNoChildrenAfterArgs, Call)] /\
  smview SE1 (slex "p { q |x| }") = SErrors [(DNoChildrenAfterArgs, Src 0 10 11)] /\
  smview SE1 (slex "p; q") = SErrors [(DUnterminated, Src 0 3 4)] /\
  smview SE1 (slex "p; q on:{a b}; & ") = SErrors [(DAbortParse EBraceExtra, Src 0 11 12)].
Proof. repeat split; vm_compute; reflexivity. Qed.
(** A panic hides the reports made before. *)
Example C54_panic_case :
  wf (erases (slex "p a=; q {self} ;")) /\
  ab_children SE1 Call (slex "p a=; q {self} ;") (Some (PNewRaw "self")) [(DExpectedValue false, Src 0 4 5)] /\
  smview SE1 (slex "p a=; q {self} ;") = SPanicked (PNewRaw "self").
Proof.
  assert (Hw : wf (erases (slex "p a=; q {self} ;"))) by (apply wfb_ok; vm_compute; reflexivity).
  split; [exact Hw|]. split; [|vm_compute; reflexivity].
  eapply ab_by_reading; [exact SE1_ok|exact Hw|]. vm_compute. reflexivity.
Qed.
