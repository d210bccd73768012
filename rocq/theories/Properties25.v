(** Theorem C59: which tokens are given, next to the errors, for a view with
    errors of any kind. *)
From Verif Require Import PropFacts1 CodeFacts ElementFacts TreeInv Report Inv Fuel Context ExampleFacts Properties1 Properties13.
From Verif Require Import ReportsFacts PlacedFacts SpanExamples SLex Lex.
From Verif Require Import SpecStr SpecGrammar SpecOut SpecReports SpecSpan SpecSpell SpecBroken SpecGaps Nightly.
From Verif Require Import BrokenFacts BrokenFacts2 BrokenFacts3 Properties15 Properties17 Properties20 GapFacts GapFacts2.
From Verif Require Import STokens.
Open Scope list_scope.
Close Scope sparse_scope.
Close Scope sexpand_scope.

(** What the expansion of a tree does. *)
Lemma root_gaps E cs : env_ok E -> Forall plain_child cs ->
  match x_out (root_tokens E cs) with
  | XRet ts => gap_root cs ts
  | XAbort => exists e, In (CSlot e) cs
  | XPanic _ => (forall e, ~ In (CSlot e) cs) /\ forall ts, ~ gap_root cs ts
  end.
Proof.
  intros HE Hpl. destruct (existsb is_slot cs) eqn:Hs.
  - assert (Hx : root_tokens E cs = xabort DRootSlot).
    { unfold root_tokens. rewrite Hs. destruct cs as [|c [|c' cs]]; auto. cbn in Hs. destruct c; try discriminate. reflexivity. }
    rewrite Hx. cbn. now apply is_slot_iff.
  - assert (Hs0 := proj1 (no_slots cs) Hs). clear Hs. rename Hs0 into Hs. assert (Ha := root_noabort E cs Hpl Hs). assert (Ht := fun ts => gap_root_total E cs ts HE).
    destruct (x_out (root_tokens E cs)) as [ts| |w] eqn:Hx.
    + now apply (gap_root_sound E).
    + now destruct Ha.
    + split; auto. intros ts H. destruct (Ht ts H) as (ts' & H'). discriminate.
Qed.

(** A view that can be read to the end, with the tree [cs] and whatever errors:
    the tokens are the code with gaps of [cs], or [()] if there is a slot at the
    root.  The macro panics just if there is no such code. *)
Theorem C59_gaps E input cs ds : senv_ok E -> wf (erases input) -> rd_children E Call input cs ds ->
  match smview_nightly E input with
  | SGave out _ =>
      gap_root (map echild cs) (erases out) \/ (exists e, In (CSlot e) (map echild cs)) /\ erases out = [parens []]
  | SCrashed _ => (forall e, ~ In (CSlot e) (map echild cs)) /\ forall ts, ~ gap_root (map echild cs) ts
  | SOutOfFuel => False
  end.
Proof.
  intros HE Hw Hd. destruct (children_all E HE (S (size (erases input)))) as (Hr & _ & _).
  assert (Hrun := Hr _ _ _ _ (Nat.lt_succ_diag_r _) Hw Hd).
  assert (Hpl := broken_plain _ _ _ _ _ HE Hrun). destruct HE as (He & HG & _).
  assert (Hx := root_gaps (s_env E) _ He Hpl). rewrite <- (ex_root E cs) in Hx.
  unfold smview_nightly. rewrite Hrun. destruct (sroot_tokens E cs) as [[ts| |w] ds']; cbn in Hx; auto.
Qed.
Print Assumptions C59_gaps.

(** In particular for the views of the grammar. *)
Theorem C59_grammar E input cs : env_ok E -> wf input -> children_phrase E input cs ->
  match mview_nightly E input with
  | Gave out _ => gap_root cs out \/ (exists e, In (CSlot e) cs) /\ out = [parens []]
  | Crashed _ => (forall e, ~ In (CSlot e) cs) /\ forall ts, ~ gap_root cs ts
  | OutOfFuel => False
  end.
Proof.
  intros HE Hw Hp. assert (Ht := clean_tree E input cs HE Hw Hp).
  assert (Hpl := parsed_plain _ _ _ _ _ _ HE (Nat.lt_succ_diag_r _) Ht).
  assert (Hx := root_gaps E _ HE Hpl). unfold mview_nightly. rewrite Ht.
  destruct (root_tokens E cs) as [[ts| |w] ds']; cbn in Hx; auto.
Qed.
Print Assumptions C59_grammar.

(** The code of SpecOut.v is the code with gaps of the trees about which nothing
    is reported. *)
Theorem C59_code cs out : root_code cs out <-> gap_root cs out /\ view_reports cs = [].
Proof.
  split; [|intros [H Hr]; now apply code_of_root].
  intros H. split; [now apply gap_of_root|]. destruct (root_total E0 cs out E0_ok H) as (ts & Hts).
  assert (Hy := says_root E0 cs ts). rewrite Hts in Hy. symmetry. now apply Hy.
Qed.
Print Assumptions C59_code.

(** A syntax error, an event that is a string, an unknown prefix and an unknown
    directive: what is left is expanded. *)
Definition gap_view : string := "input zz:y on:'e'={f} value=g['x'] a=;".
Example C59_case :
  wf (erases (slex gap_view)) /\
  rd_children SE1 Call (slex gap_view) (spelled SE1 (slex gap_view)) [(DExpectedValue false, Src 0 37 38)] /\
  match smview_nightly SE1 (slex gap_view) with
  | SGave out ds =>
      erases out = root_frame (rendered (tachys_html ["element"] ++ dcolon ++ [TIdent (Id true "input"); parens []] ++
        chain [SpecOut.Call (Id true "value") [];
               SpecOut.Call (Id true "a") [braces (abs_path ["leptos_mview"; "MissingValueAfterEq"])];
               plain_call "on" (tachys_html ["event"; "invalid_event"] ++ [sym ","; braces [word "f"]])])) /\
      map fst ds = [DExpectedValue false; DUnknownDirective; DEventType; DPrefix]
  | _ => False
  end.
Proof.
  assert (Hw : wf (erases (slex gap_view))) by (apply wfb_ok; vm_compute; reflexivity).
  split; [exact Hw|]. split; [eapply rd_by_reading; [exact SE1_ok|exact Hw|]; vm_compute; reflexivity|]. 
  vm_compute. split; reflexivity.
Qed.
