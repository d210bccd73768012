(** Theorem C47: what is reported about a view without syntax errors, and
    what is done with the attributes that are rejected. *)
From Verif Require Import PropFacts1 CodeFacts ElementFacts Inv Fuel ExampleFacts Properties1.
From Verif Require Import ReportsFacts.
From Verif Require Import SpecStr SpecGrammar SpecOut SpecReports Nightly Lex.
Open Scope list_scope.

Lemma clean_tree E input cs : env_ok E -> wf input -> children_phrase E input cs ->
  parse_children E (S (size input)) input = PR (Ret cs) [] [].
Proof. intros. apply C03_accepts_grammar; auto. Qed.

(** What the expansion of a tree that was read does. *)
Lemma clean_root E input cs : env_ok E -> wf input -> children_phrase E input cs ->
  (exists ts, root_tokens E cs = XR (XRet ts) (view_reports cs)) \/
  (root_tokens E cs = XR XAbort [DRootSlot] /\ view_reports cs = [DRootSlot]) \/
  (exists w ds, root_tokens E cs = XR (XPanic w) ds).
Proof.
  intros HE Hw Hp. assert (Ht := clean_tree E input cs HE Hw Hp).
  assert (Hpl := parsed_plain _ _ _ _ _ _ HE (Nat.lt_succ_diag_r _) Ht).
  destruct (existsb is_slot cs) eqn:Hs.
  - right. left. unfold view_reports. change (existsb (fun c => match c with CSlot _ => true | _ => false end) cs) with (existsb is_slot cs).
    rewrite Hs. split; auto. unfold root_tokens. rewrite Hs. destruct cs as [|c [|c' cs]]; auto.
    cbn in Hs. destruct c; try discriminate. reflexivity.
  - assert (Hn : no_root_slot cs).
    { intros e Hin. assert (existsb is_slot cs = true) by (apply is_slot_iff; eauto). congruence. }
    assert (Ha := root_noabort E cs Hpl Hn). assert (Hy := says_root E cs).
    destruct (root_tokens E cs) as [[ts| |w] ds]; [|now destruct Ha|eauto].
    left. exists ts. now rewrite <- (Hy ts eq_refl).
Qed.

(** A view that is read without errors is reported on exactly as described by
    [view_reports] (unless the macro panics): on stable nothing else is in the
    list of errors, and there is an expansion just if the list is empty. *)
Theorem C47_reports E input cs : env_ok E -> wf input -> children_phrase E input cs ->
  match mview E input with
  | Expanded _ => view_reports cs = []
  | Errors ds => ds = view_reports cs /\ ds <> []
  | Panicked _ => True
  | NoFuelLeft => False
  end.
Proof.
  intros HE Hw Hp. unfold mview. rewrite (clean_tree E input cs) by auto.
  destruct (clean_root E input cs HE Hw Hp) as [(ts & ->)|[(-> & ->)|(w & ds & ->)]]; cbn [app]; auto.
  - destruct (view_reports cs); auto. split; auto. discriminate.
  - split; auto. discriminate.
Qed.
Print Assumptions C47_reports.

Theorem C47_reports_nightly E input cs : env_ok E -> wf input -> children_phrase E input cs ->
  match mview_nightly E input with
  | Gave _ ds => ds = view_reports cs
  | Crashed _ => True
  | OutOfFuel => False
  end.
Proof.
  intros HE Hw Hp. unfold mview_nightly. rewrite (clean_tree E input cs) by auto.
  destruct (clean_root E input cs HE Hw Hp) as [(ts & ->)|[(-> & ->)|(w & ds & ->)]]; cbn [app]; auto.
Qed.
Print Assumptions C47_reports_nightly.

(** Rejected attributes, selectors and modifiers have no effect but their
    reports: a view of the same tree without them is expanded to the same
    tokens, and everything else is reported in the same order. *)
Theorem C47_tidy E a b cs : env_ok E -> wf a -> wf b ->
  children_phrase E a cs -> children_phrase E b (tidy cs) ->
  match mview_nightly E a, mview_nightly E b with
  | Gave ts ds, Gave ts' ds' => ts' = ts /\ ds' = others ds
  | Crashed w, Crashed w' => w' = w
  | _, _ => False
  end.
Proof.
  intros HE Ha Hb Hpa Hpb. unfold mview_nightly. rewrite (clean_tree E a cs), (clean_tree E b (tidy cs)) by auto.
  destruct (cleaner_root E cs) as [H1 H2].
  destruct (root_tokens E cs) as [o ds], (root_tokens E (tidy cs)) as [o' ds']. cbn in H1, H2. subst.
  destruct o; cbn [app]; auto.
Qed.
Print Assumptions C47_tidy.
(** In particular on stable. *)
Theorem C47_tidy_expands E a b cs ds : env_ok E -> wf a -> wf b ->
  children_phrase E a cs -> children_phrase E b (tidy cs) ->
  mview E a = Errors ds ->
  (others ds = [] -> exists ts, mview E b = Expanded ts) /\
  (others ds <> [] -> mview E b = Errors (others ds)).
Proof.
  intros HE Ha Hb Hpa Hpb. unfold mview. rewrite (clean_tree E a cs), (clean_tree E b (tidy cs)) by auto.
  assert (Hc := clean_root E b (tidy cs) HE Hb Hpb). destruct (cleaner_root E cs) as [H1 H2].
  destruct (root_tokens E cs) as [o d], (root_tokens E (tidy cs)) as [o' d']. cbn in H1, H2. subst.
  destruct o as [ts| |w]; cbn [app]; [| |discriminate].
  - intros H. assert (Hd : d = ds) by (destruct d; inversion H; auto). subst ds. unfold others.
    destruct (filter _ d); split; intros Hx; try congruence; eauto.
  - intros H. inversion H; subst. split; intros Hx; auto. exfalso.
    destruct Hc as [(ts & Hc)|[(Hc & _)|(w & ds' & Hc)]]; inversion Hc. unfold others in Hx. congruence.
Qed.
Print Assumptions C47_tidy_expands.

(** ** Cases *)

(** A view with something to reject in every role, and other errors. *)
Definition untidy_view : list tt := lex
  "div attr:x=1 class:a:m=[c] foo:y on:click:once={h} on:'z'={h} clone:q use:d:m {
     p; My.s clone:v:m=3 foo:y {..sp} on:e={x} class:a:m prop:'k'=1 w=g[1] {
       slot:Tab.c #d on:e={x} {..sp} label=1 clone:z { 'a' i clone:k; }
       'b' a::B; }
   }".
Definition tidy_view : list tt := lex
  "div class:a=[c] on:click={h} on:'z'={h} use:d {
     p; My.s clone:v {..sp} on:e={x} class:a:m prop:'k'=1 w=g[1] {
       slot:Tab label=1 clone:z { 'a' i; }
       'b' a::B; }
   }".
Definition tree_read (input : list tt) : list child :=
  match parse_children E0 (S (size input)) input with PR (Ret cs) _ _ => cs | _ => [] end.
Lemma view_by input : wf input -> p_diags (parse_children E0 (S (size input)) input) = [] ->
  p_out (parse_children E0 (S (size input)) input) = Ret (tree_read input) ->
  children_phrase E0 input (tree_read input).
Proof.
  intros Hw Hd Ho. destruct (parse_children E0 (S (size input)) input) as [o r d] eqn:Hp. cbn in Hd, Ho. subst.
  eapply C02_accepts_only_grammar; eauto. apply E0_ok.
Qed.
Definition untidy_reports : list diag :=
  [DNotOnElements "attr"; DModifier; DUnknownDirective; DUnknownOnModifier; DEventType; DNotOnElements "clone"; DModifier;
   DModifier; DModifier; DCloneValue; DUnknownDirective; DExpectedIdent; DPrefix;
   DSlotSelectors; DSlotDirective "on"; DSlotSpread; DNotOnElements "clone"].
Example C47_case :
  wf untidy_view /\ wf tidy_view /\
  children_phrase E0 untidy_view (tree_read untidy_view) /\
  children_phrase E0 tidy_view (tidy (tree_read untidy_view)) /\
  view_reports (tree_read untidy_view) = untidy_reports /\
  mview E0 untidy_view = Errors untidy_reports /\
  others untidy_reports = [DEventType; DExpectedIdent; DPrefix] /\
  mview E0 tidy_view = Errors [DEventType; DExpectedIdent; DPrefix].
Proof.
  assert (Hw : wf untidy_view) by (apply wfb_ok; vm_compute; reflexivity).
  assert (Hw' : wf tidy_view) by (apply wfb_ok; vm_compute; reflexivity).
  split; auto. split; auto. split; [apply view_by; auto; vm_compute; reflexivity|].
  split. { assert (Ht : tree_read tidy_view = tidy (tree_read untidy_view)) by (vm_compute; reflexivity).
           rewrite <- Ht. apply view_by; auto; vm_compute; reflexivity. }
  repeat split; vm_compute; reflexivity.
Qed.
(** A view that expands once tidied. *)
Example C47_tidy_expands_case :
  let a := lex "br attr:x; My { slot:T foo:y; p.c clone:k {..s}; }" in
  let b := lex "br; My { slot:T; p.c {..s}; }" in
  children_phrase E0 b (tidy (tree_read a)) /\ mview E0 a = Errors [DNotOnElements "attr"; DNotOnElements "clone"; DSlotDirective "foo"] /\
  exists ts, mview E0 b = Expanded ts.
Proof.
  cbv zeta. split.
  - assert (Ht : tree_read (lex "br; My { slot:T; p.c {..s}; }") = tidy (tree_read (lex "br attr:x; My { slot:T foo:y; p.c clone:k {..s}; }")))
      by (vm_compute; reflexivity).
    rewrite <- Ht. apply view_by; [apply wfb_ok|..]; vm_compute; reflexivity.
  - split; [vm_compute; reflexivity|]. eexists. vm_compute. reflexivity.
Qed.
