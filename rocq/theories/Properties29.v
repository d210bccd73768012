(** Theorem C63: where the tokens given next to syntax errors point to. *)
From Verif Require Import PropFacts1 ExampleFacts Properties13 Properties17 WhereFacts UserIn UserBroken PlacesIn SpanExamples SLex.
From Verif Require Import BrokenFacts3 Properties18 Properties20.
From Verif Require Import SpecStr SpecGrammar SpecReports SpecSpan SpecSpell SpecBroken SpecWhere SMacro STokens.
Open Scope list_scope.
Close Scope sparse_scope.

(** ** C63: C52 for views with syntax errors *)

(** On nightly the tokens are used although errors are reported.  Each of them is
    a token of the tree that could be read, at the place it is written at (what
    stands in for a missing value is where that is reported), or one of the
    macro's, at the part of the view it stands for or at the call site. *)
Theorem C63_tokens E input cs ds : senv_ok E -> wf (erases input) -> rd_children E Call input cs ds ->
  forall ts ds', smview_nightly E input = SGave ts ds' -> Forall (placed E cs) (atoms ts).
Proof.
  intros HE Hw Hd ts ds'. destruct (children_all E HE (S (size (erases input)))) as (Hr & _ & _).
  unfold smview_nightly. rewrite (Hr _ _ _ _ (Nat.lt_succ_diag_r _) Hw Hd).
  assert (H := root_yields E HE cs (broken_good E HE (fun _ => True) ds input cs Call Hd
    ltac:(apply Forall_forall; intros; exact I))).
  destruct (sroot_tokens E cs) as [[ts'| |w] dr] eqn:Ho; try discriminate.
  - intros [= <- <-]. exact (H ts' eq_refl).
  - intros [= <- <-]. repeat constructor; right; constructor.
Qed.
Print Assumptions C63_tokens.

(** If everything ends at an incomplete directive, there is just [()] at the call
    site. *)
Theorem C63_cut E input ds : senv_ok E -> wf (erases input) -> ab_children E Call input None ds ->
  smview_nightly E input = SGave [SGroup (DSpan Call Call Call) Paren []] ds.
Proof.
  intros HE Hw Hd. destruct (children_all E HE (S (size (erases input)))) as (_ & Hr & _).
  unfold smview_nightly. destruct (Hr _ _ _ _ (Nat.lt_succ_diag_r _) Hw Hd) as [r Hrun]. rewrite Hrun. reflexivity.
Qed.
Print Assumptions C63_cut.

(** At the call site there are only tokens of the macro, and the empty string
    used in place of a literal that is no string, which is reported. *)
Theorem C63_call_site E input cs ds : senv_ok E -> wf (erases input) -> rd_children E Call input cs ds ->
  ~ points E input Call ->
  forall ts ds', smview_nightly E input = SGave ts ds' ->
  forall a, In (Call, a) (atoms ts) ->
  generated E cs Call a \/ (a = LLit LkStr "" /\ exists p, In (DNonStrChild, p) ds).
Proof.
  intros HE Hw Hd Hcall ts ds' Hts a Hin. assert (H := C63_tokens E input cs ds HE Hw Hd ts ds' Hts).
  rewrite Forall_forall in H. destruct (H _ Hin) as [Hu|Hg]; [|left; exact Hg]. cbn in Hu.
  destruct (user_found E HE (points E input)) with (D := ds) (input := input) (cs := cs) (sc := Call) (s := Call) (a := a) as [Hq|[_ [->|Hs]]]; auto.
  - intros x y Hx Hy. unfold joinx. destruct (s_join E x y) eqn:Ej; [|exact Hx]. exact (points_range E input x y s Hx Hy Ej).
  - apply Forall_forall. intros s Hin'. now apply points_at.
  - now destruct Hcall.
  - left. apply g_word. vm_compute. tauto.
Qed.
Print Assumptions C63_call_site.

(** And an identifier that is not one of the macro's stands where the user wrote
    it, or where a value is missing. *)
Theorem C63_names E input cs ds : senv_ok E -> wf (erases input) -> rd_children E Call input cs ds ->
  forall ts ds', smview_nightly E input = SGave ts ds' ->
  forall s i,
  (In (s, LWord i) (atoms ts) -> ~ In (i_name i) macro_words -> user E cs s (LWord i)) /\
  (In (s, LMethod i) (atoms ts) -> ~ In (i_name i) macro_methods -> user E cs s (LMethod i)).
Proof.
  intros HE Hw Hd ts ds' Hts s i. assert (H := C63_tokens E input cs ds HE Hw Hd ts ds' Hts). rewrite Forall_forall in H.
  split; intros Hin Hn; (destruct (H _ Hin) as [Hu|Hg]; [exact Hu|]); exfalso; apply Hn; cbn in Hg; clear - Hg.
  - inversion Hg; subst; repeat match goal with
      | H : In _ call_words |- _ => apply in_or_app; now left
      | H : In _ (_ :: _) |- _ => destruct H as [H|H]
      | H : In _ [] |- _ => destruct H
      | H : (if on_component ?e then _ else _) = _ |- _ => destruct (on_component e)
      | H : _ = LWord _ |- _ => try discriminate H; injection H as <-
      | H : _ = i_name _ |- _ => idtac
      end; try (vm_compute; tauto).
  - inversion Hg; subst; repeat match goal with
      | H : In _ (_ :: _) |- _ => destruct H as [H|H]
      | H : In _ [] |- _ => destruct H
      | H : (if on_component ?e then _ else _) = _ |- _ => destruct (on_component e)
      | H : _ = LMethod _ |- _ => try discriminate H; injection H as <-
      end; subst; try (vm_compute; tauto).
Qed.
Print Assumptions C63_names.

(** *** Cases *)

(** A missing value, an unknown prefix, a literal that is no string, an element
    that is not terminated and a stray semicolon. *)
Definition placed_broken : string := "p title= ; A on=x['2'] { 5 b } ; 's'".
Definition placed_broken_reports : list sdiag :=
  [(DExpectedValue false, Src 0 9 10); (DNonStrChild, Src 0 25 26); (DUnterminated, Src 0 27 28); (DExtraSemi, Src 0 31 32)].
Definition literals_of (l : list (span * atom)) : list (span * atom) :=
  filter (fun x => match snd x with LLit _ _ => true | _ => false end) l.
Example C63_case :
  (wf (erases (slex placed_broken)) /\
   rd_children SE1 Call (slex placed_broken) (spelled SE1 (slex placed_broken)) placed_broken_reports) /\
  exists ts,
  smview_nightly SE1 (slex placed_broken) = SGave ts (placed_broken_reports ++ [(DPrefix, Src 0 16 17)]) /\
  located_names ts =
    [(Src 0 0 1, LWord (Id true "p")); (Src 0 2 7, LMethod (Id true "title"));
     (Src 0 9 10, LWord (Id false "leptos_mview")); (Src 0 9 10, LWord (Id false "MissingValueAfterEq"));
     (Src 0 11 12, LWord (Id false "A")); (Src 0 11 12, LWord (Id false "leptos")); (Src 0 11 12, LWord (Id false "component"));
     (Src 0 11 12, LWord (Id false "component_props_builder")); (Src 0 11 12, LWord (Id false "A"));
     (Src 0 13 15, LMethod (Id true "on")); (Src 0 27 28, LWord (Id true "b")); (Src 0 11 12, LMethod (Id false "build"))] /\
  literals_of (atoms ts) = [(Call, LLit LkStr ""); (Src 0 33 36, LLit LkStr "s")].
Proof.
  assert (Hw : wf (erases (slex placed_broken))) by (apply wfb_ok; vm_compute; reflexivity).
  split; [split; [exact Hw|eapply rd_by_reading; [exact SE1_ok|exact Hw|]; vm_compute; reflexivity]|].
  eexists. split; [vm_compute; reflexivity|]. split; vm_compute; reflexivity.
Qed.

(** No span of that text is the call site. *)
Example C63_call_site_case : ~ points SE1 (slex placed_broken) Call.
Proof.
  assert (H : forall s, points SE1 (slex placed_broken) s -> s <> Call).
  { intros s Hs. induction Hs as [s Hs|a b s _ IHa _ IHb Hj].
    - intros ->. revert Hs. vm_compute. intros Hs. repeat (destruct Hs as [Hs|Hs]; [discriminate Hs|]). exact Hs.
    - destruct a as [|f lo hi], b as [|f' lo' hi']; try easy. cbn in Hj. destruct (Nat.eqb f f'); [|discriminate].
      injection Hj as <-. discriminate. }
  intros Hc. exact (H _ Hc eq_refl).
Qed.

(** Reading ends inside a block. *)
Definition placed_cut : string := "p { i a='x' on: } b { 's' }".
Example C63_cut_case :
  wf (erases (slex placed_cut)) /\ ab_children SE1 Call (slex placed_cut) None [(DAbortParse (EKebab AtEnd), Src 0 16 17)].
Proof.
  assert (Hw : wf (erases (slex placed_cut))) by (apply wfb_ok; vm_compute; reflexivity).
  split; [exact Hw|]. eapply ab_by_reading; [exact SE1_ok|exact Hw|]. vm_compute. reflexivity.
Qed.
