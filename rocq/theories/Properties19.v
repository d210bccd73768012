(** Theorem C53: what of a view is found in its expansion. *)
From Verif Require Import PropFacts1 ExampleFacts Properties13 Properties17 Properties18 KeptFacts SpanExamples SLex.
From Verif Require Import SpecStr SpecGrammar SpecReports SpecSpan SpecSpell SpecWhere SpecKept SMacro STokens.
Open Scope list_scope.
Close Scope sparse_scope.

(** ** C53: nothing of a view gets lost *)

(** Each value, name and piece of code of an expanded view is in the expansion,
    with the tokens it comes with and at the place it is written at.  [kept]
    lists what that is; the slots of elements and of slots are not in it. *)
Theorem C53_kept E input cs : senv_ok E -> wf (erases input) ->
  children_phrase (s_env E) (erases input) (map echild cs) -> sp_children E input cs ->
  forall ts, smview E input = SExpanded ts -> forall x, kept E cs x -> occurs x ts.
Proof.
  intros HE Hw Hp Hs ts. unfold smview. rewrite (read_this E input cs HE Hw Hp Hs).
  destruct (sroot_tokens E cs) as [[ts'| |w] ds] eqn:Hr; cbn [app]; try discriminate.
  destruct ds; [|discriminate]. intros [= <-]. exact (kept_occurs E HE input cs Hs ts' Hr).
Qed.
Print Assumptions C53_kept.

(** *** Cases *)

Ltac tree := match goal with |- context [spelled ?E ?x] => let t := eval vm_compute in (spelled E x) in change (spelled E x) with t end.
Lemma kept_eq E cs x y : kept E cs x -> x = y -> kept E cs y.
Proof. now intros H <-. Qed.

(** The view of C52: its attribute, event, class and child. *)
Example C53_case :
  let cs := spelled SE1 (slex where_view) in
  kept SE1 cs [dot Call; sident_token (SId (Src 0 6 11) (Id true "title"));
    in_parens Call [in_braces (Src 0 13 14) [SIdent (Src 0 13 14) (Id false "t")]]] /\
  kept SE1 cs [dot Call; sident_token (SId (Src 0 16 18) (Id false "on"))] /\
  kept SE1 cs [sident_token (SId (Src 0 19 24) (Id true "click"))] /\
  kept SE1 cs [dot Call; name_at (Src 0 1 2) "class";
    in_parens Call [in_parens Call [name_block_at (SKebab "a-b" [Src 0 2 3; Src 0 4 5]); comma Call; name_at Call "true"]]] /\
  kept SE1 cs [dot Call; name_at (Src 0 34 38) "child"] /\
  kept SE1 cs [SLit (Src 0 34 38) LkStr "hi"].
Proof.
  intros cs. subst cs. tree. 
  match goal with |- context [SCElement ?x] => set (e := x) end.
  assert (He : lives [SCElement e] false e) by (constructor; now left).
  repeat split.
  - eapply (k_method SE1 _ e); [exact He|reflexivity|left; reflexivity| | |apply (snake_iff SE1); vm_compute; reflexivity|].
    + discriminate.
    + intros (_ & _ & _ & [[]|Hc]). apply custom_iff in Hc. discriminate Hc.
    + apply w_block.
  - eapply kept_eq; [eapply (k_on SE1 _ e); [exact He|reflexivity|right; left; reflexivity|reflexivity]|reflexivity].
  - eapply kept_eq; [eapply (k_event SE1 _ e); [exact He|right; left; reflexivity|reflexivity|reflexivity|apply (snake_iff SE1); vm_compute; reflexivity]|reflexivity].
  - eapply kept_eq; [eapply (k_class SE1 _ e); [exact He|reflexivity|left; reflexivity]|reflexivity].
  - eapply kept_eq; [eapply (k_child SE1 _ e (SCValue _)); [exact He|reflexivity|left; reflexivity]|reflexivity].
  - eapply (k_value SE1); [eapply live_child; [exact He|reflexivity|left; reflexivity]|apply w_lit].
Qed.

(** The component of C52, with a selector, a spread and a cloned name. *)
Definition kept_component : string := "Tab<u8>.c on-pick=f['{x}'] {..at} clone:cx |z| { b; slot:Big { 'x' } }".
Example C53_component_case :
  let cs := spelled SE1 (slex kept_component) in
  (wf (erases (slex kept_component)) /\
   children_phrase (s_env SE1) (erases (slex kept_component)) (map echild cs) /\
   sp_children SE1 (slex kept_component) cs) /\
  (exists ts, smview SE1 (slex kept_component) = SExpanded ts) /\
  kept SE1 cs [sident_token (SId (Src 0 0 3) (Id false "Tab"))] /\
  kept SE1 cs [dot (Src 0 0 7); name_at (Src 0 0 7) "build"; in_parens (Src 0 0 7) []] /\
  kept SE1 cs [name_at (Src 0 7 8) "class"; in_parens Call [in_parens Call [text_at Call "c"; comma Call; name_at Call "true"]]] /\
  kept SE1 cs [SIdent (Src 0 30 32) (Id false "at")] /\
  kept SE1 cs [name_at Call "let"; sident_token (SId (Src 0 40 42) (Id true "cx")); SPunct Call "=" Alone;
               sident_token (SId (Src 0 40 42) (Id true "cx")); dot Call; name_at Call "clone"; in_parens Call []; SPunct Call ";" Alone] /\
  kept SE1 cs [name_at (Src 0 43 46) "move"; SPunct (Src 0 43 44) "|" Alone; SIdent (Src 0 44 45) (Id false "z"); SPunct (Src 0 45 46) "|" Alone] /\
  kept SE1 cs [dot Call; SIdent (Src 0 57 60) (Id true "big")] /\
  kept SE1 cs [sident_token (SId (Src 0 57 60) (Id false "Big"))] /\
  kept SE1 cs [SLit (Src 0 63 66) LkStr "x"].
Proof.
  intros cs. split; [apply spelled_ok; [exact SE1_ok|reflexivity| |]; vm_compute; reflexivity|].
  split; [eexists; vm_compute; reflexivity|]. subst cs. tree.
  match goal with |- context [[SCElement ?x]] => set (e := x) end.
  match eval unfold e in e with context [SCSlot ?s ?x] => set (e' := x : selement); set (c' := SCSlot s x : schild) end.
  assert (He : lives [SCElement e] false e) by (constructor; now left).
  assert (Hc : live [SCElement e] c') by (apply live_slot with e; [exact He|reflexivity|right; left; reflexivity]).
  assert (He' : lives [SCElement e] true e') by (eexists; exact Hc).
  repeat split.
  - eapply kept_eq; [eapply (k_segment SE1 _ false e _ (SPSeg _ _)); [exact He|reflexivity|left; reflexivity]|reflexivity].
  - apply (k_build SE1 _ false e _ He eq_refl).
  - apply (k_on_class SE1 _ e _ (SKebab "c" [Src 0 8 9]) He eq_refl). left. reflexivity.
  - eapply kept_eq; [eapply (k_spread SE1 _ false e); [exact He|right; left; reflexivity]|reflexivity].
  - eapply kept_eq; [eapply (k_clone SE1 _ false e); [exact He|reflexivity|discriminate|right; right; left; reflexivity|reflexivity|reflexivity|apply (snake_iff SE1); vm_compute; reflexivity]|reflexivity].
  - exact (k_args SE1 _ false e _ He eq_refl ltac:(discriminate) eq_refl).
  - eapply kept_eq; [eapply (k_slot SE1 _ e [_] c' [] (SId _ (Id _ "Big"))); [exact He|reflexivity|reflexivity|reflexivity|intros c i [<-|[]] [=]|apply camel_iff; reflexivity]|reflexivity].
  - eapply kept_eq; [eapply (k_segment SE1 _ true e' _ (SPSeg _ _)); [exact He'|reflexivity|left; reflexivity]|reflexivity].
  - eapply (k_value SE1); [eapply live_child; [exact Hc|reflexivity|left; reflexivity]|apply w_lit].
Qed.

(** A slot of an element is not kept, and nothing of it is in the expansion. *)
Example C53_slot_case :
  exists ts, smview SE1 (slex "p { slot:Big { 'x' } }") = SExpanded ts /\
  smview SE1 (slex "p { }") = SExpanded ts.
Proof. eexists. split; vm_compute; reflexivity. Qed.
