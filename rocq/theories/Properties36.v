(** Theorem C70: what is written in a block stays in the block. *)
From Verif Require Import PropFacts1 CodeFacts ElementFacts Inv Fuel ExampleFacts Properties1 OrderFacts Lex.
From Verif Require Import Properties2 Properties4 Properties6 Properties8 Properties13 Properties26 Context PlaceFacts.
From Verif Require Import SpecStr SpecGrammar SpecOut SpecRead SpecOrder SpecReports SpecContext SpecConfined Nightly.
From Verif Require Import Confined ConfinedCode.
Open Scope list_scope.
Close Scope expand_scope.

(** The block of some element is replaced by anything else.  Then what is read around it
    stays as it is: the same children before and after, the same tag, selectors,
    attributes and arguments of its owner, and so on outwards; the same reports for what
    is written after it.  The layers are made from what is written around, and do not
    depend on the block.  (A block of braces must still be a block of children: [{x}]
    is an attribute.) *)
Theorem C70_confined E k x : env_ok E -> fits E k x -> wf (plug k x) ->
  exists ls, layers_of E (reading_of E) k ls /\
    forall y, wf y -> (bare_brace k -> children_block y) ->
      reading_of E (plug k y) = around ls (reading_of E y).
Proof. intros HE Hf Hw. now apply (confined E k HE x). Qed.
Print Assumptions C70_confined.

(** So the reports of a view are those of the block, and then those of the rest, which
    are always the same ones: if reading is not given up in the block, whether it is
    given up later does not depend on the block. *)
Theorem C70_rest E k x : env_ok E -> fits E k x -> wf (plug k x) ->
  exists ls D, layers_of E (reading_of E) k ls /\
    ((forall y cs ds, wf y -> (bare_brace k -> children_block y) -> reading_of E y = Read cs ds ->
        reading_of E (plug k y) = Read (put ls cs) (ds ++ D)) \/
     (forall y cs ds, wf y -> (bare_brace k -> children_block y) -> reading_of E y = Read cs ds ->
        reading_of E (plug k y) = Stopped (ds ++ D)) \/
     (exists w, forall y cs ds, wf y -> (bare_brace k -> children_block y) -> reading_of E y = Read cs ds ->
        reading_of E (plug k y) = Died w)) /\
    (forall y ds, wf y -> (bare_brace k -> children_block y) -> reading_of E y = Stopped ds ->
       reading_of E (plug k y) = Stopped ds) /\
    (forall y w, wf y -> (bare_brace k -> children_block y) -> reading_of E y = Died w ->
       reading_of E (plug k y) = Died w).
Proof.
  intros HE Hf Hw. destruct (confined E k HE x Hf Hw) as (ls & Hls & H). destruct (around_cases ls) as (D & HD).
  exists ls, D. split; [exact Hls|]. split; [|split].
  - destruct HD as [HD|[HD|[w HD]]]; [left|right; left|right; right; exists w];
      intros y cs ds Hy Hb Hr; rewrite (H y Hy Hb), Hr; apply HD.
  - intros y ds Hy Hb Hr. rewrite (H y Hy Hb), Hr. apply around_stopped.
  - intros y w Hy Hb Hr. rewrite (H y Hy Hb), Hr. apply around_died.
Qed.
Print Assumptions C70_rest.

(** With the nightly feature this is what the compiler is given. *)
Definition answer_of (E : env) (r : reading) : answer :=
  match r with
  | Read cs ds =>
      match root_tokens E cs with
      | XR (XRet ts) more => Gave ts (ds ++ more)
      | XR XAbort more => Gave dummy (ds ++ more)
      | XR (XPanic w) _ => Crashed w
      end
  | Stopped ds => Gave dummy ds
  | Died w => Crashed w
  end.
Theorem C70_nightly E k x : env_ok E -> fits E k x -> wf (plug k x) ->
  exists ls, layers_of E (reading_of E) k ls /\
    forall y, wf y -> (bare_brace k -> children_block y) ->
      mview_nightly E (plug k y) = answer_of E (around ls (reading_of E y)).
Proof.
  intros HE Hf Hw. destruct (confined E k HE x Hf Hw) as (ls & Hls & H). exists ls. split; [exact Hls|].
  intros y Hy Hb. rewrite <- (H y Hy Hb). unfold mview_nightly, reading_of, children_of.
  destruct (children_of_cases E (plug k y) HE) as [(cs & ds & Hc)|[(r & ds & Hc & _)|(w & r & ds & Hc)]];
    unfold children_of in Hc; rewrite Hc; reflexivity.
Qed.
Print Assumptions C70_nightly.

(** If a view with one block and the view with the other one expand, then the codes are
    the same but for the code of the owner of the block: up to the order of slots, and
    literally so for some order.  (If the owner has no code, as a slot in an HTML element,
    they are the same.) *)
Theorem C70_code E k x : env_ok E -> fits E k x -> wf (plug k x) -> k <> Hole ->
  exists l ls, layers_of E (reading_of E) k (l :: ls) /\
    forall y y' out out', wf y -> wf y' -> (bare_brace k -> children_block y /\ children_block y') ->
      mview E (plug k y) = Expanded out -> mview E (plug k y') = Expanded out' ->
      exists cs cs', children_phrase E y cs /\ children_phrase E y' cs' /\
      exists E' out'', generic_args E' = generic_args E /\ env_ok E' /\ mview E' (plug k y') = Expanded out'' /\
        reordered out' out'' /\
        (out = out'' \/ exists a b, child_code (l_owner l cs) a /\ child_code (l_owner l cs') b /\
           same_around a b out out'').
Proof.
  intros HE Hf Hw Hk. destruct (confined E k HE x Hf Hw) as (ls & Hls & H).
  destruct ls as [|l ls]; [inversion Hls; subst; now destruct Hk|]. exists l, ls. split; [exact Hls|].
  intros y y' out out' Hy Hy' Hb Hm Hm'.
  assert (T : forall z o, wf z -> (bare_brace k -> children_block z) -> mview E (plug k z) = Expanded o ->
    exists cs, children_phrase E z cs /\ wf (plug k z) /\ children_phrase E (plug k z) (put (l :: ls) cs) /\ root_code (put (l :: ls) cs) o).
  { intros z o Hz Hbz Ho. assert (Hwz : wf (plug k z)) by (apply (plug_wf_iff k x z); auto).
    destruct (C43_expansion_is_meaning E (plug k z) o HE Hwz Ho) as (t & Ht & Hr).
    assert (Hp := C03_accepts_grammar E _ _ t HE Hwz (Nat.lt_succ_diag_r _) Ht).
    specialize (H z Hz Hbz). assert (Q : reading_of E (plug k z) = Read t []) by (unfold reading_of, children_of; now rewrite Hp).
    rewrite Q in H. destruct (reading_of E z) as [cs ds|ds|w] eqn:Rz; [|now rewrite around_stopped in H|now rewrite around_died in H].
    destruct (around_cases (l :: ls)) as (D & [A|[A|[w A]]]); rewrite A in H; try discriminate. injection H as -> Hds.
    symmetry in Hds. apply app_eq_nil in Hds as [-> ->]. exists cs. split; [|auto].
    unfold reading_of in Rz. destruct (children_of_cases E z HE) as [(c & d & Hc)|[(r & d & Hc & _)|(w & r & d & Hc)]];
      rewrite Hc in Rz; try discriminate. injection Rz as -> ->.
    apply (C02_accepts_only_grammar E z _ cs [] HE Hz (Nat.lt_succ_diag_r _)). exact Hc. }
  destruct (T y out Hy (fun B => proj1 (Hb B)) Hm) as (cs & Hc & _ & _ & Hr).
  destruct (T y' out' Hy' (fun B => proj2 (Hb B)) Hm') as (cs' & Hc' & Hw' & Hp' & Hr').
  exists cs, cs'. split; [exact Hc|]. split; [exact Hc'|].
  destruct (put_code l ls cs cs' out out' Hr Hr') as (o & Ho & Ha).
  assert (Hs : mview_spec E (plug k y') o) by (eexists; split; eassumption).
  destruct (C43_every_meaning E (plug k y') o HE Hw' Hs) as (E' & Hg & HE' & Hm2). exists E', o.
  split; [exact Hg|]. split; [exact HE'|]. split; [exact Hm2|]. split; [|exact Ha].
  apply (C27_order E E' (plug k y') (put (l :: ls) cs') (put (l :: ls) cs')); [intros ts; now rewrite Hg| |].
  - now split; [|split; [|split]].
  - split; [exact HE'|]. split; [exact Hw'|]. split; [|exact Hm2].
    eapply same_phrase; [intros ts; symmetry; now rewrite Hg|exact HE|exact HE'|exact Hw'|exact Hp'].
Qed.
Print Assumptions C70_code.

(** Without two slot names on one component there is nothing to reorder. *)
Theorem C70_one_name E k x : env_ok E -> fits E k x -> wf (plug k x) -> k <> Hole ->
  exists l ls, layers_of E (reading_of E) k (l :: ls) /\
    forall y y' out out', wf y -> wf y' -> (bare_brace k -> children_block y /\ children_block y') ->
      mview E (plug k y) = Expanded out -> mview E (plug k y') = Expanded out' ->
      (forall t b e, children_phrase E (plug k y') t -> anywhere t b e -> one_slot_name e) ->
      out = out' \/ exists cs cs' a b, children_phrase E y cs /\ children_phrase E y' cs' /\
        child_code (l_owner l cs) a /\ child_code (l_owner l cs') b /\ same_around a b out out'.
Proof.
  intros HE Hf Hw Hk. destruct (C70_code E k x HE Hf Hw Hk) as (l & ls & Hls & H). exists l, ls. split; [exact Hls|].
  intros y y' out out' Hy Hy' Hb Hm Hm' Hone.
  destruct (H y y' out out' Hy Hy' Hb Hm Hm') as (cs & cs' & Hc & Hc' & E' & o & Hg & HE' & Hm2 & _ & Ha).
  assert (Hw' : wf (plug k y')) by (apply (plug_wf_iff k x y'); auto).
  assert (Q : mview E (plug k y') = mview E' (plug k y')).
  { apply C41_same; [exact HE|exact HE'|intros ts; now rewrite Hg|]. intros t (r & ds & Ht). intros b e.
    destruct (C43_expansion_is_meaning E _ _ HE Hw' Hm') as (t' & Ht' & _).
    assert (Hp := C03_accepts_grammar E _ _ t' HE Hw' (Nat.lt_succ_diag_r _) Ht'). unfold children_of in Ht. rewrite Hp in Ht.
    inversion Ht; subst. now apply Hone. }
  rewrite Hm', Hm2 in Q. injection Q as ->. destruct Ha as [Ha|(a & b & H1 & H2 & H3)]; [now left|]. right.
  exists cs, cs', a, b. auto.
Qed.
Print Assumptions C70_one_name.

(** ** Cases *)

(** The block of an element in a component; something is wrong after it, twice. *)
Definition spot : ctx :=
  Inside (Inside Hole (lex "'a' i;") None (lex "Outer k=1") (Some (Alone, lex "q", Alone)) Brace (lex "z y=; 'b'"))
    (lex "'c'") None (lex "div.d on:e={f}") None Brace (lex "u v=0; w").
Example C70_case :
  env_ok E0 /\ wf (plug spot (lex "'g' h;")) /\ fits E0 spot (lex "'g' h;") /\
  (wf (lex "'g' o t=; p") /\ children_block (lex "'g' o t=; p")) /\
  (exists cs, reading_of E0 (lex "'g' h;") = Read cs []) /\
  (exists cs d d', reading_of E0 (lex "'g' o t=; p") = Read cs [d; d']) /\
  exists cs1 cs2 d1 d2 d3 d4,
    reading_of E0 (plug spot (lex "'g' h;")) = Read cs1 [d3; d4] /\
    reading_of E0 (plug spot (lex "'g' o t=; p")) = Read cs2 [d1; d2; d3; d4].
Proof.
  split; [exact E0_ok|].
  assert (Hw : wf (plug spot (lex "'g' h;"))) by (apply wfb_ok; vm_compute; reflexivity).
  split; [exact Hw|]. split; [apply fitsb_ok; [exact E0_ok|exact Hw|vm_compute; reflexivity]|].
  split.
  { split; [apply wfb_ok; vm_compute; reflexivity|].
    assert (Hw2 : wf (plug spot (lex "'g' o t=; p"))) by (apply wfb_ok; vm_compute; reflexivity).
    assert (Hf : fits E0 spot (lex "'g' o t=; p")) by (apply fitsb_ok; [exact E0_ok|exact Hw2|vm_compute; reflexivity]).
    unfold spot in Hf. cbn [fits] in Hf. destruct Hf as (_ & (t & sels & attrs & Hh) & _). apply head_open in Hh. exact (proj2 Hh). }
  split; [eexists; vm_compute; reflexivity|]. split; [eexists _, _, _; vm_compute; reflexivity|].
  eexists _, _, _, _, _, _. split; vm_compute; reflexivity.
Qed.

(** Code: only the [div] differs. *)
Definition tidy_spot : ctx :=
  Inside (Inside Hole (lex "'a' i;") None (lex "Outer k=1") (Some (Alone, lex "q", Alone)) Brace (lex "z y=1; 'b'"))
    (lex "'c'") None (lex "div.d on:e={f}") None Brace (lex "u v=0; slot:S; ").
Example C70_code_case :
  wf (plug tidy_spot (lex "'g' h;")) /\ fits E0 tidy_spot (lex "'g' h;") /\ tidy_spot <> Hole /\
  wf (lex "P { 'n' } m { {r} }") /\ children_block (lex "'g' h;") /\ children_block (lex "P { 'n' } m { {r} }") /\
  mview E0 (plug tidy_spot (lex "'g' h;")) = Expanded (out_of (plug tidy_spot (lex "'g' h;"))) /\
  mview E0 (plug tidy_spot (lex "P { 'n' } m { {r} }")) = Expanded (out_of (plug tidy_spot (lex "P { 'n' } m { {r} }"))) /\
  out_of (plug tidy_spot (lex "'g' h;")) <> out_of (plug tidy_spot (lex "P { 'n' } m { {r} }")).
Proof.
  assert (B : forall z, wf z -> wf (plug tidy_spot z) -> fitsb E0 tidy_spot z = true -> children_block z).
  { intros z Hz Hw Hb. assert (Hf : fits E0 tidy_spot z) by (apply fitsb_ok; [exact E0_ok|exact Hw|exact Hb]).
    unfold tidy_spot in Hf. cbn [fits] in Hf. destruct Hf as (_ & (t & sels & attrs & Hh) & _). apply head_open in Hh. exact (proj2 Hh). }
  assert (Hw : wf (plug tidy_spot (lex "'g' h;"))) by (apply wfb_ok; vm_compute; reflexivity).
  split; [exact Hw|]. split; [apply fitsb_ok; [exact E0_ok|exact Hw|vm_compute; reflexivity]|].
  split; [discriminate|]. split; [apply wfb_ok; vm_compute; reflexivity|].
  split; [apply B; [apply wfb_ok; vm_compute; reflexivity|exact Hw|vm_compute; reflexivity]|].
  split; [apply B; [apply wfb_ok; vm_compute; reflexivity|apply wfb_ok; vm_compute; reflexivity|vm_compute; reflexivity]|].
  split; [vm_compute; reflexivity|]. split; [vm_compute; reflexivity|]. vm_compute. discriminate.
Qed.

(** What goes wrong in a block can do away with the reports after it: reading is given up
    at a directive without a key, and [y=;] after the block is not reported any more. *)
Example C70_stopped :
  (exists cs d d', reading_of E0 (plug spot (lex "'g' h;")) = Read cs [d; d']) /\
  exists d, reading_of E0 (plug spot (lex "'g' h class:;")) = Stopped [d].
Proof. split; [eexists _, _, _|eexists]; vm_compute; reflexivity. Qed.

(** A block of braces with just a word in it is not a block of children: then the
    element around changes. *)
Example C70_brace :
  (exists e, reading_of E0 (lex "p { 'x' }") = Read [CElement e] [] /\ el_attrs e = []) /\
  (exists e d, reading_of E0 (lex "p { x }") = Read [CElement e] [d] /\ el_attrs e <> []).
Proof.
  split; [eexists; split; vm_compute; reflexivity|]. eexists _, _. split; [vm_compute; reflexivity|]. vm_compute. discriminate.
Qed.
