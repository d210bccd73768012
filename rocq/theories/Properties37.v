(** Theorem C71: a change of one child changes only what is about that child. *)
From Verif Require Import PropFacts1 CodeFacts ElementFacts Inv Fuel ExampleFacts Properties1 OrderFacts Lex.
From Verif Require Import Properties2 Properties6 Properties8 Properties13 Properties21 Properties26 Properties35.
From Verif Require Import SpecStr SpecGrammar SpecOut SpecRead SpecOrder SpecReports SpecConfined SpecStop SpecOneChild Nightly.
From Verif Require Import OneChildFacts.
Open Scope list_scope.
Close Scope expand_scope.

(** Two views have the same tree but for one child, at any depth: a value or an element in
    place of another one, or a slot in place of another one of the same name.  If both
    expand, the codes are the same but for the code of that child: up to the order of
    slots, and literally so for some order.  (If no code is made for the child, as for
    what is in a slot of an HTML element, they are the same.) *)
Theorem C71_code E a b c c' cs cs' out out' : env_ok E -> wf a -> wf b ->
  children_phrase E a cs -> children_phrase E b cs' -> same_sort c c' -> edited c c' cs cs' ->
  mview E a = Expanded out -> mview E b = Expanded out' ->
  exists E' out'', generic_args E' = generic_args E /\ env_ok E' /\ mview E' b = Expanded out'' /\
    reordered out' out'' /\
    (out = out'' \/ exists x y, child_code c x /\ child_code c' y /\ same_around x y out out'').
Proof.
  intros HE Ha Hb Hpa Hpb Hs Hed Hm Hm'.
  assert (Hr : root_code cs out) by (apply (expands_root E a); now split; [|split; [|split]]).
  assert (Hr' : root_code cs' out') by (apply (expands_root E b); now split; [|split; [|split]]).
  destruct (edited_code c c' cs cs' out out' Hs Hed Hr Hr') as (o & Ho & Hd).
  assert (Hsp : mview_spec E b o) by (exists cs'; now split).
  destruct (C43_every_meaning E b o HE Hb Hsp) as (E' & Hg & HE' & Hm2). exists E', o.
  split; [exact Hg|]. split; [exact HE'|]. split; [exact Hm2|]. split; [|exact Hd].
  apply (C27_order E E' b cs' cs'); [intros ts; now rewrite Hg| |].
  - now split; [|split; [|split]].
  - split; [exact HE'|]. split; [exact Hb|]. split; [|exact Hm2].
    eapply same_phrase; [intros ts; symmetry; now rewrite Hg|exact HE|exact HE'|exact Hb|exact Hpb].
Qed.
Print Assumptions C71_code.

(** Without two slot names on one component there is nothing to reorder. *)
Theorem C71_one_name E a b c c' cs cs' out out' : env_ok E -> wf a -> wf b ->
  children_phrase E a cs -> children_phrase E b cs' -> same_sort c c' -> edited c c' cs cs' ->
  (forall k e, anywhere cs' k e -> one_slot_name e) ->
  mview E a = Expanded out -> mview E b = Expanded out' ->
  out = out' \/ exists x y, child_code c x /\ child_code c' y /\ same_around x y out out'.
Proof.
  intros HE Ha Hb Hpa Hpb Hs Hed Hone Hm Hm'.
  destruct (C71_code E a b c c' cs cs' out out' HE Ha Hb Hpa Hpb Hs Hed Hm Hm') as (E' & o & Hg & HE' & Hm2 & _ & H).
  assert (Q : mview E b = mview E' b).
  { apply C41_same; [exact HE|exact HE'|intros ts; now rewrite Hg|]. intros l (r & ds & Hl).
    assert (Hp := C03_accepts_grammar E b _ cs' HE Hb (Nat.lt_succ_diag_r _) Hpb). unfold children_of in Hl. rewrite Hp in Hl.
    inversion Hl; subst. exact Hone. }
  rewrite Hm', Hm2 in Q. injection Q as ->. exact H.
Qed.
Print Assumptions C71_one_name.

(** The reports are the same but for the reports about that child, at the same place in
    the list; or all of them are the same, if it is not looked at.  (Unless there is a
    panic, in which case nothing is reported.) *)
Definition reports (r : result) (ds : list diag) : Prop :=
  match r with Expanded _ => ds = [] | Errors ds' => ds = ds' | _ => False end.
Theorem C71_reports E a b c c' cs cs' ds ds' : env_ok E -> wf a -> wf b ->
  children_phrase E a cs -> children_phrase E b cs' -> same_sort c c' -> edited c c' cs cs' ->
  reports (mview E a) ds -> reports (mview E b) ds' ->
  ds = ds' \/ exists p q, ds = p ++ own_reports c ++ q /\ ds' = p ++ own_reports c' ++ q.
Proof.
  intros HE Ha Hb Hpa Hpb Hs Hed R R'. assert (Ra := C47_reports E a cs HE Ha Hpa). assert (Rb := C47_reports E b cs' HE Hb Hpb).
  assert (D := edited_reports c c' Hs cs cs' Hed).
  assert (ds = view_reports cs) as -> by (destruct (mview E a); cbn in R; try contradiction; subst; [now symmetry|tauto]).
  assert (ds' = view_reports cs') as -> by (destruct (mview E b); cbn in R'; try contradiction; subst; [now symmetry|tauto]).
  exact D.
Qed.
Print Assumptions C71_reports.

Theorem C71_reports_nightly E a b c c' cs cs' o o' ds ds' : env_ok E -> wf a -> wf b ->
  children_phrase E a cs -> children_phrase E b cs' -> same_sort c c' -> edited c c' cs cs' ->
  mview_nightly E a = Gave o ds -> mview_nightly E b = Gave o' ds' ->
  ds = ds' \/ exists p q, ds = p ++ own_reports c ++ q /\ ds' = p ++ own_reports c' ++ q.
Proof.
  intros HE Ha Hb Hpa Hpb Hs Hed R R'.
  assert (Ra := C47_reports_nightly E a cs HE Ha Hpa). assert (Rb := C47_reports_nightly E b cs' HE Hb Hpb).
  rewrite R in Ra. rewrite R' in Rb. subst. exact (edited_reports c c' Hs cs cs' Hed).
Qed.
Print Assumptions C71_reports_nightly.

(** A panic that the change brings about is one about the new child; so the change of a
    child that is no reason for a panic to another one that is none neither causes nor
    prevents one. *)
Theorem C71_panics E a b c c' cs cs' w : env_ok E -> wf a -> wf b ->
  children_phrase E a cs -> children_phrase E b cs' -> same_sort c c' -> edited c c' cs cs' ->
  mview E b = Panicked w -> (exists w', mview E a = Panicked w') \/ own_stops w c'.
Proof.
  intros HE Ha Hb Hpa Hpb Hs Hed Hm. destruct (C55_grammar E b cs' HE Hb Hpb) as [H _].
  destruct (edited_stops c c' w (own_stops w c') (@or_introl _ _) cs cs' Hs Hed (H w Hm)) as [K|K]; [left|now right].
  apply (proj2 (C55_grammar E a cs HE Ha Hpa)). now exists w.
Qed.
Print Assumptions C71_panics.

Theorem C71_panics_alike E a b c c' cs cs' : env_ok E -> wf a -> wf b ->
  children_phrase E a cs -> children_phrase E b cs' -> same_sort c c' -> edited c c' cs cs' ->
  (forall w, ~ own_stops w c) -> (forall w, ~ own_stops w c') ->
  ((exists w, mview E a = Panicked w) <-> (exists w, mview E b = Panicked w)).
Proof.
  intros HE Ha Hb Hpa Hpb Hs Hed Hn Hn'. split; intros (w & Hm).
  - destruct (C71_panics E b a c' c cs' cs w HE Hb Ha Hpb Hpa (same_sort_sym _ _ Hs) (edited_sym _ _ _ _ Hed) Hm) as [K|K]; [exact K|].
    destruct (Hn w K).
  - destruct (C71_panics E a b c c' cs cs' w HE Ha Hb Hpa Hpb Hs Hed Hm) as [K|K]; [exact K|]. destruct (Hn' w K).
Qed.
Print Assumptions C71_panics_alike.

(** ** Cases *)

Definition first_child (l : list child) : child := match l with c :: _ => c | [] => CValue (VBlock []) end.
Definition old_text : string := "i.k on:e={1} { 'm' }".
Definition new_text : string := "Q o='n';".
(** The text of a slot of a component: an element becomes a component. *)
Definition view_with (s : string) : list tt :=
  lex ("'a' div.b { P c=1 |d| { 'e' slot:S { 'x' " ++ s ++ " {y} } slot:S; f; } g h={w}; } 'z'")%string.
Ltac find_edit :=
  first [ apply (ed_here _ _ [])
        | apply (ed_here _ _ [_])
        | apply (ed_here _ _ [_; _])
        | apply (ed_element _ _ []); find_edit
        | apply (ed_element _ _ [_]); find_edit
        | apply (ed_element _ _ [_; _]); find_edit
        | apply (ed_slot _ _ []); find_edit
        | apply (ed_slot _ _ [_]); find_edit ].
Example C71_case :
  wf (view_with old_text) /\ wf (view_with new_text) /\
  children_phrase E0 (view_with old_text) (tree_of (view_with old_text)) /\
  children_phrase E0 (view_with new_text) (tree_of (view_with new_text)) /\
  same_sort (first_child (tree_of (lex old_text))) (first_child (tree_of (lex new_text))) /\
  edited (first_child (tree_of (lex old_text))) (first_child (tree_of (lex new_text)))
    (tree_of (view_with old_text)) (tree_of (view_with new_text)) /\
  mview E0 (view_with old_text) = Expanded (out_of (view_with old_text)) /\
  mview E0 (view_with new_text) = Expanded (out_of (view_with new_text)) /\
  out_of (view_with old_text) <> out_of (view_with new_text).
Proof.
  assert (H1 : expands E0 (view_with old_text) (tree_of (view_with old_text)) (out_of (view_with old_text))) by (apply case_expands; vm_compute; reflexivity).
  assert (H2 : expands E0 (view_with new_text) (tree_of (view_with new_text)) (out_of (view_with new_text))) by (apply case_expands; vm_compute; reflexivity).
  destruct H1 as (_ & W1 & P1 & M1). destruct H2 as (_ & W2 & P2 & M2).
  split; [exact W1|]. split; [exact W2|]. split; [exact P1|]. split; [exact P2|].
  split; [apply ss_node; intros e; vm_compute; discriminate|].
  split; [vm_compute; find_edit|]. split; [exact M1|]. split; [exact M2|]. vm_compute. discriminate.
Qed.

(** Reports: those about the [i], and then others, stay where they are in the list. *)
Definition wrong_with (s : string) : list tt :=
  lex ("div attr:x={y} { C { " ++ s ++ " slot:S bogus:x; } p clone:q; }")%string.
Example C71_reports_case :
  edited (first_child (tree_of (lex "i use:'s'={1} k=g[a];"))) (first_child (tree_of (lex "D attr:'s'={1};")))
    (tree_of (wrong_with "i use:'s'={1} k=g[a];")) (tree_of (wrong_with "D attr:'s'={1};")) /\
  (exists p q, own_reports (first_child (tree_of (lex "i use:'s'={1} k=g[a];"))) = p /\
     own_reports (first_child (tree_of (lex "D attr:'s'={1};"))) = q /\ p <> [] /\ q <> [] /\ p <> q /\
     mview E0 (wrong_with "i use:'s'={1} k=g[a];") =
       Errors ([DNotOnElements "attr"] ++ p ++ [DSlotDirective "bogus"; DNotOnElements "clone"]) /\
     mview E0 (wrong_with "D attr:'s'={1};") =
       Errors ([DNotOnElements "attr"] ++ q ++ [DSlotDirective "bogus"; DNotOnElements "clone"])).
Proof.
  split; [vm_compute; find_edit|]. eexists _, _. split; [reflexivity|]. split; [reflexivity|].
  split; [vm_compute; discriminate|]. split; [vm_compute; discriminate|]. split; [vm_compute; discriminate|].
  split; vm_compute; reflexivity.
Qed.

(** A slot of another name is another property of the component: then the other slot, too,
    is written in another way. *)
Example C71_other_slot :
  existsb (mentions "into_vec") (out_of (lex "C { slot:S; slot:S; }")) = true /\
  existsb (mentions "into_vec") (out_of (lex "C { slot:S; slot:T; }")) = false /\
  (exists out, mview E0 (lex "C { slot:S; slot:S; }") = Expanded out) /\
  (exists out, mview E0 (lex "C { slot:S; slot:T; }") = Expanded out).
Proof. split; [vm_compute; reflexivity|]. split; [vm_compute; reflexivity|]. split; eexists; vm_compute; reflexivity. Qed.

(** Panics: about the new child; and none if that is in a slot of an element. *)
Example C71_panics_case :
  edited (first_child (tree_of (lex "i k=1;"))) (first_child (tree_of (lex "Q self=1;")))
    (tree_of (view_with "i k=1;")) (tree_of (view_with "Q self=1;")) /\
  (exists out, mview E0 (view_with "i k=1;") = Expanded out) /\
  mview E0 (view_with "Q self=1;") = Panicked (PNewRaw "self") /\
  own_stops (PNewRaw "self") (first_child (tree_of (lex "Q self=1;"))) /\
  (exists out, mview E0 (lex "div { slot:S { i k=1; } }") = Expanded out) /\
  (exists out, mview E0 (lex "div { slot:S { Q self=1; } }") = Expanded out).
Proof.
  split; [vm_compute; find_edit|]. split; [eexists; vm_compute; reflexivity|]. split; [vm_compute; reflexivity|].
  split.
  - vm_compute. apply os_element. eapply es_comp_attr; [reflexivity|left; reflexivity|]. apply cs_kv.
    split; [vm_compute; reflexivity|]. vm_compute. tauto.
  - split; eexists; vm_compute; reflexivity.
Qed.
