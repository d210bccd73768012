(** Theorem C74: a change of one attribute changes only what is about that attribute. *)
From Verif Require Import PropFacts1 CodeFacts ElementFacts Inv Fuel ExampleFacts Properties1 OrderFacts Lex.
From Verif Require Import Properties2 Properties6 Properties8 Properties13 Properties21 Properties26 Properties35 Properties37.
From Verif Require Import SpecStr SpecGrammar SpecOut SpecRead SpecOrder SpecReports SpecConfined SpecStop SpecMixed SpecOneChild SpecOneAttr Nightly.
From Verif Require Import OneChildFacts OneAttrFacts.
Open Scope list_scope.
Close Scope expand_scope.

(** Two views have the same tree but for one attribute of one element or slot, at any depth;
    and the two attributes are of the same sort.  If both views expand, the codes are the
    same but for the code of that attribute: up to the order of slots, and literally so for
    some order.  (If no code is made for it, they are the same.) *)
Theorem C74_code E a b t x x' slot c c' cs cs' out out' : env_ok E -> wf a -> wf b ->
  children_phrase E a cs -> children_phrase E b cs' ->
  sort_on t x = sort_on t x' -> one_attr t x x' slot c c' -> edited c c' cs cs' ->
  mview E a = Expanded out -> mview E b = Expanded out' ->
  exists E' out'', generic_args E' = generic_args E /\ env_ok E' /\ mview E' b = Expanded out'' /\
    reordered out' out'' /\
    (out = out'' \/ exists u v, attr_code t x u /\ attr_code t x' v /\ same_around u v out out'').
Proof.
  intros HE Ha Hb Hpa Hpb Hs Ho Hed Hm Hm'.
  assert (Hr : root_code cs out) by (apply (expands_root E a); now split; [|split; [|split]]).
  assert (Hr' : root_code cs' out') by (apply (expands_root E b); now split; [|split; [|split]]).
  destruct (attr_edited_code t x x' Hs slot c c' cs cs' out out' Ho Hed Hr Hr') as (o & Hc & Hd).
  assert (Hsp : mview_spec E b o) by (exists cs'; now split).
  destruct (C43_every_meaning E b o HE Hb Hsp) as (E' & Hg & HE' & Hm2). exists E', o.
  split; [exact Hg|]. split; [exact HE'|]. split; [exact Hm2|]. split; [|exact Hd].
  apply (C27_order E E' b cs' cs'); [intros ts; now rewrite Hg| |].
  - now split; [|split; [|split]].
  - split; [exact HE'|]. split; [exact Hb|]. split; [|exact Hm2].
    eapply same_phrase; [intros ts; symmetry; now rewrite Hg|exact HE|exact HE'|exact Hb|exact Hpb].
Qed.
Print Assumptions C74_code.

Theorem C74_one_name E a b t x x' slot c c' cs cs' out out' : env_ok E -> wf a -> wf b ->
  children_phrase E a cs -> children_phrase E b cs' ->
  sort_on t x = sort_on t x' -> one_attr t x x' slot c c' -> edited c c' cs cs' ->
  (forall k e, anywhere cs' k e -> one_slot_name e) ->
  mview E a = Expanded out -> mview E b = Expanded out' ->
  out = out' \/ exists u v, attr_code t x u /\ attr_code t x' v /\ same_around u v out out'.
Proof.
  intros HE Ha Hb Hpa Hpb Hs Ho Hed Hone Hm Hm'.
  destruct (C74_code E a b t x x' slot c c' cs cs' out out' HE Ha Hb Hpa Hpb Hs Ho Hed Hm Hm') as (E' & o & Hg & HE' & Hm2 & _ & H).
  assert (Q : mview E b = mview E' b).
  { apply C41_same; [exact HE|exact HE'|intros ts; now rewrite Hg|]. intros l (r & ds & Hl).
    assert (Hp := C03_accepts_grammar E b _ cs' HE Hb (Nat.lt_succ_diag_r _) Hpb). unfold children_of in Hl. rewrite Hp in Hl.
    inversion Hl; subst. exact Hone. }
  rewrite Hm', Hm2 in Q. injection Q as ->. exact H.
Qed.
Print Assumptions C74_one_name.

(** The reports are the same but for the reports about that attribute, at the same place in
    the list; here the attributes may be of different sorts. *)
Lemma through (l l' k k' ds ds' : list diag) :
  ds = ds' \/ (exists p q, ds = p ++ l ++ q /\ ds' = p ++ l' ++ q) ->
  l = l' \/ (exists p q, l = p ++ k ++ q /\ l' = p ++ k' ++ q) ->
  ds = ds' \/ exists p q, ds = p ++ k ++ q /\ ds' = p ++ k' ++ q.
Proof.
  intros [H|(p & q & -> & ->)] K; [now left|]. destruct K as [->|(p' & q' & -> & ->)]; [now left|].
  right. exists (p ++ p'), (q' ++ q). now rewrite <- !app_assoc.
Qed.
Theorem C74_reports E a b t x x' slot c c' cs cs' ds ds' : env_ok E -> wf a -> wf b ->
  children_phrase E a cs -> children_phrase E b cs' -> one_attr t x x' slot c c' -> edited c c' cs cs' ->
  reports (mview E a) ds -> reports (mview E b) ds' ->
  ds = ds' \/ exists p q, ds = p ++ attr_reports (role_of slot t) x ++ q /\ ds' = p ++ attr_reports (role_of slot t) x' ++ q.
Proof.
  intros HE Ha Hb Hpa Hpb Ho Hed R R'. eapply through.
  - exact (C71_reports E a b c c' cs cs' ds ds' HE Ha Hb Hpa Hpb (one_attr_sort _ _ _ _ _ _ Ho) Hed R R').
  - exact (one_attr_reports t x x' slot c c' Ho).
Qed.
Print Assumptions C74_reports.

Theorem C74_reports_nightly E a b t x x' slot c c' cs cs' o o' ds ds' : env_ok E -> wf a -> wf b ->
  children_phrase E a cs -> children_phrase E b cs' -> one_attr t x x' slot c c' -> edited c c' cs cs' ->
  mview_nightly E a = Gave o ds -> mview_nightly E b = Gave o' ds' ->
  ds = ds' \/ exists p q, ds = p ++ attr_reports (role_of slot t) x ++ q /\ ds' = p ++ attr_reports (role_of slot t) x' ++ q.
Proof.
  intros HE Ha Hb Hpa Hpb Ho Hed R R'. eapply through.
  - exact (C71_reports_nightly E a b c c' cs cs' o o' ds ds' HE Ha Hb Hpa Hpb (one_attr_sort _ _ _ _ _ _ Ho) Hed R R').
  - exact (one_attr_reports t x x' slot c c' Ho).
Qed.
Print Assumptions C74_reports_nightly.

(** A panic that the change brings about is one about the new attribute. *)
Theorem C74_panics E a b t x x' slot c c' cs cs' w : env_ok E -> wf a -> wf b ->
  children_phrase E a cs -> children_phrase E b cs' -> one_attr t x x' slot c c' -> edited c c' cs cs' ->
  mview E b = Panicked w -> (exists w', mview E a = Panicked w') \/ attr_stops slot t w x'.
Proof.
  intros HE Ha Hb Hpa Hpb Ho Hed Hm. destruct (C55_grammar E b cs' HE Hb Hpb) as [H _].
  destruct (edited_stops c c' w (attr_stops slot t w x') (one_attr_stops w t x x' slot c c' Ho) cs cs'
    (one_attr_sort _ _ _ _ _ _ Ho) Hed (H w Hm)) as [K|K]; [left|now right].
  apply (proj2 (C55_grammar E a cs HE Ha Hpa)). now exists w.
Qed.
Print Assumptions C74_panics.

Theorem C74_panics_alike E a b t x x' slot c c' cs cs' : env_ok E -> wf a -> wf b ->
  children_phrase E a cs -> children_phrase E b cs' -> one_attr t x x' slot c c' -> edited c c' cs cs' ->
  (forall w, ~ attr_stops slot t w x) -> (forall w, ~ attr_stops slot t w x') ->
  ((exists w, mview E a = Panicked w) <-> (exists w, mview E b = Panicked w)).
Proof.
  intros HE Ha Hb Hpa Hpb Ho Hed Hn Hn'. split; intros (w & Hm).
  - destruct (C74_panics E b a t x' x slot c' c cs' cs w HE Hb Ha Hpb Hpa (one_attr_sym _ _ _ _ _ _ Ho) (edited_sym _ _ _ _ Hed) Hm) as [K|K]; [exact K|].
    destruct (Hn w K).
  - destruct (C74_panics E a b t x x' slot c c' cs cs' w HE Ha Hb Hpa Hpb Ho Hed Hm) as [K|K]; [exact K|]. destruct (Hn' w K).
Qed.
Print Assumptions C74_panics_alike.

(** ** Cases *)

Definition nth_attr (n : nat) (l : list child) : attr :=
  match first_child l with CElement e => List.nth n (el_attrs e) (ASpread []) | _ => ASpread [] end.
Definition tag_at (l : list child) : tag := match first_child l with CElement e => el_tag e | _ => one_name (Id false "") end.
(** A component in a slot, in an element; the attribute [s] stands in the middle. *)
Definition attr_text (s : string) : string := ("Q.k u=1 " ++ s ++ " w={2} { 'm' }")%string.
Definition with_attr (s : string) : list tt := view_with (attr_text s).
Definition change_ok (s s' : string) : Prop :=
  let l := tree_of (lex (attr_text s)) in let l' := tree_of (lex (attr_text s')) in
  wf (with_attr s) /\ wf (with_attr s') /\
  children_phrase E0 (with_attr s) (tree_of (with_attr s)) /\ children_phrase E0 (with_attr s') (tree_of (with_attr s')) /\
  sort_on (tag_at l) (nth_attr 1 l) = sort_on (tag_at l) (nth_attr 1 l') /\
  one_attr (tag_at l) (nth_attr 1 l) (nth_attr 1 l') false (first_child l) (first_child l') /\
  edited (first_child l) (first_child l') (tree_of (with_attr s)) (tree_of (with_attr s')) /\
  mview E0 (with_attr s) = Expanded (out_of (with_attr s)) /\ mview E0 (with_attr s') = Expanded (out_of (with_attr s')) /\
  out_of (with_attr s) <> out_of (with_attr s').
Ltac show_change s s' :=
  assert (H1 : expands E0 (with_attr s) (tree_of (with_attr s)) (out_of (with_attr s))) by (apply case_expands; vm_compute; reflexivity);
  assert (H2 : expands E0 (with_attr s') (tree_of (with_attr s')) (out_of (with_attr s'))) by (apply case_expands; vm_compute; reflexivity);
  destruct H1 as (_ & W1 & P1 & M1); destruct H2 as (_ & W2 & P2 & M2); unfold change_ok;
  split; [exact W1|]; split; [exact W2|]; split; [exact P1|]; split; [exact P2|];
  split; [vm_compute; reflexivity|]; split; [vm_compute; apply (oa_element _ _ _ _ [_])|];
  split; [vm_compute; find_edit|]; split; [exact M1|]; split; [exact M2|]; vm_compute; discriminate.
Example C74_case_keyed : change_ok "a=[b]" "{c}".
Proof. show_change "a=[b]"%string "{c}"%string. Qed.
Example C74_case_cloned : change_ok "clone:a" "clone:b".
Proof. show_change "clone:a"%string "clone:b"%string. Qed.
Example C74_case_directed : change_ok "on:e={1}" "{..sp}".
Proof. show_change "on:e={1}"%string "{..sp}"%string. Qed.

(** Reports: those about the attribute stay where they are. *)
Example C74_reports_case :
  let s := "style:'s'={1}"%string in let s' := "k=g[a]"%string in
  let l := tree_of (lex (attr_text s)) in let l' := tree_of (lex (attr_text s')) in
  one_attr (tag_at l) (nth_attr 1 l) (nth_attr 1 l') false (first_child l) (first_child l') /\
  edited (first_child l) (first_child l') (tree_of (wrong_with (attr_text s))) (tree_of (wrong_with (attr_text s'))) /\
  exists p q, attr_reports OnComponent (nth_attr 1 l) = p /\ attr_reports OnComponent (nth_attr 1 l') = q /\ p <> q /\ q <> [] /\
    mview E0 (wrong_with (attr_text s)) = Errors ([DNotOnElements "attr"] ++ p ++ [DSlotDirective "bogus"; DNotOnElements "clone"]) /\
    mview E0 (wrong_with (attr_text s')) = Errors ([DNotOnElements "attr"] ++ q ++ [DSlotDirective "bogus"; DNotOnElements "clone"]).
Proof.
  cbv zeta. split; [vm_compute; apply (oa_element _ _ _ _ [_])|]. split; [vm_compute; find_edit|].
  eexists _, _. split; [reflexivity|]. split; [reflexivity|]. split; [vm_compute; discriminate|]. split; [vm_compute; discriminate|].
  split; vm_compute; reflexivity.
Qed.

(** Panics: about the new attribute. *)
Example C74_panics_case :
  let l := tree_of (lex (attr_text "a=1")) in let l' := tree_of (lex (attr_text "self=1")) in
  one_attr (tag_at l) (nth_attr 1 l) (nth_attr 1 l') false (first_child l) (first_child l') /\
  edited (first_child l) (first_child l') (tree_of (with_attr "a=1")) (tree_of (with_attr "self=1")) /\
  (exists out, mview E0 (with_attr "a=1") = Expanded out) /\
  mview E0 (with_attr "self=1") = Panicked (PNewRaw "self") /\
  attr_stops false (tag_at l) (PNewRaw "self") (nth_attr 1 l').
Proof.
  cbv zeta. split; [vm_compute; apply (oa_element _ _ _ _ [_])|]. split; [vm_compute; find_edit|].
  split; [eexists; vm_compute; reflexivity|]. split; [vm_compute; reflexivity|].
  vm_compute. apply cs_kv. split; [vm_compute; reflexivity|]. vm_compute. tauto.
Qed.

(** An attribute of another sort is written at another place: here a [clone:] in place of
    a property, whose code moves into the code of the children. *)
Example C74_other_sort :
  (exists out, mview E0 (with_attr "a=1") = Expanded out) /\ (exists out, mview E0 (with_attr "clone:a") = Expanded out) /\
  (let l := tree_of (lex (attr_text "a=1")) in let l' := tree_of (lex (attr_text "clone:a")) in
   sort_on (tag_at l) (nth_attr 1 l) <> sort_on (tag_at l) (nth_attr 1 l')).
Proof. split; [eexists; vm_compute; reflexivity|]. split; [eexists; vm_compute; reflexivity|]. vm_compute. discriminate. Qed.
