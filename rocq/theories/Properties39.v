(** Theorem C73: where slots stand among the other children does not matter. *)
From Verif Require Import PropFacts1 CodeFacts ElementFacts Inv Fuel ExampleFacts Properties1 OrderFacts Lex.
From Verif Require Import Properties2 Properties6 Properties8 Properties11 Properties13 Properties22 Properties35.
From Verif Require Import SpecStr SpecGrammar SpecOut SpecRead SpecOrder SpecCompose SpecWritable SpecMoved Nightly.
From Verif Require Import MovedFacts.
Open Scope list_scope.
Close Scope expand_scope.

(** Slots may be moved over other children, at any depth: everything is the same, the
    expansion, the reports with their order, and panics, if the order of slots does not
    depend on where a component is. *)
Theorem C73_steady E a b cs cs' : steady E -> env_ok E -> wf a -> wf b ->
  children_phrase E a cs -> children_phrase E b cs' -> slots_moved cs cs' ->
  mview E a = mview E b /\ mview_nightly E a = mview_nightly E b.
Proof.
  intros HS HE Ha Hb Hpa Hpb Hm. unfold mview, mview_nightly. rewrite (clean_tree E a cs), (clean_tree E b cs') by auto.
  now rewrite (moved_root E cs cs' HS Hm).
Qed.
Print Assumptions C73_steady.

(** In any case, it is the same up to the order of slots. *)
Theorem C73_verdict E a b cs cs' : env_ok E -> wf a -> wf b ->
  children_phrase E a cs -> children_phrase E b cs' -> slots_moved cs cs' ->
  same_verdict (mview E a) (mview E b).
Proof.
  intros HE Ha Hb Hpa Hpb Hm. set (S := Env (generic_args E) (fun _ ks => slot_order E [] ks)).
  assert (HS : steady S) by (intros p q ks; reflexivity).
  assert (HES : env_ok S) by (destruct HE as (H1 & H2 & H3); split; [exact H1|split; [exact H2|intros at_ ks; apply H3]]).
  assert (Hg : forall ts, generic_args E ts = generic_args S ts) by reflexivity.
  assert (P : forall i l, wf i -> children_phrase E i l -> children_phrase S i l).
  { intros i l Hi Hl. now apply (Properties26.same_phrase E S i l Hg HE HES Hi). }
  destruct (C73_steady S a b cs cs' HS HES Ha Hb (P a cs Ha Hpa) (P b cs' Hb Hpb) Hm) as [Q _].
  assert (V := C41_verdict E S a HE HES Hg). assert (W := C41_verdict S E b HES HE (fun ts => eq_sym (Hg ts))). rewrite Q in V.
  destruct (mview E a), (mview S b), (mview E b); cbn in *; try contradiction.
  - now apply (ro_trans _ ts0).
  - congruence.
  - eapply MixedFacts.alike_trans; eassumption.
Qed.
Print Assumptions C73_verdict.

(** Each such tree can be written as a view. *)
Theorem C73_written E a cs cs' : env_ok E -> wf a -> children_phrase E a cs -> slots_moved cs cs' ->
  exists b, wf b /\ children_phrase E b cs'.
Proof.
  intros HE Ha Hp Hm. assert (Ho : Forall (child_ok E) cs) by (apply C56_written; [exact HE|]; eauto).
  apply C56_written; [exact HE|]. apply Forall_forall. destruct (moved_ok E) as [_ H]. rewrite Forall_forall in Ho.
  now apply (H cs cs').
Qed.
Print Assumptions C73_written.

(** Among these are all lists with the same slots and the same other children, each in
    the same order. *)
Theorem C73_when l m : filter is_slot l = filter is_slot m ->
  filter (fun c => negb (is_slot c)) l = filter (fun c => negb (is_slot c)) m -> slots_moved l m.
Proof. apply same_parts_moved. Qed.
Print Assumptions C73_when.

(** ** Cases *)

Definition slots_mixed : list tt :=
  lex "div { 'x' My k=1 |q| { 'd' slot:S { {e} } i; slot:T; slot:S k=2; f['g'] } }".
Definition slots_first : list tt :=
  lex "div { 'x' My k=1 |q| { slot:S { {e} } slot:T; slot:S k=2; 'd' i; f['g'] } }".
Example C73_case :
  wf slots_mixed /\ wf slots_first /\
  children_phrase E0 slots_mixed (tree_of slots_mixed) /\ children_phrase E0 slots_first (tree_of slots_first) /\
  slots_moved (tree_of slots_mixed) (tree_of slots_first) /\ tree_of slots_mixed <> tree_of slots_first /\
  exists out, mview E0 slots_mixed = Expanded out /\ mview E0 slots_first = Expanded out.
Proof.
  assert (H1 : expands E0 slots_mixed (tree_of slots_mixed) (out_of slots_mixed)) by (apply case_expands; vm_compute; reflexivity).
  assert (H2 : expands E0 slots_first (tree_of slots_first) (out_of slots_first)) by (apply case_expands; vm_compute; reflexivity).
  destruct H1 as (_ & W1 & P1 & M1). destruct H2 as (_ & W2 & P2 & M2).
  split; [exact W1|]. split; [exact W2|]. split; [exact P1|]. split; [exact P2|].
  split.
  - vm_compute. apply sm_element; [|apply sm_nil]. apply smi_some. apply sm_value. apply sm_element; [|apply sm_nil]. apply smi_some.
    apply C73_when; reflexivity.
  - split; [vm_compute; discriminate|]. exists (out_of slots_mixed). split; [exact M1|]. rewrite M2. vm_compute. reflexivity.
Qed.

(** Reports stay in their order, too: those about slots come after the others anyway. *)
Example C73_reports_case :
  slots_moved (tree_of (lex "C { slot:S bogus:x; i k=g[a]; }")) (tree_of (lex "C { i k=g[a]; slot:S bogus:x; }")) /\
  mview E0 (lex "C { slot:S bogus:x; i k=g[a]; }") = Errors [DPrefix; DSlotDirective "bogus"] /\
  mview E0 (lex "C { i k=g[a]; slot:S bogus:x; }") = Errors [DPrefix; DSlotDirective "bogus"].
Proof.
  split; [vm_compute; apply sm_element; [|apply sm_nil]; apply smi_some, sm_back; discriminate|].
  split; vm_compute; reflexivity.
Qed.

(** The order of slots of one name matters, and so does the order of other children. *)
Example C73_order_matters :
  out_of (lex "C { slot:S k=1; slot:S k=2; }") <> out_of (lex "C { slot:S k=2; slot:S k=1; }") /\
  out_of (lex "C { 'a' 'b' }") <> out_of (lex "C { 'b' 'a' }") /\
  (exists out, mview E0 (lex "C { slot:S k=1; slot:S k=2; }") = Expanded out) /\
  (exists out, mview E0 (lex "C { 'a' 'b' }") = Expanded out).
Proof. split; [vm_compute; discriminate|]. split; [vm_compute; discriminate|]. split; eexists; vm_compute; reflexivity. Qed.
