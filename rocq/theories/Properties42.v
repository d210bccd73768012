(** Theorem C76: the path of a component is only written. *)
From Verif Require Import PropFacts1 CodeFacts ElementFacts Inv Fuel ExampleFacts Properties1 OrderFacts Lex.
From Verif Require Import Properties2 Properties6 Properties8 Properties13 Properties21 Properties26 Properties35 Properties37.
From Verif Require Import SpecStr SpecGrammar SpecOut SpecRead SpecOrder SpecReports SpecConfined SpecStop SpecOneChild SpecRenamed Nightly.
From Verif Require Import OneChildFacts RenamedFacts RenamedFacts2.
Open Scope list_scope.
Close Scope expand_scope.

(** One component, not used as a slot, has another path.  Then there is a
    panic in one view if and only if there is one in the other, and for the same reasons;
    and otherwise the same is reported. *)
Theorem C76_panics E a b p p' cs cs' : env_ok E -> wf a -> wf b ->
  children_phrase E a cs -> children_phrase E b cs' -> renamed (TagComponent p) (TagComponent p') cs cs' ->
  ((exists w, mview E a = Panicked w) <-> (exists w, mview E b = Panicked w)) /\
  (forall w, view_stops cs w <-> view_stops cs' w).
Proof.
  intros HE Ha Hb Hpa Hpb Hr.
  assert (Q : forall w, view_stops cs w <-> view_stops cs' w).
  { intros w. split; [|now apply (path_stops p p')].
    apply (path_stops p' p). now apply renamed_sym. }
  split; [|exact Q]. destruct (C55_grammar E a cs HE Ha Hpa) as [A1 A2]. destruct (C55_grammar E b cs' HE Hb Hpb) as [B1 B2].
  split; intros (w & H); [apply B2|apply A2]; exists w; apply Q; auto.
Qed.
Print Assumptions C76_panics.

Theorem C76_reports E a b p p' cs cs' ds : env_ok E -> wf a -> wf b ->
  children_phrase E a cs -> children_phrase E b cs' -> renamed (TagComponent p) (TagComponent p') cs cs' ->
  (mview E a = Errors ds <-> mview E b = Errors ds) /\
  ((exists out, mview E a = Expanded out) <-> (exists out, mview E b = Expanded out)).
Proof.
  intros HE Ha Hb Hpa Hpb Hr. destruct (C76_panics E a b p p' cs cs' HE Ha Hb Hpa Hpb Hr) as [Hp _].
  assert (Q := path_reports p p' cs cs' Hr).
  assert (Ra := C47_reports E a cs HE Ha Hpa). assert (Rb := C47_reports E b cs' HE Hb Hpb). rewrite Q in Ra.
  destruct (mview E a) as [o|l|w|], (mview E b) as [o'|l'|w'|]; try contradiction;
    try (destruct (proj1 Hp) as (? & K); [now eexists|discriminate K]);
    try (destruct (proj2 Hp) as (? & K); [now eexists|discriminate K]);
    try (destruct Rb; congruence); try (destruct Ra; congruence).
  - split; split; try discriminate; eauto.
  - destruct Ra as [-> _], Rb as [-> _]. split; [tauto|]. split; intros (? & K); discriminate K.
  - split; split; try discriminate; intros (? & K); discriminate K.
Qed.
Print Assumptions C76_reports.

Theorem C76_reports_nightly E a b p p' cs cs' o o' ds ds' : env_ok E -> wf a -> wf b ->
  children_phrase E a cs -> children_phrase E b cs' -> renamed (TagComponent p) (TagComponent p') cs cs' ->
  mview_nightly E a = Gave o ds -> mview_nightly E b = Gave o' ds' -> ds = ds'.
Proof.
  intros HE Ha Hb Hpa Hpb Hr R R'. assert (Q := path_reports p p' cs cs' Hr).
  assert (Ra := C47_reports_nightly E a cs HE Ha Hpa). assert (Rb := C47_reports_nightly E b cs' HE Hb Hpb).
  rewrite R in Ra. rewrite R' in Rb. congruence.
Qed.
Print Assumptions C76_reports_nightly.

(** If one expands, so does the other; and the codes are the same but for the code of the
    component, where again all is the same but for the path: up to the order of slots, and
    literally so for some order.  (If no code is made for it, they are the same.) *)
Theorem C76_code E a b p p' u v cs cs' out : env_ok E -> wf a -> wf b ->
  children_phrase E a cs -> children_phrase E b cs' ->
  path_code p u -> path_code p' v -> renamed (TagComponent p) (TagComponent p') cs cs' ->
  mview E a = Expanded out ->
  exists out' E' out'', mview E b = Expanded out' /\
    generic_args E' = generic_args E /\ env_ok E' /\ mview E' b = Expanded out'' /\
    reordered out' out'' /\ (out = out'' \/ exists calls entries,
      same_around (component_frame u calls entries) (component_frame v calls entries) out out'').
Proof.
  intros HE Ha Hb Hpa Hpb Hu Hv Hr Hm.
  destruct (C76_reports E a b p p' cs cs' [] HE Ha Hb Hpa Hpb Hr) as [_ [He _]]. destruct He as (out' & Hm'); [eauto|].
  exists out'.
  assert (Hra : root_code cs out) by (apply (expands_root E a); now split; [|split; [|split]]).
  assert (Hrb : root_code cs' out') by (apply (expands_root E b); now split; [|split; [|split]]).
  destruct (path_renamed_code p p' u v Hu Hv cs cs' out out' Hr Hra Hrb) as (o & Hc & Hd).
  assert (Hsp : mview_spec E b o) by (exists cs'; now split).
  destruct (C43_every_meaning E b o HE Hb Hsp) as (E' & Hg & HE' & Hm2). exists E', o.
  split; [exact Hm'|]. split; [exact Hg|]. split; [exact HE'|]. split; [exact Hm2|]. split; [|exact Hd].
  apply (C27_order E E' b cs' cs'); [intros ts; now rewrite Hg| |].
  - now split; [|split; [|split]].
  - split; [exact HE'|]. split; [exact Hb|]. split; [|exact Hm2].
    eapply same_phrase; [intros ts; symmetry; now rewrite Hg|exact HE|exact HE'|exact Hb|exact Hpb].
Qed.
Print Assumptions C76_code.

Theorem C76_one_name E a b p p' u v cs cs' out : env_ok E -> wf a -> wf b ->
  children_phrase E a cs -> children_phrase E b cs' ->
  path_code p u -> path_code p' v -> renamed (TagComponent p) (TagComponent p') cs cs' ->
  (forall k e, anywhere cs' k e -> one_slot_name e) ->
  mview E a = Expanded out ->
  exists out', mview E b = Expanded out' /\ (out = out' \/ exists calls entries,
    same_around (component_frame u calls entries) (component_frame v calls entries) out out').
Proof.
  intros HE Ha Hb Hpa Hpb Hu Hv Hr Hone Hm.
  destruct (C76_code E a b p p' u v cs cs' out HE Ha Hb Hpa Hpb Hu Hv Hr Hm) as (out' & E' & o & Hm' & Hg & HE' & Hm2 & _ & H).
  assert (Q : mview E b = mview E' b).
  { apply C41_same; [exact HE|exact HE'|intros ts; now rewrite Hg|]. intros l (r & ds & Hl).
    assert (Hp := C03_accepts_grammar E b _ cs' HE Hb (Nat.lt_succ_diag_r _) Hpb). unfold children_of in Hl. rewrite Hp in Hl.
    inversion Hl; subst. exact Hone. }
  exists out'. split; [exact Hm'|]. rewrite Hm', Hm2 in Q. injection Q as ->. exact H.
Qed.
Print Assumptions C76_one_name.

(** ** Cases *)

Definition path_view (s : string) : list tt := view_with (s ++ ".k on:e={1} b=2 { 'm' slot:V; }")%string.
Definition the_path (s : string) : path :=
  match first_child (tree_of (lex (s ++ ";")%string)) with
  | CElement (Element (TagComponent p) _ _ _ _) => p | _ => Path false [] end.
Definition path_change (s s' : string) : Prop :=
  wf (path_view s) /\ wf (path_view s') /\
  children_phrase E0 (path_view s) (tree_of (path_view s)) /\ children_phrase E0 (path_view s') (tree_of (path_view s')) /\
  renamed (TagComponent (the_path s)) (TagComponent (the_path s')) (tree_of (path_view s)) (tree_of (path_view s')) /\
  mview E0 (path_view s) = Expanded (out_of (path_view s)) /\
  out_of (path_view s) <> out_of (path_view s').
Ltac show_paths s s' :=
  assert (H1 : expands E0 (path_view s) (tree_of (path_view s)) (out_of (path_view s))) by (apply case_expands; vm_compute; reflexivity);
  assert (H2 : expands E0 (path_view s') (tree_of (path_view s')) (out_of (path_view s'))) by (apply case_expands; vm_compute; reflexivity);
  destruct H1 as (_ & W1 & P1 & M1); destruct H2 as (_ & W2 & P2 & M2); unfold path_change;
  split; [exact W1|]; split; [exact W2|]; split; [exact P1|]; split; [exact P2|];
  split; [split; [vm_compute; reflexivity|]; eexists _, _, _, _; vm_compute; find_edit|]; split; [exact M1|]; vm_compute; discriminate.
Example C76_case_name : path_change "Q" "Other".
Proof. show_paths "Q"%string "Other"%string. Qed.
Example C76_case_path : path_change "Q" "m::Q".
Proof. show_paths "Q"%string "m::Q"%string. Qed.
Example C76_case_generic : path_change "Q" "Q<u8>".
Proof. show_paths "Q"%string "Q<u8>"%string. Qed.
Example C76_case_code : path_code (the_path "Q") [TIdent (Id false "Q")] /\
  path_code (the_path "m::Q") ([TIdent (Id false "m")] ++ dcolon ++ [TIdent (Id false "Q")]).
Proof. split; vm_compute; repeat constructor. apply (sgs_cons _ [_] _ _ [_]); repeat constructor. Qed.

(** A slot is different: its name is also the name of a property of the component around it. *)
Example C76_slot :
  mview E0 (lex "C { slot:S; }") <> mview E0 (lex "C { slot:T; }") /\
  existsb (mentions "into_vec") (out_of (lex "C { slot:S; slot:S; }")) = true /\
  existsb (mentions "into_vec") (out_of (lex "C { slot:S; slot:T; }")) = false.
Proof. split; [vm_compute; discriminate|]. split; vm_compute; reflexivity. Qed.
