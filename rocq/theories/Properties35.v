(** Theorem C69: parts of a view can be taken out without harm to the rest. *)
From Verif Require Import PropFacts1 CodeFacts ElementFacts Inv Fuel ExampleFacts Properties1 OrderFacts Lex.
From Verif Require Import Properties2 Properties6 Properties8 Properties13 Properties21 Properties26.
From Verif Require Import SpecStr SpecGrammar SpecOut SpecRead SpecOrder SpecReports SpecStop SpecCut Nightly.
From Verif Require Import SpecWritable Properties22 CutFacts CutFacts2 CutFacts3.
Open Scope list_scope.
Close Scope expand_scope.

(** If a view expands, so does each view that is read as its tree with some selectors,
    attributes, modifiers and children taken out, at any depth.  And its code is what
    was there before, with something left out: nothing new, nothing moved, up to the
    order of slots; there is an order for which it is literally so.  (Only for a view
    that becomes empty the code is that of an empty view.) *)
Theorem C69_taken_out E a b cs cs' out : env_ok E -> wf a -> wf b ->
  children_phrase E a cs -> children_phrase E b cs' -> cut_children cs' cs ->
  mview E a = Expanded out ->
  exists out', mview E b = Expanded out' /\
    (cs' <> [] \/ List.length cs <> 1 ->
     exists E' out'', generic_args E' = generic_args E /\ env_ok E' /\ mview E' b = Expanded out'' /\
       reordered out' out'' /\ within out'' out).
Proof.
  intros HE Ha Hb Hpa Hpb Hc Hm. assert (Hr : root_code cs out) by (apply (expands_root E a); now split; [|split; [|split]]).
  destruct (cut_root _ _ _ Hr Hc) as (o & Ho & H1 & H2).
  assert (Hs : mview_spec E b o) by (exists cs'; now split).
  destruct (C43_meaning_is_expanded E b o HE Hb Hs) as (out' & Hout & _). exists out'. split; [exact Hout|]. intros Hne.
  destruct (C43_every_meaning E b o HE Hb Hs) as (E' & Hg & HE' & Hm'). exists E', o.
  split; [exact Hg|]. split; [exact HE'|]. split; [exact Hm'|]. split.
  - apply (C27_order E E' b cs' cs'); [intros ts; now rewrite Hg| |].
    + now split; [|split; [|split]].
    + split; [exact HE'|]. split; [exact Hb|]. split; [|exact Hm'].
      eapply same_phrase; [intros ts; symmetry; now rewrite Hg|exact HE|exact HE'|exact Hb|exact Hpb].
  - destruct Hne as [Hne|Hne]; [now apply H2|]. destruct cs' as [|c r]; [now apply H1|apply H2; discriminate].
Qed.
Print Assumptions C69_taken_out.

(** Without two slot names on one component there is nothing to reorder. *)
Theorem C69_one_name E a b cs cs' out : env_ok E -> wf a -> wf b ->
  children_phrase E a cs -> children_phrase E b cs' -> cut_children cs' cs -> cs' <> [] ->
  (forall k e, anywhere cs' k e -> one_slot_name e) ->
  mview E a = Expanded out -> exists out', mview E b = Expanded out' /\ within out' out.
Proof.
  intros HE Ha Hb Hpa Hpb Hc Hne Hone Hm. destruct (C69_taken_out E a b cs cs' out HE Ha Hb Hpa Hpb Hc Hm) as (out' & Hout & H).
  destruct (H (or_introl Hne)) as (E' & o & Hg & HE' & Hm' & _ & Hw). exists out'. split; [exact Hout|].
  assert (Q : mview E b = mview E' b).
  { apply C41_same; [exact HE|exact HE'|intros ts; now rewrite Hg|]. intros l (r & ds & Hl).
    assert (Hp := C03_accepts_grammar E b _ cs' HE Hb (Nat.lt_succ_diag_r _) Hpb). unfold children_of in Hl. rewrite Hp in Hl.
    inversion Hl; subst. exact Hone. }
  rewrite Hout, Hm' in Q. injection Q as ->. exact Hw.
Qed.
Print Assumptions C69_one_name.

(** Nor are there new reports or panics: those that remain are some of the ones before,
    in the same order.  Slots at the root hide all other reports; so not all of them
    may be taken out. *)
Theorem C69_reports E a b cs cs' : env_ok E -> wf a -> wf b ->
  children_phrase E a cs -> children_phrase E b cs' -> cut_children cs' cs ->
  ((exists e, In (CSlot e) cs) -> exists e, In (CSlot e) cs') ->
  match mview E a, mview E b with
  | Expanded _, Expanded _ => True
  | Errors ds, Errors ds' => less eq ds' ds
  | Errors _, Expanded _ => True
  | Panicked _, _ => True
  | _, _ => False
  end.
Proof.
  intros HE Ha Hb Hpa Hpb Hc Hs.
  assert (Ra := C47_reports E a cs HE Ha Hpa). assert (Rb := C47_reports E b cs' HE Hb Hpb).
  assert (L := cut_view_reports cs cs' Hc Hs).
  destruct (C55_grammar E a cs HE Ha Hpa) as [_ Pa]. destruct (C55_grammar E b cs' HE Hb Hpb) as [Pb _].
  assert (Hp : forall w, mview E b = Panicked w -> exists w, mview E a = Panicked w).
  { intros w Hw. apply Pa. exists w. apply (cut_view_stops cs cs' w Hc Hs). now apply Pb. }
  destruct (mview E a) as [o|ds|w|]; destruct (mview E b) as [o'|ds'|w'|]; auto; try (destruct (Hp _ eq_refl); discriminate).
  - rewrite Ra in L. apply less_nil_inv in L. destruct Rb as [-> Rb]. now destruct Rb.
  - destruct Ra as [-> _], Rb as [-> _]. exact L.
Qed.
Print Assumptions C69_reports.

Theorem C69_reports_nightly E a b cs cs' : env_ok E -> wf a -> wf b ->
  children_phrase E a cs -> children_phrase E b cs' -> cut_children cs' cs ->
  ((exists e, In (CSlot e) cs) -> exists e, In (CSlot e) cs') ->
  match mview_nightly E a, mview_nightly E b with
  | Gave _ ds, Gave _ ds' => less eq ds' ds
  | Crashed _, _ => True
  | _, _ => False
  end.
Proof.
  intros HE Ha Hb Hpa Hpb Hc Hs.
  assert (Ra := C47_reports_nightly E a cs HE Ha Hpa). assert (Rb := C47_reports_nightly E b cs' HE Hb Hpb).
  assert (L := cut_view_reports cs cs' Hc Hs). assert (M := C69_reports E a b cs cs' HE Ha Hb Hpa Hpb Hc Hs).
  assert (P : forall i, (exists w, mview_nightly E i = Crashed w) <-> exists w, mview E i = Panicked w).
  { intros i. unfold mview_nightly, mview. destruct (parse_children E (S (size i)) i) as [o r ds].
    destruct o as [l|e| |w|]; [|split; intros (w' & H'); discriminate|split; intros (w' & H'); discriminate
      |split; intros; eexists; reflexivity|split; intros (w' & H'); discriminate].
    destruct (root_tokens E l) as [x ds']. destruct x as [t| |w]; [| |split; intros; eexists; reflexivity].
    - split; intros (w' & H'); [discriminate|]. destruct (ds ++ ds'); discriminate.
    - split; intros (w' & H'); discriminate. }
  destruct (mview_nightly E a) as [o ds|w|] eqn:Na; destruct (mview_nightly E b) as [o' ds'|w'|] eqn:Nb; auto.
  - now subst.
  - destruct (P b) as [Pb _]. destruct (Pb (ex_intro _ w' Nb)) as (w & Hw). rewrite Hw in M.
    destruct (mview E a) as [?|?|wa|] eqn:Ma; try contradiction. destruct (P a) as [_ Pa]. destruct (Pa (ex_intro _ wa Ma)) as (u & Hu).
    congruence.
Qed.
Print Assumptions C69_reports_nightly.

(** The rest can always be written as a view, unless names have dashes at their ends. *)
Theorem C69_written E a cs cs' : env_ok E -> wf a -> children_phrase E a cs -> Forall apart cs -> cut_children cs' cs ->
  exists b, wf b /\ children_phrase E b cs'.
Proof.
  intros HE Ha Hp Hap Hc. assert (Ho : Forall (child_ok E) cs) by (apply C56_written; [exact HE|]; eauto).
  apply C56_written; [exact HE|]. apply Forall_forall. destruct (cut_ok E) as [_ H]. rewrite Forall_forall in Ho, Hap.
  now apply (H cs' cs).
Qed.
Print Assumptions C69_written.

(** ** Cases *)

Ltac cut_list :=
  first [ apply cch_nil
        | apply cch_value; cut_list
        | apply cch_element; [cut_elem|cut_list]
        | apply cch_slot; [cut_elem|cut_list]
        | apply cch_out; cut_list ]
with cut_elem := apply cut_intro; [less_list|less_list|cut_list|first [left; split; [reflexivity|let Q := fresh in intros Q; first [discriminate Q|reflexivity]]|right; split; reflexivity]]
with less_list :=
  first [ apply less_nil
        | apply less_keep; [first [reflexivity|apply ca_same|apply ca_modifier]|less_list]
        | apply less_out; less_list ].

Definition whole : list tt :=
  lex "div.a.b k=1 class:x={c} on:click:undelegated={f} { 'x' My #i #j k=2 clone:z |q| { slot:S k=3; slot:S; slot:T { 'u' } 'd' } {e} }".
Definition left_over : list tt :=
  lex "div.b on:click={f} { My #j clone:z |q| { slot:S; slot:T; 'd' } }".
Example C69_case :
  wf whole /\ wf left_over /\ children_phrase E0 whole (tree_of whole) /\ children_phrase E0 left_over (tree_of left_over) /\
  cut_children (tree_of left_over) (tree_of whole) /\ tree_of left_over <> [] /\
  (exists out, mview E0 whole = Expanded out) /\ exists out', mview E0 left_over = Expanded out'.
Proof.
  assert (H1 : expands E0 whole (tree_of whole) (out_of whole)) by (apply case_expands; vm_compute; reflexivity).
  assert (H2 : expands E0 left_over (tree_of left_over) (out_of left_over)) by (apply case_expands; vm_compute; reflexivity).
  destruct H1 as (_ & W1 & P1 & M1). destruct H2 as (_ & W2 & P2 & M2).
  split; [exact W1|]. split; [exact W2|]. split; [exact P1|]. split; [exact P2|].
  split; [vm_compute; cut_list|]. split; [vm_compute; discriminate|].
  split; [exact (ex_intro _ _ M1)|exact (ex_intro _ _ M2)].
Qed.

Lemma dash_free s : existsb (Ascii.eqb "-") (chars s) = false -> ~ starts_dash s /\ ~ ends_dash s.
Proof.
  intros H. split.
  - intros (r & Q). rewrite Q in H. discriminate.
  - intros (l & Q). rewrite Q, existsb_app in H. apply Bool.orb_false_iff in H as [_ H]. discriminate.
Qed.
Ltac apart_tac :=
  first [ apply ap_value | apply ap_element; apart_elem | apply ap_slot; apart_elem ]
with apart_elem :=
  apply ap_intro;
  [ intros s Hs; vm_compute in Hs; first [discriminate Hs | injection Hs as <-; apply dash_free; reflexivity]
  | repeat (apply Forall_cons; [apply dash_free; reflexivity|]); apply Forall_nil
  | repeat (apply Forall_cons; [first [exact I | apply dash_free; reflexivity]|]); apply Forall_nil
  | apply Forall_forall; repeat (apply Forall_cons; [apart_tac|]); apply Forall_nil ].
Example C69_written_case : Forall apart (tree_of whole).
Proof. vm_compute. apply Forall_cons; [apart_tac|apply Forall_nil]. Qed.

(** Reports: two of six remain. *)
Definition wrong : list tt := lex "div attr:x={y} k=g[a]; C use:'s':m={1} bogus:x { p clone:q; }".
Definition less_wrong : list tt := lex "div k=g[a]; C { p clone:q; }".
Example C69_reports_case :
  wf wrong /\ wf less_wrong /\ children_phrase E0 wrong (tree_of wrong) /\ children_phrase E0 less_wrong (tree_of less_wrong) /\
  cut_children (tree_of less_wrong) (tree_of wrong) /\
  mview E0 wrong = Errors [DNotOnElements "attr"; DPrefix; DExpectedIdent; DModifier; DUnknownDirective; DNotOnElements "clone"] /\
  mview E0 less_wrong = Errors [DPrefix; DNotOnElements "clone"].
Proof.
  assert (W1 : wf wrong) by (apply wfb_ok; vm_compute; reflexivity).
  assert (W2 : wf less_wrong) by (apply wfb_ok; vm_compute; reflexivity).
  split; [exact W1|]. split; [exact W2|].
  split; [apply (C02_accepts_only_grammar E0 wrong _ _ [] E0_ok W1 (Nat.lt_succ_diag_r _)); vm_compute; reflexivity|].
  split; [apply (C02_accepts_only_grammar E0 less_wrong _ _ [] E0_ok W2 (Nat.lt_succ_diag_r _)); vm_compute; reflexivity|].
  split; [vm_compute; cut_list|]. split; vm_compute; reflexivity.
Qed.

(** What the conditions are for.  Taking out the text of an attribute can join its
    neighbours, so that another tree is read: a key that starts with [-] becomes part
    of the name before it; of the tag, or of a key without a value. *)
Example C69_joined :
  (exists out, mview E0 (lex "p b={2} -c={3};") = Expanded out) /\
  (exists ds, mview E0 (lex "p -c={3};") = Errors ds) /\
  (exists out, mview E0 (lex "p a b={2} -c={3};") = Expanded out) /\
  (exists out, mview E0 (lex "p a -c={3};") = Expanded out) /\
  mview E0 (lex "p a -c={3};") = mview E0 (lex "p a-c={3};").
Proof.
  split; [vm_compute; eexists; reflexivity|]. split; [vm_compute; eexists; reflexivity|].
  split; [vm_compute; eexists; reflexivity|]. split; [vm_compute; eexists; reflexivity|]. vm_compute; reflexivity.
Qed.
(** There is no view at all for what should be left in the first case. *)
Example C69_unwritten : exists cs',
  cut_children cs' (tree_of (lex "p b={2} -c={3};")) /\ ~ exists b, wf b /\ children_phrase E0 b cs'.
Proof.
  exists [CElement (Element (TagHtml (Id true "p")) [] [AKv (KvAttr (Kebab "-c" 2) (VBlock (lex "3")))] None None)].
  split; [vm_compute; cut_list|]. intros H. apply C56_written in H; [|exact E0_ok]. inversion H as [|? ? Hc _]; subst.
  inversion Hc as [|? He _|]; subst.
  assert (G : forall t attrs, element_ok E0 (Element t [] attrs None None) -> attrs_after (name_before t []) attrs)
    by (intros t attrs Q; inversion Q; subst; assumption).
  apply G in He. destruct He as [Haf _]. specialize (Haf "p"%string eq_refl).
  assert (G2 : forall k v, attr_after "p" (AKv (KvAttr k v)) -> (exists i, v = VBlock [TIdent i]) \/ ~ starts_dash (k_repr k))
    by (intros k v Q; inversion Q; subst; [left; eauto|now right]).
  apply G2 in Haf. destruct Haf as [(i & Q)|Q]; [vm_compute in Q; discriminate|].
  apply Q. exists ["c"%char]. reflexivity.
Qed.
(** Without its slots at the root a view may have reports that were hidden. *)
Example C69_hidden :
  mview E0 (lex "slot:S; p bogus:x={1};") = Errors [DRootSlot] /\
  mview E0 (lex "p bogus:x={1};") = Errors [DUnknownDirective].
Proof. split; vm_compute; reflexivity. Qed.
(** Closure arguments and values are not parts that can be taken out: something else is
    written in their place. *)
Fixpoint mentions (s : string) (t : tt) : bool :=
  match t with
  | TIdent i => String.eqb (i_name i) s
  | TGroup _ ts => existsb (mentions s) ts
  | _ => false
  end.
Lemma within_mentions s a b : within a b -> existsb (mentions s) a = true -> existsb (mentions s) b = true.
Proof.
  induction 1 as [|t a b H IH|t a b H IH|d x y a b Hx IHx H IH|d x a b H IH|l m a b Hl Hn H IH]; cbn; auto.
  - intros Q. rewrite (IH Q). apply Bool.orb_true_r.
  - intros Q. apply Bool.orb_true_iff in Q as [Q|Q]; [now rewrite Q|]. rewrite (IH Q). apply Bool.orb_true_r.
  - intros Q. apply Bool.orb_true_iff in Q as [Q|Q]; [now rewrite (IHx Q)|]. rewrite (IH Q). apply Bool.orb_true_r.
  - intros Q. specialize (IH Q). now rewrite existsb_app in IH.
Qed.
Example C69_not_parts :
  ~ within (out_of (lex "C { 'a' }")) (out_of (lex "C |x| { 'a' }")) /\
  ~ within (out_of (lex "C class:x;")) (out_of (lex "C class:x={y};")).
Proof.
  split; intros H.
  - apply (within_mentions "to_children") in H; vm_compute in H |- *; [discriminate|reflexivity].
  - apply (within_mentions "true") in H; vm_compute in H |- *; [discriminate|reflexivity].
Qed.
