(** Theorems C29-C31: slots. *)
From Verif Require Import PropFacts1 CodeFacts ElementFacts Inv Fuel ExampleFacts.
From Verif Require Import TreeInv PhraseInv Report Same Swap PlaceFacts Properties2 Properties3 Properties4.
From Verif Require Import SpecStr SpecGrammar SpecOut SpecRead SpecContext SpecEdit.
From Coq Require Import Lia Permutation.
Open Scope list_scope.
Open Scope expand_scope.

Lemma children_of_phrase E input cs : env_ok E -> wf input -> children_phrase E input cs ->
  children_of E input = PR (Ret cs) [] [].
Proof. intros. apply children_of_ok; auto. Qed.

(** ** C29: slots at the root *)

(** Whatever the tree is, if there is a slot among the root children, it is
    reported and nothing is expanded (not even looked at). *)
Theorem C29_root_slot E input cs e :
  env_ok E -> built E input cs -> In (CSlot e) cs ->
  exists ds, mview E input = Errors (ds ++ [DRootSlot]).
Proof.
  intros HE (r & ds & Hb) Hin. exists ds. unfold mview. fold (children_of E input). rewrite Hb.
  assert (Hs : existsb is_slot cs = true) by (apply is_slot_iff; eauto).
  unfold root_tokens. destruct cs as [|c [|c2 cs]]; [destruct Hin| |now rewrite Hs].
  destruct Hin as [->|[]]. reflexivity.
Qed.
Print Assumptions C29_root_slot.

(** The same for the tokens: [slot:] where a root child is expected rules out
    an expansion, whatever comes after it. *)
Theorem C29_tokens E pre cs rest out :
  env_ok E -> wf (pre ++ rest) -> children_phrase E pre cs -> slot_prefix rest ->
  mview E (pre ++ rest) <> Expanded out.
Proof.
  intros HE Hwf Hp Hs Hm. apply mview_sound in Hm; auto. destruct Hm as (cs' & Hc & Hr).
  assert (Hc' : children_of E (pre ++ rest) = PR (Ret cs') [] []) by (apply children_of_ok; auto).
  clear Hc. rename Hc' into Hc. rewrite (children_app E pre cs) in Hc; auto.
  destruct (children_of E rest) as [[c2| | | |] r2 d2] eqn:H2; try discriminate. inversion Hc; subst.
  rewrite wf_app in Hwf. apply children_of_ok in H2; try tauto. destruct H2 as [_ H2].
  assert (Hin : exists e, In (CSlot e) c2).
  { inversion H2 as [|ts c ts' c3 Hch]; subst.
    - destruct Hs as (? & ? & ? & _). discriminate.
    - inversion Hch as [? v ? Hv|? e ? He Hi Hn|sp ts1 e ? ? He]; subst.
      + destruct Hs as (? & ? & Heq & _). inversion Hv; subst; inversion Heq.
      + contradiction.
      + exists e. now left. }
  destruct Hin as (e & Hin).
  inversion Hr as [c code Hns _ Heq|l codes Hl Hns _ Heq]; subst.
  - assert (Hx : In (CSlot e) [c]) by (rewrite Heq; apply in_or_app; auto). destruct Hx as [Hx|[]]. now apply (Hns e).
  - apply (Hns e). apply in_or_app. auto.
Qed.
Print Assumptions C29_tokens.

Example C29_case : built E0 (lex "p; slot:A a=1 { 'x' } {b}") (tree_of (lex "p; slot:A a=1 { 'x' } {b}")) /\
  (exists e, In (CSlot e) (tree_of (lex "p; slot:A a=1 { 'x' } {b}"))) /\
  mview E0 (lex "p; slot:A a=1 { 'x' } {b}") = Errors [DRootSlot] /\
  (exists cs, children_phrase E0 (lex "p; 'x'") cs) /\ slot_prefix (lex "slot: div a=").
Proof.
  split; [eexists _, _; vm_compute; reflexivity|].
  split; [eexists; vm_compute; right; left; reflexivity|].
  split; [vm_compute; reflexivity|].
  split.
  - apply childrenb_ok; [apply E0_ok|apply wfb_ok; vm_compute; reflexivity|vm_compute; reflexivity].
  - apply slotb_ok. vm_compute. reflexivity.
Qed.

(** ** C30: slots that are ignored *)

Definition clean_imp (E : env) (b : bool) (e e' : element) : Prop :=
  el_tag e = el_tag e' /\ forall at_ ts, expand_element E at_ b e gives ts -> expand_element E at_ b e' gives ts.
Definition nodes_imp (E : env) (l l' : list child) : Prop := forall at_ n codes,
  Forall2 (fun m a => m gives a) (expand_nodes E at_ n l) codes ->
  Forall2 (fun m a => m gives a) (expand_nodes E at_ n l') codes.
Definition slots_imp (E : env) (o : owner) (l l' : list child) : Prop := forall at_ n,
  match o with
  | OfHtml => True
  | OfComponent => forall slots, Forall2 slot_item (expand_slots E at_ n l) slots ->
                                 Forall2 slot_item (expand_slots E at_ n l') slots
  | OfSlot => (exists slots, Forall2 slot_item (expand_slots E at_ n l) slots /\
                 forall i, In i (map fst slots) -> exists m, camel_snake (i_name i) m /\ ~ In m ("" :: reserved_words)) ->
              exists slots, Forall2 slot_item (expand_slots E at_ n l') slots /\
                 forall i, In i (map fst slots) -> exists m, camel_snake (i_name i) m /\ ~ In m ("" :: reserved_words)
  end.
Lemma slots_tokens_imp E at_ l l' ts :
  (forall slots, Forall2 slot_item l slots -> Forall2 slot_item l' slots) ->
  slots_to_tokens E at_ l gives ts -> slots_to_tokens E at_ l' gives ts.
Proof.
  intros H Hs. unfold slots_to_tokens in *. apply xbind_ok in Hs. destruct Hs as (m & Hm & Hs).
  apply collect_ok in Hm. destruct Hm as (slots & Hl & ->). apply xbind_ok. eexists.
  split; [apply collect_ok; eauto|]. exact Hs.
Qed.
Lemma slots_named_ok E at_ l : env_ok E ->
  (exists ts, slots_to_tokens E at_ l gives ts) <->
  (exists slots, Forall2 slot_item l slots /\
     forall i, In i (map fst slots) -> exists m, camel_snake (i_name i) m /\ ~ In m ("" :: reserved_words)).
Proof.
  intros HE. split.
  - intros (ts & H). apply slots_sound in H; auto. destruct H as (slots & scalls & Hl & Hc & _). exists slots. split; auto.
    intros i Hi. destruct Hc as [order calls Hn Ho Hf]. apply Ho in Hi.
    destruct (forall2_in_l _ _ _ _ Hf Hi) as (c & _ & Hc). inversion Hc; subst. eauto.
  - intros (slots & Hl & Hn).
    assert (Hc : exists calls, Forall2 (slot_call slots) (nodup ident_dec (map fst slots)) calls).
    { assert (Hn' : forall i, In i (nodup ident_dec (map fst slots)) -> exists m, camel_snake (i_name i) m /\ ~ In m ("" :: reserved_words))
        by (intros i Hi; apply nodup_In in Hi; auto).
      clear -Hn'. induction (nodup ident_dec (map fst slots)) as [|i l IH]; [exists []; constructor|].
      destruct IH as (calls & Hc); [intros; apply Hn'; now right|].
      destruct (Hn' i (or_introl eq_refl)) as (m & H1 & H2). eexists (_ :: calls). constructor; auto. econstructor; eauto. }
    destruct Hc as (calls & Hc). eapply slots_total; eauto.
    apply slot_calls_intro with (nodup ident_dec (map fst slots)); [apply NoDup_nodup| |exact Hc].
    intros i. apply nodup_In.
Qed.

Lemma alike_clean E : env_ok E ->
  (forall b e e', alike b e e' -> clean_imp E b e e') /\
  (forall o ch ch', alike_opt o ch ch' ->
     nodes_imp E (child_list ch) (child_list ch') /\ slots_imp E o (child_list ch) (child_list ch')) /\
  (forall o l l', alike_list o l l' -> nodes_imp E l l' /\ slots_imp E o l l').
Proof.
  intros HE. apply alike_ind3; try (intros; split; [intros ? ? ? ?; auto; fail|]); auto.
  - (* an element *)
    intros b t sels attrs args ch ch' Ho [Hn Hs]. split; [reflexivity|]. intros at_ ts.
    assert (Hopt : (ch = None <-> ch' = None)) by (inversion Ho; split; congruence). clear Ho.
    rewrite !expand_element_eq. unfold element_tokens.
    assert (Hcomp : forall p, t = TagComponent p ->
      expect_path (component_to_tokens E at_ b t sels attrs args (option_map (expand_nodes E at_ 0) ch) (option_map (expand_slots E at_ 0) ch)) gives ts ->
      expect_path (component_to_tokens E at_ b t sels attrs args (option_map (expand_nodes E at_ 0) ch') (option_map (expand_slots E at_ 0) ch')) gives ts).
    { intros p -> H. apply component_ok in H. apply component_ok.
      destruct H as (path & props & entries & clones & codes & sl & H1 & H2 & H3 & H4 & H5 & H6 & H7 & H8 & H9).
      rewrite nodes_opt in H7. apply Hn in H7.
      assert (Hsl : exists sl', match option_map (expand_slots E at_ 0) ch' with Some l => slots_to_tokens E at_ l | None => xret [] end gives sl' /\
                                (b = false -> sl' = sl)).
      { specialize (Hs at_ 0). destruct ch as [l|], ch' as [l'|]; cbn [option_map child_list] in *;
          [| exfalso; destruct Hopt as [_ Hopt]; discriminate (Hopt eq_refl)|exfalso; destruct Hopt as [Hopt _]; discriminate (Hopt eq_refl)|].
        - destruct b; cbn in Hs.
          + destruct (proj2 (slots_named_ok E at_ (expand_slots E at_ 0 l') HE)) as (sl' & Hsl').
            { apply Hs. apply (slots_named_ok E at_ _ HE). eauto. }
            exists sl'. split; auto. discriminate.
          + exists sl. split; auto. eapply slots_tokens_imp; eauto.
        - exists sl. auto. }
      destruct Hsl as (sl' & Hsl & Hb).
      exists path, props, entries, clones, codes, sl'. rewrite nodes_opt.
      repeat match goal with |- _ /\ _ => split end; auto. destruct b; auto. now rewrite Hb. }
    destruct b.
    + destruct t as [i|p|i|i|k]; try (intros H; discriminate H). now apply (Hcomp p).
    + destruct (xml_to_tokens t sels attrs (option_map (expand_nodes E at_ 0) ch)) as [x|] eqn:Hx.
      * destruct (xml_to_tokens t sels attrs (option_map (expand_nodes E at_ 0) ch')) as [x'|] eqn:Hx'.
        -- intros H. apply (xml_ok _ _ _ _ _ _ Hx) in H. apply (xml_ok _ _ _ _ _ _ Hx').
           rewrite nodes_opt in *. destruct H as (head & kvs & dirs & codes & H1 & H2 & H3 & H4 & H5).
           exists head, kvs, dirs, codes. auto 10.
        -- exfalso. apply xml_none in Hx'. destruct Hx' as (p & ->). discriminate.
      * apply xml_none in Hx. destruct Hx as (p & ->). now apply (Hcomp p).
  - (* nothing *) intros at_ n. destruct o; cbn; auto.
  - intros at_ n. destruct o; cbn; auto.
  - (* a value *)
    intros o v l l' _ [Hn Hs]. split.
    + intros at_ n codes H. cbn [expand_nodes] in *. inversion H; subst. constructor; auto.
    + intros at_ n. specialize (Hs at_ (S n)). exact Hs.
  - (* an element *)
    intros o e e' l l' _ [_ He] _ [Hn Hs]. split.
    + intros at_ n codes H. cbn [expand_nodes] in *. inversion H as [|? ? ? ? Hx]; subst. constructor; [|now apply Hn].
      cbn [expand_node] in *. apply xbind_ok in Hx. destruct Hx as (ts & Hx & Hy). apply xbind_ok. eauto.
    + intros at_ n. specialize (Hs at_ (S n)). exact Hs.
  - (* a slot of a component *)
    intros e e' l l' _ [Ht He] _ [Hn Hs]. split; [intros at_ n; cbn [expand_nodes]; apply Hn|].
    intros at_ n slots H. cbn [expand_slots] in *. inversion H as [|? [i ts] ? ? [Hx Hy]]; subst. constructor; [|now apply Hs].
    split; cbn [fst snd] in *; [now rewrite <- Ht|auto].
  - (* a slot of an HTML element *)
    intros e e' l l' _ [Hn Hs]. split; [intros at_ n; cbn [expand_nodes]; apply Hn|]. intros at_ n. exact I.
  - (* a slot of a slot *)
    intros e e' l l' (i & m & code & Ht & Hm & Hr & Hc) _ [Hn Hs]. split; [intros at_ n; cbn [expand_nodes]; apply Hn|].
    intros at_ n (slots & H & Hi). cbn [expand_slots] in *. inversion H as [|? [j ts] ? sl Hx Hy]; subst.
    destruct (Hs at_ (S n)) as (slots' & H' & Hi').
    { exists sl. split; auto. intros k Hk. apply Hi. now right. }
    destruct (proj2 (expand_total E e' HE) (n :: at_) code Hc) as (ts' & Hts).
    exists ((i, ts') :: slots'). split; [constructor; auto; now split|].
    intros k [<-|Hk]; cbn; eauto.
Qed.

Lemma alike_root E cs cs' out : env_ok E -> alike_list OfComponent cs cs' ->
  root_tokens E cs gives out -> root_tokens E cs' gives out.
Proof.
  intros HE Ha. destruct (proj2 (proj2 (alike_clean E HE)) _ _ _ Ha) as [Hn _].
  assert (Hs : existsb is_slot cs = existsb is_slot cs').
  { clear Hn. remember OfComponent as o eqn:Ho. induction Ha; try discriminate; cbn [existsb is_slot orb]; auto. }
  assert (Hg : (if existsb is_slot cs then xabort DRootSlot else
      xbind (xseq (expand_nodes E [] 0 cs)) (fun l => xret [TGroup Brace
                ([pu "#"; TGroup Bracket [kw "allow"; par [kw "unused_braces"]]]
                 ++ children_fragment_tokens l)])) gives out ->
      (if existsb is_slot cs' then xabort DRootSlot else
      xbind (xseq (expand_nodes E [] 0 cs')) (fun l => xret [TGroup Brace
                ([pu "#"; TGroup Bracket [kw "allow"; par [kw "unused_braces"]]]
                 ++ children_fragment_tokens l)])) gives out).
  { rewrite <- Hs. destruct (existsb is_slot cs); auto. intros H. apply xbind_ok in H. destruct H as (l & Hl & H).
    apply xbind_ok. exists l. split; auto. apply xseq_ok in Hl. apply xseq_ok. now apply Hn. }
  unfold root_tokens in *. destruct cs as [|c [|c2 cs]]; destruct cs' as [|c' [|c2' cs']];
    try (exfalso; inversion Ha; match goal with H : alike_list _ _ _ |- _ => inversion H end; fail); auto.
  destruct c as [v|e|e], c' as [v'|e'|e']; try (exfalso; inversion Ha; fail); auto.
  - inversion Ha; subst; auto.
  - intros H. apply xbind_ok in H. destruct H as (ts & Hx & H). apply xbind_ok. exists ts. split; auto.
    specialize (Hn [] 0 [ts]). cbn [expand_nodes] in Hn.
    assert (Hf : Forall2 (fun m a => m gives a) [expand_node E [0] (CElement e')] [ts]) by (apply Hn; constructor; auto).
    now inversion Hf.
Qed.

(** Slots inside HTML elements may be anything that can be read as a slot;
    slots inside slots may be anything without an error in it.  However many
    of them are replaced, the expansion stays the same. *)
Theorem C30_ignored E input cs out input' cs' :
  expands E input cs out -> wf input' -> children_phrase E input' cs' ->
  alike_list OfComponent cs cs' ->
  mview E input' = Expanded out.
Proof.
  intros (HE & Hwf & Hc & Hm) Hwf' Hc' Ha. unfold mview in *.
  fold (children_of E input) in Hm. fold (children_of E input').
  apply (children_of_phrase E) in Hc; auto. apply (children_of_phrase E) in Hc'; auto.
  rewrite Hc in Hm. rewrite Hc'.
  destruct (root_tokens E cs) as [[ts| |w] d] eqn:Hr; try discriminate.
  destruct d; [|discriminate]. cbn in Hm. inversion Hm; subst.
  apply (alike_root E cs cs') in Hr; auto. now rewrite Hr.
Qed.
Print Assumptions C30_ignored.

(** Slots inside HTML elements and inside slots are lost without a report: the
    text of this view does not matter. *)
Theorem C30_refuted : exists input input' cs cs' out,
  expands E0 input cs out /\ wf input' /\ children_phrase E0 input' cs' /\
  alike_list OfComponent cs cs' /\ cs <> cs' /\ mview E0 input' = Expanded out.
Proof.
  set (i1 := lex "div { slot:A { 'lost' } p; } C { slot:B { slot:D { 'also lost' } 'kept' } }").
  set (i2 := lex "div { slot:E f=1 { } p; } C { slot:B { slot:G h; 'kept' } }").
  assert (H1 : expands E0 i1 (tree_of i1) (out_of i1)) by (apply case_expands; vm_compute; reflexivity).
  assert (H2 : expands E0 i2 (tree_of i2) (out_of i2)) by (apply case_expands; vm_compute; reflexivity).
  assert (Ha : alike_list OfComponent (tree_of i1) (tree_of i2)).
  { vm_compute. apply alike_child.
    - apply alike_element, alike_some, alike_in_html. apply alike_child; [|apply alike_nil]. apply alike_element, alike_none.
    - apply alike_child; [|apply alike_nil]. apply alike_element, alike_some.
      apply alike_kept; [|apply alike_nil]. apply alike_element, alike_some.
      apply alike_in_slot; [|apply alike_value, alike_nil].
      exists (Id false "G"), "g". eexists. split; [reflexivity|]. split; [apply camel_iff; vm_compute; reflexivity|]. split.
      { intros H. repeat (destruct H as [H|H]; [discriminate|]). exact H. }
      eapply (sc_slot (Path false [PSeg (Id false "G") PNone]) _ None None _ _ [] [] [] []).
      + apply pc_rel, sgs_one, sgc_plain.
      + repeat constructor. cbn. intros H. repeat (destruct H as [H|H]; [discriminate|]). exact H.
      + reflexivity.
      + constructor.
      + constructor.
      + constructor.
      + apply (slot_calls_intro [] []); [constructor|tauto|constructor]. }
  exists i1, i2, (tree_of i1), (tree_of i2), (out_of i1).
  destruct H2 as (_ & Hwf & Hc & _).
  split; [exact H1|]. split; [exact Hwf|]. split; [exact Hc|]. split; [exact Ha|].
  split; [vm_compute; discriminate|]. now apply (C30_ignored E0 i1 (tree_of i1) (out_of i1) i2 (tree_of i2)).
Qed.
Print Assumptions C30_refuted.

(** ** C31: what slots do not support *)

Definition slot_misuse (e : element) : Prop :=
  el_sels e <> [] \/ (exists s, In (ASpread s) (el_attrs e)) \/
  (exists d, In (ADir d) (el_attrs e) /\ d_dir d <> Id false "clone").
Lemma is_clone_iff d : is_clone d = true <-> d_dir d = Id false "clone".
Proof.
  unfold is_clone. destruct (d_dir d) as [[] n]; [split; discriminate|]. rewrite String.eqb_eq.
  split; [now intros ->|]. intros H. now inversion H.
Qed.
Lemma entries_in a l : In a (entries_of l) <-> In a l /\
  match a with AKv _ => False | ADir d => d_dir d <> Id false "clone" | ASpread _ => True end.
Proof.
  induction l as [|b l IH]; [cbn; tauto|]. destruct b as [k|d|s]; cbn [entries_of In].
  - rewrite IH. split; [tauto|]. intros [[<-|H] Ha]; [contradiction|auto].
  - destruct (is_clone d) eqn:Hc.
    + rewrite IH. split; [tauto|]. intros [[<-|H] Ha]; [|auto]. apply is_clone_iff in Hc. contradiction.
    + cbn [In]. rewrite IH. split; [|tauto]. intros [<-|H]; [|tauto]. split; auto. rewrite <- is_clone_iff. congruence.
  - cbn [In]. rewrite IH. split; [|tauto]. intros [<-|H]; tauto.
Qed.

Theorem C31_not_expanded E input cs e :
  env_ok E -> built E input cs -> checked cs true e -> slot_misuse e ->
  forall out, mview E input <> Expanded out.
Proof.
  intros HE Hb Hc Hm. eapply not_coded_below; eauto. intros code Hcode. cbn [code_of] in Hcode.
  destruct e as [t sels attrs args ch]. apply slot_code_inv in Hcode.
  destruct Hcode as (p & path & props & clones & codes & _ & -> & He & _).
  destruct Hm as [Hm|[(s & Hs)|(d & Hd & Hn)]]; cbn [el_sels el_attrs] in *; [congruence| |].
  - assert (H : In (ASpread s) (entries_of attrs)) by (apply entries_in; auto). now rewrite He in H.
  - assert (H : In (ADir d) (entries_of attrs)) by (apply entries_in; auto). now rewrite He in H.
Qed.
Print Assumptions C31_not_expanded.

(** The reports, one for each kind of misuse. *)
Theorem C31_reported E input cs e :
  env_ok E -> built E input cs -> no_root_slot cs -> reached cs true e ->
  (el_sels e <> [] -> reports E input DSlotSelectors) /\
  (forall s, In (ASpread s) (el_attrs e) -> reports E input DSlotSpread) /\
  (forall d, In (ADir d) (el_attrs e) -> d_dir d <> Id false "clone" -> reports E input (DSlotDirective (ident_to_string (d_dir d)))).
Proof.
  intros HE Hb Hs Hr.
  assert (Ht : exists p, el_tag e = TagComponent p) by (inversion Hr; subst; eauto). destruct Ht as (p & Ht).
  assert (Hl : forall at_ ts d, expand_element E at_ true e = XR (XRet ts) d ->
    exists a x d2, component_attr_loop true (el_attrs e) a = XR (XRet x) d2 /\ incl d2 d).
  { intros at_ ts d H. apply element_inv in H. destruct H as (_ & _ & _ & _ & H & _). eauto. }
  split; [|split].
  - intros Hsel. eapply reported_below; eauto. intros at_ ts d H. apply element_inv in H. now apply H.
  - intros s Hin. eapply reported_below; eauto. intros at_ ts d H. destruct (Hl _ _ _ H) as (a & x & d2 & H2 & Hi).
    apply comp_loop_inv in H2. destruct H2 as (_ & H2 & _). apply Hi. eauto.
  - intros dd Hin Hn. eapply reported_below; eauto. intros at_ ts d H. destruct (Hl _ _ _ H) as (a & x & d2 & H2 & Hi).
    apply comp_loop_inv in H2. destruct H2 as (_ & _ & _ & H2 & _). apply Hi. eapply H2; eauto.
    intros Hx. apply Hn. apply String.eqb_eq, ident_string_is in Hx; auto. no_raw.
Qed.
Print Assumptions C31_reported.

Example C31_case :
  let input := lex "div { C { 'x' D { slot:S.c { 'y' } slot:T {..s} clone:a; slot:U class:b=1; } } }" in
  built E0 input (tree_of input) /\ no_root_slot (tree_of input) /\
  mview E0 input = Errors [DSlotSelectors; DSlotSpread; DSlotDirective "class"] /\
  (exists e, checked (tree_of input) true e /\ reached (tree_of input) true e /\ slot_misuse e).
Proof.
  set (input := lex _). intros i. subst i. split; [eexists _, _; vm_compute; reflexivity|].
  split; [intros e; vm_compute; intros [H|[]]; discriminate|]. split; [vm_compute; reflexivity|].
  assert (Hs : exists a b c s, tree_of input = [CElement a] /\ el_children a = Some [CElement b] /\
    (exists v, el_children b = Some [v; CElement c]) /\ (exists p, el_tag c = TagComponent p) /\
    (exists l, el_children c = Some (CSlot s :: l)) /\ (exists i, el_tag s = TagComponent (Path false [PSeg i PNone])) /\
    el_sels s <> []).
  { vm_compute. repeat eexists. discriminate. }
  destruct Hs as (a & b & c & s & Ht & Ha & (v & Hb) & (p & Hc) & (l & Hs) & (i & Hi) & Hn).
  exists s. rewrite Ht. split; [|split].
  - eapply (chk_slot _ false c); eauto; [|rewrite Hs; now left]. eapply (chk_child _ false b); [|rewrite Hb; right; now left].
    eapply (chk_child _ false a); [|rewrite Ha; now left]. apply chk_root. now left.
  - eapply (reach_slot _ false c); eauto; [|rewrite Hs; now left]. eapply (reach_child _ false b); [|rewrite Hb; right; now left].
    eapply (reach_child _ false a); [|rewrite Ha; now left]. apply reach_root. now left.
  - now left.
Qed.
