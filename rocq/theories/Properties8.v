(** Theorems C27, C28, C41: how slots are grouped and named, and what the
    iteration order of the hash map can change. *)
From Verif Require Import PropFacts1 CodeFacts ElementFacts Inv Fuel ExampleFacts.
From Verif Require Import TreeInv PhraseInv Report OrderFacts Properties2 Properties6.
From Verif Require Import SpecStr SpecGrammar SpecOut SpecRead SpecOrder.
From Coq Require Import Lia Permutation.
Open Scope list_scope.
Open Scope expand_scope.

(** ** C27: slots are delivered once, grouped by name *)

Lemma slots_each l slots : slots_code l slots ->
  Forall2 (fun s x => slot_name s (fst x) /\ slot_code s (snd x)) (slots_in l) slots.
Proof.
  revert slots. induction l as [|[v|e|e] l IH]; intros slots H; inversion H; subst; cbn [slots_in]; auto; constructor; auto.
Qed.
Lemma value_not_slots v ts codes : value_code v ts -> codes <> [] -> Forall slot_shape codes -> ts <> slot_arg codes.
Proof.
  intros Hv Hn Hs. destruct codes as [|c [|c2 codes]]; [congruence| |].
  - inversion Hs as [|? ? (x & ->)]; subst. inversion Hv; subst; discriminate.
  - inversion Hv; subst; discriminate.
Qed.

(** For every used component: the calls on its builder are some calls that do
    not pass slots, and then, in some order, one call for each distinct name of
    a slot child.  That call has the snake case of the name and passes the code
    of all slots with this name in source order. *)
Theorem C27_grouped E input cs out p sels attrs args ch :
  expands E input cs out -> used cs false (Element (TagComponent p) sels attrs args ch) ->
  exists path pre scalls entries slots order,
    within (component_frame path (pre ++ scalls) entries) out /\
    Forall (fun c => ~ slot_like c) pre /\
    Forall2 (fun s x => slot_name s (fst x) /\ slot_code s (snd x)) (slots_in (child_list ch)) slots /\
    Permutation order (nodup ident_dec (map fst slots)) /\
    Forall2 (fun i c => exists m, camel_snake (i_name i) m /\
                                  c = Call (Id true m) (slot_arg (slots_named slots i))) order scalls.
Proof.
  intros He Hu. destruct (expands_used _ _ _ _ _ _ He Hu) as (code & Hc & Hw). cbn [code_of] in Hc.
  apply component_code in Hc.
  destruct Hc as (path & props & entries & clones & codes & slots & scalls & Hp & H1 & H2 & H3 & H4 & H5 & H6 & ->).
  destruct H6 as [order calls Hnd Hin Hcalls].
  exists path, (props ++ children_calls args clones codes), calls, (selector_entries sels ++ entries), slots, order.
  split; [now rewrite <- app_assoc|]. split.
  { apply Forall_app. split; apply Forall_forall; intros c Hc (Hraw & l & Hl & Hs & Ha).
    - destruct (forall2_in_r _ _ _ _ H1 Hc) as (a & _ & Hx). inversion Hx; subst. revert Ha. eapply value_not_slots; eauto.
    - destruct codes; [destruct Hc|]. cbn in Hc. destruct Hc as [<-|[]]. discriminate. }
  split; [now apply slots_each|]. split.
  - apply NoDup_Permutation; auto; [apply NoDup_nodup|]. intros x. rewrite nodup_In. apply Hin.
  - clear - Hcalls. induction Hcalls as [|i c order calls Hc Hl IH]; constructor; auto. inversion Hc; subst. eauto.
Qed.
Print Assumptions C27_grouped.

(** The slots of all calls together are the slots of the component. *)
Lemma named_total (slots : list (ident * list tt)) order : NoDup order -> (forall i, In i (map fst slots) -> In i order) ->
  Permutation (flat_map (slots_named slots) order) (map snd slots).
Proof.
  intros Hnd. induction slots as [|[i c] slots IH]; intros Hin.
  - cbn. induction order; cbn; auto. apply IHorder. now inversion Hnd. intros ? [].
  - cbn [map snd]. etransitivity; [|apply perm_skip, IH; intros; apply Hin; now right].
    assert (Hi : In i order) by (apply Hin; now left). apply in_split in Hi. destruct Hi as (a & b & ->).
    assert (Hoff : forall l, ~ In i l -> flat_map (slots_named ((i, c) :: slots)) l = flat_map (slots_named slots) l).
    { intros l Hl. induction l as [|j l IHl]; auto. cbn [flat_map]. rewrite IHl by (intros Hx; apply Hl; now right).
      f_equal. unfold slots_named. cbn [filter fst]. destruct (ident_dec i j); [subst; exfalso; apply Hl; now left|reflexivity]. }
    apply NoDup_remove_2 in Hnd. rewrite !flat_map_app. cbn [flat_map].
    rewrite (Hoff a), (Hoff b) by (intros Hx; apply Hnd, in_or_app; auto).
    assert (Hi : slots_named ((i, c) :: slots) i = c :: slots_named slots i).
    { unfold slots_named. cbn [filter fst]. destruct (ident_dec i i); [reflexivity|congruence]. }
    rewrite Hi. cbn [app]. symmetry. apply Permutation_middle.
Qed.
Theorem C27_exactly_once E input cs out p sels attrs args ch :
  expands E input cs out -> used cs false (Element (TagComponent p) sels attrs args ch) ->
  exists path pre scalls entries groups codes,
    within (component_frame path (pre ++ scalls) entries) out /\
    Forall (fun c => ~ slot_like c) pre /\ Forall slot_like scalls /\
    map call_args scalls = map slot_arg groups /\
    Forall2 slot_code (slots_in (child_list ch)) codes /\
    Permutation (List.concat groups) codes.
Proof.
  intros He Hu. destruct (C27_grouped _ _ _ _ _ _ _ _ _ He Hu) as (path & pre & scalls & entries & slots & order & Hw & Hpre & Hs & Hperm & Hc).
  exists path, pre, scalls, entries, (map (slots_named slots) order), (map snd slots).
  assert (Hshape : forall i c, In (i, c) slots -> slot_shape c).
  { intros i c Hin. destruct (forall2_in_r _ _ _ _ Hs Hin) as ([t0 s0 a0 g0 c0] & _ & _ & Hx). cbn [snd] in Hx. apply slot_code_inv in Hx.
    destruct Hx as (? & ? & ? & ? & ? & _ & _ & _ & _ & _ & _ & _ & ->). eexists. reflexivity. }
  repeat match goal with |- _ /\ _ => split end; auto.
  - apply Forall_forall. intros c Hin. destruct (forall2_in_r _ _ _ _ Hc Hin) as (i & Hi & m & _ & ->).
    split; [reflexivity|]. exists (slots_named slots i). split; [|split; [|reflexivity]].
    + assert (Hi' : In i (map fst slots)) by (apply (nodup_In ident_dec); eapply Permutation_in; eauto).
      apply in_map_iff in Hi'. destruct Hi' as ([j x] & Hj & Hx). cbn in Hj. subst j. apply slots_named_in in Hx. intros Hn. rewrite Hn in Hx. destruct Hx.
    + apply Forall_forall. intros x Hx. unfold slots_named in Hx. apply in_map_iff in Hx. destruct Hx as ([j y] & <- & Hy).
      apply filter_In in Hy. destruct Hy as [Hy _]. cbn. eauto.
  - clear - Hc. induction Hc as [|i c order scalls (m & _ & ->) Hl IH]; cbn; auto. now rewrite IH.
  - clear - Hs. induction Hs as [|s x l slots [_ Hx] Hl IH]; cbn; constructor; auto.
  - rewrite <- flat_map_concat_map. apply named_total.
    + eapply Permutation_NoDup; [symmetry; apply Hperm|apply NoDup_nodup].
    + intros i Hi. apply (Permutation_in _ (Permutation_sym Hperm)). now apply nodup_In.
Qed.
Print Assumptions C27_exactly_once.

(** Two runs with different hash orders differ at most by the order of slot
    calls. *)
Theorem C27_order E E' input cs cs' out out' :
  (forall ts, generic_args E ts = generic_args E' ts) ->
  expands E input cs out -> expands E' input cs' out' -> cs = cs' /\ reordered out out'.
Proof.
  intros Hg (HE & Hw & Hc & Hm) (HE' & _ & Hc' & Hm').
  assert (Hx := children_of_phrase E input cs HE Hw Hc). assert (Hy := children_of_phrase E' input cs' HE' Hw Hc').
  assert (cs = cs').
  { unfold children_of in *. rewrite (children_order E E' Hg) in Hx. rewrite Hx in Hy. now inversion Hy. }
  subst cs'. split; auto. assert (Hr := root_rel E E' HE HE' cs).
  unfold mview in *. fold (children_of E input) in Hm. fold (children_of E' input) in Hm'. rewrite Hx in Hm. rewrite Hy in Hm'.
  destruct Hr as [a b d Hr|d|w w' d d' Hp]; [|discriminate|discriminate].
  destruct d; [|discriminate]. cbn in Hm, Hm'. inversion Hm; inversion Hm'; now subst.
Qed.
Print Assumptions C27_order.

Lemma expands_swap E E' input cs out out' : (forall ts, generic_args E ts = generic_args E' ts) -> env_ok E' ->
  expands E input cs out -> mview E' input = Expanded out' -> expands E' input cs out'.
Proof.
  intros Hg HE' (HE & Hw & Hc & _) Hm. split; auto. split; auto. split; auto.
  destruct (mview_sound E' input out' HE' Hw Hm) as (cs' & Hcs & _).
  assert (Hy := children_of_phrase E' input cs' HE' Hw Hcs). assert (Hx := children_of_phrase E input cs HE Hw Hc). unfold children_of in *.
  rewrite (children_order E E' Hg) in Hx. rewrite Hx in Hy. inversion Hy. now subst.
Qed.
(** Three slots with two names, and orders that give different code. *)
Definition slots_input := lex "C a=1 { slot:Ab b=1; 'x' slot:Cd; slot:Ab; }".
Example C27_case : exists e p out out',
  expands E0 slots_input (tree_of slots_input) out /\ expands E1 slots_input (tree_of slots_input) out' /\ out <> out' /\
  (forall ts, generic_args E0 ts = generic_args E1 ts) /\
  used (tree_of slots_input) false e /\ el_tag e = TagComponent p /\ List.length (slots_in (child_list (el_children e))) = 3.
Proof.
  assert (H : exists e p out out', tree_of slots_input = [CElement e] /\ el_tag e = TagComponent p /\
    List.length (slots_in (child_list (el_children e))) = 3 /\ mview E0 slots_input = Expanded out /\ mview E1 slots_input = Expanded out' /\ out <> out').
  { vm_compute. do 4 eexists. repeat split. discriminate. }
  destruct H as (e & p & out & out' & Ht & Hp & Hl & Hm & Hm' & Hne).
  assert (Hx : expands E0 slots_input (tree_of slots_input) (out_of slots_input)) by (apply case_expands; vm_compute; reflexivity).
  assert (Hx' : expands E0 slots_input (tree_of slots_input) out) by (apply (expands_swap E0 E0 _ _ _ _ (fun _ => eq_refl) E0_ok Hx Hm)).
  exists e, p, out, out'. split; [exact Hx'|]. split; [apply (expands_swap E0 E1 _ _ _ _ (fun _ => eq_refl) E1_ok Hx Hm')|].
  split; auto. split; [reflexivity|]. split; [rewrite Ht; apply used_root; now left|]. auto.
Qed.

(** ** C28: slot method names *)

Definition no_underscore (s : string) : Prop := ~ In "_"%char (chars s).

Lemma lower_upper c d c' : upper_char c -> upper_char c' -> lower c d -> lower c' d -> c = c'.
Proof.
  intros Hc Hc' [[_ H]|[H _]] [[_ H']|[H' _]]; try contradiction.
  assert (Hn : nat_of_ascii c = nat_of_ascii c') by lia.
  rewrite <- (ascii_nat_embedding c), <- (ascii_nat_embedding c'). now rewrite Hn.
Qed.
Lemma rest_inj r : forall r' s, ~ In "_"%char r -> ~ In "_"%char r' ->
  camel_snake_rest r s -> camel_snake_rest r' s -> r = r'.
Proof.
  induction r as [|c r IH]; intros r' s Hr Hr' H H'.
  - inversion H; subst. inversion H'; auto.
  - inversion H as [|? d ? s0 Hc Hl Hrest|? ? s0 Hc Hrest]; subst.
    + inversion H' as [|c' ? r0 ? Hc' Hl' Hrest'|c' r0 ? Hc' Hrest']; subst.
      * f_equal; [eapply lower_upper; eauto|]. eapply IH; eauto; intros Hx; [apply Hr|apply Hr']; now right.
      * destruct Hr'. now left.
    + inversion H' as [|c' ? r0 ? Hc' Hl' Hrest'|c' r0 ? Hc' Hrest']; subst.
      * destruct Hr. now left.
      * f_equal. eapply IH; eauto; intros Hx; [apply Hr|apply Hr']; now right.
Qed.
(** Distinct UpperCamelCase names without underscores have distinct methods. *)
Theorem C28_injective a b m : starts_upper a -> starts_upper b -> no_underscore a -> no_underscore b ->
  camel_snake a m -> camel_snake b m -> a = b.
Proof.
  intros Ha Hb Hna Hnb H H'. unfold starts_upper, no_underscore in *.
  inversion H as [|c d r s Hl Hr]; subst; [destruct Ha|]. rewrite chars_unchars in *.
  inversion H' as [H0|c' d' r' s' Hl' Hr' H0 H1]; subst.
  assert (s' = s) by (rewrite <- (chars_unchars s'), <- (chars_unchars s); now rewrite H2). subst s'.
  rewrite chars_unchars in *. f_equal. f_equal.
  - eapply lower_upper; eauto.
  - eapply rest_inj; eauto; intros Hi; [apply Hna|apply Hnb]; now right.
Qed.
Print Assumptions C28_injective.
(** Every name has exactly one method name. *)
Theorem C28_function s : exists m, camel_snake s m /\ forall m', camel_snake s m' -> m' = m.
Proof. exists (upper_camel_to_snake_case s). split; [now apply camel_iff|]. intros m'. now rewrite camel_iff. Qed.
Print Assumptions C28_function.

(** Where the elements of a tree were written. *)
Lemma in_children_phrase E ts cs c : children_phrase E ts cs -> In c cs ->
  exists u f, (wf ts -> wf u) /\ child_phrase E u c f.
Proof.
  intros H. induction H as [|ts c0 ts' cs Hc H IH] using children_phrase_ind; intros [].
  - subst. exists ts, ts'. split; auto. unfold wf. rewrite Forall_app. tauto.
  - destruct (IH H0) as (u & f & Hw & Hu). exists u, f. split; auto. unfold wf in *. rewrite Forall_app. tauto.
Qed.
Lemma wf_inside d x ts : In (TGroup d x) ts -> wf ts -> wf x.
Proof.
  intros Hin Hw. unfold wf in *. rewrite Forall_forall in Hw. specialize (Hw _ Hin). cbn in Hw. clear -Hw. induction x; constructor; cbn in Hw; tauto.
Qed.
Lemma anywhere_phrase E input cs b e : children_phrase E input cs -> anywhere cs b e ->
  exists ts f, (wf input -> wf ts) /\ element_phrase E ts e f.
Proof.
  intros Hc.
  assert (Hch : forall ts cs c e, (wf input -> wf ts) -> children_phrase E ts cs -> In c cs -> c = CElement e \/ c = CSlot e ->
    exists ts f, (wf input -> wf ts) /\ element_phrase E ts e f).
  { intros ts cs0 c e0 Hw H Hin Hce. destruct (in_children_phrase _ _ _ _ H Hin) as (u & f & Hu & H0).
    inversion H0; subst; destruct Hce as [Hce|Hce]; inversion Hce; subst.
    { exists u, f. split; auto. }
    exists ts0, f. split; auto. intros Hi. apply Hw, Hu in Hi. unfold wf in *. inversion Hi as [|? ? _ Hi']; subst. now inversion Hi'. }
  assert (Hsub : forall ts f e c e', (wf input -> wf ts) -> element_phrase E ts e f -> In c (child_list (el_children e)) ->
    c = CElement e' \/ c = CSlot e' -> exists ts f, (wf input -> wf ts) /\ element_phrase E ts e' f).
  { intros ts f e0 c e' Hw H Hin Hce. inversion H; subst. cbn [el_children] in Hin.
    assert (Hb : exists d x l, In (TGroup d x) ts4 /\ children_phrase E x l /\ In c l).
    { match goal with H : element_end _ _ _ _ |- _ => inversion H; subst; cbn [child_list] in Hin end; [destruct Hin|..];
        match goal with H : block _ _ _ |- _ => inversion H; subst end; do 3 eexists; (split; [|split; [eassumption|assumption]]);
        rewrite ?in_app_iff; cbn; rewrite ?in_app_iff; cbn; auto 10. }
    destruct Hb as (d & x & l & Hg & Hl & Hinl). eapply Hch; [|exact Hl|exact Hinl|exact Hce].
    intros Hi. apply Hw in Hi. eapply wf_inside; [exact Hg|]. unfold wf in *. rewrite !Forall_app in Hi. tauto. }
  induction 1 as [e Hin|e Hin|b e e' Ha IH Hin|b e e' Ha IH Hin].
  - eapply Hch; [exact (fun x => x)|exact Hc|exact Hin|auto].
  - eapply Hch; [exact (fun x => x)|exact Hc|exact Hin|auto].
  - destruct IH as (ts & f & Hw & H). eapply Hsub; eauto.
  - destruct IH as (ts & f & Hw & H). eapply Hsub; eauto.
Qed.

(** The name of a slot in a view that is read without error starts with a
    capital and is not raw. *)
Lemma snake_upper s : starts_upper s -> starts_upper (snake_name s).
Proof.
  unfold starts_upper, snake_name. rewrite chars_unchars. destruct (chars s) as [|c r]; auto. cbn [map].
  destruct (ascii_dec c "-") as [->|]; auto. unfold upper_char, code_in. cbn. lia.
Qed.
Lemma slot_name_upper E ts e f i : element_phrase E ts e f -> slot_name e i -> i_raw i = false /\ starts_upper (i_name i).
Proof.
  intros H Hs. inversion H as [ts1 t ts2 sels ts3 attrs ts4 args cs follow H1 H2 H3 H4]; subst. unfold slot_name in Hs. cbn [el_tag] in Hs. subst t.
  inversion H1 as [? p ? Hpf Hp|? k j ? Hpf Hn Hk Hok| | | |]; subst.
  2: { split; [reflexivity|]. cbn [i_name]. destruct Hok as [_ ->]. cbn [i_name]. apply snake_upper. now inversion Hk. }
  exfalso.
  assert (Hfirst : forall sp r, ts2 ++ ts3 ++ ts4 ++ f <> TPunct ":" sp :: r /\ ts2 ++ ts3 ++ ts4 ++ f <> TPunct "<" sp :: r).
  { intros sp r.
    assert (Hx : exists t r', ts2 ++ ts3 ++ ts4 ++ f = t :: r' /\ ~ punct ":" t /\ ~ punct "<" t).
    { assert (H4' : exists t r', ts4 = t :: r' /\ ~ punct ":" t /\ ~ punct "<" t).
      { inversion H4; subst; try (match goal with H : block _ _ _ |- _ => inversion H; subst end); do 2 eexists; (split; [reflexivity|]);
          split; intros (? & Hx); discriminate. }
      destruct H4' as (t4 & r4 & -> & Hn1 & Hn2).
      assert (Hat : ts3 = [] \/ exists t r', ts3 = t :: r' /\ ~ punct ":" t /\ ~ punct "<" t).
      { inversion H3 as [|ta a tb l ? Ha Hl]; subst; [now left|right].
        assert (Hname : forall ts k f, name ts k f -> exists t r', ts = t :: r' /\ ~ punct ":" t /\ ~ punct "<" t).
        { intros ts k f0 (Hnp & _). inversion Hnp; subst; do 2 eexists; (split; [reflexivity|]); split; intros (? & Hx); discriminate. }
        inversion Ha as [? ? ? ? ? Hn|? ? ? ? Hsh| | |]; subst.
        - destruct (Hname _ _ _ Hn) as (t & r' & -> & ? & ?). do 2 eexists. split; [reflexivity|]. auto.
        - inversion Hsh; subst. do 2 eexists. split; [reflexivity|]. split; intros (? & Hx); discriminate.
        - do 2 eexists. split; [reflexivity|]. split; intros (? & Hx); discriminate.
        - do 2 eexists. split; [reflexivity|]. split; intros (? & Hx); discriminate.
        - do 2 eexists. split; [reflexivity|]. split; intros (? & Hx); discriminate. }
      inversion H2 as [|ta s tb l ? Hse Hl]; subst.
      - destruct Hat as [->|(t & r' & -> & ? & ?)]; do 2 eexists; (split; [reflexivity|]); auto.
      - inversion Hse; subst; do 2 eexists; (split; [reflexivity|]); split; intros (? & Hx); discriminate. }
    destruct Hx as (t & r' & -> & Hn1 & Hn2). split; intros Hx; inversion Hx; subst; [apply Hn1|apply Hn2]; eexists; reflexivity. }
  inversion Hp as [? l ? Hl| ]; subst. inversion Hl as [? s ? Hseg|]; subst.
  - inversion Hseg; subst; cbn [app] in Hpf; unfold path_follows in Hpf; cbn [tl] in Hpf;
      (destruct Hpf as [(sp & r & Hx)|[(sp & r & Hx)|Hx]]; [discriminate|rewrite Hx in Hfirst; now destruct (Hfirst Joint (TPunct ":" sp :: r))|]);
      (destruct (ts2 ++ ts3 ++ ts4 ++ f) as [|t r]; [destruct Hx|]; destruct Hx as (sp & ->); now destruct (Hfirst sp r)).
  - match goal with H : segments_phrase _ _ [] _ |- _ => inversion H end.
Qed.

(** In an accepted view, the slot calls of a component have distinct method
    names if the slot names have no underscores. *)
Lemma forall2_length {A B} (R : A -> B -> Prop) l l' : Forall2 R l l' -> List.length l = List.length l'.
Proof. induction 1; cbn; auto. Qed.
Theorem C28_distinct E input cs out p sels attrs args ch :
  expands E input cs out -> used cs false (Element (TagComponent p) sels attrs args ch) ->
  (forall s i, In s (slots_in (child_list ch)) -> slot_name s i -> no_underscore (i_name i)) ->
  exists path pre scalls entries,
    within (component_frame path (pre ++ scalls) entries) out /\
    Forall (fun c => ~ slot_like c) pre /\
    List.length scalls <= List.length (slots_in (child_list ch)) /\
    (slots_in (child_list ch) <> [] -> scalls <> []) /\
    NoDup (map call_name scalls).
Proof.
  intros He Hu Hno. destruct (C27_grouped _ _ _ _ _ _ _ _ _ He Hu) as (path & pre & scalls & entries & slots & order & Hw & Hpre & Hs & Hperm & Hc).
  exists path, pre, scalls, entries. split; auto. split; auto.
  assert (Hlen : List.length (slots_in (child_list ch)) = List.length (map fst slots)).
  { rewrite map_length. eapply forall2_length; eauto. }
  assert (Hlo : List.length scalls = List.length order) by (symmetry; eapply forall2_length; eauto).
  split; [|split].
  - rewrite Hlo, Hlen, (Permutation_length Hperm). apply NoDup_incl_length; [apply NoDup_nodup|]. intros x. apply nodup_In.
  - intros Hne Hx. subst scalls. destruct order; [|discriminate]. apply Permutation_nil in Hperm.
    destruct (slots_in (child_list ch)) as [|s l]; [congruence|]. inversion Hs as [|? x ? slots' [Hx _] Hl]; subst.
    assert (Hin : In (fst x) (nodup ident_dec (map fst (x :: slots')))) by (apply nodup_In; now left). rewrite Hperm in Hin. destruct Hin.
  - assert (Hnice : forall i, In i order -> i_raw i = false /\ starts_upper (i_name i) /\ no_underscore (i_name i)).
    { intros i Hi. apply (Permutation_in _ Hperm), nodup_In, in_map_iff in Hi. destruct Hi as (x & <- & Hx).
      destruct (forall2_in_r _ _ _ _ Hs Hx) as (s & Hin & Hname & _).
      assert (Hcs : In (CSlot s) (child_list ch)).
      { clear - Hin. induction (child_list ch) as [|[v|e|e] l IH]; cbn in *; auto. destruct Hin as [->|Hin]; auto. }
      assert (Ha : anywhere cs true s).
      { apply (any_slot cs false (Element (TagComponent p) sels attrs args ch)); auto. clear - Hu.
        assert (Hg : forall b e, used cs b e -> anywhere cs b e); [|exact (Hg _ _ Hu)].
        induction 1; [now apply any_root|eapply any_child; eauto|eapply any_slot; eauto]. }
      destruct He as (_ & _ & Hph & _). destruct (anywhere_phrase _ _ _ _ _ Hph Ha) as (ts & f & _ & Hel).
      destruct (slot_name_upper _ _ _ _ _ Hel Hname). eauto. }
    assert (Hnd : NoDup order) by (eapply Permutation_NoDup; [symmetry; apply Hperm|apply NoDup_nodup]).
    clear - Hc Hnice Hnd. induction Hc as [|i c order scalls (m & Hm & ->) Hl IH]; cbn; [constructor|].
    inversion Hnd as [|? ? Hni Hnd']; subst. constructor; [|apply IH; auto; intros j Hj; apply Hnice; now right].
    cbn [call_name]. intros Hx. apply in_map_iff in Hx. destruct Hx as (c' & Hc' & Hin').
    destruct (forall2_in_r _ _ _ _ Hl Hin') as (j & Hj & m' & Hm' & ->). cbn [call_name] in Hc'. inversion Hc'; subst m'.
    destruct (Hnice i (or_introl eq_refl)) as (Hr & Hu & Hn). destruct (Hnice j (or_intror Hj)) as (Hr' & Hu' & Hn').
    apply Hni. replace i with j; auto. destruct i as [ri ni], j as [rj nj]. cbn in *. subst. f_equal. eapply C28_injective; eauto.
Qed.
Print Assumptions C28_distinct.

(** Names with underscores can collide: two calls of the same method. *)
Ltac find_within :=
  lazymatch goal with
  | |- within ?x ?l =>
      first [ refine (within_here x [] _)
            | lazymatch l with
              | TGroup ?d ?i :: ?r => first [ refine (within_in x d i r _); find_within | refine (within_cons x (TGroup d i) r _); find_within ]
              | ?t :: ?r => refine (within_cons x t r _); find_within
              end ]
  end.
Theorem C28_collision : exists input out m a b, mview E0 input = Expanded out /\
  (exists e s t i j, used (tree_of input) false e /\ slots_in (child_list (el_children e)) = [s; t] /\
     slot_name s i /\ slot_name t j /\ i <> j) /\
  within (chain [Call (Id true m) a; Call (Id true m) b]) out.
Proof.
  exists (lex "C { slot:AbCd; slot:Ab_cd; }"). do 4 eexists. split; [vm_compute; reflexivity|]. split.
  - do 5 eexists. split; [apply used_root; vm_compute; left; reflexivity|]. split; [reflexivity|]. split; [reflexivity|]. split; [reflexivity|]. discriminate.
  - unfold chain. cbn [map List.concat call_tokens app]. find_within.
Qed.
Print Assumptions C28_collision.

Example C28_case : exists e, expands E0 slots_input (tree_of slots_input) (out_of slots_input) /\ used (tree_of slots_input) false e /\
  (exists p, el_tag e = TagComponent p) /\ List.length (slots_in (child_list (el_children e))) = 3 /\
  forall s i, In s (slots_in (child_list (el_children e))) -> slot_name s i -> no_underscore (i_name i).
Proof.
  assert (H : exists e p, tree_of slots_input = [CElement e] /\ el_tag e = TagComponent p /\
    List.length (slots_in (child_list (el_children e))) = 3 /\
    map el_tag (slots_in (child_list (el_children e))) =
      map (fun n => TagComponent (Path false [PSeg (Id false n) PNone])) ["Ab"; "Cd"; "Ab"]).
  { vm_compute. do 2 eexists. repeat split. }
  destruct H as (e & p & Ht & Hp & Hl & Hm). exists e. split; [apply case_expands; vm_compute; reflexivity|].
  split; [rewrite Ht; apply used_root; now left|]. split; eauto. split; auto.
  intros s i Hin Hs. assert (Hx : In (el_tag s) (map el_tag (slots_in (child_list (el_children e))))) by now apply in_map.
  rewrite Hm in Hx. unfold slot_name in Hs. rewrite Hs in Hx. clear - Hx. cbn in Hx. unfold no_underscore.
  intuition (try discriminate); match goal with H : TagComponent _ = _ |- _ => inversion H; subst end;
    match goal with H : In _ (chars _) |- _ => cbn in H; intuition discriminate end.
Qed.

(** ** C41: what two runs can differ in *)

Theorem C41_verdict E E' input : env_ok E -> env_ok E' ->
  (forall ts, generic_args E ts = generic_args E' ts) -> same_verdict (mview E input) (mview E' input).
Proof.
  intros HE HE' Hg. unfold mview. rewrite (children_order E E' Hg).
  fold (children_of E' input). destruct (children_of_cases E' input HE') as [(cs & d & ->)|[(r & d & -> & _)|(w & r & d & ->)]]; cbn; [|reflexivity|now left].
  destruct (root_rel E E' HE HE' cs) as [a b d' Hr|d'|w w' d' d'' Hp]; cbn; auto. destruct (d ++ d'); auto. reflexivity.
Qed.
Print Assumptions C41_verdict.

(** Equality, if no component has slots of two different names. *)
Lemma collect_keys l : forall m m' d, collect_slots l m = XR (XRet m') d -> NoDup (map fst m) ->
  NoDup (map fst m') /\ forall k, In k (map fst m') -> In k (map fst m) \/ exists x, In (TagComponent (Path false [PSeg k PNone]), x) l.
Proof.
  induction l as [|[t x] l IH]; intros m m' d H Hn; cbn [collect_slots] in H; [inversion H; subst; auto|].
  destruct t as [|p| | |]; try discriminate. destruct (get_ident p) as [i|] eqn:Hi.
  - apply get_ident_iff in Hi. subst p. apply xbind_inv in H. destruct H as (ts & d1 & d2 & Hx & H & ->).
    apply IH in H; [|now apply insert_nodup]. destruct H as [H1 H2]. split; auto. intros k Hk. apply H2 in Hk.
    destruct Hk as [Hk|(y & Hy)]; [|right; exists y; now right]. apply insert_keys in Hk. destruct Hk as [->|Hk]; auto.
    right. exists x. now left.
  - apply xbind_inv in H. destruct H as (u & d1 & d2 & Hx & H & ->). apply IH in H; auto. destruct H as [H1 H2]. split; auto.
    intros k Hk. apply H2 in Hk. destruct Hk as [Hk|(y & Hy)]; auto. right. exists y. now right.
Qed.
Lemma slots_list_in E at_ l : forall n t x, In (t, x) (expand_slots E at_ n l) -> exists e, In e (slots_in l) /\ el_tag e = t.
Proof.
  induction l as [|[v|e|e] l IH]; intros n t x H; cbn in *; eauto; [destruct H|]. destruct H as [H|H].
  - inversion H; subst. eauto.
  - apply IH in H. destruct H as (e' & H & Ht). eauto.
Qed.
Lemma slots_order_one E E' at_ l : env_ok E -> env_ok E' ->
  (forall i j x y, In (TagComponent (Path false [PSeg i PNone]), x) l -> In (TagComponent (Path false [PSeg j PNone]), y) l -> i = j) ->
  slots_to_tokens E at_ l = slots_to_tokens E' at_ l.
Proof.
  intros (_ & _ & Hp) (_ & _ & Hp') Hl. unfold slots_to_tokens.
  destruct (collect_slots l []) as [[m| |w] d] eqn:Hm; auto. cbn [xbind].
  assert (Ho : slot_order E at_ (map fst m) = slot_order E' at_ (map fst m)); [|now rewrite Ho].
  apply collect_keys in Hm; [|constructor]. destruct Hm as [Hnd Hk]. specialize (Hp at_ (map fst m)). specialize (Hp' at_ (map fst m)).
  destruct (map fst m) as [|k [|k2 ks]].
  - apply Permutation_nil in Hp. apply Permutation_nil in Hp'. congruence.
  - apply Permutation_length_1_inv in Hp. apply Permutation_length_1_inv in Hp'. congruence.
  - exfalso. destruct (Hk k (or_introl eq_refl)) as [[]|(x & Hx)]. destruct (Hk k2 (or_intror (or_introl eq_refl))) as [[]|(y & Hy)].
    inversion Hnd as [|? ? Hn]. subst. apply Hn. left. eauto.
Qed.
Lemma element_order_one E E' cs : env_ok E -> env_ok E' -> (forall b e, anywhere cs b e -> one_slot_name e) ->
  forall e, (exists b, anywhere cs b e) -> forall at_ b, expand_element E at_ b e = expand_element E' at_ b e.
Proof.
  intros HE HE' Hone. induction e as [t sels attrs args ch IH1 IH2] using element_children_ind. intros (b0 & Ha) at_ b. rewrite !expand_element_eq.
  assert (Hn : option_map (expand_nodes E at_ 0) ch = option_map (expand_nodes E' at_ 0) ch).
  { destruct ch as [l|]; auto. cbn [option_map]. f_equal.
    assert (Hl : forall e, In (CElement e) l -> forall at_ b, expand_element E at_ b e = expand_element E' at_ b e).
    { intros e Hin. apply IH1; auto. exists false. eapply any_child; eauto. }
    clear - Hl. generalize 0. induction l as [|c l IH]; intros n; auto. destruct c as [v|e|e]; cbn [expand_nodes expand_node].
    - f_equal. apply IH. intros. apply Hl. now right.
    - rewrite Hl by now left. f_equal. apply IH. intros. apply Hl. now right.
    - apply IH. intros. apply Hl. now right. }
  assert (Hs : option_map (expand_slots E at_ 0) ch = option_map (expand_slots E' at_ 0) ch).
  { destruct ch as [l|]; auto. cbn [option_map]. f_equal.
    assert (Hl : forall e, In (CSlot e) l -> forall at_ b, expand_element E at_ b e = expand_element E' at_ b e).
    { intros e Hin. apply IH2; auto. exists true. eapply any_slot; eauto. }
    clear - Hl. generalize 0. induction l as [|c l IH]; intros n; auto. destruct c as [v|e|e]; cbn [expand_slots].
    - apply IH. intros. apply Hl. now right.
    - apply IH. intros. apply Hl. now right.
    - rewrite Hl by now left. f_equal. apply IH. intros. apply Hl. now right. }
  rewrite Hn, Hs.
  assert (Hc : forall b nodes, component_to_tokens E at_ b t sels attrs args nodes (option_map (expand_slots E' at_ 0) ch) =
                       component_to_tokens E' at_ b t sels attrs args nodes (option_map (expand_slots E' at_ 0) ch)).
  { intros b' nodes. unfold component_to_tokens. destruct ch as [l|]; auto. cbn [option_map].
    rewrite (slots_order_one E E'); auto. intros i j x y Hx Hy. apply slots_list_in in Hx. apply slots_list_in in Hy.
    destruct Hx as (e & He & Hte), Hy as (e' & He' & Hte'). exact (Hone _ _ Ha e e' i j He He' Hte Hte'). }
  unfold element_tokens. now rewrite !Hc.
Qed.
Theorem C41_same E E' input : env_ok E -> env_ok E' ->
  (forall ts, generic_args E ts = generic_args E' ts) ->
  (forall cs, built E input cs -> forall b e, anywhere cs b e -> one_slot_name e) ->
  mview E input = mview E' input.
Proof.
  intros HE HE' Hg Hone. unfold mview. rewrite <- (children_order E E' Hg).
  fold (children_of E input). destruct (children_of_cases E input HE) as [(cs & d & Hc)|[(r & d & -> & _)|(w & r & d & ->)]]; auto.
  rewrite Hc. specialize (Hone cs ltac:(eexists _, _; exact Hc)).
  assert (He := element_order_one E E' cs HE HE' Hone).
  assert (Hn : forall at_ c, In c cs -> expand_node E at_ c = expand_node E' at_ c).
  { intros at_ [v|e|e] Hin; auto. cbn [expand_node]. rewrite He; auto. exists false. now apply any_root. }
  assert (Hl : expand_nodes E [] 0 cs = expand_nodes E' [] 0 cs).
  { clear - Hn. generalize 0. induction cs as [|c l IH]; intros n; auto.
    assert (IH' := IH (fun at_ c H => Hn at_ c (or_intror H)) (S n)). cbn [expand_nodes].
    destruct c; rewrite IH'; auto; now rewrite Hn by now left. }
  assert (Hr : root_tokens E cs = root_tokens E' cs); [|now rewrite Hr].
  unfold root_tokens. rewrite Hl. destruct cs as [|c [|c2 cs]]; auto. destruct c; auto; now rewrite Hn by now left.
Qed.
Print Assumptions C41_same.

(** Different orders do give different code; a view with several slots of one
    name is the same for all orders. *)
Example C41_case :
  let a := lex "C { slot:Ab; slot:Cd; } 1" in let b := lex "C { slot:Ab; slot:Ab; 'x' } div { D { slot:Cd; } }" in
  (exists ds, mview E0 a = Errors ds /\ mview E1 a = Errors ds) /\
  mview E0 slots_input <> mview E1 slots_input /\
  exists out, mview E0 b = Expanded out.
Proof. intros a b. split; [|split]; [vm_compute; eauto|vm_compute; discriminate|vm_compute; eauto]. Qed.
Fixpoint below (e : element) : list element :=
  match e with
  | Element _ _ _ _ ch =>
      e :: match ch with
           | Some l => flat_map (fun c => match c with CValue _ => [] | CElement e | CSlot e => below e end) l
           | None => []
           end
  end.
Definition below_child (c : child) : list element := match c with CValue _ => [] | CElement e | CSlot e => below e end.
Lemma below_self e : In e (below e).
Proof. destruct e. now left. Qed.
Lemma below_next r : forall e c, In e (below r) -> In c (child_list (el_children e)) -> incl (below_child c) (below r).
Proof.
  induction r as [t sels attrs args ch IH1 IH2] using element_children_ind. intros e c [<-|Hin] Hc x Hx.
  - right. destruct ch as [l|]; [|destruct Hc]. apply in_flat_map. exists c. auto.
  - right. destruct ch as [l|]; [|destruct Hin]. apply in_flat_map in Hin. destruct Hin as (c' & Hc' & Hin). apply in_flat_map. exists c'. split; auto.
    destruct c' as [v|e'|e']; [destruct Hin|eapply IH1; eauto|eapply IH2; eauto].
Qed.
Lemma anywhere_below cs b e : anywhere cs b e -> In e (flat_map below_child cs).
Proof.
  induction 1 as [e Hin|e Hin|b e e' Ha IH Hin|b e e' Ha IH Hin]; apply in_flat_map.
  - exists (CElement e). split; auto. apply below_self.
  - exists (CSlot e). split; auto. apply below_self.
  - apply in_flat_map in IH. destruct IH as (c & Hc & Hx). exists c. split; auto. destruct c as [v|r|r]; [destruct Hx|..];
      (eapply (below_next r); [exact Hx|exact Hin|apply below_self]).
  - apply in_flat_map in IH. destruct IH as (c & Hc & Hx). exists c. split; auto. destruct c as [v|r|r]; [destruct Hx|..];
      (eapply (below_next r); [exact Hx|exact Hin|apply below_self]).
Qed.
Definition same_tags (e : element) : Prop :=
  exists t, Forall (fun s => el_tag s = t) (slots_in (child_list (el_children e))).
Lemma same_tags_one e : same_tags e -> one_slot_name e.
Proof.
  intros (t & H) a b i j Ha Hb Hi Hj. rewrite Forall_forall in H. unfold slot_name in *. rewrite (H a Ha) in Hi. rewrite (H b Hb) in Hj. congruence.
Qed.
Example C41_same_case :
  let b := lex "C { slot:Ab; slot:Ab; 'x' } div { D { slot:Cd; } }" in
  forall cs, built E0 b cs -> forall k e, anywhere cs k e -> one_slot_name e.
Proof.
  intros b cs (r & ds & Hb) k e Ha. apply anywhere_below in Ha. apply same_tags_one. revert e Ha. apply Forall_forall.
  vm_compute in Hb. inversion Hb; subst. clear. vm_compute.
  repeat (constructor; [eexists; repeat (constructor; try reflexivity)|]). constructor.
Unshelve. all: exact (TagHtml (Id false "")).
Qed.
(** If several names cannot be methods, which one is complained about depends
    on the order. *)
Example C41_panic_case :
  let a := lex "C { slot:Crate; slot:Super; }" in
  mview E0 a = Panicked (PNewRaw "crate") /\ mview E1 a = Panicked (PNewRaw "super").
Proof. vm_compute. auto. Qed.
