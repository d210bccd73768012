(** Facts for C74: the code of trees that differ in one attribute. *)
From Verif Require Import Ast SpecStr SpecGrammar SpecOut SpecRead SpecStop SpecReports SpecConfined SpecMixed SpecOneChild SpecOneAttr ConfinedCode CutFacts2 OneChildFacts.
Open Scope list_scope.

Lemma kvs_of_app l m : kvs_of (l ++ m) = kvs_of l ++ kvs_of m.
Proof. induction l as [|[k|d|s] l IH]; cbn; now rewrite ?IH. Qed.
Lemma dirs_of_app l m : dirs_of (l ++ m) = dirs_of l ++ dirs_of m.
Proof. induction l as [|[k|d|s] l IH]; cbn; now rewrite ?IH. Qed.
Lemma spreads_of_app l m : spreads_of (l ++ m) = spreads_of l ++ spreads_of m.
Proof. induction l as [|[k|d|s] l IH]; cbn; now rewrite ?IH. Qed.
Lemma entries_of_app l m : entries_of (l ++ m) = entries_of l ++ entries_of m.
Proof. induction l as [|[k|d|s] l IH]; cbn; rewrite ?IH; try reflexivity. now destruct (is_clone d). Qed.
Lemma clones_of_app l m : clones_of (l ++ m) = clones_of l ++ clones_of m.
Proof. unfold clones_of. now rewrite dirs_of_app, filter_app. Qed.

(** One of the things coded differs. *)
Lemma f2_one {A B} (P : A -> B -> Prop) l x x' r cs cs0 : Forall2 P (l ++ x :: r) cs -> Forall2 P (l ++ x' :: r) cs0 ->
  exists p c c' q, cs = p ++ c :: q /\ P x c /\ P x' c' /\ Forall2 P (l ++ x' :: r) (p ++ c' :: q).
Proof.
  intros H H0. apply Forall2_app_inv_l in H. destruct H as (p & w & Hp & Hw & ->). inversion Hw as [|? c ? q Hc Hq]; subst.
  apply Forall2_app_inv_l in H0. destruct H0 as (p0 & w0 & _ & Hw0 & ->). inversion Hw0 as [|? c' ? q0 Hc' _]; subst.
  exists p, c, c', q. split; [reflexivity|]. split; [exact Hc|]. split; [exact Hc'|]. apply Forall2_app; [exact Hp|now constructor].
Qed.

Section Attr.
Variable t : tag.
Variables a a' : attr.
Hypothesis Hsort : sort_on t a = sort_on t a'.
Definition around_attr (x y : list tt) : Prop :=
  x = y \/ exists u v, attr_code t a u /\ attr_code t a' v /\ same_around u v x y.
Let R := around_attr.
Lemma ra_refl x : R x x.
Proof. now left. Qed.
Lemma ra_both p x y q : R x y -> R (p ++ x ++ q) (p ++ y ++ q).
Proof. intros [->|(o & o' & H1 & H2 & H3)]; [now left|]. right. exists o, o'. split; [auto|]. split; [auto|]. now apply sa_pre. Qed.
Lemma ra_in p d x y q : R x y -> R (p ++ TGroup d x :: q) (p ++ TGroup d y :: q).
Proof. intros [->|(o & o' & H1 & H2 & H3)]; [now left|]. right. exists o, o'. split; [auto|]. split; [auto|]. now apply sa_in. Qed.
Lemma ra_here u v : attr_code t a u -> attr_code t a' v -> R u v.
Proof.
  intros H1 H2. right. exists u, v. split; [exact H1|]. split; [exact H2|].
  rewrite <- (app_nil_r u) at 2. rewrite <- (app_nil_r v) at 2. apply (sa_here u v [] []).
Qed.
Let pre := R_pre R ra_both.
Let post := R_post R ra_both.
Let one := R_one R ra_in.
Let cons := R_cons R ra_both.

(** Chains with one other call. *)
Lemma ra_chain p c c' q : R (call_tokens c) (call_tokens c') -> R (chain (p ++ c :: q)) (chain (p ++ c' :: q)).
Proof.
  intros H. unfold chain. rewrite !map_app, !concat_app. cbn [map List.concat]. apply ra_both, H.
Qed.
Lemma ra_component path calls calls' entries : R (chain calls) (chain calls') ->
  R (component_frame path calls entries) (component_frame path calls' entries).
Proof.
  intros H. unfold component_frame. apply pre, pre, one, pre, post, one, cons, pre, cons, pre, pre. unfold chain in *.
  rewrite !map_app, !concat_app. now apply post.
Qed.
Lemma ra_entries path calls p x y q : R x y -> R (component_frame path calls (p ++ x :: q)) (component_frame path calls (p ++ y :: q)).
Proof.
  intros H. unfold component_frame. apply pre, pre, one, pre, pre. unfold chain. cbn [map List.concat]. apply post. unfold call_tokens. apply cons, cons, one. apply one.
  apply (od_ended R ra_refl ra_both). right. exists p, x, y, q. auto.
Qed.
Lemma ra_slot path calls calls' : R (chain calls) (chain calls') -> R (slot_frame path calls) (slot_frame path calls').
Proof.
  intros H. unfold slot_frame. apply pre, one, pre, pre, pre. unfold chain in *. rewrite !map_app, !concat_app. now apply post.
Qed.
Lemma ra_children args p x y q codes l : R x y ->
  R (chain (l ++ children_calls args (p ++ x :: q) codes)) (chain (l ++ children_calls args (p ++ y :: q) codes)).
Proof.
  intros H. destruct codes as [|z codes]; [apply ra_refl|]. cbn [children_calls]. apply ra_chain. unfold call_tokens. cbn [call_args call_name plain_call].
  apply cons, cons, one, one, post. rewrite !concat_app. cbn [List.concat]. apply ra_both, H.
Qed.
Lemma chain_app l m : chain (l ++ m) = chain l ++ chain m.
Proof. unfold chain. now rewrite map_app, concat_app. Qed.

Lemma attr_sim_element sels B A args ch x : element_code (Element t sels (B ++ a :: A) args ch) x ->
  coded R (element_code (Element t sels (B ++ a' :: A) args ch)) x.
Proof.
  intros H (y & H0). inversion H as [t1 s1 at1 ar1 c1 head kvs dirs codes Hh Hk Hd Hno Q|p s1 at1 ar1 c1 path props entries clones codes slots scalls Hp Hk He Hcl Hno Hsl Hsc Q Q1].
  - subst. inversion H0 as [t2 s2 at2 ar2 c2 head0 kvs0 dirs0 codes0 Hh0 Hk0 Hd0 Hno0 Q0|p0 s2 at2 ar2 c2 path0 props0 entries0 clones0 codes0 slots0 scalls0 Hp0 Hk0 He0 Hcl0 Hno0 Hsl0 Hsc0 Q0 Q1].
    2:{ rewrite <- Q0 in Hh. inversion Hh. }
    assert (Ht : forall p, t <> TagComponent p) by (intros p ->; inversion Hh).
    clear H H0 Hno0. rewrite kvs_of_app in Hk, Hk0. rewrite dirs_of_app in Hd, Hd0. rewrite spreads_of_app.
    destruct a as [k|d|s] eqn:Qa, a' as [k'|d'|s'] eqn:Qa'; try (exfalso; destruct t; cbn in Hsort; (discriminate Hsort || now destruct (Ht p)));
      cbn [kvs_of dirs_of spreads_of] in *.
    + destruct (f2_one _ _ _ _ _ _ _ Hk Hk0) as (p & c & c' & q & -> & Hc & Hc' & Hk').
      eexists. split; [eapply ec_html; [exact Hh|rewrite kvs_of_app; exact Hk'|rewrite dirs_of_app; exact Hd|exact Hno]|].
      rewrite spreads_of_app. cbn [spreads_of]. apply pre. rewrite <- !app_assoc. cbn [app]. apply ra_chain. apply ra_here.
      * rewrite Qa. destruct t; cbn; eauto. now destruct (Ht p0).
      * rewrite Qa'. destruct t; cbn; eauto. now destruct (Ht p0).
    + destruct (f2_one _ _ _ _ _ _ _ Hd Hd0) as (p & c & c' & q & -> & Hc & Hc' & Hd').
      eexists. split; [eapply ec_html; [exact Hh|rewrite kvs_of_app; exact Hk|rewrite dirs_of_app; exact Hd'|exact Hno]|].
      rewrite spreads_of_app. cbn [spreads_of]. apply pre. rewrite <- !app_assoc. cbn [app]. rewrite !(app_assoc kvs). apply ra_chain. apply ra_here.
      * rewrite Qa. destruct t; cbn; eauto. now destruct (Ht p0).
      * rewrite Qa'. destruct t; cbn; eauto. now destruct (Ht p0).
    + eexists. split; [eapply ec_html; [exact Hh|rewrite kvs_of_app; exact Hk|rewrite dirs_of_app; exact Hd|exact Hno]|].
      rewrite spreads_of_app. cbn [spreads_of]. apply pre. rewrite !map_app. cbn [map]. rewrite <- !app_assoc. cbn [app].
      rewrite !chain_app. do 4 apply pre. rewrite <- !chain_app. apply ra_chain. apply ra_here.
      * rewrite Qa. destruct t; cbn; eauto. now destruct (Ht p).
      * rewrite Qa'. destruct t; cbn; eauto. now destruct (Ht p).
  - subst. rewrite <- Q in H0, Hsort. inversion H0 as [t2 s2 at2 ar2 c2 head0 kvs0 dirs0 codes0 Hh0 Hk0 Hd0 Hno0 Q0|p0 s2 at2 ar2 c2 path0 props0 entries0 clones0 codes0 slots0 scalls0 Hp0 Hk0 He0 Hcl0 Hno0 Hsl0 Hsc0 Q0 Q1].
    { inversion Hh0. }
    subst. clear H H0 Hno0 Hsl0 Hsc0. rewrite kvs_of_app in Hk, Hk0. rewrite entries_of_app in He, He0. rewrite clones_of_app in Hcl, Hcl0.
    assert (Hkey : forall k k', a = AKv k -> a' = AKv k' ->
      exists b, element_code (Element (TagComponent p) sels (B ++ a' :: A) args ch) b /\
        R (component_frame path (props ++ children_calls args clones codes ++ scalls) (selector_entries sels ++ entries)) b).
    { intros k k' Qa Qa'. rewrite Qa in Hk, He, Hcl. rewrite Qa' in Hk0, He0, Hcl0 |- *. cbn in *.
      destruct (f2_one _ _ _ _ _ _ _ Hk Hk0) as (pp & c & c' & q & -> & Hc & Hc' & Hk').
      eexists. split; [eapply ec_component; [exact Hp|rewrite kvs_of_app; exact Hk'|rewrite entries_of_app; exact He|rewrite clones_of_app; exact Hcl|exact Hno|exact Hsl|exact Hsc]|].
      apply ra_component. rewrite <- !app_assoc. cbn [app]. apply ra_chain, ra_here; [rewrite Qa|rewrite Qa']; rewrite <- Q; cbn; eauto. }
    assert (Hclone : forall d d', a = ADir d -> a' = ADir d' -> is_clone d = true -> is_clone d' = true ->
      exists b, element_code (Element (TagComponent p) sels (B ++ a' :: A) args ch) b /\
        R (component_frame path (props ++ children_calls args clones codes ++ scalls) (selector_entries sels ++ entries)) b).
    { intros d d' Qa Qa' C C'. rewrite Qa in Hk, He, Hcl. rewrite Qa' in Hk0, He0, Hcl0 |- *. unfold clones_of in *. cbn in *. rewrite C in *. rewrite C' in *.
      destruct (f2_one _ _ _ _ _ _ _ Hcl Hcl0) as (pp & c & c' & q & -> & Hc & Hc' & Hcl').
      eexists. split; [eapply ec_component; [exact Hp|rewrite kvs_of_app; exact Hk|rewrite entries_of_app; cbn; rewrite C'; exact He|
        rewrite clones_of_app; unfold clones_of; cbn; rewrite C'; exact Hcl'|exact Hno|exact Hsl|exact Hsc]|].
      apply ra_component. rewrite !app_assoc, !(chain_app _ scalls). apply post. apply ra_children, ra_here; [rewrite Qa|rewrite Qa']; rewrite <- Q; cbn; rewrite ?C, ?C'; assumption. }
    assert (Hentry : forall B0, entries_of (B ++ a :: A) = entries_of B ++ a :: entries_of A -> entries_of (B ++ a' :: A) = entries_of B ++ a' :: entries_of A ->
      kvs_of (a :: A) = kvs_of (a' :: A) -> clones_of (a :: A) = clones_of (a' :: A) -> B0 = B ->
      (forall x, entry_code a x -> attr_code t a x) -> (forall x, entry_code a' x -> attr_code t a' x) ->
      exists b, element_code (Element (TagComponent p) sels (B ++ a' :: A) args ch) b /\
        R (component_frame path (props ++ children_calls args clones codes ++ scalls) (selector_entries sels ++ entries)) b).
    { intros B0 E1 E2 E3 E4 _ K1 K2. rewrite <- entries_of_app in He, He0. rewrite E1 in He. rewrite E2 in He0. rewrite E3 in Hk. rewrite E4 in Hcl.
      destruct (f2_one _ _ _ _ _ _ _ He He0) as (pp & c & c' & q & -> & Hc & Hc' & He').
      eexists. split; [eapply ec_component; [exact Hp|rewrite kvs_of_app; exact Hk|rewrite E2; exact He'|rewrite clones_of_app; exact Hcl|exact Hno|exact Hsl|exact Hsc]|].
      rewrite !app_assoc. apply ra_entries, ra_here; auto. }
    rewrite <- Q in Hentry.
    destruct a as [k|d|s], a' as [k'|d'|s']; cbn in Hsort;
      try (destruct (is_clone d) eqn:C); try (destruct (is_clone d') eqn:C'); try discriminate Hsort;
      first [ now apply (Hkey k k') | now apply (Hclone d d')
            | apply (Hentry B); rewrite ?entries_of_app; unfold clones_of; cbn; rewrite ?C, ?C'; auto ].
Qed.

Lemma attr_sim_slot sels B A args ch x : slot_code (Element t sels (B ++ a :: A) args ch) x ->
  coded R (slot_code (Element t sels (B ++ a' :: A) args ch)) x.
Proof.
  intros H (y & H0). inversion H as [p at1 ar1 c1 path props clones codes slots scalls Hp Hk He Hcl Hno Hsl Hsc Q Q1]. subst.
  rewrite <- Q in H0, Hsort. inversion H0 as [p0 at2 ar2 c2 path0 props0 clones0 codes0 slots0 scalls0 Hp0 Hk0 He0 Hcl0 Hno0 Hsl0 Hsc0 Q0 Q1].
  subst. clear H H0 Hno0 Hsl0 Hsc0. rewrite kvs_of_app in Hk, Hk0. rewrite clones_of_app in Hcl, Hcl0.
  assert (Hkey : forall k k', a = AKv k -> a' = AKv k' ->
    exists b, slot_code (Element (TagComponent p) [] (B ++ a' :: A) args ch) b /\
      R (slot_frame path (props ++ children_calls args clones codes)) b).
  { intros k k' Qa Qa'. rewrite Qa in Hk, Hcl. rewrite Qa' in Hk0, He0, Hcl0 |- *. cbn in Hk, Hk0, Hcl, Hcl0.
    destruct (f2_one _ _ _ _ _ _ _ Hk Hk0) as (pp & c & c' & q & -> & Hc & Hc' & Hk').
    eexists. split; [eapply sc_slot; [exact Hp|rewrite kvs_of_app; exact Hk'|exact He0|rewrite clones_of_app; exact Hcl|exact Hno|exact Hsl|exact Hsc]|].
    apply ra_slot. rewrite <- !app_assoc. cbn [app]. apply ra_chain, ra_here; [rewrite Qa|rewrite Qa']; rewrite <- Q; cbn; eauto. }
  assert (Hclone : forall d d', a = ADir d -> a' = ADir d' -> is_clone d = true -> is_clone d' = true ->
    exists b, slot_code (Element (TagComponent p) [] (B ++ a' :: A) args ch) b /\
      R (slot_frame path (props ++ children_calls args clones codes)) b).
  { intros d d' Qa Qa' C C'. rewrite Qa in Hk, Hcl. rewrite Qa' in Hk0, He0, Hcl0 |- *. unfold clones_of in *. cbn in Hk, Hk0, Hcl, Hcl0. rewrite C in *. rewrite C' in *.
    destruct (f2_one _ _ _ _ _ _ _ Hcl Hcl0) as (pp & c & c' & q & -> & Hc & Hc' & Hcl').
    eexists. split; [eapply sc_slot; [exact Hp|rewrite kvs_of_app; exact Hk|exact He0|
      rewrite clones_of_app; unfold clones_of; cbn; rewrite C'; exact Hcl'|exact Hno|exact Hsl|exact Hsc]|].
    apply ra_slot. apply ra_children, ra_here; [rewrite Qa|rewrite Qa']; rewrite <- Q; cbn; rewrite ?C, ?C'; assumption. }
  rewrite entries_of_app in He.
  destruct a as [k|d|s], a' as [k'|d'|s']; cbn in Hsort, He;
    try (destruct (is_clone d) eqn:C); try (destruct (is_clone d') eqn:C'); try discriminate Hsort;
    first [ now apply (Hkey k k') | now apply (Hclone d d') | now destruct (entries_of B) ].
Qed.

Lemma attr_sim slot c c' : one_attr t a a' slot c c' -> child_sim R c c'.
Proof.
  intros H. destruct H as [sels B A args ch|sels B A args ch].
  - apply cs_node; [discriminate|discriminate|]. intros x Hx. now apply attr_sim_element.
  - apply cs_slot; [reflexivity|]. intros x Hx. now apply attr_sim_slot.
Qed.
Lemma attr_edited_sim slot c c' l m : one_attr t a a' slot c c' -> edited c c' l m ->
  exists B d d' A, l = B ++ d :: A /\ m = B ++ d' :: A /\ child_sim R d d'.
Proof.
  intros Hs. induction 1 as [B A|B u sels attrs args l m A H IH|B u sels attrs args l m A H IH].
  - exists B, c, c', A. split; [reflexivity|]. split; [reflexivity|]. now apply (attr_sim slot).
  - destruct IH as (B' & d & d' & A' & -> & -> & Hd). eexists B, _, _, A. split; [reflexivity|]. split; [reflexivity|].
    apply (owner_sim R ra_refl ra_both ra_in (Layer [] false u sels attrs args (Read [] []))).
    now apply (lists_one R ra_both ra_in).
  - destruct IH as (B' & d & d' & A' & -> & -> & Hd). eexists B, _, _, A. split; [reflexivity|]. split; [reflexivity|].
    apply (owner_sim R ra_refl ra_both ra_in (Layer [] true u sels attrs args (Read [] []))).
    now apply (lists_one R ra_both ra_in).
Qed.
Lemma attr_edited_code slot c c' l m out out0 : one_attr t a a' slot c c' -> edited c c' l m ->
  root_code l out -> root_code m out0 -> exists out', root_code m out' /\ around_attr out out'.
Proof.
  intros Hs H H1 H2. destruct (attr_edited_sim slot c c' l m Hs H) as (B & d & d' & A & -> & -> & Hd).
  eapply (root_sim R ra_refl ra_both ra_in); eauto.
Qed.
End Attr.

Lemma one_attr_sort t a a' slot c c' : one_attr t a a' slot c c' -> same_sort c c'.
Proof. intros [sels B A args ch|sels B A args ch]; [now apply ss_node|now apply ss_slot]. Qed.
Lemma one_attr_sym t a a' slot c c' : one_attr t a a' slot c c' -> one_attr t a' a slot c' c.
Proof. intros [sels B A args ch|sels B A args ch]; constructor. Qed.

(** Reports. *)
Lemma one_attr_reports t a a' slot c c' : one_attr t a a' slot c c' ->
  own_reports c = own_reports c' \/ exists p q, own_reports c = p ++ attr_reports (role_of slot t) a ++ q /\
    own_reports c' = p ++ attr_reports (role_of slot t) a' ++ q.
Proof.
  assert (K : forall s sels B A args ch, exists p q,
    element_reports s (Element t sels (B ++ a :: A) args ch) = p ++ attr_reports (role_of s t) a ++ q /\
    element_reports s (Element t sels (B ++ a' :: A) args ch) = p ++ attr_reports (role_of s t) a' ++ q).
  { intros s sels B A args ch. rewrite !element_reports_eq, !flat_map_app. cbn [flat_map].
    exists (selector_reports (role_of s t) sels ++ flat_map (attr_reports (role_of s t)) B),
      (flat_map (attr_reports (role_of s t)) A ++ flat_map child_reports (child_list ch) ++
       match role_of s t with OnHtml => [] | _ => flat_map slot_reports (child_list ch) end).
    rewrite <- !app_assoc. split; reflexivity. }
  intros [sels B A args ch|sels B A args ch]; cbn [own_reports el_tag]; [right; apply K|].
  destruct (single_name t); [right; apply K|now left].
Qed.

(** Panics. *)
Lemma elem_one_stops w t a a' slot sels B A args ch : elem_stops w slot (Element t sels (B ++ a' :: A) args ch) ->
  elem_stops w slot (Element t sels (B ++ a :: A) args ch) \/ attr_stops slot t w a'.
Proof.
  assert (Hm : forall x, In x (B ++ a' :: A) -> x = a' \/ In x (B ++ a :: A)).
  { intros x H. apply in_app_or in H. destruct H as [H|[H|H]]; [right|left; now symmetry|right]; apply in_or_app; [now left|right; now right]. }
  intros H.
  inversion H as [e kind x Ht Hin Ha|s' e p x Ht Hin Ha|s' e x Hin Hx|s' e p x Ht Hin Hx Hw|s' e p x i n Ht Hin Hx Hc Hr Hw|s' e p x i Ht Hin Hx Hc];
    subst; cbn [el_tag el_attrs el_children child_list] in *.
  - destruct (Hm x Hin) as [->|K]; [right|left].
    + unfold attr_stops. destruct t; try (exists kind; now split). contradiction.
    + now apply (es_html_attr w _ kind x).
  - destruct (Hm x Hin) as [->|K]; [right; now rewrite Ht|left]. now apply (es_comp_attr w slot _ p x).
  - left. now apply (es_child w slot _ x).
  - left. now apply (es_slot_tag _ slot _ p x).
  - left. now apply (es_slot_name _ slot _ p x i n).
  - left. now apply (es_slot w slot _ p x i).
Qed.
Lemma one_attr_stops w t a a' slot c c' : one_attr t a a' slot c c' -> own_stops w c' ->
  attr_stops slot t w a' \/ (same_sort c c' /\ own_stops w c).
Proof.
  intros H Ho. assert (Hs := one_attr_sort _ _ _ _ _ _ H). destruct H as [sels B A args ch|sels B A args ch].
  - inversion Ho as [e He Q| | |]; subst. destruct (elem_one_stops w t a a' false sels B A args ch He) as [K|K]; [right|now left].
    split; [exact Hs|now constructor].
  - inversion Ho as [|x N Q|x i n T C R Q|x i T S]; subst x; cbn [el_tag] in *.
    + right. split; [exact Hs|now apply os_slot_tag].
    + right. split; [exact Hs|now apply (os_slot_name _ _ i n)].
    + destruct (elem_one_stops w t a a' true sels B A args ch S) as [K|K]; [right|now left].
      split; [exact Hs|now apply (os_slot _ _ i)].
Qed.
