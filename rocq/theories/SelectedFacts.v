(** Facts for C77. *)
From Verif Require Import Ast SpecStr SpecGrammar SpecOut SpecRead SpecStop SpecReports SpecConfined SpecOneChild SpecSelected.
From Verif Require Import ConfinedCode CutFacts2 OneChildFacts RenamedFacts.
Open Scope list_scope.

Lemma same_selector_sym s s' : same_selector s s' -> same_selector s' s.
Proof. intros [k k'|k k']; constructor. Qed.
Lemma reselected_sym u v l m : reselected u v l m -> reselected v u m l.
Proof. intros [t B s s' A attrs args ch Hs Hu Hv H]. apply (rs_intro v u m l t B s' s A attrs args ch); [now apply same_selector_sym|exact Hv|exact Hu|now apply edited_sym]. Qed.
Lemma classes_of_app l m : classes_of (l ++ m) = classes_of l ++ classes_of m.
Proof. induction l as [|[k|k] l IH]; cbn; now rewrite ?IH. Qed.
Lemma ids_of_app l m : ids_of (l ++ m) = ids_of l ++ ids_of m.
Proof. induction l as [|[k|k] l IH]; cbn; now rewrite ?IH. Qed.

Section Selector.
Variables u v : tt.
Let R := around_name u v.
Let refl := rn_refl u v.
Let both := rn_both u v.
Let inner := rn_in u v.
Let pre := R_pre R both.
Let post := R_post R both.
Let cons := R_cons R both.
Let one := R_one R inner.
Let here := rn_here u v.

Lemma sl_chain p c c' q : R (call_tokens c) (call_tokens c') -> R (chain (p ++ c :: q)) (chain (p ++ c' :: q)).
Proof. intros H. unfold chain. rewrite !map_app, !concat_app. cbn [map List.concat]. now apply both. Qed.
Lemma sl_entries path calls l l' : one_diff R l l' -> R (component_frame path calls l) (component_frame path calls l').
Proof.
  intros H. unfold component_frame. apply pre, pre, one, pre, pre. unfold chain. cbn [map List.concat]. apply post. unfold call_tokens.
  apply cons, cons, one, one. now apply (od_ended R refl both).
Qed.
Variable t : tag.
Variables B A : list selector.
Variables s s' : selector.
Hypothesis Hs : same_selector s s'.
Hypothesis Hu : u = selector_token t B A s.
Hypothesis Hv : v = selector_token t B A s'.
Lemma sl_element attrs args ch x : element_code (Element t (B ++ s :: A) attrs args ch) x ->
  coded R (element_code (Element t (B ++ s' :: A) attrs args ch)) x.
Proof.
  intros H _. inversion H as [t1 s1 at1 ar1 c1 head kvs dirs codes Hh Hk Hd Hno Q|p s1 at1 ar1 c1 path props entries clones codes slots scalls Hp Hk He Hcl Hno Hsl Hsc Q Q1].
  - subst t1 s1 at1 ar1 c1 x.
    assert (Hb : forall k, selector_token t B A (SelClass k) = name_block k /\ selector_token t B A (SelId k) = name_block k)
      by (intros k; destruct Hh; split; reflexivity).
    eexists. split; [eapply ec_html; eassumption|]. apply pre. rewrite !classes_of_app, !ids_of_app. destruct Hs as [k k'|k k']; cbn [classes_of ids_of].
    + rewrite (proj1 (Hb k)) in Hu. rewrite (proj1 (Hb k')) in Hv. rewrite !map_app. cbn [map]. rewrite <- !(app_assoc (map class_call _)). cbn [app].
      rewrite !(app_assoc dirs), !(app_assoc kvs). apply sl_chain. unfold call_tokens, class_call. cbn [call_args call_name plain_call].
      apply cons, cons, one, one. rewrite <- Hu, <- Hv. apply here.
    + rewrite (proj2 (Hb k)) in Hu. rewrite (proj2 (Hb k')) in Hv. generalize (map class_call (classes_of B ++ classes_of A)). intros C. rewrite !map_app. cbn [map]. rewrite <- !(app_assoc (map id_call _)). cbn [app].
      rewrite !(app_assoc C), !(app_assoc dirs), !(app_assoc kvs). apply sl_chain. unfold call_tokens, id_call. cbn [call_args call_name plain_call].
      apply cons, cons, one. rewrite <- Hu, <- Hv. apply here.
  - subst s1 at1 ar1 c1 x. rewrite <- Q in Hu, Hv. eexists. split; [eapply ec_component; eassumption|]. apply sl_entries. apply od_post.
    unfold selector_entries. rewrite !classes_of_app, !ids_of_app. destruct Hs as [k k'|k k']; cbn [classes_of ids_of selector_token] in *.
    + apply od_post. rewrite !map_app. cbn [map]. apply od_pre, od_head. unfold class_entry. rewrite <- Hu, <- Hv. apply pre, one, one, here.
    + apply od_pre. unfold id_entries.
      assert (K : forall l (m : list kebab) (a b : list (list tt)) x, match l ++ x :: m with [] => a | _ :: _ => b end = b) by now intros [|] ? ? ? ?.
      rewrite !K, <- Hu, <- Hv. apply od_head, pre, pre, cons, one, here.
Qed.
Lemma sl_edited_sim attrs args ch l m :
  edited (CElement (Element t (B ++ s :: A) attrs args ch)) (CElement (Element t (B ++ s' :: A) attrs args ch)) l m ->
  exists B d d' A, l = B ++ d :: A /\ m = B ++ d' :: A /\ child_sim R d d'.
Proof.
  induction 1 as [B0 A0|B0 x sl at0 ar l m A0 H IH|B0 x sl at0 ar l m A0 H IH].
  - eexists B0, _, _, A0. split; [reflexivity|]. split; [reflexivity|]. apply cs_node; [discriminate|discriminate|].
    intros y Hy. now apply sl_element.
  - destruct IH as (B' & d & d' & A' & -> & -> & Hd). eexists B0, _, _, A0. split; [reflexivity|]. split; [reflexivity|].
    apply (owner_sim R refl both inner (Layer [] false x sl at0 ar (Read [] []))). now apply (lists_one R both inner).
  - destruct IH as (B' & d & d' & A' & -> & -> & Hd). eexists B0, _, _, A0. split; [reflexivity|]. split; [reflexivity|].
    apply (owner_sim R refl both inner (Layer [] true x sl at0 ar (Read [] []))). now apply (lists_one R both inner).
Qed.
End Selector.

Lemma reselected_code u v l m out out0 : reselected u v l m -> root_code l out -> root_code m out0 ->
  exists out', root_code m out' /\ around_name u v out out'.
Proof.
  intros [t B s s' A attrs args ch Hs Hu Hv H] H1 H2.
  destruct (sl_edited_sim u v t B A s s' Hs Hu Hv _ _ _ _ _ H) as (B0 & d & d' & A0 & -> & -> & Hd).
  eapply (root_sim _ (rn_refl u v) (rn_both u v) (rn_in u v)); eauto.
Qed.
Lemma reselected_reports u v l m : reselected u v l m -> view_reports l = view_reports m.
Proof.
  intros [t B s s' A attrs args ch Hs Hu Hv H].
  assert (Hst : same_sort (CElement (Element t (B ++ s :: A) attrs args ch)) (CElement (Element t (B ++ s' :: A) attrs args ch))) by now apply ss_node.
  destruct (edited_reports _ _ Hst l m H) as [K|(a & q & K1 & K2)]; [exact K|]. rewrite K1, K2. cbn [own_reports]. rewrite !element_reports_eq.
  unfold selector_reports. cbn [role_of]. now destruct t.
Qed.
Lemma reselected_stops u v l m w : reselected u v l m -> view_stops m w -> view_stops l w.
Proof.
  intros [t B s s' A attrs args ch Hs Hu Hv H] Hw.
  assert (Hst : same_sort (CElement (Element t (B ++ s :: A) attrs args ch)) (CElement (Element t (B ++ s' :: A) attrs args ch))) by now apply ss_node.
  assert (K : own_stops w (CElement (Element t (B ++ s' :: A) attrs args ch)) -> own_stops w (CElement (Element t (B ++ s :: A) attrs args ch))).
  { intros Ho. inversion Ho as [e He Q| | |]; subst e. constructor.
    inversion He as [e kind a Ht Hin Ha|s0 e q a Ht Hin Ha|s0 e x Hin Hx|s0 e q x Ht Hin Hx Hq|s0 e q x i n Ht Hin Hx Hc Hr Hq|s0 e q x i Ht Hin Hx Hc];
      subst e; cbn [el_tag el_attrs el_children child_list] in *.
    - now apply (es_html_attr w _ kind a).
    - now apply (es_comp_attr w false _ q a).
    - now apply (es_child w false _ x).
    - now apply (es_slot_tag _ false _ q x).
    - now apply (es_slot_name _ false _ q x i n).
    - now apply (es_slot w false _ q x i). }
  destruct (edited_stops _ _ w False (fun k => or_intror (conj Hst (K k))) l m Hst H Hw) as [Z|[]]. exact Z.
Qed.
