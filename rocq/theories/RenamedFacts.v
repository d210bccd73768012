(** Facts for C75. *)
From Verif Require Import Ast SpecStr SpecGrammar SpecOut SpecRead SpecStop SpecReports SpecConfined SpecOneChild SpecRenamed.
From Verif Require Import ConfinedCode CutFacts2 OneChildFacts.
Open Scope list_scope.

Lemma renamed_sym t t' l m : renamed t t' l m -> renamed t' t m l.
Proof.
  intros (Hk & sels & attrs & args & ch & H). split; [now symmetry|]. exists sels, attrs, args, ch. now apply edited_sym.
Qed.

Section Named.
Variables t t' : tag.
Variables u v : tt.
Hypothesis Hu : written_name t = Some u.
Hypothesis Hv : written_name t' = Some v.
Hypothesis Hkind : kind_of t = kind_of t'.
Definition around_name (x y : list tt) : Prop := x = y \/ same_around [u] [v] x y.
Let R := around_name.
Lemma rn_refl x : R x x.
Proof. now left. Qed.
Lemma rn_both p x y q : R x y -> R (p ++ x ++ q) (p ++ y ++ q).
Proof. intros [->|H]; [now left|]. right. now apply sa_pre. Qed.
Lemma rn_in p d x y q : R x y -> R (p ++ TGroup d x :: q) (p ++ TGroup d y :: q).
Proof. intros [->|H]; [now left|]. right. now apply sa_in. Qed.
Let pre := R_pre R rn_both.
Let post := R_post R rn_both.
Let cons := R_cons R rn_both.
Let one := R_one R rn_in.

Lemma rn_here q : R (u :: q) (v :: q).
Proof. right. apply (sa_here [u] [v] [] q). Qed.
Lemma rn_head h : html_head t h -> exists h', html_head t' h' /\ R h h'.
Proof.
  intros H. destruct H as [i|i|i|k]; (destruct t' as [j|q|j|j|k']; try discriminate Hkind); injection Hu as Q; injection Hv as Q';
    (eexists; split; [constructor|]); rewrite Q, Q'.
  1-3: apply pre, pre, rn_here.
  apply pre, one, rn_here.
Qed.
Lemma rn_element sels attrs args ch x : element_code (Element t sels attrs args ch) x ->
  coded R (element_code (Element t' sels attrs args ch)) x.
Proof.
  intros H _. inversion H as [t1 s1 at1 ar1 c1 head kvs dirs codes Hh Hk Hd Hno Q|p s1 at1 ar1 c1 path props entries clones codes slots scalls Hp Hk He Hcl Hno Hsl Hsc Q Q1].
  - subst. destruct (rn_head head Hh) as (h' & Hh' & HR). rewrite Hkind in Hk. eexists. split; [eapply ec_html; eassumption|]. now apply post.
  - rewrite <- Q in Hu. discriminate Hu.
Qed.
Lemma rn_edited_sim sels attrs args ch l m :
  edited (CElement (Element t sels attrs args ch)) (CElement (Element t' sels attrs args ch)) l m ->
  exists B d d' A, l = B ++ d :: A /\ m = B ++ d' :: A /\ child_sim R d d'.
Proof.
  induction 1 as [B A|B x s at0 ar l m A H IH|B x s at0 ar l m A H IH].
  - eexists B, _, _, A. split; [reflexivity|]. split; [reflexivity|]. apply cs_node; [discriminate|discriminate|].
    intros y Hy. now apply rn_element.
  - destruct IH as (B' & d & d' & A' & -> & -> & Hd). eexists B, _, _, A. split; [reflexivity|]. split; [reflexivity|].
    apply (owner_sim R rn_refl rn_both rn_in (Layer [] false x s at0 ar (Read [] []))). now apply (lists_one R rn_both rn_in).
  - destruct IH as (B' & d & d' & A' & -> & -> & Hd). eexists B, _, _, A. split; [reflexivity|]. split; [reflexivity|].
    apply (owner_sim R rn_refl rn_both rn_in (Layer [] true x s at0 ar (Read [] []))). now apply (lists_one R rn_both rn_in).
Qed.
Lemma renamed_code l m out out0 : renamed t t' l m -> root_code l out -> root_code m out0 ->
  exists out', root_code m out' /\ around_name out out'.
Proof.
  intros (_ & sels & attrs & args & ch & H) H1 H2. destruct (rn_edited_sim _ _ _ _ _ _ H) as (B & d & d' & A & -> & -> & Hd).
  eapply (root_sim R rn_refl rn_both rn_in); eauto.
Qed.
End Named.

Section Verdict.
Variables t t' : tag.
Hypothesis Hn : forall p, t <> TagComponent p.
Hypothesis Hkind : kind_of t = kind_of t'.
Lemma renamed_role slot : role_of slot t = role_of slot t'.
Proof. destruct slot; [reflexivity|]. now destruct t, t'. Qed.
Lemma renamed_stops_here w sels attrs args ch : own_stops w (CElement (Element t' sels attrs args ch)) ->
  own_stops w (CElement (Element t sels attrs args ch)).
Proof.
  assert (Hn' : forall p, t' <> TagComponent p) by (intros p ->; destruct t; try discriminate Hkind; now destruct (Hn p0)).
  intros H. inversion H as [e He Q| | |]; subst. constructor.
  inversion He as [e kind a Ht Hin Ha|s' e p a Ht Hin Ha|s' e x Hin Hx|s' e p x Ht Hin Hx Hw|s' e p x i n Ht Hin Hx Hc Hr Hw|s' e p x i Ht Hin Hx Hc];
    subst; cbn [el_tag el_attrs el_children child_list] in *; try now destruct (Hn' p).
  - apply (es_html_attr w _ kind a); [|exact Hin|exact Ha]. cbn [el_tag]. now destruct t, t'.
  - now apply (es_child w false _ x).
Qed.
End Verdict.
Lemma renamed_tags t t' l m : renamed t t' l m -> (forall p, t <> TagComponent p) -> forall p, t' <> TagComponent p.
Proof. intros [Hk _] Hn p ->. destruct t; try discriminate Hk. now destruct (Hn p0). Qed.
Lemma renamed_reports t t' l m : (forall p, t <> TagComponent p) -> renamed t t' l m -> view_reports l = view_reports m.
Proof.
  intros Hn (Hk & sels & attrs & args & ch & H).
  assert (Q : own_reports (CElement (Element t sels attrs args ch)) = own_reports (CElement (Element t' sels attrs args ch))).
  { cbn [own_reports]. rewrite !element_reports_eq. now rewrite (renamed_role t t' Hn Hk). }
  assert (Hs : same_sort (CElement (Element t sels attrs args ch)) (CElement (Element t' sels attrs args ch))) by now apply ss_node.
  destruct (edited_reports _ _ Hs l m H) as [K|(p & q & K1 & K2)]; [exact K|]. now rewrite K1, K2, Q.
Qed.
Lemma renamed_stops t t' l m w : (forall p, t <> TagComponent p) -> renamed t t' l m -> view_stops m w -> view_stops l w.
Proof.
  intros Hn (Hk & sels & attrs & args & ch & H) Hst.
  assert (Hs : same_sort (CElement (Element t sels attrs args ch)) (CElement (Element t' sels attrs args ch))) by now apply ss_node.
  destruct (edited_stops _ _ w False (fun K => or_intror (conj Hs (renamed_stops_here t t' Hn Hk w _ _ _ _ K))) l m Hs H Hst) as [K|[]].
  exact K.
Qed.
