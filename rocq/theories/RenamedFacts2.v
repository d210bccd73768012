(** Facts for C76. *)
From Verif Require Import Ast SpecStr SpecGrammar SpecOut SpecRead SpecStop SpecReports SpecConfined SpecOneChild SpecRenamed.
From Verif Require Import ConfinedCode CutFacts2 OneChildFacts RenamedFacts.
Open Scope list_scope.

Lemma seg_code_one s u v : seg_code s u -> seg_code s v -> u = v.
Proof. intros H K. destruct H; inversion K; subst; reflexivity. Qed.
Lemma segs_code_one l u v : segs_code l u -> segs_code l v -> u = v.
Proof.
  intros H. revert v. induction H as [|s ts H|s ts s' l ts' H H' IH]; intros v K.
  - now inversion K.
  - inversion K as [|s0 ts0 K0|]; subst. now apply (seg_code_one s).
  - inversion K as [| |s0 ts0 s0' l0 ts0' K0 K0']; subst. rewrite (seg_code_one _ _ _ H K0). now rewrite (IH _ K0').
Qed.
Lemma path_code_one p u v : path_code p u -> path_code p v -> u = v.
Proof. intros H K. destruct H as [l ts H|l ts H]; inversion K as [l0 ts0 K0|l0 ts0 K0]; subst; now rewrite (segs_code_one _ _ _ H K0). Qed.

Section Path.
Variables p p' : path.
Variables u v : list tt.
Hypothesis Hu : path_code p u.
Hypothesis Hv : path_code p' v.
Definition around_path (x y : list tt) : Prop :=
  x = y \/ exists calls entries, same_around (component_frame u calls entries) (component_frame v calls entries) x y.
Let R := around_path.
Lemma rp_refl x : R x x.
Proof. now left. Qed.
Lemma rp_both a x y q : R x y -> R (a ++ x ++ q) (a ++ y ++ q).
Proof. intros [->|(c & e & H)]; [now left|]. right. exists c, e. now apply sa_pre. Qed.
Lemma rp_in a d x y q : R x y -> R (a ++ TGroup d x :: q) (a ++ TGroup d y :: q).
Proof. intros [->|(c & e & H)]; [now left|]. right. exists c, e. now apply sa_in. Qed.

Lemma rp_element sels attrs args ch x : element_code (Element (TagComponent p) sels attrs args ch) x ->
  coded R (element_code (Element (TagComponent p') sels attrs args ch)) x.
Proof.
  intros H _. inversion H as [t1 s1 at1 ar1 c1 head kvs dirs codes Hh Hk Hd Hno Q|q s1 at1 ar1 c1 path props entries clones codes slots scalls Hp Hk He Hcl Hno Hsl Hsc Q Q1]; subst.
  - inversion Hh.
  - rewrite (path_code_one _ _ _ Hp Hu). eexists. split; [eapply ec_component; eassumption|]. right. eexists _, _.
    rewrite <- (app_nil_r (component_frame u _ _)) at 2. rewrite <- (app_nil_r (component_frame v _ _)) at 2.
    apply (sa_here _ _ [] []).
Qed.
Lemma rp_edited_sim sels attrs args ch l m :
  edited (CElement (Element (TagComponent p) sels attrs args ch)) (CElement (Element (TagComponent p') sels attrs args ch)) l m ->
  exists B d d' A, l = B ++ d :: A /\ m = B ++ d' :: A /\ child_sim R d d'.
Proof.
  induction 1 as [B A|B x s at0 ar l m A H IH|B x s at0 ar l m A H IH].
  - eexists B, _, _, A. split; [reflexivity|]. split; [reflexivity|]. apply cs_node; [discriminate|discriminate|].
    intros y Hy. now apply rp_element.
  - destruct IH as (B' & d & d' & A' & -> & -> & Hd). eexists B, _, _, A. split; [reflexivity|]. split; [reflexivity|].
    apply (owner_sim R rp_refl rp_both rp_in (Layer [] false x s at0 ar (Read [] []))). now apply (lists_one R rp_both rp_in).
  - destruct IH as (B' & d & d' & A' & -> & -> & Hd). eexists B, _, _, A. split; [reflexivity|]. split; [reflexivity|].
    apply (owner_sim R rp_refl rp_both rp_in (Layer [] true x s at0 ar (Read [] []))). now apply (lists_one R rp_both rp_in).
Qed.
Lemma path_renamed_code l m out out0 : renamed (TagComponent p) (TagComponent p') l m -> root_code l out -> root_code m out0 ->
  exists out', root_code m out' /\ around_path out out'.
Proof.
  intros (_ & sels & attrs & args & ch & H) H1 H2. destruct (rp_edited_sim _ _ _ _ _ _ H) as (B & d & d' & A & -> & -> & Hd).
  eapply (root_sim R rp_refl rp_both rp_in); eauto.
Qed.
End Path.

Lemma path_stops_here p p' w sels attrs args ch : own_stops w (CElement (Element (TagComponent p') sels attrs args ch)) ->
  own_stops w (CElement (Element (TagComponent p) sels attrs args ch)).
Proof.
  intros H. inversion H as [e He Q| | |]; subst. constructor.
  inversion He as [e kind a Ht Hin Ha|s' e q a Ht Hin Ha|s' e x Hin Hx|s' e q x Ht Hin Hx Hw|s' e q x i n Ht Hin Hx Hc Hr Hw|s' e q x i Ht Hin Hx Hc];
    subst; cbn [el_tag el_attrs el_children child_list] in *.
  - contradiction.
  - now apply (es_comp_attr w false _ p a).
  - now apply (es_child w false _ x).
  - now apply (es_slot_tag _ false _ p x).
  - now apply (es_slot_name _ false _ p x i n).
  - now apply (es_slot w false _ p x i).
Qed.
Lemma path_reports p p' l m : renamed (TagComponent p) (TagComponent p') l m -> view_reports l = view_reports m.
Proof.
  intros (Hk & sels & attrs & args & ch & H).
  assert (Hs : same_sort (CElement (Element (TagComponent p) sels attrs args ch)) (CElement (Element (TagComponent p') sels attrs args ch))) by now apply ss_node.
  destruct (edited_reports _ _ Hs l m H) as [K|(a & q & K1 & K2)]; [exact K|]. rewrite K1, K2. cbn [own_reports]. now rewrite !element_reports_eq.
Qed.
Lemma path_stops p p' l m w : renamed (TagComponent p) (TagComponent p') l m -> view_stops m w -> view_stops l w.
Proof.
  intros (Hk & sels & attrs & args & ch & H) Hst.
  assert (Hs : same_sort (CElement (Element (TagComponent p) sels attrs args ch)) (CElement (Element (TagComponent p') sels attrs args ch))) by now apply ss_node.
  destruct (edited_stops _ _ w False (fun K => or_intror (conj Hs (path_stops_here p p' w _ _ _ _ K))) l m Hs H Hst) as [K|[]].
  exact K.
Qed.
