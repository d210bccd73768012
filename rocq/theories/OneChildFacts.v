(** Facts for C71. *)
From Verif Require Import Ast SpecStr SpecGrammar SpecOut SpecRead SpecStop SpecReports SpecConfined ConfinedCode SpecOneChild CutFacts2.
Open Scope list_scope.

Lemma same_sort_sym c c' : same_sort c c' -> same_sort c' c.
Proof. intros H. destruct H as [c c' N N'|e e' Ht]; [now apply ss_node|now apply ss_slot]. Qed.
Lemma edited_sym c c' l m : edited c c' l m -> edited c' c m l.
Proof. induction 1; now constructor. Qed.

(** ** Code *)

Definition around_child (c c' : child) (out out' : list tt) : Prop :=
  out = out' \/ exists a b, child_code c a /\ child_code c' b /\ same_around a b out out'.
Section Code.
Variables c c' : child.
Let R := around_child c c'.
Lemma ac_refl a : R a a.
Proof. now left. Qed.
Lemma ac_both p a b q : R a b -> R (p ++ a ++ q) (p ++ b ++ q).
Proof. intros [->|(o & o' & H1 & H2 & H3)]; [now left|]. right. exists o, o'. split; [auto|]. split; [auto|]. now apply sa_pre. Qed.
Lemma ac_in p d a b q : R a b -> R (p ++ TGroup d a :: q) (p ++ TGroup d b :: q).
Proof. intros [->|(o & o' & H1 & H2 & H3)]; [now left|]. right. exists o, o'. split; [auto|]. split; [auto|]. now apply sa_in. Qed.

Lemma here_sim : same_sort c c' -> child_sim R c c'.
Proof.
  assert (K : forall a, child_code c a -> coded R (child_code c') a).
  { intros a Ha (b & Hb). exists b. split; [exact Hb|]. right. exists a, b. split; [exact Ha|]. split; [exact Hb|].
    rewrite <- (app_nil_r a) at 2. rewrite <- (app_nil_r b) at 2. apply (sa_here a b [] []). }
  intros H. unfold R in *. destruct H as [x y N N'|e e' Ht]; [now constructor|]. now constructor.
Qed.
Lemma edited_sim l m : same_sort c c' -> edited c c' l m ->
  exists B d d' A, l = B ++ d :: A /\ m = B ++ d' :: A /\ child_sim R d d'.
Proof.
  intros Hs. induction 1 as [B A|B t sels attrs args l m A H IH|B t sels attrs args l m A H IH].
  - exists B, c, c', A. split; [reflexivity|]. split; [reflexivity|]. now apply here_sim.
  - destruct IH as (B' & d & d' & A' & -> & -> & Hd). eexists B, _, _, A. split; [reflexivity|]. split; [reflexivity|].
    apply (owner_sim R ac_refl ac_both ac_in (Layer [] false t sels attrs args (Read [] []))).
    now apply (lists_one R ac_both ac_in).
  - destruct IH as (B' & d & d' & A' & -> & -> & Hd). eexists B, _, _, A. split; [reflexivity|]. split; [reflexivity|].
    apply (owner_sim R ac_refl ac_both ac_in (Layer [] true t sels attrs args (Read [] []))).
    now apply (lists_one R ac_both ac_in).
Qed.
Lemma edited_code l m out out0 : same_sort c c' -> edited c c' l m -> root_code l out -> root_code m out0 ->
  exists out', root_code m out' /\ around_child c c' out out'.
Proof.
  intros Hs H H1 H2. destruct (edited_sim l m Hs H) as (B & d & d' & A & -> & -> & Hd).
  eapply (root_sim R ac_refl ac_both ac_in); eauto.
Qed.
End Code.

(** ** Reports *)

Section Reports.
Variables c c' : child.
Hypothesis Hsort : same_sort c c'.
Definition report_diff (l m : list diag) : Prop :=
  l = m \/ exists p q, l = p ++ own_reports c ++ q /\ m = p ++ own_reports c' ++ q.
Lemma rd_pre p l m : report_diff l m -> report_diff (p ++ l) (p ++ m).
Proof. intros [->|(p' & q & -> & ->)]; [now left|]. right. exists (p ++ p'), q. now rewrite <- !app_assoc. Qed.
Lemma rd_post l m q : report_diff l m -> report_diff (l ++ q) (m ++ q).
Proof. intros [->|(p & q' & -> & ->)]; [now left|]. right. exists p, (q' ++ q). now rewrite <- !app_assoc. Qed.

(** In a list of children: the nodes, or the slots. *)
Definition lists_diff (l m : list child) : Prop :=
  (report_diff (flat_map child_reports l) (flat_map child_reports m) /\ flat_map slot_reports l = flat_map slot_reports m) \/
  (flat_map child_reports l = flat_map child_reports m /\ report_diff (flat_map slot_reports l) (flat_map slot_reports m)).
Lemma diff_here B x y A :
  (report_diff (child_reports x) (child_reports y) /\ slot_reports x = slot_reports y) \/
  (child_reports x = child_reports y /\ report_diff (slot_reports x) (slot_reports y)) ->
  lists_diff (B ++ x :: A) (B ++ y :: A).
Proof.
  unfold lists_diff. rewrite !flat_map_app. cbn [flat_map].
  intros [[H1 H2]|[H1 H2]]; [left|right]; (split; [|]); try (now rewrite ?H1, ?H2); now apply rd_pre, rd_post.
Qed.
Lemma element_diff slot t sels attrs args l m : lists_diff l m ->
  report_diff (element_reports slot (Element t sels attrs args (Some l))) (element_reports slot (Element t sels attrs args (Some m))).
Proof.
  intros H. rewrite !element_reports_eq. cbn [child_list]. do 2 apply rd_pre. destruct H as [[H1 H2]|[H1 H2]].
  - rewrite H2. now apply rd_post.
  - rewrite H1. apply rd_pre. destruct (role_of slot t); [now left|auto|auto].
Qed.
Lemma edited_diff l m : edited c c' l m -> lists_diff l m.
Proof.
  induction 1 as [B A|B t sels attrs args l m A H IH|B t sels attrs args l m A H IH]; apply diff_here.
  - assert (K : report_diff (own_reports c) (own_reports c')).
    { right. exists [], []. cbn. now rewrite !app_nil_r. }
    destruct Hsort as [x y N N'|e e' Ht].
    + left. destruct x as [v|e|e]; [| |now destruct (N e)]; (destruct y as [v'|e'|e']; [| |now destruct (N' e')]);
        (split; [exact K|reflexivity]).
    + right. split; [reflexivity|exact K].
  - left. split; [|reflexivity]. cbn [child_reports]. now apply element_diff.
  - right. split; [reflexivity|]. cbn [slot_reports el_tag]. destruct (single_name t); [now apply element_diff|now left].
Qed.
Definition slotb (x : child) : bool := match x with CSlot _ => true | _ => false end.
Lemma edited_slots l m : edited c c' l m -> existsb slotb l = existsb slotb m.
Proof.
  intros H. destruct H as [B A|B t sels attrs args l m A H|B t sels attrs args l m A H]; rewrite !existsb_app; cbn [existsb]; f_equal; f_equal.
  destruct Hsort as [x y N N'|e e' Ht]; [|reflexivity].
  destruct x as [v|e|e]; [| |now destruct (N e)]; (destruct y as [v'|e'|e']; [reflexivity|reflexivity|now destruct (N' e')]).
Qed.
Lemma edited_reports l m : edited c c' l m -> report_diff (view_reports l) (view_reports m).
Proof.
  intros H. assert (Hs := edited_slots l m H). unfold view_reports. fold slotb. rewrite Hs. destruct (existsb slotb m); [now left|].
  destruct (edited_diff l m H) as [[H1 _]|[H1 _]]; [exact H1|now left].
Qed.
End Reports.

(** ** Panics *)

Section Panics.
Variables c c' : child.
Variable w : panic.
(** What the new child can be to blame for. *)
Variable X : Prop.
Hypothesis Hbase : own_stops w c' -> X \/ (same_sort c c' /\ own_stops w c).
Lemma in_mid (x : child) B y A : In x (B ++ y :: A) -> x = y \/ forall z, In x (B ++ z :: A).
Proof.
  intros H. apply in_app_or in H. destruct H as [H|[H|H]]; [right|left; now symmetry|right]; intros z; apply in_or_app; [now left|].
  right. now right.
Qed.
Definition nodes_back (l m : list child) : Prop := forall e, In (CElement e) m -> elem_stops w false e ->
  (exists e', In (CElement e') l /\ elem_stops w false e') \/ X.
Definition slots_back (l m : list child) : Prop := forall e, In (CSlot e) m -> own_stops w (CSlot e) ->
  (exists e', In (CSlot e') l /\ own_stops w (CSlot e')) \/ X.
Lemma element_back s t sels attrs args l m : nodes_back l m -> slots_back l m ->
  elem_stops w s (Element t sels attrs args (Some m)) ->
  elem_stops w s (Element t sels attrs args (Some l)) \/ X.
Proof.
  intros Hn Hs H.
  assert (K : forall p e, t = TagComponent p -> In (CSlot e) m -> own_stops w (CSlot e) ->
    elem_stops w s (Element t sels attrs args (Some l)) \/ X).
  { intros p e Ht Hin He. destruct (Hs e Hin He) as [(e' & Hin' & He')|Ho]; [left|now right].
    inversion He' as [|x N Q|x i n T C R Q|x i T S]; subst x.
    - now apply (es_slot_tag w s _ p e').
    - now apply (es_slot_name w s _ p e' i n).
    - now apply (es_slot w s _ p e' i). }
  inversion H as [e kind a Ht Hin Ha|s' e p a Ht Hin Ha|s' e x Hin Hx|s' e p x Ht Hin Hx Hw|s' e p x i n Ht Hin Hx Hc Hr Hw|s' e p x i Ht Hin Hx Hc];
    subst; cbn [el_tag el_attrs el_children child_list] in *.
  - left. now apply (es_html_attr w _ kind a).
  - left. now apply (es_comp_attr w s _ p a).
  - destruct (Hn x Hin Hx) as [(x' & Hin' & Hx')|Ho]; [left|now right]. now apply (es_child w s _ x').
  - apply (K p x Ht Hin). now apply os_slot_tag.
  - apply (K p x Ht Hin). now apply (os_slot_name _ x i n).
  - apply (K p x Ht Hin). now apply (os_slot _ x i).
Qed.
Lemma edited_back l m : edited c c' l m -> nodes_back l m /\ slots_back l m.
Proof.
  induction 1 as [B A|B t sels attrs args l m A H [IHn IHs]|B t sels attrs args l m A H [IHn IHs]]; split; intros e Hin He;
    (destruct (in_mid _ _ _ _ Hin) as [Q|Q]; [|left; exists e; split; [apply Q|exact He]]).
  - destruct Hbase as [K|[Hs K]]; [rewrite <- Q; now constructor|now right|]. left. rewrite <- Q in Hs.
    inversion K as [x Hx Qx|x N ? Qx|x i n T C R ? Qx|x i T S Qx]; subst c.
    1:{ exists x. split; [apply in_elt|exact Hx]. }
    all: exfalso; inversion Hs as [y y' N1 N2|]; now destruct (N1 x).
  - destruct Hbase as [K|[Hs K]]; [now rewrite <- Q|now right|]. left. rewrite <- Q in Hs.
    inversion Hs as [y y' N1 N2|y y' Ht Qy]; [now destruct (N2 e)|]. subst c. exists y. split; [apply in_elt|exact K].
  - injection Q as ->. destruct (element_back false t sels attrs args l m IHn IHs He) as [K|K]; [left|now right].
    eexists. split; [apply in_elt|exact K].
  - discriminate Q.
  - discriminate Q.
  - injection Q as ->. inversion He as [|x N Q|x i n T C R Q|x i T S]; subst x; cbn [el_tag] in *.
    + left. eexists. split; [apply in_elt|]. now apply os_slot_tag.
    + left. eexists. split; [apply in_elt|]. now apply (os_slot_name _ _ i n).
    + destruct (element_back true t sels attrs args l m IHn IHs S) as [K|K]; [left|now right].
      eexists. split; [apply in_elt|]. now apply (os_slot _ _ i).
Qed.
Lemma edited_stops l m : same_sort c c' -> edited c c' l m -> view_stops m w -> view_stops l w \/ X.
Proof.
  intros Hs H (N & e & Hin & He). destruct (edited_back l m H) as [Hn _]. destruct (Hn e Hin He) as [K|K]; [left|now right].
  split; [|exact K]. intros x Hx. assert (Q := edited_slots c c' Hs l m H).
  assert (T : existsb slotb l = true) by (apply existsb_exists; now exists (CSlot x)).
  rewrite Q in T. apply existsb_exists in T. destruct T as (y & Hy & T). destruct y as [v|y|y]; try discriminate T. exact (N y Hy).
Qed.
End Panics.
