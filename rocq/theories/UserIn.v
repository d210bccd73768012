(** Every place of a user's token belongs to any set of spans that has the
    spans of the view and cannot be left by joining. *)
From Verif Require Import PlacesIn WhereFacts.
From Verif Require Import SpecStr SpecGrammar SpecSpan SpecSpell SpecWhere STokens.
Open Scope list_scope.
Close Scope sparse_scope.

Section In.
Variable E : senv.
Variable Q : span -> Prop.
Hypothesis HQ : forall a b, Q a -> Q b -> Q (joinx E a b).
Notation all_in := (all_in Q).

Ltac ai := repeat match goal with
  | H : all_in (_ ++ _) |- _ => apply all_app in H as [? H]
  | H : all_in (_ :: _) |- _ => apply all_cons in H as [? H]
  | H : Forall Q (spans_of (SIdent _ _)) |- _ => apply tspan_in in H; cbn [tspan] in H
  | H : Forall Q (spans_of (SPunct _ _ _)) |- _ => apply tspan_in in H; cbn [tspan] in H
  | H : Forall Q (spans_of (SLit _ _ _)) |- _ => apply tspan_in in H; cbn [tspan] in H
  | H : Forall Q (spans_of (SGroup _ _ _)) |- _ => cbn [spans_of] in H; do 3 (apply Forall_inv_tail in H); match type of H with Forall Q (flat_map spans_of ?x) => change (all_in x) in H end
  | H : all_in [] |- _ => clear H
  end.
Ltac iin := eapply (ident_in E Q HQ); [|eassumption|eassumption]; eassumption.
Ltac nin := eapply (name_in E Q HQ); [|eassumption]; eassumption.

Lemma atoms_in ts : all_in ts -> forall s a, In (s, a) (atoms ts) -> Q s.
Proof.
  assert (Hs : forall ts d s a, In (s, a) (atoms_from d ts) -> In s (spans ts)).
  { clear. assert (Ht : forall t d s a, In (s, a) (atoms_of d t) -> In s (spans_of t)).
    { fix rec 1. intros [s0 i|s0 c sp|s0 k v|b dl ts] d s a Hin.
      1-3: cbn in *; destruct Hin as [[= -> _]|[]]; auto.
      cbn [atoms_of spans_of In] in *. destruct Hin as [[= -> _]|[[= -> _]|[[= -> _]|Hin]]]; auto. do 3 right.
      clear d. revert Hin. generalize false as d0. induction ts as [|t r IH]; intros d0 Hin; [destruct Hin|].
      cbn [flat_map]. apply in_or_app. apply in_app_or in Hin as [Hin|Hin]; [left; eapply rec; exact Hin|right; exact (IH _ Hin)]. }
    intros ts. induction ts as [|t r IH]; intros d s a Hin; [destruct Hin|]. unfold spans. cbn [atoms_from flat_map] in *.
    apply in_or_app. apply in_app_or in Hin as [Hin|Hin]; [left; eapply Ht; eauto|right; eapply IH; eauto]. }
  intros H s a Hin. apply Hs in Hin. unfold PlacesIn.all_in in H. rewrite Forall_forall in H. auto.
Qed.

Lemma part_in u l : sp_children E u l -> all_in u -> forall c, In c l -> exists ts, sp_child E ts c /\ all_in ts.
Proof. induction 1 as [|? ? ? ? Hc Hl IH]; intros Ha x Hx; [easy|]. ai. destruct Hx as [<-|Hx]; eauto. Qed.
Lemma elem_spelled ts c e : sp_child E ts c -> all_in ts -> child_element c = Some e -> exists us, sp_element E us e /\ all_in us.
Proof. intros H Ha He. destruct H; cbn in He; try discriminate; injection He as <-; ai; eauto. Qed.
Variable input : list stt.
Variable cs : list schild.
Hypothesis Hsp : sp_children E input cs.
Hypothesis Hall : all_in input.

Lemma node_in c : node cs c -> exists ts, sp_child E ts c /\ all_in ts.
Proof.
  intros Hc. induction Hc as [c Hc|c e c' Hc [ts [IH Ha]] He Hin]; [eapply part_in; eauto|].
  destruct (elem_spelled _ _ _ IH Ha He) as (us & Hel & Hu).
  inversion Hel as [? t ? sels ? attrs ? args ch Ht Hse Hat Hend]; subst.
  cbn [sel_children] in Hin. destruct ch as [l|]; [|destruct Hin]. ai.
  inversion Hend; subst; ai; eapply part_in; eauto.
Qed.
Lemma elem_in e : elem cs e -> exists us, sp_element E us e /\ all_in us.
Proof. intros (c & Hc & He). destruct (node_in c Hc) as (ts & Hs & Ha). eapply elem_spelled; eauto. Qed.
Lemma list_member {A} (P : list stt -> A -> Prop) us l : sp_list P us l -> all_in us ->
  forall a, In a l -> exists ts, P ts a /\ all_in ts.
Proof. induction 1 as [|? ? ? ? Hc Hl IH]; intros Ha x Hx; [easy|]. ai. destruct Hx as [<-|Hx]; eauto. Qed.
Lemma attr_spelled e a : elem cs e -> In a (sel_attrs e) -> exists ts, sp_attr E ts a /\ all_in ts.
Proof.
  intros He Hin. destruct (elem_in e He) as (us & Hel & Hu). inversion Hel as [? t ? sels ? attrs ? args ch Ht Hse Hat Hend]; subst.
  ai. eapply list_member; eauto.
Qed.
Lemma tag_spelled e : elem cs e -> exists ts, sp_tag E ts (sel_tag e) /\ all_in ts.
Proof.
  intros He. destruct (elem_in e He) as (us & Hel & Hu). inversion Hel as [? t ? sels ? attrs ? args ch Ht Hse Hat Hend]; subst.
  ai. eauto.
Qed.

Definition value_in' (v : svalue) : Prop :=
  match v with
  | SVLit (SLitTok s _ _) => Q s
  | SVLit (SLitBool s b) => Q s \/ (s = Call /\ b = true)
  | SVBlock _ ts | SVBracket _ _ ts => all_in ts
  end.
Lemma val ts v : all_in ts -> sp_value E ts v -> value_in' v.
Proof. intros H Hv. destruct Hv; ai; cbn; auto. Qed.
Lemma short_val ts k v : all_in ts -> sp_short E ts k v -> value_in' v.
Proof.
  intros H Hv. destruct Hv as [b inner k i Hk Hi]. ai. cbn. apply all_cons. split; [|constructor]. constructor; [|constructor].
  iin.
Qed.
Lemma values_in v : value_of cs v -> value_in' v.
Proof.
  intros [x Hx|e a [He Ha]|e d x [He Ha] Hx].
  - destruct (node_in _ Hx) as (ts & Hs & Hu). inversion Hs; subst. eapply val; eauto.
  - destruct (attr_spelled e _ He Ha) as (ts & Hs & Hu). inversion Hs; subst; cbn [skv_value].
    + ai. match goal with H : sp_opt_value _ _ _ |- _ => inversion H; subst end. ai. eapply val; eauto.
    + cbn. auto.
    + eapply short_val; eauto.
  - destruct (attr_spelled e _ He Ha) as (ts & Hs & Hu). inversion Hs; subst; cbn [sd_value] in Hx.
    + subst. ai. match goal with H : sp_opt_value _ _ _ |- _ => inversion H; subst end. ai. eapply val; eauto.
    + injection Hx as <-. ai. eapply short_val; [|eauto]; auto.
Qed.
Lemma path_spelled p : path_of cs p -> (exists ts, sp_path ts p /\ all_in ts) \/ (exists s i, p = SPath None (SPSeg (SId s i) SPNone) [] /\ Q s).
Proof.
  intros (e & He & Ht). destruct (tag_spelled e He) as (ts & Hs & Hu). rewrite Ht in Hs. inversion Hs; subst; [eauto|].
  right. do 2 eexists. split; [reflexivity|]. iin.
Qed.
Lemma seg_spelled p g : path_of cs p -> In g (segments p) -> (exists ts, sp_segment ts g /\ all_in ts) \/ (exists s i, g = SPSeg (SId s i) SPNone /\ Q s).
Proof.
  intros Hp Hg. destruct (path_spelled p Hp) as [(ts & Hs & Hu)|(s & i & -> & Hs)].
  - left. destruct Hs as [? s ? l Hs Hl|? ? ? s ? l Hc Hs Hl]; cbn [segments s_first s_more In] in Hg; ai;
    (destruct Hg as [<-|Hg]; [eauto|]; apply in_map_iff in Hg as ((c' & g') & <- & Hg);
     destruct (list_member _ _ _ Hl ltac:(assumption) _ Hg) as (us & Hus & Hau); inversion Hus; subst; ai; eauto).
  - destruct Hg as [<-|[]]. right. exists s, i. auto.
Qed.
Lemma colons_in c l : sp_colons c l -> all_in c -> forall s, In s l -> Q s.
Proof. intros H Ha s Hs. destruct H. ai. cbn in Hs. destruct Hs as [<-|[<-|[]]]; auto. Qed.
Lemma codes_in ts : code cs ts -> all_in ts.
Proof.
  intros [b x Hv|p b x Hv|e b dots x He Hin|e x He Hx|p i tf x Hp Hg].
  - exact (values_in _ Hv).
  - exact (values_in _ Hv).
  - destruct (attr_spelled e _ He Hin) as (us & Hs & Hu). inversion Hs; subst. ai. assumption.
  - destruct (elem_in e He) as (us & Hel & Hu). inversion Hel as [? t ? sels ? attrs ? args ch Ht Hse Hat Hend]; subst.
    cbn [sel_args] in Hx. subst. ai. inversion Hend; subst. ai. apply all_cons. split; [now constructor|]. apply all_app. split; auto.
    apply all_cons. split; [now constructor|constructor].
  - destruct (seg_spelled _ _ Hp Hg) as [(us & Hs & Hu)|(s & i' & Hx & _)]; [|discriminate]. inversion Hs; subst; ai; auto.
Qed.

Theorem user_in s a : user E cs s a -> Q s \/ (s = Call /\ a = LWord (Id false "true")).
Proof.
  intros H. destruct H as [ts s a Hc Hin|s k v Hv|s b Hv|e i He Hi|e k He Hk|p g Hp Hg|p l s Hp Hl Hs|p l g s Hp Hin Hs|p i l ts s Hp Hg Hs
    |e x i [He Ha] Hi|e d [He Hd] _ _|e d [He Hd] _ _|e d k i [He Hd] Hk Hi|e d [He Hd] _ _|e d m [He Hd] _ Hm _|s e i m Hn Ht _].
  - left. eapply atoms_in; [apply codes_in|]; eauto.
  - left. exact (values_in _ Hv).
  - destruct (values_in _ Hv) as [Hq|[-> ->]]; auto.
  - left. destruct (tag_spelled e He) as (ts & Hs & Hu). destruct Hi as [Hi|[Hi|Hi]]; rewrite Hi in Hs; inversion Hs; subst; iin.
  - left. destruct (tag_spelled e He) as (ts & Hs & Hu). rewrite Hk in Hs; inversion Hs; subst. nin.
  - left. destruct (seg_spelled _ _ Hp Hg) as [(us & Hs & Hu)|(s & i & -> & Hs)]; [|exact Hs]. eapply segment_in; eauto.
  - left. destruct (path_spelled p Hp) as [(ts & Hsp' & Hu)|(? & ? & -> & _)]; [|discriminate]. inversion Hsp'; subst; [discriminate|].
    injection Hl as <-. ai. eapply colons_in; eauto.
  - left. destruct (path_spelled p Hp) as [(ts & Hsp' & Hu)|(? & ? & -> & _)]; [|destruct Hin].
    assert (Hm : exists us, sp_list sp_next_segment us (s_more p) /\ all_in us) by (destruct Hsp'; ai; eauto).
    destruct Hm as (us & Hm & Hau). destruct (list_member _ _ _ Hm Hau _ Hin) as (vs & Hvs & Hav). inversion Hvs; subst. ai. eapply colons_in; eauto.
  - left. destruct (seg_spelled _ _ Hp Hg) as [(us & Hsg & Hu)|(? & i' & Hx & _)]; [|discriminate]. inversion Hsg; subst. ai. eapply colons_in; eauto.
  - left. destruct (attr_spelled e _ He Ha) as (ts & Hs & Hu). destruct Hi as [_ ->]. inversion Hs; subst; cbn [skv_key]; ai; try (nin; fail).
    match goal with H : sp_short _ _ _ _ |- _ => inversion H; subst end. ai. nin.
  - left. destruct (attr_spelled e _ He Hd) as (ts & Hs & Hu). inversion Hs; subst; cbn; ai; auto.
  - left. destruct (attr_spelled e _ He Hd) as (ts & Hs & Hu). inversion Hs; subst; cbn; ai; auto.
  - left. destruct (attr_spelled e _ He Hd) as (ts & Hs & Hu). destruct Hi as [_ ->]. inversion Hs; subst; cbn [sd_key] in Hk; ai.
    + subst. match goal with H : sp_key _ _ _ |- _ => inversion H; subst end. nin.
    + injection Hk as ->. match goal with H : sp_short _ _ _ _ |- _ => inversion H; subst end. ai. nin.
  - left. destruct (attr_spelled e _ He Hd) as (ts & Hs & Hu). inversion Hs; subst; cbn [sd_key key_place]; ai.
    + match goal with H : sp_key _ _ _ |- _ => inversion H; subst end; cbn [key_place]; ai; auto. nin.
    + match goal with H : sp_short _ _ _ _ |- _ => inversion H; subst end. ai. nin.
  - left. destruct (attr_spelled e _ He Hd) as (ts & Hs & Hu). inversion Hs; subst; cbn [sd_modifier] in Hm; subst; ai;
    (match goal with H : sp_modifier _ _ |- _ => inversion H; subst end; ai; auto).
  - left. assert (He : elem cs e) by (exists (SCSlot s e); auto). assert (Hp : path_of cs (SPath None (SPSeg i SPNone) [])) by (exists e; auto).
    destruct (seg_spelled _ (SPSeg i SPNone) Hp (or_introl eq_refl)) as [(us & Hs & Hu)|(? & ? & Hx & Hs)].
    + eapply segment_in in Hs; eauto. apply Hs.
    + injection Hx as ->. exact Hs.
Qed.
End In.
