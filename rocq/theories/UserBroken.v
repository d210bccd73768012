(** The tree of a view with syntax errors: its parts are spelled somewhere in
    the view, and so its tokens are at places of the view. *)
From Verif Require Import PlacesIn WhereFacts UserIn BrokenFacts3 Properties20.
From Verif Require Import SpecStr SpecGrammar SpecSpan SpecSpell SpecBroken SpecWhere STokens.
Open Scope list_scope.
Close Scope sparse_scope.

Section In.
Variable E : senv.
Hypothesis HE : senv_ok E.
Variable Q : span -> Prop.
Hypothesis HQ : forall a b, Q a -> Q b -> Q (joinx E a b).
Notation all_in := (all_in Q).

Ltac ai := repeat match goal with
  | H : all_in (_ ++ _) |- _ => apply all_app in H as [? H]
  | H : all_in (_ :: _) |- _ => apply all_cons in H as [? H]
  | H : Forall Q (spans_of (SIdent _ _)) |- _ => apply tspan_in in H; cbn [tspan] in H
  | H : Forall Q (spans_of (SPunct _ _ _)) |- _ => apply tspan_in in H; cbn [tspan] in H
  | H : Forall Q (spans_of (SLit _ _ _)) |- _ => apply tspan_in in H; cbn [tspan] in H
  | H : Forall Q (spans_of (SGroup _ _ _)) |- _ => cbn [spans_of] in H; do 3 (apply Forall_inv_tail in H); match type of H with Forall Q (flat_map spans_of ?x) => change (all_in x) in H end
  | H : all_in [] |- _ => clear H
  end.

(** All reports. *)
Variable D : list sdiag.
Definition replaced (v : svalue) : Prop := v = SVLit (SLitTok Call LkStr "") /\ exists p, In (DNonStrChild, p) D.

(** What holds of each child and element of such a tree. *)
Definition attr_ok (a : sattr) : Prop := exists ts ds f, rd_attr E ts a ds f /\ all_in (ts ++ f).
Definition element_ok (e : selement) : Prop :=
  (exists ts, sp_tag E ts (sel_tag e) /\ all_in ts) /\
  (forall a, In a (sel_attrs e) -> attr_ok a) /\
  (forall ts, sel_args e = Some ts -> all_in ts).
Definition child_ok (c : schild) : Prop :=
  match c with
  | SCValue v => (exists ts, sp_value E ts v /\ all_in ts) \/ replaced v
  | SCElement e | SCSlot _ e => element_ok e
  end.
(** And of the children of a block, however deep. *)
Inductive tree_ok : schild -> Prop :=
| tok c : child_ok c -> (forall e, child_element c = Some e -> forall c', In c' (sel_children e) -> tree_ok c') -> tree_ok c.

Lemma tag_found ts t ds f : rd_tag E ts t ds f -> sp_tag E ts t.
Proof.
  intros [? p ? _ [Hp _]|? k ? ? ? _ [Hk _] Ht]; [now constructor|].
  destruct Ht; econstructor; eassumption.
Qed.
Lemma attrs_found ts l ds f : rd_attrs E ts l ds f -> all_in (ts ++ f) -> forall a, In a l -> attr_ok a.
Proof.
  induction 1 as [|? ? ? ? ? ? ? Ha Hl IH]; intros Hin x Hx; [easy|]. rewrite <- app_assoc in Hin. destruct Hx as [<-|Hx].
  - do 3 eexists. split; [exact Ha|exact Hin].
  - apply IH; [|exact Hx]. now apply all_app in Hin as [_ Hin].
Qed.
Lemma args_in s args s' : Q s -> all_in args -> Q s' -> all_in (pipes s args s').
Proof.
  intros H1 H2 H3. unfold pipes. apply all_cons. split; [now constructor|]. apply all_app. split; auto.
  apply all_cons. split; [now constructor|constructor].
Qed.

Lemma tree_found sc ts cs ds : rd_children E sc ts cs ds -> incl ds D -> all_in ts -> forall c, In c cs -> tree_ok c.
Proof.
  apply (rd_children_ind2 E
    (fun sc ts cs ds _ => incl ds D -> all_in ts -> forall c, In c cs -> tree_ok c)
    (fun sc ts c ds f _ => incl ds D -> all_in (ts ++ f) -> tree_ok c)
    (fun sc ts e ds f _ => incl ds D -> all_in (ts ++ f) -> element_ok e /\ forall c, In c (sel_children e) -> tree_ok c)
    (fun sc t ts args cs ds f _ => incl ds D -> all_in (ts ++ f) ->
       (forall us, args = Some us -> all_in us) /\ forall l c, cs = Some l -> In c l -> tree_ok c)); clear sc ts cs ds.
  - easy.
  - intros sc ts c ds ts' cs ds' _ IH1 _ IH2 Hi Hin x [<-|Hx]; apply incl_app_inv in Hi as [Hi1 Hi2]; [now apply IH1|].
    apply all_app in Hin as [_ Hin]. auto.
  - intros sc ts ds e p s sp r cs ds' Hb _ IH Hi Hin. destruct (child_suffix E HE _ _ _ _ _ _ Hb) as (u & ->). ai.
    apply incl_app_inv in Hi as [_ Hi]. apply incl_cons_inv in Hi as [_ Hi]. auto.
  - easy.
  - intros sc ts v f [Hv _] _ _ Hin. ai. constructor; [left; eauto|easy].
  - intros sc ts l f _ _ Hi _. constructor; [right; split; [reflexivity|]|easy]. eexists. apply Hi. now left.
  - intros sc ts e ds f _ IH _ _ _ Hi Hin. destruct (IH Hi Hin) as [H1 H2]. constructor; [exact H1|]. intros e0 [= <-]. exact H2.
  - intros sc s s' sp ts e ds f _ _ IH Hi Hin. cbn [app] in Hin. ai. destruct IH as [He Hc]; [exact Hi|apply all_app; now split|].
    constructor; [exact He|]. intros e0 [= <-]. exact Hc.
  - intros sc ts t sels attrs ds ts' args cs ds' f Hh _ IH Hi Hin. rewrite <- app_assoc in Hin.
    apply incl_app_inv in Hi as [_ Hi].
    assert (Hin' := Hin). apply all_app in Hin' as [_ Hin']. destruct (IH Hi Hin') as [H1 H2].
    destruct Hh as [ts1 t ds1 ts2 sels ds2 ts3 attrs ds3 f0 Ht _ Ha]. rewrite <- !app_assoc in Hin.
    split; [split; [|split]|].
    + exists ts1. split; [eapply tag_found; eassumption|]. now apply all_app in Hin.
    + cbn [sel_attrs]. eapply attrs_found; [exact Ha|]. apply all_app in Hin as [_ Hin]. now apply all_app in Hin as [_ Hin].
    + exact H1.
    + cbn [sel_children]. destruct cs as [l|]; [|easy]. intros c Hc. eapply H2; [reflexivity|exact Hc].
  - easy.
  - intros sc t b d inner cs ds f _ _ IH Hi Hin. split; [easy|]. intros l c [= <-]. cbn [app] in Hin. ai. auto.
  - intros sc t s sp args s' sp' b d inner cs ds f _ _ _ IH Hi Hin. cbn [app] in Hin. rewrite <- app_assoc in Hin. cbn [app] in Hin. ai.
    split; [intros us [= <-]; now apply args_in|]. intros l c [= <-]. auto.
  - easy.
  - intros sc t s sp args s' sp' f _ _ _ Hin. cbn [app] in Hin. rewrite <- app_assoc in Hin. cbn [app] in Hin. ai.
    split; [intros us [= <-]; now apply args_in|easy].
  - easy.
Qed.

Variable input : list stt.
Variable cs : list schild.
Variable sc : span.
Hypothesis Hrd : rd_children E sc input cs D.
Hypothesis Hall : all_in input.
Ltac iin := eapply (ident_in E Q HQ); [|eassumption|eassumption]; eassumption.
Ltac nin := eapply (name_in E Q HQ); [|eassumption]; eassumption.

Lemma node_found c : node cs c -> tree_ok c.
Proof.
  intros Hc. induction Hc as [c Hc|c e c' Hc IH He Hin]; [exact (tree_found _ _ _ _ Hrd (incl_refl D) Hall c Hc)|].
  destruct IH as [c _ H]. eapply H; eassumption.
Qed.
Lemma elem_found e : elem cs e -> element_ok e.
Proof. intros (c & Hc & He). destruct (node_found c Hc) as [c0 H _]. destruct c0; cbn in He; try discriminate; injection He as <-; exact H. Qed.
Lemma broken_good e : elem cs e -> good E e.
Proof.
  intros He. destruct (elem_found e He) as ((ts & Ht & _) & Ha & _). split; [eauto|]. intros b dd us Hin.
  destruct (Ha _ Hin) as (ts' & d & f & Hr & _). inversion Hr; subst. eauto.
Qed.

Lemma next_in s f : Q s -> all_in f -> Q (next_place s f).
Proof.
  intros Hs Hf. destruct f as [|t f]; [exact Hs|]. apply all_cons in Hf as [Ht _].
  destruct t; cbn [next_place]; [exact (tspan_in _ _ Ht)|exact (tspan_in _ _ Ht)|exact (tspan_in _ _ Ht)|].
  cbn [spans_of] in Ht. now inversion Ht.
Qed.
Lemma stand_in_in p : Q p -> value_in' Q (stand_in p).
Proof. intros H. cbn. repeat (apply all_cons; split; [constructor; [exact H|constructor]|]). constructor. Qed.
Definition lit_free (v : svalue) : Prop := value_in' Q v \/ replaced v.
Lemma opt_found ts v d f x : all_in (ts ++ f) -> rd_opt E ts v d f -> v = Some x -> value_in' Q x.
Proof.
  intros Hin Hv Hx. destruct Hv as [| |s sp b p f0 _ -> _].
  - discriminate.
  - injection Hx as <-. match goal with H : rd_value _ _ _ _ |- _ => destruct H as [Hv _] end. cbn [app] in Hin. ai. eapply (val E Q HQ); [|eassumption]; assumption.
  - injection Hx as <-. cbn [app] in Hin. ai. apply stand_in_in, next_in; assumption.
Qed.
Lemma short_found ts k v d : all_in ts -> rd_short E ts k v d -> value_in' Q v.
Proof.
  intros Hin Hv. destruct Hv as [b inner k i d [Hk _] Hi]. ai. cbn. apply all_cons. split; [|constructor]. constructor; [|constructor]. iin.
Qed.
Lemma attr_found e a : elem cs e -> In a (sel_attrs e) -> attr_ok a.
Proof. intros He. exact (proj1 (proj2 (elem_found e He)) a). Qed.
Lemma child_found v : node cs (SCValue v) -> child_ok (SCValue v).
Proof. intros H. apply node_found in H. now inversion H. Qed.
Lemma values_found v : value_of cs v -> lit_free v.
Proof.
  intros [x Hx|e a [He Ha]|e d x [He Ha] Hx].
  - destruct (child_found _ Hx) as [(ts & Hs & Hu)|Hs]; [|now right]. left. eapply (val E Q HQ); [|eassumption]; assumption.
  - left. destruct (attr_found e _ He Ha) as (ts & d & f & Hs & Hu). inversion Hs; subst; cbn [skv_value].
    + rewrite <- app_assoc in Hu. apply all_app in Hu as [_ Hu].
      match goal with H : rd_opt _ _ ?v _ _ |- _ => destruct v as [w|] end; [eapply opt_found; [exact Hu|eassumption|reflexivity]|].
      cbn. auto.
    + ai. eapply short_found; [|eassumption]; assumption.
  - left. destruct (attr_found e _ He Ha) as (ts & d' & f & Hs & Hu). inversion Hs; subst; cbn [sd_value] in Hx.
    + cbn [app] in Hu. rewrite <- !app_assoc in Hu. apply all_cons in Hu as [_ Hu]. apply all_cons in Hu as [_ Hu].
      apply all_app in Hu as [_ Hu]. apply all_app in Hu as [_ Hu].
      eapply opt_found; eassumption.
    + injection Hx as <-. cbn [app] in Hu. ai. eapply short_found; [|eassumption]; assumption.
Qed.
Lemma tag_seen e : elem cs e -> exists ts, sp_tag E ts (sel_tag e) /\ all_in ts.
Proof. intros He. exact (proj1 (elem_found e He)). Qed.
Lemma path_found p : path_of cs p -> (exists ts, sp_path ts p /\ all_in ts) \/ (exists s i, p = SPath None (SPSeg (SId s i) SPNone) [] /\ Q s).
Proof.
  intros (e & He & Ht). destruct (tag_seen e He) as (ts & Hs & Hu). rewrite Ht in Hs. inversion Hs; subst; [eauto|].
  right. do 2 eexists. split; [reflexivity|]. iin.
Qed.
Lemma seg_found p g : path_of cs p -> In g (segments p) -> (exists ts, sp_segment ts g /\ all_in ts) \/ (exists s i, g = SPSeg (SId s i) SPNone /\ Q s).
Proof.
  intros Hp Hg. destruct (path_found p Hp) as [(ts & Hs & Hu)|(s & i & -> & Hs)].
  - left. destruct Hs as [? s ? l Hs Hl|? ? ? s ? l Hc Hs Hl]; cbn [segments s_first s_more In] in Hg; ai;
    (destruct Hg as [<-|Hg]; [eauto|]; apply in_map_iff in Hg as ((c' & g') & <- & Hg);
     destruct (list_member Q _ _ _ Hl ltac:(assumption) _ Hg) as (us & Hus & Hau); inversion Hus; subst; ai; eauto).
  - destruct Hg as [<-|[]]. right. exists s, i. auto.
Qed.
Lemma codes_found ts : code cs ts -> all_in ts.
Proof.
  intros [b x Hv|p b x Hv|e b dots x He Hin|e x He Hx|p i tf x Hp Hg].
  - destruct (values_found _ Hv) as [H|H]; [exact H|now destruct H].
  - destruct (values_found _ Hv) as [H|H]; [exact H|now destruct H].
  - destruct (attr_found e _ He Hin) as (us & d & f & Hs & Hu). inversion Hs; subst. cbn [app] in Hu. ai. assumption.
  - exact (proj2 (proj2 (elem_found e He)) x Hx).
  - destruct (seg_found _ _ Hp Hg) as [(us & Hs & Hu)|(s & i' & Hx & _)]; [|discriminate]. inversion Hs; subst; ai; auto.
Qed.

(** What stands at the call site for the user: the [true] of an attribute
    without a value, and the empty string in place of another literal. *)
Theorem user_found s a : user E cs s a ->
  Q s \/ s = Call /\ (a = LWord (Id false "true") \/ a = LLit LkStr "" /\ exists p, In (DNonStrChild, p) D).
Proof.
  intros H. destruct H as [ts s a Hc Hin|s k v Hv|s b Hv|e i He Hi|e k He Hk|p g Hp Hg|p l s Hp Hl Hs|p l g s Hp Hin Hs|p i l ts s Hp Hg Hs
    |e x i [He Ha] Hi|e d [He Hd] _ _|e d [He Hd] _ _|e d k i [He Hd] Hk Hi|e d [He Hd] _ _|e d m [He Hd] _ Hm _|s e i m Hn Ht _].
  - left. eapply atoms_in; [apply codes_found|]; eauto.
  - destruct (values_found _ Hv) as [H|H]; [left; exact H|]. destruct H as [[= -> -> ->] Hp]. auto.
  - destruct (values_found _ Hv) as [[Hq|[-> ->]]|[H _]]; auto. discriminate.
  - left. destruct (tag_seen e He) as (ts & Hs & Hu). destruct Hi as [Hi|[Hi|Hi]]; rewrite Hi in Hs; inversion Hs; subst; iin.
  - left. destruct (tag_seen e He) as (ts & Hs & Hu). rewrite Hk in Hs; inversion Hs; subst. nin.
  - left. destruct (seg_found _ _ Hp Hg) as [(us & Hs & Hu)|(s & i & -> & Hs)]; [|exact Hs]. eapply segment_in; eauto.
  - left. destruct (path_found p Hp) as [(ts & Hsp' & Hu)|(? & ? & -> & _)]; [|discriminate]. inversion Hsp'; subst; [discriminate|].
    injection Hl as <-. ai. eapply colons_in; eauto.
  - left. destruct (path_found p Hp) as [(ts & Hsp' & Hu)|(? & ? & -> & _)]; [|destruct Hin].
    assert (Hm : exists us, sp_list sp_next_segment us (s_more p) /\ all_in us) by (destruct Hsp'; ai; eauto).
    destruct Hm as (us & Hm & Hau). destruct (list_member Q _ _ _ Hm Hau _ Hin) as (vs & Hvs & Hav). inversion Hvs; subst. ai. eapply colons_in; eauto.
  - left. destruct (seg_found _ _ Hp Hg) as [(us & Hsg & Hu)|(? & i' & Hx & _)]; [|discriminate]. inversion Hsg; subst. ai. eapply colons_in; eauto.
  - left. destruct (attr_found e _ He Ha) as (ts & d & f & Hs & Hu). destruct Hi as [_ ->].
    inversion Hs as [? ? ? ? ? ? ? [Hn _]|? ? ? ? ? Hsh| | |]; subst; cbn [skv_key]; ai; [nin|].
    destruct Hsh as [? ? ? ? ? [Hn _] _]. ai. nin.
  - left. destruct (attr_found e _ He Hd) as (ts & ? & f & Hs & Hu). inversion Hs; subst; cbn [app] in Hu; cbn; ai; auto.
  - left. destruct (attr_found e _ He Hd) as (ts & ? & f & Hs & Hu). inversion Hs; subst; cbn [app] in Hu; cbn; ai; auto.
  - left. destruct (attr_found e _ He Hd) as (ts & ? & f & Hs & Hu). destruct Hi as [_ ->].
    inversion Hs as [| | |? ? ? ? ? ? ? ? ? ? ? ? ? Hkey|? ? ? ? ? ? ? ? ? ? ? Hsh]; subst; cbn [sd_key] in Hk; cbn [app] in Hu; ai.
    + subst. inversion Hkey as [|? ? ? ? [Hn _]]; subst. nin.
    + injection Hk as ->. destruct Hsh as [? ? ? ? ? [Hn _] _]. ai. nin.
  - left. destruct (attr_found e _ He Hd) as (ts & ? & f & Hs & Hu).
    inversion Hs as [| | |? ? ? ? ? ? ? ? ? ? ? ? ? Hkey|? ? ? ? ? ? ? ? ? ? ? Hsh]; subst; cbn [sd_key key_place]; cbn [app] in Hu; ai.
    + inversion Hkey as [|? ? ? ? [Hn _]]; subst; cbn [key_place]; ai; auto. nin.
    + destruct Hsh as [? ? ? ? ? [Hn _] _]. ai. nin.
  - left. destruct (attr_found e _ He Hd) as (ts & ? & f & Hs & Hu).
    inversion Hs as [| | |? ? ? ? ? ? ? ? ? ? ? ? ? Hkey [Hmod _]|? ? ? ? ? ? ? ? ? ? ? Hsh [Hmod _]]; subst; cbn [sd_modifier] in Hm; subst; cbn [app] in Hu; ai;
    inversion Hmod; subst; ai; auto.
  - left. assert (He : elem cs e) by (exists (SCSlot s e); auto). assert (Hp : path_of cs (SPath None (SPSeg i SPNone) [])) by (exists e; auto).
    destruct (seg_found _ (SPSeg i SPNone) Hp (or_introl eq_refl)) as [(us & Hs & Hu)|(? & ? & Hx & Hs)].
    + eapply segment_in in Hs; eauto. apply Hs.
    + injection Hx as ->. exact Hs.
Qed.
End In.
