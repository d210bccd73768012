(** Every place named by [placed_reports] belongs to any set of spans that has
    the spans of the view and cannot be left by joining. *)
From Verif Require Import SpellFacts PlacedFacts.
From Verif Require Import SpecStr SpecGrammar SpecReports SpecSpan SpecSpell STokens.
From Coq Require Import Lia.
Open Scope list_scope.
Close Scope sparse_scope.

Section In.
Variable E : senv.
Variable Q : span -> Prop.
Hypothesis HQ : forall a b, Q a -> Q b -> Q (joinx E a b).
Definition all_in (ts : list stt) : Prop := Forall Q (spans ts).
Definition reports_in (l : list sdiag) : Prop := Forall (fun d => Q (snd d)) l.

Lemma all_app a b : all_in (a ++ b) <-> all_in a /\ all_in b.
Proof. unfold all_in, spans. rewrite flat_map_app. apply Forall_app. Qed.
Lemma all_cons t r : all_in (t :: r) <-> Forall Q (spans_of t) /\ all_in r.
Proof. unfold all_in, spans. cbn [flat_map]. apply Forall_app. Qed.
Lemma tspan_in t : Forall Q (spans_of t) -> Q (tspan t).
Proof. destruct t; cbn; intros H; try exact (Forall_inv H). exact (Forall_inv (Forall_inv_tail (Forall_inv_tail H))). Qed.
Lemma ri_app a b : reports_in (a ++ b) <-> reports_in a /\ reports_in b.
Proof. apply Forall_app. Qed.
Lemma ri_flat {A} (f : A -> list sdiag) l : (forall a, In a l -> reports_in (f a)) -> reports_in (flat_map f l).
Proof. induction l as [|a l IH]; cbn; intros H; [constructor|]. apply ri_app. split; [apply H; auto|apply IH; auto]. Qed.

Lemma sections_in ts : forall d, all_in ts -> Forall Q (sections E d ts).
Proof.
  remember (List.length ts) as n eqn:Hn. assert (Hl : List.length ts <= n) by lia. clear Hn.
  revert ts Hl. induction n as [|n IH]; intros [|t r] Hl d H; cbn in Hl; try lia; try (cbn; constructor; fail).
  apply all_cons in H as [Ht Hr]. destruct t as [s i|s c sp|s k v|b dl inner]; cbn [sections].
  - constructor; [now apply tspan_in|]. apply IH; auto; lia.
  - destruct d, r as [|[s' i'|s' c' sp'|s' k' v'|b' dl' inner'] r]; try (apply IH; auto; cbn in *; lia).
    apply all_cons in Hr as [Ht' Hr]. constructor.
    + apply HQ; [inversion Ht|inversion Ht']; auto.
    + apply IH; auto. cbn in *. lia.
  - constructor; [now apply tspan_in|]. apply IH; auto; lia.
  - constructor; [now apply tspan_in|]. apply IH; auto; lia.
Qed.
Lemma last_in (l : list span) d : Forall Q l -> l <> [] -> Q (List.last l d).
Proof. intros H Hne. induction H as [|x l Hx Hl IH]; [easy|]. destruct l; [exact Hx|]. cbn in *. apply IH. discriminate. Qed.
Lemma name_in ts k : all_in ts -> sp_name E ts k -> Q (name_place E k).
Proof.
  intros H Hk. destruct Hk as [t r Hp]. unfold name_place. cbn [sk_spans hd].
  apply all_cons in H as [Ht Hr]. apply tspan_in in Ht.
  apply HQ; [exact Ht|]. apply last_in; [|discriminate]. constructor; [exact Ht|]. now apply sections_in.
Qed.
Lemma ident_in ts k i : all_in ts -> sp_name E ts k -> sp_ident E k i -> Q (si_span i).
Proof. intros H Hk [_ ->]. eapply name_in; eauto. Qed.

Ltac ai := repeat match goal with
  | H : all_in (_ ++ _) |- _ => apply all_app in H as [? H]
  | H : all_in (_ :: _) |- _ => apply all_cons in H as [? H]
  | H : Forall Q (spans_of (SIdent _ _)) |- _ => apply tspan_in in H; cbn [tspan] in H
  | H : Forall Q (spans_of (SPunct _ _ _)) |- _ => apply tspan_in in H; cbn [tspan] in H
  | H : Forall Q (spans_of (SLit _ _ _)) |- _ => apply tspan_in in H; cbn [tspan] in H
  end.
Ltac ri := unfold reports_in; repeat (first [assumption | apply Forall_nil | apply Forall_cons | apply ri_app; split]); cbn [snd]; auto.
Lemma value_in ts v : all_in ts -> sp_value E ts v -> reports_in (p_value v) /\ Q (value_place v).
Proof.
  intros H Hv. destruct Hv; ai; cbn [p_value value_place si_span si_ident]; (split; [ri|]); auto.
  all: try (match goal with H : Forall Q (spans_of (SGroup _ _ _)) |- _ => apply tspan_in in H; exact H end).
  now destruct (is_word i "f"); ri.
Qed.
Lemma opt_in ts v : all_in ts -> sp_opt_value E ts v -> reports_in (p_opt v) /\ match v with Some v => Q (value_place v) | None => True end.
Proof. intros H Hv. destruct Hv; ai; cbn [p_opt]; [split; [ri|trivial]|eapply value_in; [|eassumption]; eassumption]. Qed.
Lemma modifier_in ts m : all_in ts -> sp_modifier ts m -> match m with Some m => Q (si_span m) | None => True end.
Proof. intros H Hm. destruct Hm; ai; auto. Qed.
Lemma key_in ts k : all_in ts -> sp_key E ts k -> match k with SKStr s _ => Q s | SKKebab _ => True end.
Proof. intros H Hk. destruct Hk; ai; auto. Qed.

Definition dir_in (d : sdirective) : Prop :=
  Q (si_span (sd_dir d)) /\ match sd_key d with SKStr s _ => Q s | SKKebab _ => True end /\
  match sd_modifier d with Some m => Q (si_span m) | None => True end /\
  reports_in (p_opt (sd_value d)) /\ match sd_value d with Some v => Q (value_place v) | None => True end.
Lemma short_in ts k v : all_in ts -> sp_short E ts k v -> reports_in (p_value v) /\ Q (value_place v).
Proof. intros H Hs. destruct Hs. ai. split; [ri|]. match goal with H : Forall Q (spans_of (SGroup _ _ _)) |- _ => now apply tspan_in in H end. Qed.
Lemma attr_in r ts a : all_in ts -> sp_attr E ts a -> reports_in (p_attr r a).
Proof.
  intros H Ha. assert (Hd : match a with SADir d => dir_in d | _ => True end -> reports_in (p_attr r a)).
  { destruct a as [kv|[i k m v]|b l ts']; swap 2 3; [intros _|intros _|intros (H1 & H2 & H3 & H4 & H5)].
    - inversion Ha; subst; ai; cbn [p_attr skv_value]; [|ri|].
      + match goal with H : sp_opt_value _ _ _ |- _ => apply opt_in in H; [apply H|] end. auto.
      + match goal with H : sp_short _ _ _ _ |- _ => apply short_in in H; [apply H|] end. auto.
    - inversion Ha; subst. ai. cbn [p_attr]. destruct r; ri. match goal with H : Forall Q (spans_of (SGroup _ _ _)) |- _ => now apply tspan_in in H end.
    - cbn [sd_dir sd_key sd_modifier sd_value] in *.
      assert (Hk : reports_in (p_key k)) by (destruct k; cbn; ri).
      assert (Hm : reports_in (p_modifier m)) by (destruct m; cbn; ri).
      assert (Hon : reports_in (p_on (SDirective i k m v))).
      { unfold p_on, p_event. cbn [sd_key sd_modifier sd_value]. ri.
        - destruct k; ri.
        - destruct m; [destruct (is_word _ _)|]; ri. }
      assert (Hu : reports_in (p_use (SDirective i k m v))) by (unfold p_use; cbn [sd_key sd_modifier sd_value]; ri).
      assert (Hc : reports_in (p_clone (SDirective i k m v))).
      { unfold p_clone; cbn [sd_key sd_modifier sd_value]; ri. destruct v; ri. }
      cbn [p_attr]. destruct r; unfold p_html_dir, p_component_dir, p_slot_dir; cbn [sd_key sd_modifier sd_value sd_dir];
      repeat match goal with |- reports_in (if ?b then _ else _) => destruct b end; ri;
      match goal with |- context [if ?b then _ else _] => destruct b; ri | |- _ => idtac end. }
  apply Hd. destruct Ha; auto; ai; repeat split; cbn [sd_dir sd_key sd_modifier sd_value si_span]; auto.
  - eapply key_in; [|eassumption]; eassumption.
  - eapply modifier_in; [|eassumption]; eassumption.
  - eapply opt_in; [|eassumption]; eassumption.
  - eapply opt_in; [|eassumption]; eassumption.
  - eapply modifier_in; [|eassumption]; eassumption.
  - cbn. eapply short_in; [|eassumption]; eassumption.
  - eapply short_in; [|eassumption]; eassumption.
Qed.
Lemma list_in {A} (P : list stt -> A -> Prop) (R : A -> Prop) ts l : (forall ts a, all_in ts -> P ts a -> R a) ->
  all_in ts -> sp_list P ts l -> Forall R l.
Proof. intros HR H Hl. induction Hl; ai; constructor; eauto. Qed.

Lemma spans_last g s : all_in g -> Q s -> Q (List.last (map tspan g) s).
Proof.
  intros H Hs. induction g as [|t g IH]; [exact Hs|]. ai. destruct g; [now apply tspan_in|]. cbn [map]. rewrite last_cons2 || idtac.
  apply IH. exact H.
Qed.
Lemma segment_in ts s : all_in ts -> sp_segment ts s -> Q (si_span (sseg_ident s)) /\ Q (segment_end s).
Proof. intros H Hs. destruct Hs; ai; unfold segment_end; cbn; split; auto; now apply spans_last. Qed.
Lemma path_in ts p : all_in ts -> sp_path ts p -> Q (path_place E p).
Proof.
  assert (Hl : forall ts s l, Q (segment_end s) -> all_in ts -> sp_list sp_next_segment ts l ->
    Q (segment_end (List.last (map snd l) s))).
  { intros us s l Hs Hu H. assert (Hf : Forall (fun x => Q (segment_end (snd x))) l).
    { eapply list_in; [|exact Hu|exact H]. clear. intros ts a Ha Hx. destruct Hx. ai. cbn. now apply (segment_in ts s). }
    clear - Hs Hf. revert s Hs. induction Hf as [|x l Hx Hl IH]; intros s Hs; cbn [map]; [exact Hs|].
    destruct l as [|y l]; [exact Hx|]. apply (IH s Hs). }
  intros H Hp. unfold path_place. destruct Hp as [ts s ts' l Hs Hn|c cl ts s ts' l Hc Hs Hn]; ai; cbn [s_leading s_first s_more].
  - match goal with H : all_in ts |- _ => destruct (segment_in ts s H Hs) end. apply HQ; auto. eapply Hl; eauto.
  - match goal with H : all_in ts |- _ => destruct (segment_in ts s H Hs) end. apply HQ; [|eapply Hl; eauto].
    destruct Hc. ai. auto.
Qed.
Lemma tag_in ts t : all_in ts -> sp_tag E ts t -> Q (tag_place E t).
Proof.
  intros H Ht. destruct Ht; cbn [tag_place]; try (eapply ident_in; eauto; fail).
  - eapply path_in; [|eassumption]; eassumption.
  - assert (Hi := ident_in _ _ _ H H0 H1). apply HQ; exact Hi.
  - eapply name_in; eauto.
Qed.

Definition child_in (c : schild) : Prop :=
  match c with
  | SCValue v => reports_in (p_value v)
  | SCElement e => Q (tag_place E (sel_tag e)) /\ forall b, reports_in (p_element E b e)
  | SCSlot s e => Q s /\ Q (tag_place E (sel_tag e)) /\ forall b, reports_in (p_element E b e)
  end.
Lemma children_in ts cs : sp_children E ts cs -> all_in ts -> Forall child_in cs.
Proof.
  apply (sp_children_ind2 E (fun ts c _ => all_in ts -> child_in c)
    (fun ts e _ => all_in ts -> Q (tag_place E (sel_tag e)) /\ forall b, reports_in (p_element E b e))
    (fun ts a ch _ => all_in ts -> match ch with Some cs => Forall child_in cs | None => True end)
    (fun ts cs _ => all_in ts -> Forall child_in cs)); intros; ai; auto.
  - cbn. eapply value_in; [|eassumption]; eassumption.
  - cbn. auto.
  - cbn. auto.
  - split; [eapply tag_in; [|eassumption]; eassumption|]. intros slot. 
    specialize (H H0). rename H into Hcs, cs0 into ch.
    cbn [p_element]. repeat (apply ri_app; split).
    + unfold p_selectors. destruct (srole slot t); ri. destruct sels as [|x sels]; ri.
      match goal with H : sp_list (sp_selector E) _ _ |- _ => inversion H; subst end. ai.
      match goal with H : sp_selector E _ x |- _ => destruct H end; ai; auto.
    + apply ri_flat. intros a Ha.
      match goal with H : sp_list (sp_attr E) _ _ |- _ => eapply (list_in _ (fun a => reports_in (p_attr (srole slot t) a))) in H; eauto using attr_in end.
      rewrite Forall_forall in s1. auto.
    + destruct ch as [ch|]; [|ri]. clear - Hcs. induction Hcs as [|c l Hc Hl IH]; [ri|]. destruct c; cbn in Hc; ri; apply Hc.
    + destruct ch as [ch|]; [|destruct (srole slot t); ri]. destruct (srole slot t); try (ri; fail);
      clear - Hcs; (induction Hcs as [|c l Hc Hl IH]; [ri|]; destruct c; cbn in Hc; ri; destruct (ssingle_name _); ri; apply Hc).
  - cbn. match goal with H : Forall Q (spans_of (SGroup _ _ _)) |- _ => cbn in H; do 3 (apply Forall_inv_tail in H); auto end.
  - cbn. match goal with H : Forall Q (spans_of (SGroup _ _ _)) |- _ => cbn in H; do 3 (apply Forall_inv_tail in H); auto end.
Qed.
Lemma placed_in ts cs : sp_children E ts cs -> all_in ts -> reports_in (placed_reports E cs).
Proof.
  intros H Ha. apply children_in in H; [|exact Ha]. 
  assert (Hr : reports_in (match filter (fun c => match c with SCSlot _ _ => true | _ => false end) cs with
      | SCSlot _ e :: _ => [(DRootSlot, tag_place E (sel_tag e))]
      | _ => flat_map (p_child E) cs
      end)).
  { assert (Hf : reports_in (flat_map (p_child E) cs)).
    { apply ri_flat. intros c Hc. rewrite Forall_forall in H. specialize (H c Hc). destruct c; cbn in *; [exact H|apply H|ri]. }
    destruct (filter _ cs) as [|[v|e|s e] l] eqn:Ef; auto. ri.
    assert (Hin : In (SCSlot s e) cs) by (eapply (proj1 (filter_In _ _ _)); rewrite Ef; now left).
    rewrite Forall_forall in H. apply (H _ Hin). }
  unfold placed_reports. destruct cs as [|[v|e|s e] [|c cs]]; auto. inversion H as [|? ? Hc]; subst. ri. apply Hc.
Qed.
End In.
