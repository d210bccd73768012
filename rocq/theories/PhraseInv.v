(** A property that every tag, selector, attribute, closure arguments and value
    of the documented grammar has holds everywhere in the tree of a phrase. *)
From Verif Require Export TreeInv.
Open Scope list_scope.

Section PhraseInv.
Variables (Qt : tag -> Prop) (Qs : selector -> Prop) (Qa : attr -> Prop) (Qr : list tt -> Prop) (Qv : value -> Prop).
Variable E : env.
(** The token lists considered: closed under parts and group contents. *)
Variable L : list tt -> Prop.
Hypothesis L_part : forall a x b, L (a ++ x ++ b) -> L x.
Hypothesis L_group : forall d inner ts, In (TGroup d inner) ts -> L ts -> L inner.
Hypothesis Ht : forall ts t f, L ts -> tag_phrase E ts t f -> Qt t.
Hypothesis Hs : forall ts s f, L ts -> selector_phrase ts s f -> Qs s.
Hypothesis Ha : forall ts a f, L ts -> attr_phrase ts a f -> Qa a.
Hypothesis Hr : forall sp args sp', L (TPunct "|" sp :: args ++ [TPunct "|" sp']) -> Forall not_pipe args ->
  Qr (TPunct "|" Alone :: args ++ [TPunct "|" Alone]).
Hypothesis Hv : forall ts v f, L ts -> value_phrase ts v f ->
  (forall l, v = VLit l -> exists s, l = LitTok LkStr s) -> Qv v.

Let T := tree Qt Qs Qa Qr Qv.
Let TE := tree_elem Qt Qs Qa Qr Qv.

Lemma L_l a b : L (a ++ b) -> L a.
Proof. apply (L_part []). Qed.
Lemma L_r a b : L (a ++ b) -> L b.
Proof. intros H. apply (L_part a b []). now rewrite app_nil_r. Qed.
Lemma selectors_all ts l f : L ts -> selectors_phrase ts l f -> Forall Qs l.
Proof.
  intros HL H. induction H; constructor; [eapply Hs; [|eassumption]; eapply L_l; eauto|]. apply IHselectors_phrase. eapply L_r; eauto.
Qed.
Lemma attrs_all ts l f : L ts -> attrs_phrase ts l f -> Forall Qa l.
Proof.
  intros HL H. induction H; constructor; [eapply Ha; [|eassumption]; eapply L_l; eauto|]. apply IHattrs_phrase. eapply L_r; eauto.
Qed.

Lemma phrase_element (C : list tt -> list child -> Prop) ts e f : L ts ->
  (forall d inner cs, In (TGroup d inner) ts -> C inner cs -> Forall T cs) ->
  element_phrase_g E C ts e f -> TE e.
Proof.
  intros HL HC H. destruct H as [ts1 t ts2 sels ts3 attrs ts4 args cs follow H1 H2 H3 H4].
  assert (HL1 : L ts1) by (eapply L_l; eauto). apply L_r in HL. assert (HL2 : L ts2) by (eapply L_l; eauto).
  apply L_r in HL. assert (HL3 : L ts3) by (eapply L_l; eauto). apply L_r in HL.
  assert (HC4 : forall b cs, (exists pre, ts4 = pre ++ b) -> block C b cs -> Forall T cs).
  { intros b cs0 (pre & ->) Hb. inversion Hb; subst; (eapply HC; [|eassumption]); rewrite !in_app_iff; do 4 right; now left. }
  constructor; [exact (Ht _ _ _ HL1 H1)|exact (selectors_all _ _ _ HL2 H2)|exact (attrs_all _ _ _ HL3 H3)|..].
  - intros a Hx. subst args. inversion H4; subst. eapply Hr; [|eassumption].
    apply (L_part [] _ b). cbn [app]. rewrite <- app_assoc. exact HL.
  - intros c Hc. inversion H4; subst; cbn [child_list] in Hc; [destruct Hc|..].
    + apply (Forall_forall T cs0); auto. eapply HC4; [|eassumption]. now exists [].
    + apply (Forall_forall T cs0); auto. eapply HC4; [|eassumption]. exists (TPunct "|" sp :: args0 ++ [TPunct "|" sp']).
      cbn [app]. now rewrite <- app_assoc.
Qed.
Lemma phrase_child (C : list tt -> list child -> Prop) ts c f : L ts ->
  (forall d inner cs, In (TGroup d inner) ts -> C inner cs -> Forall T cs) ->
  child_phrase_g E C ts c f -> T c.
Proof.
  intros HL HC H. destruct H as [ts v follow H Hl|ts e follow H|sp ts e follow Hp H]; constructor.
  - exact (Hv _ _ _ HL H Hl).
  - exact (phrase_element _ _ _ _ HL HC H).
  - refine (phrase_element _ _ _ _ _ _ H).
    + apply (L_r [TIdent (Id false "slot"); TPunct ":" sp]). exact HL.
    + intros d inner cs Hin. apply HC with d. right. right. exact Hin.
Qed.
Theorem phrase_tree n : forall ts cs, size ts < n -> L ts -> children_phrase E ts cs -> Forall T cs.
Proof.
  induction n as [|n IH]; intros ts cs Hn HL H; [lia|]. induction H as [|ts c ts' cs Hc H IHc] using children_phrase_ind; constructor.
  - apply child_phrase_g_iff in Hc. eapply phrase_child; [eapply L_l; eauto| |eassumption].
    intros d inner cs' Hin. assert (Hsz := in_group_size d inner (ts ++ ts') (in_or_app _ _ _ (or_introl Hin))).
    apply IH; [lia|]. eapply L_group; [apply in_or_app; left; eassumption|exact HL].
  - apply IHc; [rewrite size_app in Hn; lia|eapply L_r; eauto].
Qed.
End PhraseInv.
