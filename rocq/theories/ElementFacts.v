(** Elements and children against the grammar. *)
From Verif Require Export TagFacts.

(** ** Closure arguments *)

Lemma not_pipe_dec t : punct "|" t \/ not_pipe t.
Proof.
  unfold not_pipe, punct. destruct t as [|c sp| |]; try (right; intros [? ?]; discriminate).
  destruct (ascii_dec c "|") as [->|]; [left; eauto|right; intros [? ?]; congruence].
Qed.

Lemma closure_loop_ok n : forall ts l r, List.length ts < n ->
  closure_loop n on ts >> l, r <->
  exists args sp, ts = args ++ TPunct "|" sp :: r /\ Forall not_pipe args /\ l = args ++ [pu "|"].
Proof.
  induction n as [|n IH]; intros ts l r Hn; [lia|]. cbn [closure_loop].
  destruct ts as [|t ts].
  { split; [discriminate|]. intros (args & sp & H & _). destruct args; discriminate. }
  destruct (not_pipe_dec t) as [[sp ->]|Ht].
  - rewrite (bind_run0 _ _ _ _ _ (rollback_punct_yes "|" sp ts ltac:(discriminate))).
    rewrite ret_ok. split.
    + intros [<- ->]. exists [], sp. auto.
    + intros (args & sp' & H & Hf & ->). destruct args as [|a args].
      * cbn in H. inversion H; subst. auto.
      * exfalso. cbn in H. inversion H; subst. inversion Hf; subst. match goal with H : not_pipe _ |- _ => apply H end. now exists sp.
  - rewrite (bind_run0 _ _ _ _ _ (rollback_punct_no "|" (t :: ts) ltac:(discriminate) Ht)).
    rewrite (bind_run0 (rollback_err parse_tt) _ (t :: ts) (Some t) ts eq_refl).
    rewrite bind_ok. cbn in Hn. split.
    + intros (l' & r' & H1 & H2). apply ret_ok in H2. destruct H2; subst.
      apply IH in H1; [|lia]. destruct H1 as (args & sp & -> & Hf & ->).
      exists (t :: args), sp. cbn. auto.
    + intros (args & sp & H & Hf & ->). destruct args as [|a args].
      * exfalso. cbn in H. inversion H; subst. apply Ht. now exists sp.
      * cbn in H. inversion H; subst. inversion Hf; subst.
        exists (args ++ [pu "|"]), r. rewrite ret_ok. split; auto. apply IH; [lia|eauto].
Qed.

Lemma parse_closure_args_ok ts l r :
  parse_closure_args on ts >> l, r <->
  exists sp args sp', ts = TPunct "|" sp :: args ++ TPunct "|" sp' :: r /\ Forall not_pipe args /\
    l = TPunct "|" Alone :: args ++ [TPunct "|" Alone].
Proof.
  unfold parse_closure_args. rewrite bind_ok. split.
  - intros (u & r1 & H1 & H2). apply parse_punct1 in H1; [|discriminate]. destruct H1 as [sp ->].
    apply bind_ok in H2. destruct H2 as (l' & r2 & H1 & H2). apply ret_ok in H2. destruct H2; subst.
    apply closure_loop_ok in H1; [|cbn; lia]. destruct H1 as (args & sp' & -> & Hf & ->).
    exists sp, args, sp'. auto.
  - intros (sp & args & sp' & -> & Hf & ->).
    exists Datatypes.tt, (args ++ TPunct "|" sp' :: r). split; [apply parse_punct1; [discriminate|eauto]|].
    apply bind_ok. exists (args ++ [pu "|"]), r. rewrite ret_ok. split; auto.
    apply closure_loop_ok; [cbn; lia|eauto].
Qed.

(** ** Elements, for any relation describing children *)

Inductive element_phrase_g (E : env) (C : list tt -> list child -> Prop)
  : list tt -> element -> list tt -> Prop :=
| el_phrase_g ts1 t ts2 sels ts3 attrs ts4 args cs follow :
    tag_phrase E ts1 t (ts2 ++ ts3 ++ ts4 ++ follow) ->
    selectors_phrase ts2 sels (ts3 ++ ts4 ++ follow) ->
    attrs_phrase ts3 attrs (ts4 ++ follow) ->
    element_end C ts4 args cs ->
    element_phrase_g E C (ts1 ++ ts2 ++ ts3 ++ ts4) (Element t sels attrs args cs) follow.

Lemma element_phrase_g_iff E ts e follow :
  element_phrase E ts e follow <-> element_phrase_g E (children_phrase E) ts e follow.
Proof. split; intros []; econstructor; eauto. Qed.

(** The part of [parse_element] after the attributes. *)
Definition element_tail (pc : P (list child)) t sels attrs : P element :=
  (semi <- rollback_err (parse_punct ";") ;;
  match semi with
  | Some _ => ret (Element t sels attrs None None)
  | None =>
      ts <- look (fun ts => ts) ;;
      match ts with
      | [] => emit DUnterminated ;;; ret (Element t sels attrs None None)
      | _ =>
          if peek_group Brace ts then
            c <- delimited Brace pc ;; ret (Element t sels attrs None (Some c))
          else if peek_group Paren ts then
            c <- delimited Paren pc ;; ret (Element t sels attrs None (Some c))
          else if peek_punct "|" ts then
            args <- parse_closure_args ;;
            ts' <- look (fun ts => ts) ;;
            if peek_group Brace ts' then
              c <- delimited Brace pc ;; ret (Element t sels attrs (Some args) (Some c))
            else if peek_group Paren ts' then
              c <- delimited Paren pc ;; ret (Element t sels attrs (Some args) (Some c))
            else
              emit DNoChildrenAfterArgs ;;;
              ret (Element t sels attrs (Some args) None)
          else
            emit DUnknownAttr ;;;
            emit DNoChildElements ;;;
            ret (Element t sels attrs None None)
      end
  end)%parse.

Lemma parse_element_eq E pc : parse_element E pc =
  (t <- parse_tag E ;; sels <- parse_selectors ;; attrs <- parse_attrs ;;
   element_tail pc t sels attrs)%parse.
Proof. reflexivity. Qed.

Definition pc_ok (pc : P (list child)) (C : list tt -> list child -> Prop) (ts : list tt) : Prop :=
  forall d inner, In (TGroup d inner) ts -> forall cs, pc on inner >> cs, [] <-> C inner cs.

Lemma block_ok pc C d (mk : list child -> element) ts e r :
  d = Brace \/ d = Paren ->
  pc_ok pc C ts ->
  (c <- delimited d pc ;; ret (mk c))%parse on ts >> e, r <->
  exists inner cs, ts = TGroup d inner :: r /\ C inner cs /\ e = mk cs.
Proof.
  intros Hd Hpc. rewrite bind_ok. split.
  - intros (c & r1 & H1 & H2). apply ret_ok in H2. destruct H2; subst.
    apply delimited_ok in H1. destruct H1 as (inner & -> & H1).
    exists inner, c. repeat split; auto. eapply Hpc; eauto. now left.
  - intros (inner & cs & -> & HC & ->). exists cs, r. rewrite ret_ok. split; auto.
    apply delimited_ok. exists inner. split; auto. eapply Hpc; eauto. now left.
Qed.

Lemma element_tail_ok pc C t sels attrs ts e r :
  pc_ok pc C ts ->
  element_tail pc t sels attrs on ts >> e, r <->
  exists u args cs, ts = u ++ r /\ element_end C u args cs /\ e = Element t sels attrs args cs.
Proof.
  intros Hpc. unfold element_tail.
  destruct (next_punct_dec ";" ts) as [Hs|Hs].
  { destruct ts as [|x ts]; [contradiction|]. destruct Hs as [sp ->].
    rewrite (bind_run0 _ _ _ _ _ (rollback_punct_yes ";" sp ts ltac:(discriminate))).
    rewrite ret_ok. split.
    - intros [<- ->]. exists [TPunct ";" sp], None, None. repeat split. constructor.
    - intros (u & args & cs & Hu & He & ->). inversion He; subst; cbn in Hu.
      + inversion Hu; auto.
      + inversion H; subst; discriminate.
      + discriminate. }
  rewrite (bind_run0 _ _ _ _ _ (rollback_punct_no ";" ts ltac:(discriminate) Hs)).
  rewrite (bind_run0 (look (fun ts => ts)) _ ts _ _ eq_refl).
  destruct ts as [|x ts].
  { split; [discriminate|]. intros (u & args & cs & Hu & He & ->). symmetry in Hu.
    apply app_nil_inv in Hu. destruct Hu; subst.
    inversion He; subst. inversion H. }
  set (all := x :: ts) in *.
  destruct (peek_group Brace all) eqn:Hb.
  { apply peek_group_iff in Hb. rewrite (block_ok pc C Brace (fun c => Element t sels attrs None (Some c))); auto.
    split.
    - intros (inner & cs & Hall & HC & ->). exists [TGroup Brace inner], None, (Some cs).
      repeat split; auto. constructor. now constructor.
    - intros (u & args & cs & Hu & He & ->). inversion He; subst; rewrite Hu in Hb; try contradiction.
      inversion H; subst; [|discriminate]. exists inner, cs0. auto. }
  destruct (peek_group Paren all) eqn:Hp.
  { apply peek_group_iff in Hp. rewrite (block_ok pc C Paren (fun c => Element t sels attrs None (Some c))); auto.
    split.
    - intros (inner & cs & Hall & HC & ->). exists [TGroup Paren inner], None, (Some cs).
      repeat split; auto. constructor. now constructor.
    - intros (u & args & cs & Hu & He & ->). inversion He; subst; rewrite Hu in Hp; try contradiction.
      inversion H; subst; [discriminate|]. exists inner, cs0. auto. }
  apply peek_group_f in Hb, Hp.
  destruct (peek_punct "|" all) eqn:Hpipe.
  - rewrite bind_ok. split.
    + intros (args & r1 & H1 & H2). apply parse_closure_args_ok in H1.
      destruct H1 as (sp & as_ & sp' & Hall & Hf & ->).
      rewrite (bind_run0 (look (fun ts => ts)) _ r1 _ _ eq_refl) in H2. cbn beta in H2.
      assert (Hpc' : pc_ok pc C r1).
      { intros d inner Hin cs. eapply Hpc. rewrite Hall. right. apply in_or_app. right. right. eauto. }
      destruct (peek_group Brace r1) eqn:Hb'.
      * apply (block_ok pc C Brace (fun c => Element t sels attrs _ (Some c))) in H2; auto.
        destruct H2 as (inner & cs & -> & HC & ->).
        exists (TPunct "|" sp :: as_ ++ TPunct "|" sp' :: [TGroup Brace inner]), (Some (TPunct "|" Alone :: as_ ++ [TPunct "|" Alone])), (Some cs).
        split; [rewrite Hall; cbn; now rewrite <- app_assoc|]. split; auto.
        constructor; auto. now constructor.
      * destruct (peek_group Paren r1) eqn:Hp'.
        -- apply (block_ok pc C Paren (fun c => Element t sels attrs _ (Some c))) in H2; auto.
           destruct H2 as (inner & cs & -> & HC & ->).
           exists (TPunct "|" sp :: as_ ++ TPunct "|" sp' :: [TGroup Paren inner]), (Some (TPunct "|" Alone :: as_ ++ [TPunct "|" Alone])), (Some cs).
           split; [rewrite Hall; cbn; now rewrite <- app_assoc|]. split; auto.
           constructor; auto. now constructor.
        -- discriminate.
    + intros (u & args & cs & Hu & He & ->). inversion He; subst.
      * exfalso. apply Hs. rewrite Hu. now exists sp.
      * exfalso. inversion H; subst; rewrite Hu in *; [now apply Hb|now apply Hp].
      * exists (TPunct "|" Alone :: args0 ++ [TPunct "|" Alone]), (b ++ r). split.
        -- apply parse_closure_args_ok. exists sp, args0, sp'. split; auto.
           rewrite Hu. cbn. rewrite <- app_assoc. reflexivity.
        -- rewrite (bind_run0 (look (fun ts => ts)) _ (b ++ r) _ _ eq_refl). cbn beta.
           assert (Hpc' : pc_ok pc C (b ++ r)).
           { intros d inner Hin cs. eapply Hpc. rewrite Hu. cbn. right. rewrite <- app_assoc.
             apply in_or_app. right. right. eauto. }
           inversion H0; subst; cbn [peek_group delim_eqb app].
           ++ apply (block_ok pc C Brace (fun c => Element t sels attrs _ (Some c))); auto.
              exists inner, cs0. auto.
           ++ apply (block_ok pc C Paren (fun c => Element t sels attrs _ (Some c))); auto.
              exists inner, cs0. auto.
  - apply peek_punct1_f in Hpipe; [|discriminate].
    split; [discriminate|]. intros (u & args & cs & Hu & He & ->). exfalso. inversion He; subst.
    + apply Hs. rewrite Hu. now exists sp.
    + inversion H; subst; rewrite Hu in *; [now apply Hb|now apply Hp].
    + apply Hpipe. rewrite Hu. now exists sp.
Qed.

Lemma parse_element_ok E pc C ts e r : env_ok E -> wf ts -> pc_ok pc C ts ->
  parse_element E pc on ts >> e, r <-> exists u, ts = u ++ r /\ element_phrase_g E C u e r.
Proof.
  intros HE Hwf Hpc. rewrite parse_element_eq, bind_ok.
  assert (Hsub : forall u v, ts = u ++ v -> wf v /\ pc_ok pc C v).
  { intros u v ->. apply wf_app in Hwf. split; [tauto|].
    intros d inner Hin. eapply Hpc. apply in_or_app. right. eauto. }
  split.
  - intros (t & r1 & H1 & H2). apply parse_tag_ok in H1; auto. destruct H1 as (u1 & Hts & H1).
    apply bind_ok in H2. destruct H2 as (sels & r2 & H3 & H2).
    apply parse_selectors_ok in H3; [|now apply (Hsub u1)]. destruct H3 as (u2 & -> & H3).
    apply bind_ok in H2. destruct H2 as (attrs & r3 & H4 & H2).
    apply parse_attrs_ok in H4; [|apply (Hsub (u1 ++ u2)); now rewrite <- app_assoc].
    destruct H4 as (u3 & -> & H4).
    apply (element_tail_ok pc C) in H2;
      [|apply (Hsub (u1 ++ u2 ++ u3)); now rewrite <- !app_assoc].
    destruct H2 as (u4 & args & cs & -> & H5 & ->).
    exists (u1 ++ u2 ++ u3 ++ u4). split; [now rewrite <- !app_assoc|]. now constructor.
  - intros (u & -> & He). inversion He; subst. rewrite <- !app_assoc in *.
    exists t, (ts2 ++ ts3 ++ ts4 ++ r). split; [apply parse_tag_ok; eauto|].
    apply bind_ok. exists sels, (ts3 ++ ts4 ++ r).
    split; [apply parse_selectors_ok; [now apply (Hsub ts1)|eauto]|].
    apply bind_ok. exists attrs, (ts4 ++ r).
    split; [apply parse_attrs_ok; [apply (Hsub (ts1 ++ ts2)); now rewrite <- app_assoc|eauto]|].
    apply (element_tail_ok pc C); [apply (Hsub (ts1 ++ ts2 ++ ts3)); now rewrite <- !app_assoc|].
    eauto 10.
Qed.

(** ** Children *)

Lemma slot_test ts :
  peek_keyword "slot" ts && peek2 (peek_punct ":") ts && negb (peek2 (peek_punct "::") ts) = true <->
  slot_prefix ts.
Proof.
  rewrite !andb_true_iff, negb_true_iff, peek_keyword_iff by no_raw. unfold slot_prefix. split.
  - intros [[[r ->] H1] H2]. unfold peek2 in *. cbn [skip] in *.
    apply peek_punct1 in H1; [|discriminate]. destruct r as [|t r]; [contradiction|].
    destruct H1 as [sp ->]. exists sp, r. split; auto. intros [-> Hn].
    destruct r as [|t r]; [contradiction|]. destruct Hn as [sp ->]. discriminate.
  - intros (sp & r & -> & Hn). split; [split; [eauto|reflexivity]|].
    unfold peek2. cbn [skip]. apply peek_punct2_f; try discriminate. intros (sp' & r' & H).
    inversion H; subst. apply Hn. split; auto. now exists sp'.
Qed.

Inductive child_phrase_g (E : env) (C : list tt -> list child -> Prop)
  : list tt -> child -> list tt -> Prop :=
| chg_value ts v follow :
    value_phrase ts v follow ->
    (forall l, v = VLit l -> exists s, l = LitTok LkStr s) ->
    child_phrase_g E C ts (CValue v) follow
| chg_element ts e follow :
    element_phrase_g E C ts e follow ->
    next_ident ts ->
    ~ slot_prefix (ts ++ follow) ->
    ~ (exists v ts' r, ts ++ follow = ts' ++ r /\ value_phrase ts' v r) ->
    child_phrase_g E C ts (CElement e) follow
| chg_slot sp ts e follow :
    slot_prefix (TIdent (Id false "slot") :: TPunct ":" sp :: ts ++ follow) ->
    element_phrase_g E C ts e follow ->
    child_phrase_g E C (TIdent (Id false "slot") :: TPunct ":" sp :: ts) (CSlot e) follow.

Lemma child_phrase_g_iff E ts c follow :
  child_phrase E ts c follow <-> child_phrase_g E (children_phrase E) ts c follow.
Proof.
  split; intros []; try (econstructor; eauto; fail); econstructor; eauto;
    now apply element_phrase_g_iff.
Qed.

Lemma name_head ts k f : name ts k f -> exists t r, ts = t :: r /\ (next_ident [t] \/ punct "-" t).
Proof.
  intros (H & _). inversion H; subst; eexists _, _; split; eauto; [left; exact I|right; now exists sp].
Qed.

Lemma tag_nonempty E u t r : tag_phrase E u t r -> u <> [].
Proof.
  intros [].
  - inversion H0; subst; try discriminate. apply segments_starts in H1. destruct H1 as (? & ? & ->). discriminate.
  - eapply name_nonempty; eauto.
  - eapply name_nonempty; eauto.
  - eapply name_nonempty; eauto.
  - eapply name_nonempty; eauto.
  - eapply name_nonempty; eauto.
Qed.

Lemma element_nonempty E C u e r : element_phrase_g E C u e r -> u <> [].
Proof.
  intros [] H'. apply app_nil_inv in H'. destruct H' as [-> _]. eapply tag_nonempty; eauto.
Qed.

Lemma child_nonempty E C u c r : child_phrase_g E C u c r -> u <> [].
Proof. intros []; try discriminate; [inversion H; discriminate|now apply element_nonempty in H]. Qed.

Lemma parse_child_ok E pc C ts c r : env_ok E -> wf ts -> pc_ok pc C ts ->
  parse_child E pc on ts >> c, r <-> exists u, ts = u ++ r /\ child_phrase_g E C u c r.
Proof.
  intros HE Hwf Hpc. unfold parse_child.
  destruct (parse_value_cases ts) as [(u & v & r1 & -> & Hv & Heq)|[Hnv Heq]].
  - rewrite (bind_run0 _ _ _ _ _ (rollback_nofail _ _ _ _ _ Heq)).
    assert (Hdet : forall u' c', u ++ r1 = u' ++ r -> child_phrase_g E C u' c' r -> u = u' /\ r1 = r /\
      c' = CValue v /\ (forall l, v = VLit l -> exists s, l = LitTok LkStr s)).
    { intros u' c' Hu' Hc. inversion Hc; subst.
      - destruct (value_phrase_det (u ++ r1) u v r1 u' v0 r eq_refl Hv Hu' H) as (-> & -> & ->). auto.
      - exfalso. apply H2. rewrite <- Hu'. eauto.
      - exfalso. inversion Hv; subst; inversion Hu'; subst; destruct H; discriminate || idtac. }
    assert (Hgood : (forall l, v = VLit l -> exists s, l = LitTok LkStr s) ->
      ret (CValue v) on r1 >> c, r <-> exists u0, u ++ r1 = u0 ++ r /\ child_phrase_g E C u0 c r).
    { intros Hl. rewrite ret_ok. split.
      - intros [<- ->]. exists u. split; auto. now constructor.
      - intros (u' & Hu' & Hc). destruct (Hdet _ _ Hu' Hc) as (_ & -> & -> & _). auto. }
    assert (Hbad : forall l, v = VLit l -> (forall s, l <> LitTok LkStr s) ->
      (emit DNonStrChild;;; ret (CValue (VLit (LitTok LkStr ""))))%parse on r1 >> c, r <->
      exists u0, u ++ r1 = u0 ++ r /\ child_phrase_g E C u0 c r).
    { intros l -> Hl. split; [discriminate|]. intros (u' & Hu' & Hc).
      destruct (Hdet _ _ Hu' Hc) as (_ & _ & _ & H). destruct (H l eq_refl) as [s Hs]. exfalso. eapply Hl; eauto. }
    destruct v as [l|b|p b]; [|apply Hgood; discriminate|apply Hgood; discriminate].
    destruct l as [k s|b]; [|apply (Hbad (LitBool b)); [reflexivity|discriminate]].
    destruct k; try (apply (Hbad _ eq_refl); discriminate).
    apply Hgood. intros l Hl. inversion Hl; eauto.
  - rewrite (bind_run0 _ _ _ _ _ (rollback_fail _ _ _ _ _ Heq)).
    rewrite (bind_run0 _ _ _ _ _ eq_refl). cbn beta.
    assert (Hnov : ~ exists v ts' r, ts = ts' ++ r /\ value_phrase ts' v r).
    { intros (v & ts' & r' & H & Hv). eapply Hnv; eauto. }
    destruct (_ && _ && _) eqn:Hslot.
    + apply slot_test in Hslot. assert (Hslot' := Hslot). destruct Hslot as (sp & r0 & -> & Hns).
      rewrite (bind_run0 (unwrap parse_any) _ (TIdent (Id false "slot") :: TPunct ":" sp :: r0)
                 (Id false "slot") (TPunct ":" sp :: r0) eq_refl).
      rewrite (bind_run0 (unwrap (parse_punct ":")) _ (TPunct ":" sp :: r0) Datatypes.tt r0 eq_refl).
      apply wf_cons in Hwf. destruct Hwf as [_ Hwf]. apply wf_cons in Hwf. destruct Hwf as [_ Hwf].
      assert (Hpc' : pc_ok pc C r0).
      { intros d inner Hin. eapply Hpc. right. right. eauto. }
      rewrite bind_ok. split.
      * intros (e & r1 & H1 & H2). apply ret_ok in H2. destruct H2; subst.
        apply (parse_element_ok E pc C) in H1; auto. destruct H1 as (u & -> & He).
        exists (TIdent (Id false "slot") :: TPunct ":" sp :: u). split; auto. now constructor.
      * intros (u & Hu & Hc). inversion Hc; subst.
        -- exfalso. eapply Hnv; eauto.
        -- exfalso. apply H1. rewrite <- Hu. auto.
        -- inversion Hu; subst. exists e, r. rewrite ret_ok. split; auto.
           apply (parse_element_ok E pc C); eauto.
    + assert (Hns : ~ slot_prefix ts) by (intros H; apply slot_test in H; congruence).
      rewrite (bind_run0 (look peek_any) _ ts _ _ eq_refl).
      destruct (peek_any ts) eqn:Hid.
      * apply peek_any_iff in Hid. rewrite bind_ok. split.
        -- intros (e & r1 & H1 & H2). apply ret_ok in H2. destruct H2; subst.
           apply (parse_element_ok E pc C) in H1; auto. destruct H1 as (u & -> & He).
           exists u. split; auto. constructor; auto. apply element_nonempty in He.
           now rewrite next_ident_app in Hid.
        -- intros (u & -> & Hc). inversion Hc; subst.
           ++ exfalso. eapply Hnv; eauto.
           ++ exists e, r. rewrite ret_ok. split; auto. apply (parse_element_ok E pc C); eauto.
           ++ exfalso. apply Hns. auto.
      * apply peek_any_f in Hid. rewrite fail_ok. split; [tauto|]. intros (u & -> & Hc).
        inversion Hc; subst.
        -- eapply Hnv; eauto.
        -- apply Hid. apply next_ident_app; auto. now apply element_nonempty in H.
        -- apply Hid. exact I.
Qed.

Lemma in_group_size d inner ts : In (TGroup d inner) ts -> size inner < size ts.
Proof.
  induction ts as [|t ts IH]; [intros []|]. intros [->|H]; rewrite size_cons.
  - rewrite tt_size_group. lia.
  - specialize (IH H). lia.
Qed.
Lemma in_group_wf d inner ts : wf ts -> In (TGroup d inner) ts -> wf inner.
Proof.
  intros Hwf Hin. unfold wf in Hwf. rewrite Forall_forall in Hwf. apply Hwf in Hin.
  now apply wf_group in Hin.
Qed.

Lemma child_phrase_g_ext E (C C' : list tt -> list child -> Prop) ts c f :
  (forall d inner cs, In (TGroup d inner) ts -> C inner cs -> C' inner cs) ->
  child_phrase_g E C ts c f -> child_phrase_g E C' ts c f.
Proof.
  assert (Hb : forall ts b cs, (forall d inner cs, In (TGroup d inner) ts -> C inner cs -> C' inner cs) ->
     (forall d inner, In (TGroup d inner) b -> In (TGroup d inner) ts) ->
     block C b cs -> block C' b cs).
  { intros ts0 b cs HC Hin H. inversion H; subst; constructor; eapply HC; eauto; apply Hin; now left. }
  assert (He : forall ts e f, (forall d inner cs, In (TGroup d inner) ts -> C inner cs -> C' inner cs) ->
     element_phrase_g E C ts e f -> element_phrase_g E C' ts e f).
  { intros ts0 e f0 HC H. inversion H; subst. constructor; auto.
    inversion H3; subst.
    - constructor.
    - constructor. eapply Hb; eauto. intros. rewrite !in_app_iff. auto.
    - constructor; auto. eapply Hb; eauto. intros. rewrite !in_app_iff. right. right. right.
      right. rewrite in_app_iff. right. right. auto. }
  intros HC H. inversion H; subst; econstructor; eauto. eapply He; eauto.
  intros. eapply HC; eauto. right. right. eauto.
Qed.

(** The parser accepts exactly the documented grammar. *)
Lemma parse_children_ok E : env_ok E -> forall n ts cs r, wf ts -> size ts < n ->
  parse_children E n on ts >> cs, r <-> r = [] /\ children_phrase E ts cs.
Proof.
  intros HE. induction n as [|n IH]; intros ts cs r Hwf Hn; [lia|].
  cbn [parse_children]. destruct ts as [|t ts].
  { split.
    - intros H. inversion H; subst. split; auto. constructor.
    - intros [-> H]. inversion H; subst; [reflexivity|]. exfalso.
      apply app_nil_inv in H0. destruct H0; subst. apply child_phrase_g_iff, child_nonempty in H1. congruence. }
  set (all := t :: ts) in *.
  assert (Hpc : pc_ok (parse_children E n) (children_phrase E) all).
  { intros d inner Hin cs0. pose proof (in_group_size _ _ _ Hin). pose proof (in_group_wf _ _ _ Hwf Hin).
    rewrite IH; auto; [|lia]. tauto. }
  pose proof (parse_child_ok E (parse_children E n) (children_phrase E) all) as Hch.
  destruct (parse_child E (parse_children E n) all) as [[c|e| |w|] r1 d1] eqn:Hp.
  - split.
    + intros H. cbn in H.
      destruct ((cs0 <- parse_children E n;; ret (c :: cs0))%parse r1) as [o2 r2 d2] eqn:Hrest.
      cbn in H. inversion H as [[H1 H2 H3]]. apply app_nil_inv in H3. destruct H3; subst.
      apply bind_ok in Hrest. destruct Hrest as (cs' & r' & Hr & Hret). apply ret_ok in Hret.
      destruct Hret; subst.
      specialize (proj1 (Hch c r1 HE Hwf Hpc) eq_refl) as (u & Hu & Hc).
      assert (u <> []) by now apply child_nonempty in Hc.
      rewrite Hu in Hwf. apply wf_app in Hwf. destruct Hwf.
      apply IH in Hr; auto.
      * destruct Hr as [-> Hr]. split; auto. rewrite Hu. constructor; auto. now apply child_phrase_g_iff.
      * rewrite Hu in Hn. rewrite size_app in Hn. destruct u; [congruence|]. rewrite size_cons in Hn.
        pose proof (tt_size_pos t0). lia.
    + intros [-> H]. inversion H; subst.
      assert (Hc : child_phrase_g E (children_phrase E) ts0 c0 ts') by now apply child_phrase_g_iff.
      assert (ts0 <> []) by now apply child_nonempty in Hc.
      assert (PR (Ret c) r1 d1 = PR (Ret c0) ts' []) as Heq by (apply Hch; auto; eauto).
      inversion Heq; subst.
      assert (parse_children E n on ts' >> cs0, []) as Hr.
      { rewrite <- H0 in Hwf, Hn. apply wf_app in Hwf. apply IH; try tauto.
        rewrite size_app in Hn. destruct ts0; [congruence|]. rewrite size_cons in Hn.
        pose proof (tt_size_pos t0). lia. }
      rewrite (bind_run0 _ _ _ _ _ Hr). reflexivity.
  - split.
    + intros H. exfalso. destruct (peek_punct ";" r1); cbn in H; inversion H as [[H1 H2 H3]];
        apply app_nil_inv in H3; destruct H3; discriminate.
    + intros [-> H]. inversion H; subst.
      assert (PR (Fail e) r1 d1 = PR (Ret c) ts' []) as Heq.
      { apply Hch; auto. exists ts0. split; auto. now apply child_phrase_g_iff. } discriminate.
  - split; [discriminate|]. intros [-> H]. inversion H; subst.
    assert (PR Abort r1 d1 = PR (Ret c) ts' []) as Heq.
    { apply Hch; auto. exists ts0. split; auto. now apply child_phrase_g_iff. } discriminate.
  - split; [discriminate|]. intros [-> H]. inversion H; subst.
    assert (PR (Panic w) r1 d1 = PR (Ret c) ts' []) as Heq.
    { apply Hch; auto. exists ts0. split; auto. now apply child_phrase_g_iff. } discriminate.
  - split; [discriminate|]. intros [-> H]. inversion H; subst.
    assert (PR NoFuel r1 d1 = PR (Ret c) ts' []) as Heq.
    { apply Hch; auto. exists ts0. split; auto. now apply child_phrase_g_iff. } discriminate.
Qed.
