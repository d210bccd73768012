(** Selectors, attribute lists, paths and tags against the grammar. *)
From Verif Require Export GrammarFacts.

(** ** Repetition *)

Inductive manyp {A} (phr : list tt -> A -> list tt -> Prop) (stop : list tt -> Prop)
  : list tt -> list A -> list tt -> Prop :=
| mp_nil follow : stop follow -> manyp phr stop [] [] follow
| mp_cons ts a ts' l follow : phr ts a (ts' ++ follow) -> manyp phr stop ts' l follow ->
    manyp phr stop (ts ++ ts') (a :: l) follow.

Lemma many_ok {A} (m : P A) phr stop :
  (forall ts a r, wf ts -> m on ts >> a, r <-> exists u, ts = u ++ r /\ phr u a r) ->
  (forall ts, wf ts -> (exists e r, m ts = PR (Fail e) r []) <-> stop ts) ->
  (forall u a r, phr u a r -> u <> []) ->
  forall n ts l r, wf ts -> List.length ts < n ->
  many n m on ts >> l, r <-> exists u, ts = u ++ r /\ manyp phr stop u l r.
Proof.
  intros Hm Hstop Hne. induction n as [|n IH]; intros ts l r Hwf Hn; [lia|].
  cbn [many]. rewrite bind_ok. split.
  - intros ([a|] & r1 & H1 & H2).
    + rewrite rollback_some in H1. apply Hm in H1; auto. destruct H1 as (u & -> & Hu).
      apply bind_ok in H2. destruct H2 as (l' & r2 & H2 & H3). apply ret_ok in H3. destruct H3; subst.
      pose proof (Hne _ _ _ Hu). apply wf_app in Hwf. destruct Hwf.
      apply IH in H2; auto.
      * destruct H2 as (u' & -> & Hu'). exists (u ++ u'). split; [now rewrite app_assoc|].
        now constructor.
      * rewrite app_length in Hn. destruct u; [congruence|]. cbn in Hn. lia.
    + apply rollback_none in H1. destruct H1 as (-> & H1). apply Hstop in H1; auto.
      apply ret_ok in H2. destruct H2; subst. exists []. split; auto. now constructor.
  - intros (u & -> & Hu). inversion Hu; subst.
    + exists None, r. rewrite rollback_none, ret_ok. repeat split; auto. now apply Hstop.
    + rewrite <- app_assoc in *. exists (Some a), (ts' ++ r). rewrite rollback_some. split.
      * apply Hm; auto. eauto.
      * apply bind_ok. exists l0, r. rewrite ret_ok. split; auto.
        pose proof (Hne _ _ _ H). apply wf_app in Hwf. destruct Hwf.
        apply IH; auto; [|eauto]. rewrite app_length in Hn. destruct ts; [congruence|]. cbn in Hn. lia.
Qed.

(** ** Attribute lists *)

Lemma manyp_attrs u l r : manyp attr_phrase attrs_end u l r <-> attrs_phrase u l r.
Proof. split; induction 1; constructor; auto. Qed.



Lemma attr_nonempty u a r : attr_phrase u a r -> u <> [].
Proof.
  intros H He. inversion H; subst; try discriminate.
  - match goal with h : _ ++ _ = [] |- _ => apply app_nil_inv in h; destruct h; subst end.
    eapply name_nonempty; eauto.
  - match goal with h : shorthand _ _ _ |- _ => inversion h end.
Qed.

Lemma parse_attrs_ok ts l r : wf ts ->
  parse_attrs on ts >> l, r <-> exists u, ts = u ++ r /\ attrs_phrase u l r.
Proof.
  intros Hwf. unfold parse_attrs.
  rewrite (many_ok parse_attr attr_phrase attrs_end).
  - split; intros (u & ? & ?); exists u; split; auto; now apply manyp_attrs.
  - intros; now apply parse_attr_ok.
  - intros; now apply parse_attr_end.
  - apply attr_nonempty.
  - auto.
  - lia.
Qed.

(** ** Selectors *)

Lemma parse_selector_ok ts s r : wf ts ->
  parse_selector on ts >> s, r <-> exists u, ts = u ++ r /\ selector_phrase u s r.
Proof.
  intros Hwf. unfold parse_selector. rewrite bind_ok. split.
  - intros ([x|] & r1 & H1 & H2).
    + apply rollback_punct_some in H1; [|discriminate]. destruct H1 as [sp ->].
      apply bind_ok in H2. destruct H2 as (k & r2 & H2 & H3). apply ret_ok in H3. destruct H3; subst.
      apply wf_cons in Hwf. destruct Hwf as [_ Hwf].
      apply parse_kebab_ok in H2; [|now apply wf_wf_head]. destruct H2 as (u & -> & Hk).
      exists (TPunct "." sp :: u). split; [reflexivity|]. now constructor.
    + apply rollback_punct_none in H1; [|discriminate]. destruct H1 as [-> Hn].
      apply bind_ok in H2. destruct H2 as ([x|] & r1 & H1 & H2).
      * apply rollback_punct_some in H1; [|discriminate]. destruct H1 as [sp ->].
        apply bind_ok in H2. destruct H2 as (k & r2 & H2 & H3). apply ret_ok in H3. destruct H3; subst.
        apply wf_cons in Hwf. destruct Hwf as [_ Hwf].
        apply parse_kebab_ok in H2; [|now apply wf_wf_head]. destruct H2 as (u & -> & Hk).
        exists (TPunct "#" sp :: u). split; [reflexivity|]. now constructor.
      * now apply fail_ok in H2.
  - intros (u & -> & Hu). inversion Hu; subst; cbn in Hwf; apply wf_cons in Hwf; destruct Hwf as [_ Hwf].
    + exists (Some Datatypes.tt), (ts ++ r). split.
      * apply rollback_punct_some; [discriminate|]. now exists sp.
      * apply bind_ok. exists k, r. rewrite ret_ok. split; auto.
        apply parse_kebab_ok; [now apply wf_wf_head|eauto].
    + exists None, (TPunct "#" sp :: ts ++ r). split.
      * apply rollback_punct_none; [discriminate|]. split; auto. intros [sp' H']. discriminate.
      * apply bind_ok. exists (Some Datatypes.tt), (ts ++ r). split.
        -- apply rollback_punct_some; [discriminate|]. now exists sp.
        -- apply bind_ok. exists k, r. rewrite ret_ok. split; auto.
           apply parse_kebab_ok; [now apply wf_wf_head|eauto].
Qed.

Lemma next_punct_dec c ts : next_punct c ts \/ ~ next_punct c ts.
Proof.
  destruct ts as [|[|c' sp| |] r]; cbn; try tauto; try (right; intros [? ?]; discriminate).
  destruct (ascii_dec c' c) as [->|]; [left; now exists sp|right; intros [? ?]; congruence].
Qed.

Lemma rollback_punct_yes c sp r : c <> "'"%char ->
  rollback_err (parse_punct (String c "")) (TPunct c sp :: r) = PR (Ret (Some Datatypes.tt)) r [].
Proof. intros Hc. now apply rollback_nofail, parse_punct1_run. Qed.
Lemma rollback_punct_no c ts : c <> "'"%char -> ~ next_punct c ts ->
  rollback_err (parse_punct (String c "")) ts = PR (Ret None) ts [].
Proof. intros Hc H. eapply rollback_fail. now apply parse_punct1_fail. Qed.

Lemma kebab_fail_iff {A} (f : kebab -> A) ts : wf_head ts ->
  (exists e r, (k <- parse_kebab ;; ret (f k))%parse ts = PR (Fail e) r []) <-> ~ starts_name ts.
Proof.
  intros Hwf. destruct (parse_kebab_cases ts Hwf) as [(u & rest & -> & Hp & He & Heq)|[Hs Heq]].
  - rewrite (bind_run _ _ _ _ _ _ Heq). cbn. split; [intros (? & ? & ?); discriminate|].
    intros H. exfalso. apply H. now apply phrase_starts.
  - rewrite (bind_fail _ _ _ _ _ _ Heq). split; eauto.
Qed.

Lemma parse_selector_end ts : wf ts ->
  (exists e r, parse_selector ts = PR (Fail e) r []) <-> selectors_end ts.
Proof.
  intros Hwf. unfold parse_selector.
  destruct (next_punct_dec "." ts) as [Hd|Hd].
  - destruct ts as [|t ts]; [contradiction|]. destruct Hd as [sp ->].
    rewrite (bind_run0 _ _ _ _ _ (rollback_punct_yes "." sp ts ltac:(discriminate))).
    apply wf_cons in Hwf. destruct Hwf as [_ Hwf].
    rewrite kebab_fail_iff; [|now apply wf_wf_head]. unfold starts_name. cbn. split.
    + tauto.
    + intros H. destruct H; [left; now exists sp|tauto].
  - rewrite (bind_run0 _ _ _ _ _ (rollback_punct_no "." ts ltac:(discriminate) Hd)).
    destruct (next_punct_dec "#" ts) as [Hh|Hh].
    + destruct ts as [|t ts]; [contradiction|]. destruct Hh as [sp ->].
      rewrite (bind_run0 _ _ _ _ _ (rollback_punct_yes "#" sp ts ltac:(discriminate))).
      apply wf_cons in Hwf. destruct Hwf as [_ Hwf].
      rewrite kebab_fail_iff; [|now apply wf_wf_head]. unfold starts_name. cbn. split.
      * tauto.
      * intros H. destruct H; [right; now exists sp|tauto].
    + rewrite (bind_run0 _ _ _ _ _ (rollback_punct_no "#" ts ltac:(discriminate) Hh)).
      unfold fail. split; [|eauto]. intros _. destruct ts; cbn; auto. tauto.
Qed.

Lemma manyp_selectors u l r : manyp selector_phrase selectors_end u l r <-> selectors_phrase u l r.
Proof. split; induction 1; constructor; auto. Qed.

Lemma parse_selectors_ok ts l r : wf ts ->
  parse_selectors on ts >> l, r <-> exists u, ts = u ++ r /\ selectors_phrase u l r.
Proof.
  intros Hwf. unfold parse_selectors.
  rewrite (many_ok parse_selector selector_phrase selectors_end).
  - split; intros (u & ? & ?); exists u; split; auto; now apply manyp_selectors.
  - intros; now apply parse_selector_ok.
  - intros; now apply parse_selector_end.
  - intros ? ? ? []; discriminate.
  - auto.
  - lia.
Qed.

(** ** Paths *)

Lemma parse_op_ok c d ts u r : c <> "'"%char -> d <> "'"%char ->
  parse_punct (String c (String d "")) on ts >> u, r <->
  exists sp, ts = TPunct c Joint :: TPunct d sp :: r.
Proof.
  intros Hc Hd. rewrite <- (take_punct2 c d ts r Hc Hd). unfold parse_punct.
  destruct (take_punct _ ts) as [r'|]; destruct u; split; congruence.
Qed.

Lemma peek_keyword_iff s ts : (forall r, s <> ("r#" ++ r)%string) ->
  peek_keyword s ts = true <-> exists r, ts = TIdent (Id false s) :: r.
Proof.
  intros Hs. destruct ts as [|[i| | |] r]; cbn [peek_keyword];
    try (split; [discriminate|intros (? & ?); discriminate]).
  rewrite ident_is_eq; auto. split; [intros ->; eauto|intros (? & H); now inversion H].
Qed.

Lemma kw_test ts :
  peek_keyword "super" ts || peek_keyword "self" ts || peek_keyword "crate" ts = true <->
  exists i r, ts = TIdent i :: r /\ keyword_segment i.
Proof.
  rewrite !orb_true_iff, !peek_keyword_iff by no_raw. unfold keyword_segment. split.
  - intros [[[r ->]|[r ->]]|[r ->]]; eexists _, r; split; eauto.
  - intros (i & r & -> & [->|[->| ->]]); eauto.
Qed.

Lemma accept_iff i : accept_as_ident i = true <-> i_raw i = true \/ ~ In (i_name i) keyword_names.
Proof.
  unfold accept_as_ident. rewrite negb_true_iff, existsb_In_f.
  unfold ident_to_string. destruct i as [[|] n]; cbn [i_raw i_name].
  - split; [auto|]. intros _ H. cbn in H. repeat (destruct H as [H|H]; [discriminate|]). exact H.
  - cbn [append]. change rust_keywords with keyword_names. intuition congruence.
Qed.

Lemma self_or_ident i r :
  (is_self <- look (peek_keyword "Self") ;;
   (if is_self : bool then parse_any else parse_ident))%parse (TIdent i :: r) =
  if peek_keyword "Self" (TIdent i :: r) then PR (Ret i) r []
  else parse_ident (TIdent i :: r).
Proof.
  rewrite (bind_run0 _ _ _ _ _ eq_refl). destruct (peek_keyword _ _); reflexivity.
Qed.

Lemma seg_ident_ok ts i r :
  (if peek_keyword "Self" ts then parse_any else parse_ident) on ts >> i, r <->
  ts = TIdent i :: r /\ plain_segment i.
Proof.
  unfold plain_segment.
  destruct (peek_keyword "Self" ts) eqn:Hs.
  - apply peek_keyword_iff in Hs; [|no_raw]. destruct Hs as [r0 ->].
    rewrite parse_any_ok. split; [intros H; inversion H; auto|tauto].
  - unfold parse_ident. destruct ts as [|[j| | |] r0]; try (split; [discriminate|intros [? _]; discriminate]).
    assert (j <> Id false "Self").
    { intros ->. cbn in Hs. discriminate. }
    destruct (accept_as_ident j) eqn:Ha.
    + apply accept_iff in Ha. split; [intros H'; inversion H'; subst; tauto|intros [H' _]; congruence].
    + split; [discriminate|]. intros [H' Hp]. inversion H'; subst.
      assert (accept_as_ident i = true) by (apply accept_iff; tauto). congruence.
Qed.

Lemma skip_colon sp1 sp2 r : skip (TPunct ":" sp1 :: TPunct ":" sp2 :: r) = Some (TPunct ":" sp2 :: r).
Proof. destruct sp1; reflexivity. Qed.

Lemma peek3_after_colons f sp r :
  peek3 f (TPunct ":" Joint :: TPunct ":" sp :: r) = f r.
Proof. unfold peek3. rewrite skip_colon. destruct sp; reflexivity. Qed.

Lemma take_punct3_lt ts : peek_punct "<<=" ts = true <->
  exists sp r, ts = TPunct "<" Joint :: TPunct "<" Joint :: TPunct "=" sp :: r.
Proof.
  unfold peek_punct. cbn. unfold cur_punct. split.
  - destruct ts as [|[|c1 sp1| |] ts]; try discriminate.
    destruct (Ascii.eqb c1 "'") eqn:Hq1; try discriminate.
    destruct (Ascii.eqb c1 "<") eqn:He1; try discriminate.
    destruct sp1; try discriminate.
    destruct ts as [|[|c2 sp2| |] ts]; try discriminate.
    destruct (Ascii.eqb c2 "'") eqn:Hq2; try discriminate.
    destruct (Ascii.eqb c2 "<") eqn:He2; try discriminate.
    destruct sp2; try discriminate.
    destruct ts as [|[|c3 sp3| |] ts]; try discriminate.
    destruct (Ascii.eqb c3 "'") eqn:Hq3; try discriminate.
    destruct (Ascii.eqb c3 "=") eqn:He3; try discriminate.
    apply Ascii.eqb_eq in He1, He2, He3. subst. eauto.
  - intros (sp & r & ->). reflexivity.
Qed.

Lemma angle_test ts :
  (peek_punct "<" ts && negb (peek_punct "<=" ts) && negb (peek_punct "<<=" ts))
  || (peek_punct "::" ts && peek3 (peek_punct "<") ts) = true <-> generics_follow ts.
Proof.
  unfold generics_follow.
  rewrite orb_true_iff, !andb_true_iff, !negb_true_iff.
  rewrite peek_punct1, peek_punct2_f, peek_punct2 by discriminate.
  rewrite <- (not_true_iff_false (peek_punct "<<=" ts)), take_punct3_lt.
  assert (H : next_op ":" ":" ts -> (peek3 (peek_punct "<") ts = true <-> next_punct "<" (tl (tl ts)))).
  { intros (sp & r & ->). rewrite peek3_after_colons. cbn [tl]. now apply peek_punct1. }
  split; intros [H'|[H1 H2]]; try (left; tauto); right; split; auto; now apply H.
Qed.

Lemma generics_angle E ts : env_ok E -> generics_follow ts ->
  forall a r, parse_angle E on ts >> a, r <->
  (exists g, ts = g ++ r /\ next_punct "<" g /\ generic_args E ts = inl (g, r) /\ a = PAngle false g) \/
  (exists sp g, ts = TPunct ":" Joint :: TPunct ":" sp :: g ++ r /\ next_punct "<" g /\
                generic_args E (g ++ r) = inl (g, r) /\ a = PAngle true g).
Proof.
  intros (HE & _) Hg a r. unfold parse_angle.
  destruct (take_punct "::" ts) as [r0|] eqn:Ht.
  - apply take_punct2 in Ht; try discriminate. destruct Ht as [sp ->]. cbn [fst snd].
    destruct (generic_args E r0) as [[g r1]|r1] eqn:Hga.
    + destruct (HE _ _ _ Hga) as (-> & Hlt & Hloc). split.
      * intros H. inversion H; subst. right. exists sp, g. auto.
      * intros [(g' & H & Hn & H2 & ->)|(sp' & g' & H & Hn & H2 & ->)].
        -- exfalso. destruct g' as [|t g']; [contradiction|]. destruct Hn as [? ->]. discriminate.
        -- inversion H; subst. rewrite H3 in Hga. congruence.
    + split; [discriminate|]. intros [(g' & H & Hn & H2 & ->)|(sp' & g' & H & Hn & H2 & ->)].
      * exfalso. destruct g' as [|t g']; [contradiction|]. destruct Hn as [? ->]. discriminate.
      * inversion H; subst. congruence.
  - destruct (generic_args E ts) as [[g r1]|r1] eqn:Hga.
    + destruct (HE _ _ _ Hga) as (-> & Hlt & Hloc). split.
      * intros H. inversion H; subst. left. exists g. auto.
      * intros [(g' & H & Hn & H2 & ->)|(sp' & g' & H & Hn & H2 & ->)].
        -- congruence.
        -- exfalso. assert (take_punct "::" (g ++ r1) = Some (g' ++ r)).
           { apply take_punct2; try discriminate. eauto. } congruence.
    + split; [discriminate|]. intros [(g' & H & Hn & H2 & ->)|(sp' & g' & H & Hn & H2 & ->)].
      * congruence.
      * exfalso. assert (take_punct "::" ts = Some (g' ++ r)).
        { apply take_punct2; try discriminate. eauto. } congruence.
Qed.

Lemma parse_seg_step E ts : parse_seg E ts =
  if peek_keyword "super" ts || peek_keyword "self" ts || peek_keyword "crate" ts
  then (i <- parse_any ;; ret (PSeg i PNone))%parse ts
  else
    (i <- (if peek_keyword "Self" ts then parse_any else parse_ident) ;;
     fun ts =>
     if (peek_punct "<" ts && negb (peek_punct "<=" ts) && negb (peek_punct "<<=" ts))
        || (peek_punct "::" ts && peek3 (peek_punct "<") ts)
     then (a <- parse_angle E ;; ret (PSeg i a))%parse ts
     else ret (PSeg i PNone) ts)%parse ts.
Proof.
  unfold parse_seg. rewrite (bind_run0 _ _ _ _ _ eq_refl). cbn beta.
  destruct (_ || _ || _); [reflexivity|].
  rewrite (bind_run0 (look (peek_keyword "Self")) _ ts _ _ eq_refl).
  unfold bind at 1 4. destruct ((if peek_keyword "Self" ts then parse_any else parse_ident) ts)
    as [[i| | | |] r d]; auto.
  rewrite (bind_run0 _ _ r _ _ eq_refl). cbn beta. destruct (_ || _); reflexivity.
Qed.

Lemma parse_seg_ok E ts s r : env_ok E ->
  parse_seg E on ts >> s, r <-> exists u, ts = u ++ r /\ segment_phrase E u s r.
Proof.
  intros HE. rewrite parse_seg_step.
  destruct (_ || _ || peek_keyword "crate" ts) eqn:Hkw.
  - apply kw_test in Hkw. destruct Hkw as (i & r0 & -> & Hk).
    rewrite bind_ok. split.
    + intros (i' & r1 & H1 & H2). apply parse_any_ok in H1. inversion H1; subst.
      apply ret_ok in H2. destruct H2; subst. exists [TIdent i']. split; [reflexivity|now constructor].
    + intros (u & Hu & Hs). inversion Hs; subst; cbn in Hu; inversion Hu; subst; try contradiction.
      exists i0, r. rewrite parse_any_ok, ret_ok. auto.
  - assert (Hnk : forall i r, ts = TIdent i :: r -> ~ keyword_segment i).
    { intros i r0 -> Hk. assert (true = false); [|discriminate]. rewrite <- Hkw. symmetry.
      apply kw_test. eauto. }
    rewrite bind_ok. split.
    + intros (i & r1 & H1 & H2). apply seg_ident_ok in H1. destruct H1 as [-> Hp].
      specialize (Hnk _ _ eq_refl). cbn beta in H2.
      destruct (_ || (_ && peek3 _ r1)) eqn:Ha.
      * apply angle_test in Ha. apply bind_ok in H2. destruct H2 as (a & r2 & H2 & H3).
        apply ret_ok in H3. destruct H3; subst.
        apply (generics_angle E r1 HE Ha) in H2.
        destruct H2 as [(g & -> & Hn & Hga & ->)|(sp & g & -> & Hn & Hga & ->)].
        -- exists (TIdent i :: g). split; [reflexivity|]. now constructor.
        -- exists (TIdent i :: TPunct ":" Joint :: TPunct ":" sp :: g). split; [reflexivity|].
           now constructor.
      * apply ret_ok in H2. destruct H2; subst. exists [TIdent i]. split; [reflexivity|].
        apply seg_plain; auto. intros Hg. apply angle_test in Hg. congruence.
    + intros (u & -> & Hs). inversion Hs; subst.
      * exfalso. eapply Hnk; [reflexivity|auto].
      * exists i, r. split; [apply seg_ident_ok; auto|]. cbn beta.
        destruct (_ || (_ && peek3 _ r)) eqn:Ha; [|now apply ret_ok].
        apply angle_test in Ha. contradiction.
      * exists i, (g ++ r). split; [apply seg_ident_ok; auto|]. cbn beta.
        assert (Hg := H1). apply angle_test in H1. rewrite H1. apply bind_ok.
        exists (PAngle false g), r. rewrite ret_ok. split; auto. apply generics_angle; auto.
        left. eauto.
      * exists i, (TPunct ":" Joint :: TPunct ":" sp :: g ++ r). split; [apply seg_ident_ok; auto|]. cbn beta.
        assert (Hg : generics_follow (TPunct ":" Joint :: TPunct ":" sp :: g ++ r)).
        { right. cbn [tl]. split; [now exists sp, (g ++ r)|].
          destruct g; [contradiction|exact H1]. }
        assert (Hg' := Hg). apply angle_test in Hg'. rewrite Hg'. apply bind_ok.
        exists (PAngle true g), r. rewrite ret_ok. split; auto. apply generics_angle; auto.
        right. exists sp, g. auto.
Qed.

Lemma segment_nonempty E u s r : segment_phrase E u s r -> u <> [].
Proof. intros []; discriminate. Qed.

Lemma more_segs_test ts :
  peek_punct "::" ts && negb (peek3 (peek_group Paren) ts) = true <->
  exists sp r, ts = TPunct ":" Joint :: TPunct ":" sp :: r /\ ~ next_group Paren r.
Proof.
  rewrite andb_true_iff, negb_true_iff, peek_punct2 by discriminate. split.
  - intros [(sp & r & ->) H]. rewrite peek3_after_colons in H. apply peek_group_f in H. eauto.
  - intros (sp & r & -> & H). rewrite peek3_after_colons. apply peek_group_f in H.
    split; auto. now exists sp, r.
Qed.

Definition segs_after E (u : list tt) (l : list path_seg) (follow : list tt) : Prop :=
  (u = [] /\ l = [] /\ (next_op ":" ":" follow -> next_group Paren (tl (tl follow)))) \/
  (exists sp u', u = TPunct ":" Joint :: TPunct ":" sp :: u' /\ segments_phrase E u' l follow).

Lemma segment_starts E u s r : segment_phrase E u s r -> exists i u', u = TIdent i :: u'.
Proof. intros []; eauto. Qed.
Lemma segments_starts E u l r : segments_phrase E u l r -> exists i u', u = TIdent i :: u'.
Proof.
  intros []; apply segment_starts in H; destruct H as (i & u' & ->); cbn; eauto.
Qed.

Lemma segments_split E u l r :
  segments_phrase E u l r <->
  exists u1 s u2 l2, u = u1 ++ u2 /\ l = s :: l2 /\ segment_phrase E u1 s (u2 ++ r) /\
                     segs_after E u2 l2 r.
Proof.
  split.
  - intros H. inversion H; subst.
    + exists u, s, [], []. rewrite app_nil_r. repeat split; auto. left. auto.
    + exists ts, s, (TPunct ":" Joint :: TPunct ":" sp :: ts'), l0. repeat split; auto.
      right. eauto.
  - intros (u1 & s & u2 & l2 & -> & -> & Hs & [(-> & -> & Hr)|(sp & u' & -> & Hu')]).
    + rewrite app_nil_r. now constructor.
    + now constructor.
Qed.

Lemma parse_segs_rest_ok E n : env_ok E -> forall ts l r, List.length ts < n ->
  parse_segs_rest E n on ts >> l, r <-> exists u, ts = u ++ r /\ segs_after E u l r.
Proof.
  intros HE. induction n as [|n IH]; intros ts l r Hn; [lia|].
  cbn [parse_segs_rest].
  destruct (peek_punct "::" ts && negb (peek3 (peek_group Paren) ts)) eqn:Ht.
  - apply more_segs_test in Ht. destruct Ht as (sp & r0 & -> & Hng).
    rewrite bind_ok. split.
    + intros (x & r1 & H1 & H2). apply parse_op_ok in H1; try discriminate.
      destruct H1 as [sp' H1]. inversion H1; subst. clear H1.
      apply bind_ok in H2. destruct H2 as (s & r2 & H1 & H2).
      apply parse_seg_ok in H1; auto. destruct H1 as (u & -> & Hs).
      apply bind_ok in H2. destruct H2 as (l' & r3 & H1 & H2). apply ret_ok in H2. destruct H2; subst.
      apply IH in H1; [|cbn in Hn; rewrite app_length in Hn; lia].
      destruct H1 as (u' & -> & Ha).
      exists (TPunct ":" Joint :: TPunct ":" sp' :: u ++ u').
      split; [cbn; now rewrite app_assoc|]. right. exists sp', (u ++ u'). split; auto.
      apply segments_split. eauto 10.
    + intros (u & Hu & [(-> & -> & Hr)|(sp' & u' & -> & Hs)]).
      * exfalso. cbn in Hu. subst r. apply Hng. apply Hr. now exists sp, r0.
      * cbn in Hu. inversion Hu; subst. apply segments_split in Hs.
        destruct Hs as (u1 & s & u2 & l2 & -> & -> & Hs & Ha).
        rewrite <- app_assoc in *.
        exists Datatypes.tt, (u1 ++ u2 ++ r). split; [apply parse_op_ok; try discriminate; eauto|].
        apply bind_ok. exists s, (u2 ++ r). split; [apply parse_seg_ok; eauto|].
        apply bind_ok. exists l2, r. rewrite ret_ok. split; auto.
        apply IH; [|eauto]. cbn in Hn. rewrite app_length in Hn. lia.
  - assert (Hno : next_op ":" ":" ts -> next_group Paren (tl (tl ts))).
    { intros (sp & r0 & ->). cbn [tl]. apply peek_group_iff.
      rewrite andb_false_iff in Ht. destruct Ht as [Ht|Ht].
      - apply peek_punct2_f in Ht; try discriminate. exfalso. apply Ht. now exists sp, r0.
      - rewrite peek3_after_colons in Ht. now apply negb_false_iff in Ht. }
    split.
    + intros H. inversion H; subst. exists []. split; auto. left. auto.
    + intros (u & -> & [(-> & -> & Hr)|(sp' & u' & -> & Hs)]); [reflexivity|].
      exfalso. cbn [app tl] in Hno. apply segments_starts in Hs. destruct Hs as (i & u'' & ->).
      apply Hno. now exists sp', (TIdent i :: u'' ++ r).
Qed.

Lemma next_op_dec c d ts : next_op c d ts \/ ~ next_op c d ts.
Proof.
  unfold next_op. destruct ts as [|[|c1 [|]| |] [|[|c2 sp| |] r]];
    try (right; intros (? & ? & ?); discriminate).
  destruct (ascii_dec c1 c) as [->|]; [|right; intros (? & ? & ?); congruence].
  destruct (ascii_dec c2 d) as [->|]; [|right; intros (? & ? & ?); congruence].
  left. eauto.
Qed.

Lemma rollback_op_some c d ts u r : c <> "'"%char -> d <> "'"%char ->
  rollback_err (parse_punct (String c (String d ""))) on ts >> Some u, r <->
  exists sp, ts = TPunct c Joint :: TPunct d sp :: r.
Proof. intros Hc Hd. rewrite rollback_some. now apply parse_op_ok. Qed.
Lemma rollback_op_none c d ts r : c <> "'"%char -> d <> "'"%char ->
  rollback_err (parse_punct (String c (String d ""))) on ts >> None, r <-> r = ts /\ ~ next_op c d ts.
Proof.
  intros Hc Hd. rewrite rollback_none.
  rewrite <- (peek_punct2_f c d ts Hc Hd). unfold peek_punct, parse_punct.
  destruct (take_punct _ ts).
  - split; intros [-> H]; [destruct H as (? & ? & ?)|]; discriminate.
  - split; intros [-> H]; split; eauto.
Qed.

Lemma parse_path_ok E ts p r : env_ok E ->
  parse_path E on ts >> p, r <-> exists u, ts = u ++ r /\ path_phrase E u p r.
Proof.
  intros HE. unfold parse_path. rewrite bind_ok.
  assert (Hsegs : forall b ts', List.length ts' <= List.length ts -> forall p,
    (s <- parse_seg E ;; l <- parse_segs_rest E (S (List.length ts)) ;; ret (Path b (s :: l)))%parse
      on ts' >> p, r <-> exists u l, ts' = u ++ r /\ segments_phrase E u l r /\ p = Path b l).
  { intros b ts' Hlen p0. rewrite bind_ok. split.
    - intros (s & r1 & H1 & H2). apply parse_seg_ok in H1; auto. destruct H1 as (u & -> & Hs).
      apply bind_ok in H2. destruct H2 as (l & r2 & H1 & H2). apply ret_ok in H2. destruct H2; subst.
      rewrite app_length in Hlen. apply parse_segs_rest_ok in H1; auto; [|lia].
      destruct H1 as (u' & -> & Ha). exists (u ++ u'), (s :: l). split; [now rewrite app_assoc|].
      split; auto. apply segments_split. eauto 10.
    - intros (u & l & -> & Hs & ->). apply segments_split in Hs.
      destruct Hs as (u1 & s & u2 & l2 & -> & -> & Hs & Ha). rewrite <- app_assoc in *.
      exists s, (u2 ++ r). split; [apply parse_seg_ok; eauto|].
      apply bind_ok. exists l2, r. rewrite ret_ok. split; auto.
      rewrite app_length in Hlen. apply parse_segs_rest_ok; auto; [lia|eauto]. }
  split.
  - intros ([x|] & r1 & H1 & H2).
    + apply rollback_op_some in H1; try discriminate. destruct H1 as [sp ->].
      apply Hsegs in H2; [|cbn; lia]. destruct H2 as (u & l & -> & Hs & ->).
      exists (TPunct ":" Joint :: TPunct ":" sp :: u). split; [reflexivity|]. now constructor.
    + apply rollback_op_none in H1; try discriminate. destruct H1 as [-> Hn].
      apply Hsegs in H2; [|lia]. destruct H2 as (u & l & -> & Hs & ->).
      exists u. split; auto. now constructor.
  - intros (u & -> & Hp). inversion Hp; subst.
    + exists None, (u ++ r). split.
      * apply rollback_op_none; try discriminate. split; auto.
        apply segments_starts in H. destruct H as (i & u' & ->). intros (? & ? & ?). discriminate.
      * apply Hsegs; [lia|]. eauto.
    + exists (Some Datatypes.tt), (ts ++ r). split.
      * apply rollback_op_some; try discriminate. eexists; reflexivity.
      * apply Hsegs; [cbn; lia|]. eauto.
Qed.

(** ** Tags *)

Lemma path_test ts : ~ (exists c r, ts = TPunct c Joint :: r /\ c = "'"%char) ->
  (peek2 (peek_punct "::") ts || peek_punct "::" ts || peek2 (peek_punct "<") ts) = true <->
  path_follows ts.
Proof.
  intros Hq. unfold path_follows.
  assert (Hskip : forall f, f [] = false -> peek2 f ts = f (tl ts)).
  { intros f Hf. unfold peek2, skip. destruct ts as [|[|c [|]| |] r]; auto.
    destruct (Ascii.eqb c "'") eqn:He; auto. apply Ascii.eqb_eq in He. exfalso. apply Hq. eauto. }
  rewrite !Hskip by reflexivity. rewrite !orb_true_iff, !peek_punct2, peek_punct1 by discriminate.
  tauto.
Qed.

Lemma is_upper_iff c : is_upper c = true <-> upper_char c.
Proof.
  unfold is_upper, upper_char, code_in. rewrite andb_true_iff, !Nat.leb_le. lia.
Qed.
Lemma is_component_iff s : is_component s = true <-> starts_upper s.
Proof.
  unfold is_component, starts_upper. destruct s as [|c s]; cbn; [split; [discriminate|tauto]|].
  apply is_upper_iff.
Qed.
Lemma contains_dash_iff s : contains_dash s = true <-> has_dash s.
Proof.
  unfold has_dash, chars. induction s as [|c s IH]; cbn; [split; [discriminate|tauto]|].
  rewrite orb_true_iff, Ascii.eqb_eq, IH. intuition congruence.
Qed.
