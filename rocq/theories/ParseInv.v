(** Where a panic can come from, for every parser (clean or not). *)
From Verif Require Export ExpandInv Fuel SpecPanic.
Open Scope list_scope.

Lemma suffix_wf r ts : suffix r ts -> wf ts -> wf r.
Proof. intros [u ->] H. apply wf_app in H. tauto. Qed.
Lemma trouble_suffix r ts : suffix r ts -> trouble r -> trouble ts.
Proof.
  intros [u ->] H. destruct H; rewrite app_assoc.
  - now apply tr_name.
  - now apply tr_slot_name.
  - now apply tr_slot_tag.
Qed.
Lemma level_suffix l r ts : suffix r ts -> level l r -> l = r \/ level l ts.
Proof.
  intros Hs H. induction H as [|d inner outer input H IH Hin]; auto. right.
  destruct (IH Hs) as [->|Ho].
  - eapply level_in; [apply level_here|]. eapply suffix_in; eauto.
  - eapply level_in; eauto.
Qed.
Lemma can_panic_suffix r ts : suffix r ts -> can_panic r -> can_panic ts.
Proof.
  intros Hs (l & Hl & Ht). destruct (level_suffix _ _ _ Hs Hl) as [->|H].
  - exists ts. split; [constructor|eapply trouble_suffix; eauto].
  - exists l. auto.
Qed.
Lemma level_trans a b c : level a b -> level b c -> level a c.
Proof. intros H. revert c. induction H; intros c Hc; auto. apply level_in with d outer; auto. Qed.
Lemma can_panic_group d inner ts : In (TGroup d inner) ts -> can_panic inner -> can_panic ts.
Proof.
  intros Hin (l & Hl & Ht). exists l. split; auto. eapply level_trans; eauto.
  eapply level_in; [apply level_here|eauto].
Qed.

(** ** Names that are one of a few short words *)

Lemma snake_app a b : snake_name (a ++ b) = (snake_name a ++ snake_name b)%string.
Proof.
  rewrite <- !dashes_snake. induction a as [|c a IH]; cbn; [reflexivity|]. now rewrite IH.
Qed.
Lemma chars_app a b : chars (a ++ b) = chars a ++ chars b.
Proof. induction a as [|c a IH]; cbn; [reflexivity|]. unfold chars in *. now rewrite IH. Qed.
Lemma snake_nonempty s : s <> EmptyString -> snake_name s <> EmptyString.
Proof. rewrite <- dashes_snake. destruct s; cbn; congruence. Qed.

Definition short_word (w : string) : Prop := w = "" \/ w = "_" \/ ~ In "_"%char (chars w).

Lemma name_text_cons t u : name_text (t :: u) = (token_text t ++ name_text u)%string.
Proof. reflexivity. Qed.

Lemma short_name used : name_phrase used -> wf used -> short_word (snake_name (name_text used)) ->
  exists t, used = [t].
Proof.
  intros Hp Hwf Hs. inversion Hp as [i ts e Hr|sp ts e Hr]; subst.
  - inversion Hr; subst; [eauto|]. exfalso. apply wf_cons in Hwf. destruct Hwf as [[Hi _] _].
    rewrite !name_text_cons in Hs. cbn [token_text] in Hs. rewrite !snake_app in Hs.
    assert (Hne : i_name i <> EmptyString) by (intros H0; rewrite H0 in Hi; exact Hi).
    apply snake_nonempty in Hne. set (a := snake_name (i_name i)) in *. set (b := snake_name (name_text ts0)) in *.
    change (snake_name "-") with "_"%string in Hs. destruct a as [|c a]; [congruence|].
    destruct Hs as [Hs|[Hs|Hs]].
    + discriminate.
    + cbn in Hs. inversion Hs. destruct a; discriminate.
    + apply Hs. rewrite !chars_app. apply in_or_app. right. now left.
  - inversion Hr as [|b sp' ts0 e' Hr'|i ts0 e' Hr'|s ts0 e' Hr']; subst; [eauto| | |]; exfalso;
      apply wf_cons in Hwf; destruct Hwf as [_ Hwf]; apply wf_cons in Hwf; destruct Hwf as [Hi _];
      rewrite !name_text_cons in Hs; cbn [token_text] in Hs; rewrite !snake_app in Hs;
      change (snake_name "-") with "_"%string in Hs; cbn [append] in Hs.
    + destruct Hs as [Hs|[Hs|Hs]]; try discriminate. apply Hs. now left.
    + assert (Hne : i_name i <> EmptyString) by (intros H0; destruct Hi as [Hi _]; rewrite H0 in Hi; exact Hi).
      apply snake_nonempty in Hne. destruct (snake_name (i_name i)); [congruence|].
      destruct Hs as [Hs|[Hs|Hs]]; try discriminate. apply Hs. now left.
    + assert (Hne : s <> EmptyString) by (intros ->; exact Hi).
      apply snake_nonempty in Hne. destruct (snake_name s); [congruence|].
      destruct Hs as [Hs|[Hs|Hs]]; try discriminate. apply Hs. now left.
Qed.

Lemma lex_no_dash s : lex_ident s -> snake_name s = s.
Proof.
  intros H. rewrite <- dashes_snake. unfold lex_ident, chars in H. destruct s as [|c s]; [destruct H|].
  cbn in H. destruct H as [Hc Hs].
  assert (Hd : forall c, ident_continue c -> Ascii.eqb c "-" = false).
  { intros c' H'. destruct (Ascii.eqb c' "-") eqn:He; auto. apply Ascii.eqb_eq in He. subst. exfalso.
    unfold ident_continue, ident_start, upper_char, lower_char, digit_char, code_in in H'. cbn in H'.
    destruct H' as [[|[|[|]]]|]; try lia. discriminate. }
  assert (Hl : dashes_to_underscores s = s).
  { clear Hc. induction s as [|c' s IH]; cbn; auto. cbn in Hs. inversion Hs; subst. rewrite Hd, IH; auto. }
  cbn. rewrite Hl. rewrite Hd; auto. now left.
Qed.

Lemma reserved_short w : In w ("" :: reserved_words) -> short_word w.
Proof.
  cbn. unfold short_word. intros [<-|[<-|[<-|[<-|[<-|[<-|[]]]]]]]; auto; right; right; cbn;
    intros H; repeat destruct H as [H|H]; try discriminate; auto.
Qed.
Lemma bad_slot_short w : In w ("" :: bad_slot_words) -> short_word w.
Proof.
  cbn. unfold short_word. intros [<-|[<-|[<-|[<-|[<-|[<-|[<-|[<-|[]]]]]]]]]; auto; right; right; cbn;
    intros H; repeat destruct H as [H|H]; try discriminate; auto.
Qed.

Lemma bad_name used k r : wf used -> name_phrase used -> kebab_bad k -> k_repr k = name_text used ->
  name_ends used r -> exists t, used = [t] /\ bad_name_token t.
Proof.
  intros Hwf Hp Hb Hk He. unfold kebab_bad in Hb. rewrite Hk in Hb.
  destruct (short_name used Hp Hwf (reserved_short _ Hb)) as (t & ->). exists t. split; auto.
  rewrite name_text_cons in Hb. apply wf_cons in Hwf. destruct Hwf as [Hwf _].
  inversion Hp; subst; [|constructor].
  cbn [token_text name_text fold_right] in Hb. rewrite append_nil in Hb. destruct Hwf as [Hl Hraw].
  rewrite (lex_no_dash _ Hl) in Hb. destruct i as [[] n]; cbn in *.
  - exfalso. destruct Hb as [<-|Hb]; [exact Hl|]. apply Hraw; auto.
  - constructor. destruct Hb as [<-|Hb]; [destruct Hl|exact Hb].
Qed.

(** ** Safety of a parse result *)

Record safe {A} (B : Prop) (Q : A -> Prop) (x : pres A) : Prop := Safe {
  safe_panic : forall w, p_out x = Panic w -> B;
  safe_ret : forall a, p_out x = Ret a -> Q a -> B
}.
Lemma safe_imp {A} (B B' : Prop) (Q Q' : A -> Prop) x : (B -> B') -> (forall a, Q' a -> Q a) ->
  safe B Q x -> safe B' Q' x.
Proof. intros H1 H2 [H3 H4]. split; eauto. Qed.
Lemma safe_bind {A C} (B : Prop) (Qa : A -> Prop) (Q : C -> Prop) m f ts :
  safe B Qa (m ts) ->
  (forall a r d, m ts = PR (Ret a) r d -> (Qa a -> B) -> safe B Q (f a r)) ->
  safe B Q (bind m f ts).
Proof.
  intros [H1 H2] Hf. unfold bind. destruct (m ts) as [[a|e| |w|] r d] eqn:Hm; split; cbn in *; try discriminate; eauto.
  - intros w Hw. destruct (Hf a r d eq_refl) as [H3 H4]; eauto.
  - intros c Hc HQ. destruct (Hf a r d eq_refl) as [H3 H4]; eauto.
Qed.
(** No panic possible. *)
Definition calm {A} (x : pres A) : Prop := forall w, p_out x <> Panic w.
Lemma calm_safe {A} B (x : pres A) : calm x -> safe B (fun _ => False) x.
Proof. intros H. split; [intros w Hw; now apply H in Hw|tauto]. Qed.
Lemma safe_calm_bind {A C} (B : Prop) (Q : C -> Prop) (m : P A) f ts :
  calm (m ts) -> (forall a r d, m ts = PR (Ret a) r d -> safe B Q (f a r)) -> safe B Q (bind m f ts).
Proof. intros H Hf. apply safe_bind with (fun _ => False); [now apply calm_safe|eauto]. Qed.
Lemma calm_bind {A C} (m : P A) (f : A -> P C) ts :
  calm (m ts) -> (forall a r d, m ts = PR (Ret a) r d -> calm (f a r)) -> calm (bind m f ts).
Proof.
  unfold calm, bind. intros H Hf w. destruct (m ts) as [[a|e| |w'|] r d] eqn:Hm; cbn in *; try discriminate.
  - apply (Hf a r d eq_refl).
  - congruence.
Qed.
Lemma calm_rollback {A} (m : P A) ts : calm (m ts) -> calm (rollback_err m ts).
Proof. unfold calm, rollback_err. intros H w. destruct (m ts) as [[]]; cbn in *; try discriminate; destruct (H w0 eq_refl). Qed.
Lemma calm_unwrap_or_abort {A} (m : P A) ts : calm (m ts) -> calm (unwrap_or_abort m ts).
Proof. unfold calm, unwrap_or_abort. intros H w. destruct (m ts) as [[]]; cbn in *; try discriminate; destruct (H w0 eq_refl). Qed.
Lemma safe_rollback {A} B (Q : A -> Prop) m ts : safe B Q (m ts) ->
  safe B (fun o => exists a, o = Some a /\ Q a) (rollback_err m ts).
Proof.
  intros [H1 H2]. unfold rollback_err. destruct (m ts) as [[a|e| |w|] r d]; split; cbn in *; try discriminate; eauto.
  - intros o Ho (a' & -> & HQ). inversion Ho; subst. eauto.
  - intros o Ho (a' & -> & HQ). discriminate.
Qed.
Lemma safe_unwrap_or_abort {A} B (Q : A -> Prop) m ts : safe B Q (m ts) -> safe B Q (unwrap_or_abort m ts).
Proof.
  intros [H1 H2]. unfold unwrap_or_abort. destruct (m ts) as [[a|e| |w|] r d]; split; cbn in *; try discriminate; eauto.
Qed.
Lemma safe_ret' {A} (B : Prop) (Q : A -> Prop) a ts : (Q a -> B) -> safe B Q (ret a ts).
Proof. intros H. split; cbn; [discriminate|]. intros b Hb HQ. inversion Hb; subst; auto. Qed.

Ltac c0 := intros ?; cbn [p_out]; discriminate.
Lemma calm_ret {A} (a : A) ts : calm (ret a ts). Proof. c0. Qed.
Lemma calm_fail {A} e ts : calm (@fail A e ts). Proof. c0. Qed.
Lemma calm_emit d ts : calm (emit d ts). Proof. c0. Qed.
Lemma calm_look {A} (f : list tt -> A) ts : calm (look f ts). Proof. c0. Qed.
Lemma calm_punct s ts : calm (parse_punct s ts).
Proof. unfold parse_punct. destruct (take_punct s ts); c0. Qed.
Lemma calm_any ts : calm (parse_any ts).
Proof. unfold parse_any. destruct (cur_ident ts) as [[]|]; c0. Qed.
Lemma calm_ident ts : calm (parse_ident ts).
Proof. unfold parse_ident. destruct ts as [|[| | |] ?]; try destruct (accept_as_ident i); c0. Qed.
Lemma calm_lit_str ts : calm (parse_lit_str ts).
Proof. unfold parse_lit_str. destruct (take_lit ts) as [[[[] ?|] ?]|]; c0. Qed.
Lemma calm_tt ts : calm (parse_tt ts).
Proof. unfold parse_tt. destruct ts; c0. Qed.
Lemma calm_extract d ts : calm (extract d ts).
Proof. unfold extract. destruct ts as [|[| | |d' l] ts]; try c0. destruct (delim_eqb d d'); c0. Qed.
Lemma calm_value ts : calm (parse_value ts).
Proof. intros w. destruct (parse_value_cases ts) as [(u & v & r & _ & _ & ->)|[_ ->]]; discriminate. Qed.
Ltac cm := repeat lazymatch goal with
  | |- calm (ret _ _) => apply calm_ret
  | |- calm (fail _ _) => apply calm_fail
  | |- calm (emit _ _) => apply calm_emit
  | |- calm (look _ _) => apply calm_look
  | |- calm (parse_punct _ _) => apply calm_punct
  | |- calm (parse_any _) => apply calm_any
  | |- calm (parse_ident _) => apply calm_ident
  | |- calm (parse_lit_str _) => apply calm_lit_str
  | |- calm (parse_tt _) => apply calm_tt
  | |- calm (extract _ _) => apply calm_extract
  | |- calm (parse_value _) => apply calm_value
  | |- calm (rollback_err _ _) => apply calm_rollback
  | |- calm (unwrap_or_abort _ _) => apply calm_unwrap_or_abort
  | |- calm (bind _ _ _) => apply calm_bind; [|intros ? ? ? ?]
  end.
Lemma calm_or_emit ts : calm (parse_or_emit_err ts).
Proof. unfold parse_or_emit_err. cm. destruct a; cm. Qed.
Lemma calm_kebab ts : wf_head ts -> calm (parse_kebab ts).
Proof. intros Hwf w. destruct (parse_kebab_cases ts Hwf) as [(u & r & _ & _ & _ & ->)|[_ ->]]; discriminate. Qed.

Lemma safe_kebab ts : wf ts -> safe (can_panic ts) kebab_bad (parse_kebab ts).
Proof.
  intros Hwf. destruct (parse_kebab_cases ts (wf_wf_head _ Hwf)) as [(u & r & -> & Hp & He & Heq)|[_ Heq]]; rewrite Heq.
  - split; cbn; [discriminate|]. intros k Hk Hb. inversion Hk; subst k. apply wf_app in Hwf. destruct Hwf as [Hwf _].
    destruct (bad_name u _ r Hwf Hp Hb eq_refl He) as (t & -> & Ht). exists ([t] ++ r). split; [constructor|].
    apply (tr_name [] t r); auto.
  - split; cbn; discriminate.
Qed.
Lemma safe_snake (B : Prop) Q k ts : (kebab_bad k -> B) -> (forall i, ~ Q i) -> safe B Q (snake k ts).
Proof.
  intros H HQ. unfold snake, or_panic. destruct (to_snake_ident k) as [i|] eqn:Hk; split; cbn; try discriminate.
  - intros a _ Ha. now apply HQ in Ha.
  - intros w _. apply H. destruct (word_dec (snake_name (k_repr k))) as [|Hn]; auto.
    exfalso. assert (Hs : to_snake_ident k = Some (Id true (snake_name (k_repr k)))); [|congruence].
    apply to_snake_iff. split; auto.
Qed.
Lemma safe_block_value (B : Prop) k ts : (kebab_bad k -> B) -> safe B (fun _ => False) (into_block_value k ts).
Proof.
  intros H. unfold into_block_value. apply safe_bind with (fun _ => False); [apply safe_snake; auto|].
  intros. apply safe_ret'. tauto.
Qed.
Lemma safe_delimited {A} d (m : P A) Q ts :
  (forall inner r, ts = TGroup d inner :: r -> safe (can_panic inner) Q (m inner)) ->
  safe (can_panic ts) Q (delimited d m ts).
Proof.
  intros Hm. unfold delimited. destruct ts as [|[| | |d' l] ts]; try (split; cbn; discriminate).
  destruct (delim_eqb d d') eqn:Hd; [|split; cbn; discriminate]. apply delim_eqb_eq in Hd. subst d'.
  specialize (Hm l ts eq_refl). destruct Hm as [H1 H2].
  assert (Hg : can_panic l -> can_panic (TGroup d l :: ts)) by (apply can_panic_group with d; now left).
  destruct (m l) as [[a|e| |w|] [|t r] ds]; split; cbn in *; try discriminate; eauto.
Qed.
Lemma safe_braced ts : wf ts -> safe (can_panic ts) kebab_bad (parse_braced_kebab ts).
Proof.
  intros Hwf. apply safe_delimited. intros inner r ->. apply safe_kebab. apply wf_cons in Hwf.
  destruct Hwf as [Hwf _]. now apply wf_group in Hwf.
Qed.
Lemma safe_kv ts : wf ts -> safe (can_panic ts) (fun a => kebab_bad (kv_key a)) (parse_kv ts).
Proof.
  intros Hwf. unfold parse_kv. apply safe_calm_bind; [cm|]. intros br r0 d0 H0. inversion H0; subst.
  destruct (peek_group Brace r0).
  - apply safe_bind with kebab_bad; [now apply safe_braced|]. intros k r d _ Hk.
    apply safe_bind with (fun _ => False); [now apply safe_block_value|]. intros. now apply safe_ret'.
  - apply safe_bind with kebab_bad; [now apply safe_kebab|]. intros k r d _ Hk.
    apply safe_calm_bind; [cm|]. intros [u|] r' d' _.
    + apply safe_calm_bind; [apply calm_or_emit|]. intros. now apply safe_ret'.
    + now apply safe_ret'.
Qed.
Lemma calm_modifier ts : calm (try_parse_modifier ts).
Proof. unfold try_parse_modifier. cm. destruct a; cm. Qed.
Lemma lit_str_cases ts :
  (exists s r, rollback_err parse_lit_str ts = PR (Ret (Some s)) r []) \/
  rollback_err parse_lit_str ts = PR (Ret None) ts [].
Proof.
  unfold rollback_err, parse_lit_str. destruct (take_lit ts) as [[[[] ?|] ?]|]; eauto.
Qed.
Lemma safe_key ts : wf ts -> safe (can_panic ts) key_bad (parse_kebab_or_str ts).
Proof.
  intros Hwf. unfold parse_kebab_or_str. destruct (lit_str_cases ts) as [(s & r & Hr)|Hr]; rewrite (bind_run0 _ _ _ _ _ Hr).
  - apply safe_ret'. intros (k' & Hk' & _). discriminate.
  - apply safe_bind with kebab_bad; [now apply safe_kebab|]. intros k r d' _ Hk. apply safe_ret'.
    intros (k' & Hk' & Hb). inversion Hk'; subst; auto.
Qed.
(** Moving to a later position. *)
Lemma safe_later {A} (Q : A -> Prop) r ts x : suffix r ts -> safe (can_panic r) Q x -> safe (can_panic ts) Q x.
Proof. intros Hs. apply safe_imp; auto. now apply can_panic_suffix. Qed.

Lemma safe_directive ts : wf ts -> safe (can_panic ts) (fun d => key_bad (d_key d)) (parse_directive ts).
Proof.
  intros Hwf. unfold parse_directive. apply safe_calm_bind; [cm|]. intros i r d Hi.
  apply (fine_after _ _ _ _ _ (fine_any ts)) in Hi.
  apply safe_calm_bind; [cm|]. intros u r1 d1 Hu. apply (fine_after _ _ _ _ _ (fine_punct ":" r)) in Hu.
  apply safe_calm_bind; [cm|]. intros br r2 d2 Hb. inversion Hb; subst.
  assert (Hs : suffix r2 ts) by eauto with suff. assert (Hwf2 := suffix_wf _ _ Hs Hwf).
  destruct (peek_group Brace r2).
  - apply safe_bind with kebab_bad; [eapply safe_later; eauto; now apply safe_braced|]. intros k r3 d3 _ Hk.
    apply safe_bind with (fun _ => False); [now apply safe_block_value|]. intros v r4 d4 _ _.
    apply safe_calm_bind; [apply calm_modifier|]. intros m r5 d5 _. apply safe_ret'. cbn.
    intros (k' & Hk' & Hbad). inversion Hk'; subst; auto.
  - apply safe_bind with key_bad; [eapply safe_later; eauto; now apply safe_key|]. intros k r3 d3 _ Hk.
    apply safe_calm_bind; [apply calm_modifier|]. intros m r4 d4 _.
    apply safe_calm_bind; [cm|]. intros [e|] r5 d5 _.
    + apply safe_calm_bind; [apply calm_or_emit|]. intros. now apply safe_ret'.
    + now apply safe_ret'.
Qed.
Lemma calm_spread ts : calm (parse_spread ts).
Proof. unfold parse_spread. cm. destruct (take_punct ".." a); cm. Qed.
Lemma safe_attr ts : wf ts -> safe (can_panic ts) attr_bad (parse_attr ts).
Proof.
  intros Hwf. rewrite parse_attr_step. destruct (_ && _).
  { apply safe_bind with (fun d => key_bad (d_key d)); [now apply safe_unwrap_or_abort, safe_directive|].
    intros. now apply safe_ret'. }
  destruct (peek_ident ts).
  { apply safe_bind with (fun a => kebab_bad (kv_key a)); [now apply safe_kv|]. intros. now apply safe_ret'. }
  apply safe_bind with (fun o => exists a, o = Some a /\ kebab_bad (kv_key a)); [now apply safe_rollback, safe_kv|].
  intros [kv|] r d _ Hk; [apply safe_ret'; cbn; eauto|].
  apply safe_calm_bind; [cm; apply calm_spread|]. intros [sp|] r' d' _; [apply safe_ret'; cbn; tauto|].
  split; cbn; discriminate.
Qed.
Lemma safe_many {A} (Q : A -> Prop) m n : forall ts,
  (forall r, suffix r ts -> safe (can_panic r) Q (m r) /\ fine r (m r)) ->
  safe (can_panic ts) (Exists Q) (many n m ts).
Proof.
  induction n as [|n IH]; intros ts Hm; [split; cbn; discriminate|]. cbn [many].
  destruct (Hm ts (suffix_refl ts)) as [Hs Hf].
  apply safe_bind with (fun o => exists a, o = Some a /\ Q a); [now apply safe_rollback|].
  intros [x|] r d Hr Hx.
  - apply (fine_after _ _ _ _ _ (fine_rollback _ _ Hf)) in Hr.
    apply safe_bind with (Exists Q).
    + eapply safe_later; eauto. apply IH. intros r' Hr'. apply Hm. eauto with suff.
    + intros l r' d' _ Hl. apply safe_ret'. intros He. inversion He; subst; eauto.
  - apply safe_ret'. intros He. inversion He.
Qed.
Lemma calm_many {A} (m : P A) n : forall ts,
  (forall r, suffix r ts -> calm (m r) /\ fine r (m r)) -> calm (many n m ts).
Proof.
  induction n as [|n IH]; intros ts Hm; [c0|]. cbn [many]. destruct (Hm ts (suffix_refl ts)) as [Hs Hf].
  apply calm_bind; [now apply calm_rollback|]. intros [x|] r d Hr; [|cm].
  apply (fine_after _ _ _ _ _ (fine_rollback _ _ Hf)) in Hr.
  cm. apply IH. intros r' Hr'. apply Hm. eauto with suff.
Qed.
Lemma safe_attrs ts : wf ts -> safe (can_panic ts) (Exists attr_bad) (parse_attrs ts).
Proof.
  intros Hwf. unfold parse_attrs. apply safe_many. intros r Hr. split; [|apply fine_attr].
  apply safe_attr. eapply suffix_wf; eauto.
Qed.
Lemma calm_selectors ts : wf ts -> calm (parse_selectors ts).
Proof.
  intros Hwf. unfold parse_selectors. apply calm_many. intros r Hr. split; [|apply fine_selector].
  assert (Hw := suffix_wf _ _ Hr Hwf). unfold parse_selector.
  assert (Hk : forall c x r1 d1 (mk : kebab -> selector), rollback_err (parse_punct c) r = PR (Ret x) r1 d1 ->
    calm ((k <- parse_kebab;; ret (mk k))%parse r1)).
  { intros c x r1 d1 mk H1. apply (fine_after _ _ _ _ _ (fine_rollback _ _ (fine_punct c r))) in H1.
    cm. apply calm_kebab, wf_wf_head. eapply suffix_wf; eauto. }
  apply calm_bind; [cm|]. intros [u|] r1 d1 H1; [eauto|].
  assert (r1 = r) by (unfold rollback_err in H1; destruct (parse_punct "." r) as [[]]; inversion H1; auto). subst r1.
  apply calm_bind; [cm|]. intros [u|] r2 d2 H2; [eauto|cm].
Qed.
Lemma calm_angle E ts : calm (parse_angle E ts).
Proof.
  unfold parse_angle. destruct (take_punct "::" ts); destruct (generic_args E _) as [[]|]; c0.
Qed.
Lemma calm_seg E ts : calm (parse_seg E ts).
Proof.
  rewrite parse_seg_step. destruct (_ || _ || _); cm.
  - destruct (peek_keyword "Self" ts); cm.
  - destruct (_ || _); cm. apply calm_angle.
Qed.
Lemma calm_segs_rest E n : forall ts, calm (parse_segs_rest E n ts).
Proof.
  induction n as [|n IH]; intros ts; [c0|]. cbn [parse_segs_rest]. destruct (_ && _); [|c0]. cm; auto. apply calm_seg.
Qed.
Lemma calm_path E ts : calm (parse_path E ts).
Proof. unfold parse_path. cm; [apply calm_seg|apply calm_segs_rest]. Qed.
Lemma safe_tag E ts : wf ts -> safe (can_panic ts) (fun _ => False) (parse_tag E ts).
Proof.
  intros Hwf. unfold parse_tag. apply safe_calm_bind; [cm|]. intros b r d H. inversion H; subst.
  destruct (_ || _).
  - apply calm_safe. cm. apply calm_path.
  - apply safe_bind with kebab_bad; [now apply safe_kebab|]. intros k r' d' _ Hk.
    destruct (tag_kind_from (k_repr k)); try (apply safe_bind with (fun _ => False); [apply safe_snake; auto|]);
      intros; apply safe_ret'; tauto.
Qed.
Lemma calm_closure_loop n : forall ts, calm (closure_loop n ts).
Proof.
  induction n as [|n IH]; intros ts; [c0|]. cbn [closure_loop]. apply calm_bind; [cm|]. intros [u|] r d _; [cm|].
  apply calm_bind; [cm|]. intros [t|] r' d' _; cm. apply IH.
Qed.
Lemma calm_closure_args ts : calm (parse_closure_args ts).
Proof. unfold parse_closure_args. cm. apply calm_closure_loop. Qed.

(** The tag of a slot. *)
Lemma camel_rest_same r s : camel_snake_rest r s -> ~ In "_"%char s -> r = s.
Proof.
  induction 1; intros H'; auto.
  - exfalso. apply H'. now left.
  - f_equal. apply IHcamel_snake_rest. intros Hin. apply H'. now right.
Qed.
Lemma camel_bad s m : camel_snake s m -> In m ("" :: reserved_words) -> In s ("" :: bad_slot_words).
Proof.
  intros H Hm. inversion H as [|c d r s' Hl Hr Hs Hm']; [now left|]. subst s.
  assert (Hex : forall x y, m = unchars (x :: y) -> ~ In "_"%char y -> d = x /\ r = y).
  { intros x y He Hy. rewrite <- Hm' in He. unfold unchars in He. cbn in He. inversion He as [[E1 E2]].
    apply (f_equal list_ascii_of_string) in E2. rewrite !list_ascii_of_string_of_list_ascii in E2. subst.
    split; auto. now apply camel_rest_same. }
  assert (Hno : forall y, (forallb (fun c => negb (Ascii.eqb c "_")) y = true) -> ~ In "_"%char y).
  { intros y Hy Hin. rewrite forallb_forall in Hy. apply Hy in Hin. discriminate. }
  assert (Hcase : forall x y, m = unchars (x :: y) -> forallb (fun c => negb (Ascii.eqb c "_")) y = true ->
     (unchars (c :: r) = unchars (x :: y) /\ ~ upper_char x) \/
     exists n, unchars (c :: r) = unchars (ascii_of_nat n :: y) /\ n + 32 = nat_of_ascii x /\ 65 <= n <= 90).
  { intros x y He Hy. destruct (Hex x y He (Hno y Hy)) as [-> ->].
    destruct Hl as [[Hu Hd]|[Hu ->]]; auto. right. exists (nat_of_ascii c). rewrite ascii_nat_embedding.
    unfold upper_char, code_in in Hu. auto. }
  cbn [In reserved_words] in Hm. destruct Hm as [Hm|[Hm|[Hm|[Hm|[Hm|[Hm|[]]]]]]].
  - rewrite <- Hm' in Hm. discriminate.
  - destruct (Hcase "_"%char [] (eq_sym Hm) eq_refl) as [[-> _]|(n & -> & Hn & Hn')]; [cbn; auto|].
    change (nat_of_ascii "_") with 95 in Hn. assert (n = 63) by lia. lia.
  - destruct (Hcase "s"%char (chars "uper") (eq_sym Hm) eq_refl) as [[-> _]|(n & -> & Hn & Hn')]; [cbn; tauto|].
    change (nat_of_ascii "s") with 115 in Hn. assert (n = 83) by lia. subst. cbn. tauto.
  - destruct (Hcase "s"%char (chars "elf") (eq_sym Hm) eq_refl) as [[-> _]|(n & -> & Hn & Hn')]; [cbn; tauto|].
    change (nat_of_ascii "s") with 115 in Hn. assert (n = 83) by lia. subst. cbn. tauto.
  - destruct (Hcase "S"%char (chars "elf") (eq_sym Hm) eq_refl) as [[_ Hu]|(n & -> & Hn & Hn')].
    + exfalso. apply Hu. red. red. cbn. lia.
    + change (nat_of_ascii "S") with 83 in Hn. lia.
  - destruct (Hcase "c"%char (chars "rate") (eq_sym Hm) eq_refl) as [[-> _]|(n & -> & Hn & Hn')]; [cbn; tauto|].
    change (nat_of_ascii "c") with 99 in Hn. assert (n = 67) by lia. subst. cbn. tauto.
Qed.

Lemma parse_seg_head E ts s r d : parse_seg E ts = PR (Ret s) r d -> exists r', ts = TIdent (seg_ident s) :: r'.
Proof.
  assert (Hany : forall i r d, parse_any ts = PR (Ret i) r d -> exists r', ts = TIdent i :: r').
  { intros i r0 d0 Hi. destruct ts as [|[| | |] ?]; cbn in Hi; try discriminate. inversion Hi; subst. eauto. }
  assert (Hid : forall i r d, parse_ident ts = PR (Ret i) r d -> exists r', ts = TIdent i :: r').
  { intros i r0 d0 Hi. destruct ts as [|[i'| | |] ?]; cbn in Hi; try discriminate.
    destruct (accept_as_ident i'); inversion Hi; subst. eauto. }
  rewrite parse_seg_step. destruct (_ || _ || _).
  - unfold bind. destruct (parse_any ts) as [[i| | | |] r0 d0] eqn:Hi; intros H; inversion H; subst. cbn. eauto.
  - unfold bind at 1. destruct ((if peek_keyword "Self" ts then parse_any else parse_ident) ts) as [[i| | | |] r0 d0] eqn:Hi;
      try discriminate.
    assert (Hh : exists r', ts = TIdent i :: r') by (destruct (peek_keyword "Self" ts); eauto).
    destruct (_ || _).
    + unfold bind. destruct (parse_angle E r0) as [[a| | | |] r1 d1]; cbn; intros H; inversion H; subst. auto.
    + intros H; inversion H; subst; auto.
Qed.
Lemma bind_ret_inv A B (m : P A) (f : A -> P B) ts b r d : bind m f ts = PR (Ret b) r d ->
  exists a r1 d1 d2, m ts = PR (Ret a) r1 d1 /\ f a r1 = PR (Ret b) r d2 /\ d = d1 ++ d2.
Proof.
  unfold bind. destruct (m ts) as [[a| | | |] r1 d1]; cbn; try discriminate.
  destruct (f a r1) as [o r2 d2] eqn:Hf; cbn. intros H. inversion H; subst. exists a, r1, d1, d2. auto.
Qed.
Lemma parse_path_head E ts i a r d : parse_path E ts = PR (Ret (Path false [PSeg i a])) r d ->
  exists r', ts = TIdent i :: r'.
Proof.
  intros H. unfold parse_path in H.
  apply bind_ret_inv in H. destruct H as (l & r0 & d0 & d0' & Hl & H & _).
  apply bind_ret_inv in H. destruct H as (s & r1 & d1 & d1' & Hs & H & _).
  apply bind_ret_inv in H. destruct H as (l' & r2 & d2 & d2' & Hr & H & _).
  inversion H; subst. destruct l; [discriminate|].
  assert (r0 = ts) by (unfold rollback_err in Hl; destruct (parse_punct "::" ts) as [[]]; inversion Hl; auto). subst r0.
  now apply parse_seg_head in Hs.
Qed.
Lemma component_name_head used i : wf used -> name_phrase used -> In i ("" :: bad_slot_words) ->
  i = snake_name (name_text used) -> exists j, used = [TIdent j] /\ i_name j = i \/ used = [TPunct "-" Alone] \/ used = [TPunct "-" Joint].
Proof.
  intros Hwf Hp Hin ->. destruct (short_name used Hp Hwf (bad_slot_short _ Hin)) as (t & ->).
  apply wf_cons in Hwf. destruct Hwf as [Hwf _]. inversion Hp; subst.
  - exists i. left. split; auto. rewrite name_text_cons in *. cbn [token_text name_text fold_right] in *. rewrite append_nil in *.
    destruct Hwf as [Hl _]. now rewrite lex_no_dash.
  - exists (Id false ""). destruct sp; auto.
Qed.

(** What a tag that is unusable for a slot looks like. *)
Lemma slot_tag_bad E ts t r d : wf ts -> parse_tag E ts = PR (Ret t) r d ->
  (forall p, t <> TagComponent p) \/
  (exists i m, t = TagComponent (Path false [PSeg i PNone]) /\ camel_snake (i_name i) m /\ In m ("" :: reserved_words)) ->
  (exists i post, ts = TIdent i :: post /\ In (i_name i) bad_slot_words) \/
  (exists n post, ts = n ++ post /\ name_phrase n /\ name_ends n post /\ ~ starts_upper (name_text n)).
Proof.
  intros Hwf Ht Hb. unfold parse_tag in Ht. rewrite (bind_run0 _ _ _ _ _ eq_refl) in Ht. cbn beta in Ht.
  assert (Hempty : ~ lex_ident "") by (intros H; exact H).
  destruct (_ || _ || _).
  - unfold bind in Ht. destruct (parse_path E ts) as [[p| | | |] r0 d0] eqn:Hp; cbn in Ht; try discriminate.
    inversion Ht; subst. left. destruct Hb as [Hb|(i & m & Hi & Hm & Hin)]; [now destruct (Hb p)|].
    inversion Hi; subst p. destruct (parse_path_head _ _ _ _ _ _ Hp) as (r' & ->). exists i, r'. split; auto.
    apply (camel_bad _ _ Hm) in Hin. destruct Hin as [He|Hin]; auto.
    apply wf_cons in Hwf. destruct Hwf as [[Hl _] _]. rewrite <- He in Hl. now apply Hempty in Hl.
  - unfold bind at 1 in Ht. destruct (parse_kebab_cases ts (wf_wf_head _ Hwf)) as [(u & r1 & -> & Hp & He & Heq)|[_ Heq]];
      rewrite Heq in Ht; [|discriminate]. unfold name_result in Ht. cbn [p_out p_rest p_diags k_repr] in Ht.
    set (k := Kebab (name_text u) (section_count u)) in *.
    destruct (tag_kind_from (name_text u)) eqn:Hk.
    2: { destruct (snake k r1) as [[i| | | |] r2 d2] eqn:Hs; unfold bind in Ht; rewrite Hs in Ht; cbn in Ht; inversion Ht; subst.
         left. destruct Hb as [Hb|(i' & m & Hi & Hm & Hin)]; [now destruct (Hb (Path false [PSeg (unraw i) PNone]))|].
         inversion Hi; subst i'. apply (camel_bad _ _ Hm) in Hin. cbn [unraw i_name] in Hin.
         assert (Hsn : i_name i = snake_name (name_text u)).
         { unfold snake, or_panic in Hs. destruct (to_snake_ident k) as [j|] eqn:Hj; [|discriminate].
           inversion Hs; subst. apply to_snake_iff in Hj. destruct Hj as [_ ->]. reflexivity. }
         apply wf_app in Hwf. destruct Hwf as [Hwf _].
         destruct (component_name_head u _ Hwf Hp Hin Hsn) as (j & [[-> Hj]|[->| ->]]).
         - exists j, r1. split; auto. rewrite Hj. destruct Hin as [He'|Hin]; auto.
           apply wf_cons in Hwf. destruct Hwf as [[Hl _] _]. rewrite Hj, <- He' in Hl. now apply Hempty in Hl.
         - cbv in Hk. discriminate.
         - cbv in Hk. discriminate. }
    all: right; exists u, r1; split; [reflexivity|]; split; [exact Hp|]; split; [exact He|];
      intros Hup; apply is_component_iff in Hup; unfold tag_kind_from in Hk; rewrite Hup in Hk; discriminate.
Qed.

(** ** Elements and children *)

Definition child_bad (c : child) : Prop :=
  match c with
  | CValue _ => False
  | CElement e => element_bad e
  | CSlot e => element_bad e \/ slot_bad e
  end.
Definition pc_safe (pc : P (list child)) (ts : list tt) : Prop :=
  forall d inner, In (TGroup d inner) ts -> safe (can_panic inner) (Exists child_bad) (pc inner).
Lemma pc_safe_suffix pc r ts : suffix r ts -> pc_safe pc ts -> pc_safe pc r.
Proof. intros Hs H d inner Hin. eapply H. eapply suffix_in; eauto. Qed.

Lemma element_bad_inv t sels attrs args ch : element_bad (Element t sels attrs args ch) ->
  Exists attr_bad attrs \/ Exists child_bad (child_list ch).
Proof.
  intros H. inversion H as [e Ha|e e' Hin Hb|e e' Hin Hb|e e' Hin Hb]; subst; cbn in *; auto; right;
    apply Exists_exists; eexists; (split; [exact Hin|]); cbn; auto.
Qed.
Lemma safe_block (B : Prop) pc t sels attrs args d ts : pc_safe pc ts -> (Exists attr_bad attrs -> B) ->
  (can_panic ts -> B) ->
  safe B element_bad ((c <- delimited d pc ;; ret (Element t sels attrs args (Some c)))%parse ts).
Proof.
  intros Hpc Ha HB. apply safe_bind with (Exists child_bad).
  - apply safe_imp with (can_panic ts) (Exists child_bad); auto.
    apply safe_delimited. intros inner r ->. eapply Hpc. now left.
  - intros c r ds _ Hc. apply safe_ret'. intros H. apply element_bad_inv in H. cbn in H. destruct H; auto.
Qed.
Lemma safe_element_tail (B : Prop) pc t sels attrs ts : pc_safe pc ts -> (Exists attr_bad attrs -> B) ->
  (can_panic ts -> B) -> safe B element_bad (element_tail pc t sels attrs ts).
Proof.
  intros Hpc Ha HB. unfold element_tail. apply safe_calm_bind; [cm|]. intros semi r d Hr.
  assert (Hsuf := fine_after _ _ _ _ _ (fine_rollback _ _ (fine_punct ";" ts)) Hr).
  assert (Hleaf : forall g, element_bad (Element t sels attrs g None) -> B).
  { intros g H. apply element_bad_inv in H. cbn in H. destruct H as [H|H]; auto. inversion H. }
  assert (Hpc' := pc_safe_suffix _ _ _ Hsuf Hpc).
  assert (HB' : can_panic r -> B) by (intros; apply HB; eapply can_panic_suffix; eauto).
  destruct semi; [apply safe_ret'; eauto|].
  apply safe_calm_bind; [cm|]. intros x r1 d1 H1. inversion H1; subst x d1. subst r1.
  destruct r as [|t0 r1].
  { apply safe_calm_bind; [cm|]. intros. apply safe_ret'. eauto. }
  set (rr := t0 :: r1) in *.
  destruct (peek_group Brace rr); [now apply safe_block|].
  destruct (peek_group Paren rr); [now apply safe_block|].
  destruct (peek_punct "|" rr).
  - apply safe_calm_bind; [apply calm_closure_args|]. intros args r2 d2 H2.
    apply (fine_after _ _ _ _ _ (fine_closure_args rr)) in H2.
    assert (Hpc2 := pc_safe_suffix _ _ _ H2 Hpc').
    assert (HB2 : can_panic r2 -> B) by (intros; apply HB'; eapply can_panic_suffix; eauto).
    apply safe_calm_bind; [cm|]. intros x r3 d3 H3. inversion H3; subst x d3. subst r3.
    destruct (peek_group Brace r2); [now apply safe_block|].
    destruct (peek_group Paren r2); [now apply safe_block|].
    apply safe_calm_bind; [cm|]. intros. apply safe_ret'. eauto.
  - apply safe_calm_bind; [cm|]. intros. apply safe_calm_bind; [cm|]. intros. apply safe_ret'. eauto.
Qed.
Lemma safe_element E pc ts : env_ok E -> wf ts -> pc_safe pc ts ->
  safe (can_panic ts) element_bad (parse_element E pc ts).
Proof.
  intros HE Hwf Hpc. rewrite parse_element_eq. apply safe_bind with (fun _ => False); [now apply safe_tag|].
  intros t r d Hr _. apply (fine_after _ _ _ _ _ (fine_tag E ts HE)) in Hr. assert (Hw := suffix_wf _ _ Hr Hwf).
  apply safe_calm_bind; [now apply calm_selectors|]. intros sels r2 d2 H2.
  apply (fine_after _ _ _ _ _ (fine_selectors r)) in H2. assert (Hw2 := suffix_wf _ _ H2 Hw).
  assert (Hs2 : suffix r2 ts) by eauto with suff.
  apply safe_bind with (Exists attr_bad); [eapply safe_later; eauto; now apply safe_attrs|].
  intros attrs r3 d3 H3 Hb. apply (fine_after _ _ _ _ _ (fine_attrs r2)) in H3.
  assert (Hs3 : suffix r3 ts) by eauto with suff.
  apply safe_element_tail; auto.
  - eapply pc_safe_suffix; eauto.
  - now apply can_panic_suffix.
Qed.
Lemma parse_element_tag E pc ts e r d : parse_element E pc ts = PR (Ret e) r d ->
  exists r' d', parse_tag E ts = PR (Ret (el_tag e)) r' d'.
Proof.
  rewrite parse_element_eq. intros H.
  apply bind_ret_inv in H. destruct H as (t & r1 & d1 & ? & Ht & H & _).
  apply bind_ret_inv in H. destruct H as (sels & r2 & d2 & ? & _ & H & _).
  apply bind_ret_inv in H. destruct H as (attrs & r3 & d3 & d3' & _ & H & _).
  exists r1, d1. rewrite Ht. do 2 f_equal. clear -H. revert H.
  assert (Hblk : forall args dl ts r d, (c <- delimited dl pc ;; ret (Element t sels attrs args (Some c)))%parse ts = PR (Ret e) r d ->
     t = el_tag e).
  { intros args dl ts0 r0 d0 H. apply bind_ret_inv in H. destruct H as (c & r1 & d1 & d2 & _ & H & _). inversion H; reflexivity. }
  assert (Hem : forall g x r1 r0 d0, (emit g ;;; ret x)%parse r1 = PR (Ret e) r0 d0 -> e = x).
  { intros g x r1 r0 d0 H. inversion H; reflexivity. }
  unfold element_tail. intros H. apply bind_ret_inv in H. destruct H as ([u|] & r5 & ? & ? & _ & H & _).
  { inversion H; reflexivity. }
  apply bind_ret_inv in H. destruct H as (rr & r6 & ? & ? & _ & H & _).
  destruct rr as [|t0 rr]; [apply Hem in H; now subst|]. set (tt := t0 :: rr) in *.
  destruct (peek_group Brace tt); [eapply Hblk; eauto|].
  destruct (peek_group Paren tt); [eapply Hblk; eauto|].
  destruct (peek_punct "|" tt).
  - apply bind_ret_inv in H. destruct H as (args & r7 & ? & ? & _ & H & _).
    apply bind_ret_inv in H. destruct H as (rr' & r8 & ? & ? & _ & H & _).
    destruct (peek_group Brace rr'); [eapply Hblk; eauto|].
    destruct (peek_group Paren rr'); [eapply Hblk; eauto|].
    apply Hem in H. now subst.
  - apply bind_ret_inv in H. destruct H as (? & r7 & ? & ? & _ & H & _). inversion H; reflexivity.
Qed.
Lemma safe_child E pc ts : env_ok E -> wf ts -> pc_safe pc ts ->
  safe (can_panic ts) child_bad (parse_child E pc ts).
Proof.
  intros HE Hwf Hpc. rewrite parse_child_step.
  destruct (parse_value_cases ts) as [(u & v & r & Hts & Hph & Heq)|[Hnv Heq]]; rewrite Heq in *.
  - assert (Hval : forall v r d, safe (can_panic ts) child_bad (PR (Ret (CValue v)) r d)).
    { intros. split; cbn; [discriminate|]. intros c Hc. inversion Hc; subst. cbn. tauto. }
    destruct v as [[[] s|b]|b|p b]; apply Hval.
  - destruct (_ && _ && _) eqn:Hslot.
    + apply slot_test in Hslot. destruct Hslot as (sp & r0 & -> & Hns).
      set (ts := TIdent (Id false "slot") :: TPunct ":" sp :: r0) in *.
      assert (Hs : suffix r0 ts) by (unfold ts; auto with suff). assert (Hw := suffix_wf _ _ Hs Hwf).
      apply safe_bind with element_bad.
      { eapply safe_later; eauto. apply safe_element; auto. eapply pc_safe_suffix; eauto. }
      intros e r d He Hb. apply safe_ret'. cbn. intros [H|H]; auto.
      destruct (parse_element_tag _ _ _ _ _ _ He) as (r' & d' & Ht).
      exists ts. split; [constructor|].
      destruct (slot_tag_bad _ _ _ _ _ Hw Ht H) as [(i & post & -> & Hi)|(n & post & -> & Hn & He' & Hu)].
      * apply (tr_slot_name [] sp i post Hi).
      * apply (tr_slot_tag [] sp n post); auto.
    + destruct (peek_any ts); [|split; cbn; discriminate].
      apply safe_bind with element_bad; [now apply safe_element|]. intros e r d _ Hb. now apply safe_ret'.
Qed.
Lemma safe_children E : env_ok E -> forall n ts, wf ts -> size ts < n ->
  safe (can_panic ts) (Exists child_bad) (parse_children E n ts).
Proof.
  intros HE. induction n as [|n IH]; intros ts Hwf Hn; [lia|].
  destruct ts as [|t ts].
  { split; cbn; [discriminate|]. intros cs Hc He. inversion Hc; subst. inversion He. }
  rewrite parse_children_step.
  assert (Hpc : pc_safe (parse_children E n) (t :: ts)).
  { intros d inner Hin. apply IH; [eapply in_group_wf; eauto|]. apply in_group_size in Hin. lia. }
  assert (Hpf : pc_fine (parse_children E n) (t :: ts)).
  { intros d inner Hin. apply fine_children; auto. apply in_group_size in Hin. lia. }
  pose proof (safe_child E _ _ HE Hwf Hpc) as [Hs1 Hs2].
  pose proof (fine_child E _ _ HE Hpf) as Hf. pose proof (eats_child E _ _ HE Hpf) as He.
  destruct (parse_child E (parse_children E n) (t :: ts)) as [[c|e| |w|] r d] eqn:Hc; cbn [p_out p_rest p_diags] in *.
  - specialize (He c eq_refl). cbn [p_rest] in He. apply fine_suffix in Hf. cbn in Hf.
    assert (Hsz := suffix_len_size _ _ Hf He). assert (Hw := suffix_wf _ _ Hf Hwf).
    destruct (IH r Hw ltac:(cbn in *; lia)) as [H3 H4].
    assert (Hsuf := can_panic_suffix _ _ Hf).
    destruct (parse_children E n r) as [[cs|e| |w|] r' d']; split; cbn in *; try discriminate; eauto.
    intros l Hl Hex. inversion Hl; subst. inversion Hex; subst; eauto.
  - apply fine_suffix in Hf. cbn in Hf. destruct (peek_punct ";" r) eqn:Hsemi.
    + apply peek_punct1 in Hsemi; [|discriminate]. destruct r as [|x r]; [contradiction|]. cbn [tl].
      assert (Hsuf : suffix r (t :: ts)) by (destruct Hf as [u Hu]; exists (u ++ [x]); rewrite Hu, <- app_assoc; reflexivity).
      assert (Hsz : size r < n).
      { apply suffix_size in Hf. rewrite size_cons in Hf. pose proof (tt_size_pos x). lia. }
      destruct (IH r (suffix_wf _ _ Hsuf Hwf) Hsz) as [H3 H4]. assert (Hcp := can_panic_suffix _ _ Hsuf).
      split; cbn; eauto.
    + assert (Hsz : size [] < n) by (rewrite size_cons in Hn; pose proof (tt_size_pos t); change (size []) with 0; lia).
      destruct (IH [] (Forall_nil _) Hsz) as [H3 H4]. assert (Hcp := can_panic_suffix [] (t :: ts) (suffix_nil _)).
      split; cbn; eauto.
  - split; cbn; discriminate.
  - split; cbn; [|discriminate]. intros w' H. inversion H; subst. eauto.
  - split; cbn; discriminate.
Qed.

Theorem panic_cause E input w : env_ok E -> wf input -> mview E input = Panicked w -> can_panic input.
Proof.
  intros HE Hwf H. unfold mview in H.
  destruct (safe_children E HE (S (size input)) input Hwf (Nat.lt_succ_diag_r _)) as [H1 H2].
  destruct (parse_children E (S (size input)) input) as [[cs|e| |w'|] r d]; cbn in *; try discriminate; eauto.
  pose proof (root_fine E cs HE) as [_ Hx].
  destruct (root_tokens E cs) as [[ts| |w'] d']; cbn in *; try discriminate.
  - destruct (d ++ d'); discriminate.
  - destruct (Hx w' eq_refl) as (e & Hin & Hb). apply (H2 cs eq_refl). apply Exists_exists. exists (CElement e). auto.
Qed.
