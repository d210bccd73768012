(** Lemmas about the parse monad and the token primitives. *)
From Verif Require Export Parse SpecStr SpecGrammar.
From Coq Require Export Lia.
Open Scope list_scope.

(** A clean success. *)
Notation "m 'on' ts '>>' a ',' r" := (m ts = PR (Ret a) r [])
  (at level 70, ts at next level, a at next level, r at next level).

Lemma app_nil_inv {A} (l l' : list A) : l ++ l' = [] <-> l = [] /\ l' = [].
Proof. destruct l, l'; cbn; split; intros; try (destruct H; discriminate); try discriminate; auto. Qed.

Lemma bind_ok {A B} (m : P A) (f : A -> P B) ts b r :
  bind m f on ts >> b, r <-> exists a r1, m on ts >> a, r1 /\ f a on r1 >> b, r.
Proof.
  unfold bind. split.
  - destruct (m ts) as [[a|e| |w|] r1 d1] eqn:Hm; intros H; try discriminate.
    destruct (f a r1) as [o2 r2 d2] eqn:Hf; cbn in H. inversion H; subst.
    apply app_nil_inv in H3. destruct H3; subst. eauto.
  - intros (a & r1 & H1 & H2). rewrite H1, H2. reflexivity.
Qed.

Lemma ret_ok {A} (a b : A) ts r : ret a on ts >> b, r <-> a = b /\ ts = r.
Proof. unfold ret. split; [intros H; inversion H; auto | intros []; congruence]. Qed.

Lemma fail_ok {A} e (b : A) ts r : fail e on ts >> b, r <-> False.
Proof. unfold fail. split; [discriminate | tauto]. Qed.

Lemma ppanic_ok {A} w (b : A) ts r : ppanic w on ts >> b, r <-> False.
Proof. unfold ppanic. split; [discriminate | tauto]. Qed.

Lemma emit_ok d u ts r : emit d on ts >> u, r <-> False.
Proof. unfold emit. split; [discriminate | tauto]. Qed.

Lemma look_ok {A} (f : list tt -> A) a ts r : look f on ts >> a, r <-> a = f ts /\ ts = r.
Proof. unfold look. split; [intros H; inversion H; auto | intros []; congruence]. Qed.

Lemma unwrap_ok {A} (m : P A) a ts r : unwrap m on ts >> a, r <-> m on ts >> a, r.
Proof. unfold unwrap. destruct (m ts) as [[| | | |] ? ?]; split; congruence. Qed.

Lemma unwrap_or_abort_ok {A} (m : P A) a ts r :
  unwrap_or_abort m on ts >> a, r <-> m on ts >> a, r.
Proof. unfold unwrap_or_abort. destruct (m ts) as [[| | | |] ? ?]; split; congruence. Qed.

Lemma rollback_some {A} (m : P A) a ts r :
  rollback_err m on ts >> Some a, r <-> m on ts >> a, r.
Proof. unfold rollback_err. destruct (m ts) as [[| | | |] ? ?]; split; congruence. Qed.

Lemma rollback_none {A} (m : P A) ts r :
  rollback_err m on ts >> None, r <->
  r = ts /\ exists e r', m ts = PR (Fail e) r' [].
Proof.
  unfold rollback_err. destruct (m ts) as [[| | | |] ? ?]; split; try discriminate;
    try (intros (_ & ? & ? & ?); discriminate).
  - intros H. inversion H; subst. eauto.
  - intros (-> & e' & r' & H). inversion H; subst. reflexivity.
Qed.

Lemma rollback_nofail {A} (m : P A) a ts r d :
  m ts = PR (Ret a) r d -> rollback_err m ts = PR (Ret (Some a)) r d.
Proof. unfold rollback_err. now intros ->. Qed.

Lemma rollback_fail {A} (m : P A) e ts r d :
  m ts = PR (Fail e) r d -> rollback_err m ts = PR (Ret None) ts d.
Proof. unfold rollback_err. now intros ->. Qed.

Lemma delimited_ok {A} d (m : P A) a ts r :
  delimited d m on ts >> a, r <-> exists inner, ts = TGroup d inner :: r /\ m on inner >> a, [].
Proof.
  unfold delimited. split.
  - destruct ts as [|[| | |d' inner] ts]; try discriminate.
    destruct (delim_eqb d d') eqn:Hd; try discriminate.
    assert (d = d') by (destruct d, d'; easy). subst d'.
    destruct (m inner) as [[| | | |] [|] ?] eqn:Hm; try discriminate.
    intros H. inversion H; subst. eauto.
  - intros (inner & -> & H). assert (delim_eqb d d = true) as -> by now destruct d.
    now rewrite H.
Qed.

(** ** Punctuation *)

Lemma take_punct1 c ts r :
  c <> "'"%char ->
  take_punct (String c "") ts = Some r <-> exists sp, ts = TPunct c sp :: r.
Proof.
  intros Hc. cbn. unfold cur_punct. split.
  - destruct ts as [|[|c' sp| |] ts]; try discriminate.
    destruct (Ascii.eqb c' "'") eqn:Hq; try discriminate.
    destruct (Ascii.eqb c' c) eqn:He; try discriminate.
    intros H; inversion H; subst. apply Ascii.eqb_eq in He. subst. eauto.
  - intros (sp & ->). destruct (Ascii.eqb c "'") eqn:Hq.
    + apply Ascii.eqb_eq in Hq. congruence.
    + now rewrite Ascii.eqb_refl.
Qed.

Lemma peek_punct1 c ts : c <> "'"%char -> peek_punct (String c "") ts = true <-> next_punct c ts.
Proof.
  intros Hc. unfold peek_punct. destruct (take_punct (String c "") ts) as [r|] eqn:H.
  - apply take_punct1 in H; auto. destruct H as [sp ->]. cbn. unfold punct. split; eauto.
  - split; [discriminate|]. destruct ts as [|t r]; cbn [next_punct]; [tauto|].
    intros [sp ->]. assert (take_punct (String c "") (TPunct c sp :: r) = Some r)
      by (apply take_punct1; eauto). congruence.
Qed.

Lemma peek_punct1_f c ts : c <> "'"%char -> peek_punct (String c "") ts = false <-> ~ next_punct c ts.
Proof.
  intros Hc. rewrite <- (peek_punct1 c ts Hc). destruct (peek_punct _ ts); split; congruence.
Qed.

Lemma parse_punct1 c ts u r :
  c <> "'"%char ->
  parse_punct (String c "") on ts >> u, r <-> exists sp, ts = TPunct c sp :: r.
Proof.
  intros Hc. rewrite <- (take_punct1 c ts r Hc). unfold parse_punct.
  destruct (take_punct _ ts) as [r'|]; destruct u; split; congruence.
Qed.

Lemma parse_punct1_fail c ts :
  c <> "'"%char -> ~ next_punct c ts ->
  parse_punct (String c "") ts = PR (Fail (EPunct (String c ""))) ts [].
Proof.
  intros Hc H. unfold parse_punct.
  destruct (take_punct (String c "") ts) eqn:Ht; auto.
  apply take_punct1 in Ht; auto. destruct Ht as [sp ->]. exfalso. apply H. cbn. red. eauto.
Qed.

Lemma parse_punct1_run c sp r :
  c <> "'"%char ->
  parse_punct (String c "") (TPunct c sp :: r) = PR (Ret Datatypes.tt) r [].
Proof. intros Hc. apply (proj2 (parse_punct1 c _ _ _ Hc)). eauto. Qed.

Lemma take_punct2 c d ts r :
  c <> "'"%char -> d <> "'"%char ->
  take_punct (String c (String d "")) ts = Some r <->
  exists sp, ts = TPunct c Joint :: TPunct d sp :: r.
Proof.
  intros Hc Hd. split.
  - cbn. unfold cur_punct. destruct ts as [|[|c' sp| |] ts]; try discriminate.
    destruct (Ascii.eqb c' "'") eqn:Hq; try discriminate.
    destruct (Ascii.eqb c' c) eqn:He; try discriminate.
    destruct sp; try discriminate. intros H.
    destruct ts as [|[|d' sp'| |] ts]; try discriminate.
    destruct (Ascii.eqb d' "'") eqn:Hq'; try discriminate.
    destruct (Ascii.eqb d' d) eqn:He'; try discriminate.
    apply Ascii.eqb_eq in He, He'. inversion H; subst. eauto.
  - intros [sp ->]. cbn.
    destruct (Ascii.eqb c "'") eqn:Hq; [apply Ascii.eqb_eq in Hq; congruence|].
    rewrite Ascii.eqb_refl.
    cbn. destruct (Ascii.eqb d "'") eqn:Hq'; [apply Ascii.eqb_eq in Hq'; congruence|].
    now rewrite Ascii.eqb_refl.
Qed.

Lemma peek_punct2 c d ts :
  c <> "'"%char -> d <> "'"%char ->
  peek_punct (String c (String d "")) ts = true <-> next_op c d ts.
Proof.
  intros Hc Hd. unfold peek_punct, next_op.
  destruct (take_punct (String c (String d "")) ts) as [r|] eqn:H.
  - apply take_punct2 in H; auto. destruct H as [sp ->]. split; eauto.
  - split; [discriminate|]. intros (sp & r & Heq).
    assert (take_punct (String c (String d "")) ts = Some r) by (apply take_punct2; eauto).
    congruence.
Qed.

Lemma peek_punct2_f c d ts :
  c <> "'"%char -> d <> "'"%char ->
  peek_punct (String c (String d "")) ts = false <-> ~ next_op c d ts.
Proof.
  intros Hc Hd. rewrite <- (peek_punct2 c d ts Hc Hd). destruct (peek_punct _ ts); split; congruence.
Qed.

Lemma delim_eqb_eq a b : delim_eqb a b = true <-> a = b.
Proof. destruct a, b; cbn; split; congruence. Qed.

Lemma peek_group_iff d ts : peek_group d ts = true <-> next_group d ts.
Proof.
  destruct ts as [|[| | |d' ?] ts]; cbn; split; try discriminate; try tauto.
  - intros H. now apply delim_eqb_eq in H.
  - intros ->. now apply delim_eqb_eq.
Qed.
Lemma peek_group_f d ts : peek_group d ts = false <-> ~ next_group d ts.
Proof. rewrite <- peek_group_iff. destruct (peek_group d ts); split; congruence. Qed.

Lemma peek_any_iff ts : peek_any ts = true <-> next_ident ts.
Proof. destruct ts as [|[| | |] ?]; cbn; split; try discriminate; tauto. Qed.
Lemma peek_any_f ts : peek_any ts = false <-> ~ next_ident ts.
Proof. rewrite <- peek_any_iff. destruct (peek_any ts); split; congruence. Qed.

Lemma parse_any_ok ts i r : parse_any on ts >> i, r <-> ts = TIdent i :: r.
Proof.
  unfold parse_any, cur_ident. destruct ts as [|[| | |] ?]; split; congruence.
Qed.

Lemma ident_is_eq i s : (forall r, s <> ("r#" ++ r)%string) -> ident_is i s = true <-> i = Id false s.
Proof.
  intros Hs. unfold ident_is, ident_to_string. rewrite String.eqb_eq. split.
  - destruct i as [[|] n]; cbn [i_raw i_name].
    + intros H. exfalso. eapply Hs. symmetry. exact H.
    + cbn. congruence.
  - intros ->. reflexivity.
Qed.
Ltac no_raw := let r := fresh in let H := fresh in intros r H; cbn in H; discriminate H.

(** ** Well-formedness *)

Lemma wf_group d ts : wf_tt (TGroup d ts) <-> wf ts.
Proof.
  cbn. unfold wf. induction ts as [|t ts IH]; cbn; [split; auto|].
  rewrite Forall_cons_iff, <- IH. tauto.
Qed.
Lemma wf_cons t ts : wf (t :: ts) <-> wf_tt t /\ wf ts.
Proof. apply Forall_cons_iff. Qed.
Lemma wf_app a b : wf (a ++ b) <-> wf a /\ wf b.
Proof. apply Forall_app. Qed.

Lemma size_cons t b : size (t :: b) = tt_size t + size b.
Proof. reflexivity. Qed.
Lemma size_app a b : size (a ++ b) = size a + size b.
Proof. induction a as [|t a IH]; [reflexivity|]. cbn [app]. rewrite !size_cons. lia. Qed.
Lemma tt_size_pos t : 1 <= tt_size t.
Proof. destruct t; cbn; lia. Qed.
Lemma tt_size_group d ts : tt_size (TGroup d ts) = S (size ts).
Proof. reflexivity. Qed.
