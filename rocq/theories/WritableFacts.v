(** Reading gives writable trees, and every writable tree can be written. *)
From Verif Require Export PhraseInv.
From Verif Require Import CountFacts.
From Verif Require Export SpecWritable.
From Coq Require Import Lia.
Open Scope list_scope.

(** ** Names *)

Definition dashb (c : ascii) : bool := if ascii_dec c "-" then true else false.
Fixpoint last_dash (b : bool) (l : list ascii) : bool :=
  match l with [] => b | c :: r => last_dash (dashb c) r end.
Definition endsb (s : string) : bool := last_dash false (chars s).

Lemma words_after_cons b c r : words_after b (c :: r) =
  if dashb c then words_after true r else (if b then 1 else 0) + words_after false r.
Proof. cbn [words_after]. unfold dashb. destruct (ascii_dec c "-"); reflexivity. Qed.
Lemma last_dash_app b l m : last_dash b (l ++ m) = last_dash (last_dash b l) m.
Proof. revert b. induction l as [|c l IH]; intros b; cbn; auto. Qed.
Lemma endsb_iff s : endsb s = true <-> ends_dash s.
Proof.
  unfold endsb, ends_dash. destruct (chars s) as [|c r] using rev_ind.
  - cbn. split; [discriminate|]. intros [[|x l] H]; discriminate.
  - rewrite last_dash_app. cbn [last_dash]. unfold dashb. destruct (ascii_dec c "-") as [->|Hn].
    + split; [exists r; reflexivity|auto].
    + split; [discriminate|]. intros [l H]. apply app_inj_tail in H. destruct H. contradiction.
Qed.
Lemma cont_dash c : ident_continue c -> dashb c = false.
Proof.
  intros H. unfold dashb. destruct (ascii_dec c "-") as [->|]; auto. exfalso.
  unfold ident_continue, ident_start, upper_char, lower_char, digit_char, code_in in H.
  assert (nat_of_ascii "-" = 45) as E by reflexivity. rewrite E in H.
  destruct H as [[H|[H|[H|H]]]|H]; try lia. discriminate.
Qed.
Definition word_chars (l : list ascii) : Prop := l <> [] /\ Forall ident_continue l.
Lemma word_start l : word_chars l -> forall b m, words_after b (l ++ m) = (if b then 1 else 0) + words_after false m.
Proof.
  intros [Hn Hf]. destruct Hf as [|c l Hc Hf]; [congruence|]. clear Hn. intros b m.
  cbn [app]. rewrite words_after_cons, (cont_dash c Hc). f_equal.
  induction Hf as [|d l Hd Hf IH]; [reflexivity|]. cbn [app]. rewrite words_after_cons, (cont_dash d Hd). exact IH.
Qed.
Lemma word_last l : word_chars l -> forall b, last_dash b l = false.
Proof.
  intros [Hn Hf]. destruct Hf as [|c l Hc Hf]; [congruence|]. clear Hn. intros b. cbn [last_dash].
  rewrite (cont_dash c Hc). induction Hf as [|d l Hd Hf IH]; [reflexivity|]. cbn [last_dash]. rewrite (cont_dash d Hd). exact IH.
Qed.
Lemma lex_word s : lex_ident s -> word_chars (chars s).
Proof.
  unfold lex_ident. destruct (chars s) as [|c r]; [contradiction|]. intros [Hc Hr]. split; [discriminate|]. constructor; auto. now left.
Qed.
Lemma int_word s : wf_int s -> word_chars (chars s).
Proof.
  unfold wf_int. destruct (chars s) as [|c r]; [contradiction|]. intros [Hc Hr]. split; [discriminate|]. constructor; auto. now right.
Qed.
Lemma word_text t : wf_tt t -> is_word t -> word_chars (chars (token_text t)).
Proof.
  intros Hw Ht. destruct t as [i| |[]|]; try contradiction; cbn [token_text wf_tt] in *.
  - apply lex_word, Hw.
  - now apply int_word.
Qed.
Lemma run_text b ts e : run b ts e -> wf ts ->
  word_count ts = words_after b (chars (name_text ts)) /\ e = last_dash b (chars (name_text ts)).
Proof.
  induction 1 as [b|b sp ts e H IH|i ts e H IH|s ts e H IH]; intros Hw; [split; reflexivity|..];
    apply wf_cons in Hw; destruct Hw as [Ht Hw]; destruct (IH Hw) as [I1 I2].
  - change (name_text (TPunct "-" sp :: ts)) with (String "-" (name_text ts)). cbn [chars list_ascii_of_string].
    rewrite words_after_cons. cbn [last_dash]. change (dashb "-") with true. split; [exact I1|exact I2].
  - change (name_text (TIdent i :: ts)) with (i_name i ++ name_text ts)%string. rewrite chars_app.
    pose proof (word_text (TIdent i) Ht I) as Hc. cbn [token_text] in Hc.
    rewrite (word_start _ Hc), last_dash_app, (word_last _ Hc). split; [|exact I2]. cbn. now rewrite <- I1.
  - change (name_text (TLit LkInt s :: ts)) with (s ++ name_text ts)%string. rewrite chars_app.
    pose proof (word_text (TLit LkInt s) Ht I) as Hc. cbn [token_text] in Hc.
    rewrite (word_start _ Hc), last_dash_app, (word_last _ Hc). split; [|exact I2]. cbn. now rewrite <- I1.
Qed.

(** Reading a name. *)
Lemma name_char_swap l : Forall name_char l <-> Forall (fun c => c = "-"%char \/ ident_continue c) l.
Proof. split; apply Forall_impl; intros c [|]; [right|left|right|left]; auto. Qed.
Lemma start_dash c : ident_start c -> dashb c = false.
Proof. intros H. apply cont_dash. now left. Qed.
Lemma dashb_not c : dashb c = false -> c <> "-"%char.
Proof. intros H ->. discriminate H. Qed.
Lemma name_read ts k f : name ts k f -> wf ts ->
  name_ok k /\ stops (endsb (k_repr k)) f /\ (next_ident ts <-> ~ starts_dash (k_repr k)).
Proof.
  intros (Hn & He & _ & ->) Hw. cbn [k_repr]. unfold name_ok, name_string, sections, endsb, starts_dash. cbn [k_repr k_spans].
  destruct Hn as [i ts e Hr|sp ts e Hr]; apply wf_cons in Hw; destruct Hw as [Ht Hw];
    pose proof (run_chars _ _ _ Hr Hw) as Hc; destruct (run_text _ _ _ Hr Hw) as [H1 H2].
  - change (name_text (TIdent i :: ts)) with (i_name i ++ name_text ts)%string. rewrite chars_app.
    change (section_count (TIdent i :: ts)) with (S (word_count ts)).
    destruct Ht as [Ht _]. pose proof (lex_word _ Ht) as Hwd.
    assert (Hs : stops e f) by (eapply name_ends_iff; [constructor; eassumption|exact He]).
    rewrite last_dash_app, (word_last _ Hwd), <- H2.
    unfold lex_ident in Ht. destruct (chars (i_name i)) as [|c r]; [contradiction|]. destruct Ht as [Hs' Hr'].
    cbn [app]. pose proof (start_dash c Hs') as Hd. split; [split; [split; [now right|]|]|split; [exact Hs|]].
    + apply name_char_swap, Forall_app. split; auto. eapply Forall_impl; [|exact Hr']. intros x Hx. now left.
    + change (if ascii_dec c "-" then true else false) with (dashb c). rewrite Hd. f_equal. rewrite H1.
      clear -Hr'. induction Hr' as [|d l Hx Hl IH]; [reflexivity|]. cbn [app].
      rewrite words_after_cons, (cont_dash d Hx). exact IH.
    + split; [|intros _; exact I]. intros _ [x Hx]. inversion Hx; subst. now apply (dashb_not _ Hd).
  - change (name_text (TPunct "-" sp :: ts)) with (String "-" (name_text ts)). cbn [chars list_ascii_of_string].
    change (section_count (TPunct "-" sp :: ts)) with (S (word_count ts)).
    assert (Hs : stops e f) by (eapply name_ends_iff; [constructor; eassumption|exact He]).
    cbn [last_dash]. change (dashb "-") with true. fold chars. rewrite <- H2.
    split; [split; [split; [now left|]|]|split; [exact Hs|]].
    + now apply name_char_swap.
    + destruct (ascii_dec "-" "-") as [_|n]; [|congruence]. f_equal. exact H1.
    + split; [intros []|]. intros Hx. exfalso. apply Hx. eexists. reflexivity.
Qed.

(** Writing a name. *)
Fixpoint take_word (l : list ascii) : list ascii * list ascii :=
  match l with
  | [] => ([], [])
  | c :: r => if dashb c then ([], l) else let '(w, m) := take_word r in (c :: w, m)
  end.
Lemma take_word_spec l : Forall name_char l -> forall w m, take_word l = (w, m) ->
  l = w ++ m /\ Forall ident_continue w /\ Forall name_char m /\ (m = [] \/ exists m', m = "-"%char :: m').
Proof.
  induction 1 as [|c l Hc H IH]; cbn [take_word]; intros w m Hx.
  - inversion Hx; subst. auto.
  - destruct (dashb c) eqn:Hd.
    + inversion Hx; subst. cbn. repeat split; auto.
      unfold dashb in Hd. destruct (ascii_dec c "-") as [->|]; [|discriminate]. right. eauto.
    + destruct (take_word l) as [w' m'] eqn:Ht. inversion Hx; subst. destruct (IH _ _ eq_refl) as (-> & H1 & H2 & H3).
      repeat split; auto. constructor; auto. destruct Hc as [Hc| ->]; [exact Hc|discriminate Hd].
Qed.
Lemma unchars_app a b : unchars (a ++ b) = (unchars a ++ unchars b)%string.
Proof. unfold unchars. induction a as [|c a IH]; cbn; [reflexivity|]. now rewrite IH. Qed.
Lemma unchars_chars s : unchars (chars s) = s.
Proof. apply string_of_list_ascii_of_string. Qed.
Lemma word_token w : word_chars w -> exists t, wf_tt t /\ is_word t /\ ~ raw_token t /\ token_text t = unchars w.
Proof.
  intros [Hn Hf]. destruct Hf as [|c w Hc Hf]; [congruence|]. destruct Hc as [Hc|Hc].
  - exists (TIdent (Id false (unchars (c :: w)))). cbn. split; [split; [|discriminate]|split; [exact I|split; [|reflexivity]]].
    + change (lex_ident (unchars (c :: w))). unfold lex_ident. rewrite chars_unchars. auto.
    + intros [n H]. discriminate.
  - exists (TLit LkInt (unchars (c :: w))). cbn. split; [|split; [exact I|split; [|reflexivity]]].
    + change (wf_int (unchars (c :: w))). unfold wf_int. rewrite chars_unchars. auto.
    + intros [n H]. discriminate.
Qed.
Lemma spell_run n : forall (l : list ascii) b, List.length l < n -> Forall name_char l ->
  (b = false -> l = [] \/ exists m, l = "-"%char :: m) ->
  exists ts e, run b ts e /\ wf ts /\ Forall (fun t => ~ raw_token t) ts /\ name_text ts = unchars l.
Proof.
  induction n as [|n IH]; intros l b Hn Hl Hb; [lia|]. destruct l as [|c l].
  - exists [], b. repeat split; constructor.
  - assert (Hdash : forall b m, c :: l = "-"%char :: m -> exists ts e, run b ts e /\ wf ts /\
      Forall (fun t => ~ raw_token t) ts /\ name_text ts = unchars (c :: l)).
    { clear b Hb. intros b m Hx. inversion Hx; subst. inversion Hl; subst. cbn in Hn.
      destruct (IH m true) as (ts & e & H1' & H2' & H3' & H4'); [lia|assumption|discriminate|].
      exists (TPunct "-" Alone :: ts), e. split; [now constructor|split; [now apply wf_cons|split; [constructor; auto|]]].
      - intros [? ?]. discriminate.
      - change (name_text (TPunct "-" Alone :: ts)) with (String "-" (name_text ts)). now rewrite H4'. }
    destruct b.
    + destruct (take_word (c :: l)) as [w m] eqn:Ht. destruct (take_word_spec _ Hl _ _ Ht) as (He & Hw & Hm & Hd).
      destruct w as [|x w].
      * destruct Hd as [->|(m' & ->)]; [discriminate|]. eapply Hdash. exact He.
      * assert (Hwc : word_chars (x :: w)) by (split; [discriminate|exact Hw]).
        destruct (word_token _ Hwc) as (t & T1 & T2 & T3 & T4). rewrite He in Hn. rewrite app_length in Hn. cbn in Hn.
        destruct (IH m false) as (ts & e & H1 & H2 & H3 & H4); [lia|assumption|auto|].
        exists (t :: ts), e. split; [|split; [now apply wf_cons|split; [constructor; auto|]]].
        -- destruct t as [| |[]|]; try contradiction; now constructor.
        -- rewrite He, unchars_app, <- H4, <- T4. reflexivity.
    + destruct (Hb eq_refl) as [?|[m Hm]]; [discriminate|]. eapply Hdash. exact Hm.
Qed.

Lemma name_written k : name_ok k ->
  (starts_dash (k_repr k) /\ exists r, wf r /\ (exists e, run true r e) /\
     forall f, stops (endsb (k_repr k)) f -> name (TPunct "-" Alone :: r) k f) \/
  (~ starts_dash (k_repr k) /\ exists w r, lex_ident w /\ wf r /\ (exists e, run false r e) /\
     (exists s, k_repr k = (w ++ s)%string /\ (s = "" \/ starts_dash s)) /\
     forall raw f, stops (endsb (k_repr k)) f -> name (TIdent (Id raw w) :: r) k f).
Proof.
  intros [Hs Hk]. destruct k as [s n]. cbn [k_repr k_spans] in *. subst n. unfold name_string in Hs.
  destruct (chars s) as [|c l] eqn:Hc; [contradiction|]. destruct Hs as [Hs Hl].
  assert (Hl' : Forall name_char l) by now apply name_char_swap.
  assert (Es : s = unchars (c :: l)) by (now rewrite <- Hc, unchars_chars).
  assert (Hstart : dashb c = true -> c = "-"%char) by (unfold dashb; destruct (ascii_dec c "-"); [auto|discriminate]).
  assert (Hfin : forall t r, name_phrase (t :: r) -> wf (t :: r) -> Forall (fun t => ~ raw_token t) r ->
    name_text (t :: r) = s -> forall f, stops (endsb s) f -> name (t :: r) (Kebab s (sections s)) f).
  { intros t r Hp Hw Hr Ht f Hf. set (f0 := []:list tt). assert (Hn : name (t :: r) (Kebab s (section_count (t :: r))) []).
    { split; [exact Hp|split; [exact I|split; [exact Hr|now rewrite Ht]]]. }
    destruct (name_read _ _ _ Hn Hw) as ((_ & Hsec) & _ & _). cbn [k_repr k_spans] in Hsec.
    split; [exact Hp|split; [|split; [exact Hr|now rewrite Ht, Hsec]]].
    assert (Hpe := proj1 (name_phrase_end _) Hp). destruct Hpe as [e Hpe].
    apply (proj2 (name_ends_iff _ _ f Hpe)).
    destruct f as [|t0 f]; [exact I|].
    assert (He : e = endsb s); [|now rewrite He].
    unfold endsb. rewrite <- Ht. destruct Hpe as [i ts e Hrun|sp ts e Hrun]; apply wf_cons in Hw; destruct Hw as [Hw1 Hw2];
      destruct (run_text _ _ _ Hrun Hw2) as [_ ->].
    - change (name_text (TIdent i :: ts)) with (i_name i ++ name_text ts)%string. rewrite chars_app, last_dash_app.
      now rewrite (word_last _ (lex_word _ (proj1 Hw1))).
    - reflexivity. }
  destruct Hs as [->|Hs].
  - left. split; [eexists; rewrite Hc; reflexivity|].
    destruct (spell_run (S (List.length l)) l true) as (ts & e & H1 & H2 & H3 & H4); [lia|assumption|discriminate|].
    exists ts. split; [assumption|split; [now exists e|]]. apply Hfin.
    + econstructor; eassumption.
    + now apply wf_cons.
    + assumption.
    + rewrite Es. change (name_text (TPunct "-" Alone :: ts)) with (String "-" (name_text ts)). now rewrite H4.
  - right. pose proof (start_dash c Hs) as Hd. split.
    { intros [r Hr]. rewrite Hc in Hr. inversion Hr; subst. discriminate Hd. }
    destruct (take_word l) as [w m] eqn:Ht. destruct (take_word_spec _ Hl' _ _ Ht) as (He & Hw & Hm & Hd').
    destruct (spell_run (S (List.length m)) m false) as (ts & e & H1 & H2 & H3 & H4); [lia|assumption|auto|].
    exists (unchars (c :: w)), ts.
    assert (Hlex : lex_ident (unchars (c :: w))) by (unfold lex_ident; rewrite chars_unchars; auto).
    split; [exact Hlex|split; [assumption|split; [now exists e|split]]].
    { exists (unchars m). rewrite Es, He, <- unchars_app. split; [reflexivity|].
      destruct Hd' as [->|(m' & ->)]; [now left|right]. exists m'. apply chars_unchars. }
    assert (Htx : forall raw, name_text (TIdent (Id raw (unchars (c :: w))) :: ts) = s).
    { intros raw. rewrite Es, He. change (name_text (TIdent (Id raw (unchars (c :: w))) :: ts)) with (unchars (c :: w) ++ name_text ts)%string.
      rewrite H4, <- unchars_app. reflexivity. }
    intros raw f Hf.
    destruct (Hfin (TIdent (Id false (unchars (c :: w)))) ts) with (f := f) as (N1 & N2 & N3 & N4).
    + econstructor; eassumption.
    + apply wf_cons. split; [split; [exact Hlex|discriminate]|assumption].
    + assumption.
    + apply Htx.
    + exact Hf.
    + split; [econstructor; eassumption|split; [|split; [assumption|]]].
      * destruct f as [|t0 f]; [exact I|]. intros Hx. apply N2. inversion Hx; subst. econstructor; eassumption.
      * rewrite N4. rewrite !Htx. reflexivity.
Qed.

(** ** Reading gives writable trees *)

Lemma value_read ts v f : value_phrase ts v f -> wf ts -> value_ok v.
Proof.
  intros H Hw. destruct H; repeat match goal with h : wf (_ :: _) |- _ => apply wf_cons in h; destruct h end.
  - constructor. assumption.
  - constructor; assumption.
  - constructor.
  - constructor.
  - constructor. eapply wf_group. eassumption.
  - constructor; [discriminate|eapply wf_group; eassumption].
  - constructor; [intros j [= <-]; assumption|eapply wf_group; eassumption].
Qed.
Lemma opt_value_read ts v f : opt_value ts v f -> wf ts -> forall x, v = Some x -> value_ok x.
Proof.
  intros H Hw x ->. inversion H; subst. apply wf_cons in Hw. destruct Hw. eapply value_read; eauto.
Qed.
Lemma modifier_read ts m f : opt_modifier ts m f -> wf ts -> forall j, m = Some j -> wf_ident j.
Proof.
  intros H Hw j ->. inversion H; subst. do 2 (apply wf_cons in Hw; destruct Hw as [? Hw]). assumption.
Qed.
Lemma name_lex_snake k : name_ok k -> lex_ident (snake_name (k_repr k)).
Proof.
  intros [H _]. unfold name_string in H. unfold lex_ident. rewrite snake_chars. destruct (chars (k_repr k)) as [|c r]; [contradiction|].
  destruct H as [Hc Hr]. cbn [map]. split.
  - destruct (ascii_dec c "-") as [->|Hn]; [right; right; now left|]. destruct Hc; [contradiction|assumption].
  - now apply snake_rest, name_char_swap.
Qed.
Lemma short_read ts k v : shorthand ts k v -> wf ts -> name_ok k /\ exists i, v = VBlock [TIdent i] /\ name_ident_ok k i /\ value_ok v.
Proof.
  intros H Hw. destruct H as [inner k i Hn Hi]. apply wf_cons in Hw. destruct Hw as [Hw _]. apply wf_group in Hw.
  destruct (name_read _ _ _ Hn Hw) as (Hk & _). split; [exact Hk|]. exists i. split; [reflexivity|split; [exact Hi|]].
  constructor. apply wf_cons. split; [|constructor]. eapply ident_ok_wf; [|exact Hi]. now apply name_lex_snake.
Qed.
Lemma stops_ident s i r : stops (endsb s) (TIdent i :: r) -> ~ ends_dash s.
Proof. intros [_ H] Hd. apply (proj2 (endsb_iff s)) in Hd. now apply H. Qed.
Lemma stops_dash e sp r : ~ stops e (TPunct "-" sp :: r).
Proof. intros [H _]. apply H. now exists sp. Qed.

Lemma attr_read ts a f : attr_phrase ts a f -> wf ts ->
  attr_ok a /\ (forall s, attr_end a = Some s -> stops (endsb s) f) /\
  forall s f', stops (endsb s) (ts ++ f') -> attr_after s a.
Proof.
  intros H Hw. destruct H as [ts k ts' v follow Hn Hv _|ts k v follow H|sp ts follow|i sp ks k ms m vs v follow Hk Hm Hv|i sp ks k v ms m follow H Hm].
  - apply wf_app in Hw. destruct Hw as [Hw Hw']. destruct (name_read _ _ _ Hn Hw) as (Hk & _ & Hd).
    split; [split; [exact Hk|]|split; [discriminate|]].
    + destruct v as [v|]; [|constructor]. eapply opt_value_read; eauto.
    + intros s f' Hs. destruct Hn as (Hn & _). destruct Hn as [i ts e Hr|sp ts e Hr].
      * cbn [app] in Hs. apply aa_kv; [apply Hd; exact I|eapply stops_ident; exact Hs].
      * cbn [app] in Hs. now apply stops_dash in Hs.
  - destruct (short_read _ _ _ H Hw) as (Hk & i & -> & Hi & Hv). split; [split; assumption|split; [discriminate|]].
    intros s f' _. now constructor.
  - apply wf_cons in Hw. destruct Hw as [Hw _]. apply wf_group in Hw. do 2 (apply wf_cons in Hw; destruct Hw as [_ Hw]).
    split; [exact Hw|split; [discriminate|]]. constructor.
  - do 2 (apply wf_cons in Hw; destruct Hw as [? Hw]). apply wf_app in Hw. destruct Hw as [Hw1 Hw]. apply wf_app in Hw. destruct Hw as [Hw2 Hw3].
    assert (Hkk : key_ok k /\ forall k', k = KKebab k' -> stops (endsb (k_repr k')) (ms ++ vs ++ follow)).
    { destruct Hk as [s f|ts k f Hn]; [split; [exact I|discriminate]|]. destruct (name_read _ _ _ Hn Hw1) as (H1 & H2 & _).
      split; [exact H1|]. intros k' [= <-]. exact H2. }
    destruct Hkk as [Hk1 Hk2]. split; [split; [assumption|split; [exact Hk1|split]]|split].
    + eapply modifier_read; eauto.
    + eapply opt_value_read; eauto.
    + intros s Hs. cbn [attr_end] in Hs. destruct k as [k|]; [|discriminate]. destruct m; [discriminate|]. destruct v; [discriminate|].
      injection Hs as <-. specialize (Hk2 _ eq_refl). inversion Hm; subst. inversion Hv; subst. exact Hk2.
    + intros s f' Hs. cbn [app] in Hs. apply aa_dir. eapply stops_ident. exact Hs.
  - do 2 (apply wf_cons in Hw; destruct Hw as [? Hw]). apply wf_app in Hw. destruct Hw as [Hw1 Hw2].
    destruct (short_read _ _ _ H Hw1) as (Hk & j & -> & Hi & Hv). split; [split; [assumption|split; [exact Hk|split]]|split].
    + eapply modifier_read; eauto.
    + intros x [= <-]. exact Hv.
    + cbn [attr_end]. destruct m; discriminate.
    + intros s f' Hs. cbn [app] in Hs. apply aa_dir. eapply stops_ident. exact Hs.
Qed.
Lemma attrs_read ts l f : attrs_phrase ts l f -> wf ts -> Forall attr_ok l /\
  forall o, (forall s, o = Some s -> stops (endsb s) (ts ++ f)) -> attrs_after o l.
Proof.
  induction 1 as [f He|ts a ts' l f Ha H IH]; intros Hw; [split; [constructor|intros; exact I]|].
  apply wf_app in Hw. destruct Hw as [Hw1 Hw2]. destruct (attr_read _ _ _ Ha Hw1) as (H1 & H2 & H3). destruct (IH Hw2) as [I1 I2].
  split; [now constructor|]. intros o Ho. cbn [attrs_after]. split.
  - intros s Hs. eapply H3. rewrite <- app_assoc in Ho. apply Ho. exact Hs.
  - apply I2. exact H2.
Qed.
Lemma selector_read ts s f : selector_phrase ts s f -> wf ts ->
  name_ok (selector_name s) /\ stops (endsb (k_repr (selector_name s))) f.
Proof.
  intros H Hw. destruct H as [sp ts k f H|sp ts k f H]; apply wf_cons in Hw; destruct Hw as [_ Hw];
    destruct (name_read _ _ _ H Hw) as (H1 & H2 & _); split; assumption.
Qed.
Lemma rev_last {A} (x : A) l : exists y m, rev (x :: l) = y :: m.
Proof.
  destruct (rev (x :: l)) as [|y m] eqn:H; [|eauto]. apply (f_equal (@List.length A)) in H. rewrite rev_length in H. discriminate.
Qed.
Lemma selectors_read ts l f : selectors_phrase ts l f -> wf ts -> Forall (fun s => name_ok (selector_name s)) l /\
  forall o, (forall s, o = Some s -> stops (endsb s) (ts ++ f)) ->
    forall s, match rev l with x :: _ => Some (k_repr (selector_name x)) | [] => o end = Some s -> stops (endsb s) f.
Proof.
  induction 1 as [f He|ts a ts' l f Ha H IH]; intros Hw; [split; [constructor|intros o Ho s Hs; now apply Ho]|].
  apply wf_app in Hw. destruct Hw as [Hw1 Hw2]. destruct (selector_read _ _ _ Ha Hw1) as (H1 & H2). destruct (IH Hw2) as [I1 I2].
  split; [now constructor|]. intros o Ho s Hs. apply (I2 (Some (k_repr (selector_name a)))).
  - intros s' [= <-]. exact H2.
  - destruct l as [|b l]; [exact Hs|]. cbn [rev] in Hs. destruct (rev_last b l) as (y & m & Hy). cbn [rev] in Hy. rewrite Hy in Hs.
    cbn [rev]. rewrite Hy. exact Hs.
Qed.

(** What may follow a tag is not read as a path. *)
Definition no_path (f : list tt) : Prop := ~ next_punct ":" f /\ ~ next_punct "<" f.
Lemma wf_gen_read E i b g f : env_ok E -> wf_ident i -> plain_segment i -> ~ keyword_segment i -> wf g -> next_punct "<" g ->
  (b = false -> generics_follow (g ++ f)) -> generic_args E (g ++ f) = inl (g, f) -> segment_ok E (PSeg i (PAngle b g)).
Proof.
  intros HE Hi H1 H2 Hg Hn Hb Hgen. constructor; auto.
  - split; [exact Hg|split; [exact Hn|now exists f]].
  - intros Hb'. destruct g as [|t g]; [contradiction|]. destruct (Hb Hb') as [(_ & N1 & N2)|[(sp & r & Hx) _]].
    + split.
      * intros (sp & r & Hx). apply N1. rewrite Hx. exists sp, (r ++ f). reflexivity.
      * intros (sp & r & Hx). apply N2. rewrite Hx. exists sp, (r ++ f). reflexivity.
    + cbn in Hx, Hn. destruct Hn as [sp' ->]. inversion Hx.
Qed.
Lemma segment_read E ts s f : env_ok E -> segment_phrase E ts s f -> wf ts -> segment_ok E s.
Proof.
  intros HE H Hw. destruct H; repeat match goal with h : wf (_ :: _) |- _ => apply wf_cons in h; destruct h end.
  - constructor; auto.
  - constructor; auto.
  - eapply wf_gen_read; eauto.
  - eapply wf_gen_read; eauto. discriminate.
Qed.
Lemma segments_read E ts l f : env_ok E -> segments_phrase E ts l f -> wf ts -> l <> [] /\ Forall (segment_ok E) l.
Proof.
  intros HE. induction 1 as [ts s f H _|ts s sp ts' l f H _ IH]; intros Hw.
  - split; [discriminate|]. constructor; [|constructor]. eapply segment_read; eauto.
  - apply wf_app in Hw. destruct Hw as [Hw1 Hw2]. do 2 (apply wf_cons in Hw2; destruct Hw2 as [_ Hw2]). destruct (IH Hw2).
    split; [discriminate|]. constructor; [eapply segment_read; eauto|assumption].
Qed.
Lemma no_dash_snake s : ~ has_dash s -> snake_name s = s.
Proof.
  unfold has_dash, snake_name. intros H. rewrite <- (unchars_chars s) at 2. f_equal. induction (chars s) as [|c l IH]; [reflexivity|].
  cbn [map]. destruct (ascii_dec c "-") as [->|]; [exfalso; apply H; now left|]. f_equal. apply IH. intros Hx. apply H. now right.
Qed.
Lemma svg_no_dash s : In s svg_names -> ~ has_dash s.
Proof.
  intros H. assert (Hb : forallb (fun s => negb (existsb dashb (chars s))) svg_names = true) by reflexivity.
  apply (proj1 (forallb_forall _ _) Hb) in H. intros Hd. apply negb_true_iff in H.
  assert (existsb dashb (chars s) = true) as Hx; [|congruence]. apply existsb_exists. exists "-"%char. auto.
Qed.
Lemma math_no_dash s : tag_kind_spec s KMath -> ~ has_dash s.
Proof. now inversion 1. Qed.
Lemma snake_upper s : starts_upper s -> starts_upper (snake_name s).
Proof.
  unfold starts_upper. rewrite snake_chars. destruct (chars s) as [|c r]; [auto|]. cbn [map]. intros H.
  destruct (ascii_dec c "-") as [->|]; auto. unfold upper_char, code_in in H. assert (nat_of_ascii "-" = 45) as E by reflexivity. lia.
Qed.
Lemma snake_ends s : endsb (snake_name s) = false.
Proof.
  unfold endsb. rewrite snake_chars.
  assert (H : forall l, last_dash false (map (fun c => if ascii_dec c "-" then "_"%char else c) l) = false).
  { intros l. induction l as [|c l IH]; [reflexivity|]. cbn [map last_dash]. unfold dashb at 1.
    destruct (ascii_dec c "-") as [|n]; [exact IH|]. destruct (ascii_dec c "-"); [contradiction|exact IH]. }
  apply H.
Qed.
Lemma stops_weaken e f : stops e f -> stops false f.
Proof. destruct f as [|t r]; [auto|]. intros [H _]. split; [exact H|discriminate]. Qed.
Lemma ident_ok_raw k i : name_ok k -> name_ident_ok k i -> raw_ident_ok (i_name i).
Proof.
  intros Hk [Hn ->]. cbn [i_name]. split; [now apply name_lex_snake|]. intros H. apply Hn. now right.
Qed.

Lemma tag_read E ts t f : env_ok E -> tag_phrase E ts t f -> wf ts -> no_path f ->
  tag_ok E t /\ (forall s, tag_name t = Some s -> stops (endsb s) f) /\ (next_ident ts -> starts_word t).
Proof.
  intros HE H Hw Hf. destruct H as [ts p f Hp H|ts k i f _ Hn Hk Hi|ts k i f _ Hn Hk Hi|ts k i f _ Hn Hk Hi|ts k i f _ Hn Hk Hi|ts k f _ Hn Hk].
  - assert (Hns : ~ single p).
    { intros [i ->]. inversion H as [ts' l f' Hs|]; subst. inversion Hs as [ts' s f' Hseg _|ts0 s sp ts1 l1 f1 Hs1 Hs2]; subst; [|inversion Hs2].
      destruct Hf as [F1 F2]. assert (Ht : ts = [TIdent i]) by (inversion Hseg; subst; reflexivity). subst ts. cbn in Hp.
      destruct Hp as [(sp & r & Hx)|[(sp & r & Hx)|Hx]]; [discriminate|cbn in Hx|contradiction].
      apply F1. rewrite Hx. now exists Joint. }
    split; [|split].
    + destruct H as [ts l f Hs|sp ts l f Hs].
      * destruct (segments_read _ _ _ _ HE Hs Hw). now constructor.
      * do 2 (apply wf_cons in Hw; destruct Hw as [_ Hw]). destruct (segments_read _ _ _ _ HE Hs Hw). now constructor.
    + intros s Hs. exfalso. destruct p as [[|] [|[i [| |]] [|]]]; try discriminate. apply Hns. now exists i.
    + intros Hi. destruct H; [reflexivity|contradiction].
  - destruct (name_read _ _ _ Hn Hw) as (N1 & N2 & N3). inversion Hk as [Hu| | | |]; subst. split; [|split].
    + apply to_name; [eapply ident_ok_raw; eauto|]. destruct Hi as [_ ->]. now apply snake_upper.
    + intros s [= <-]. destruct Hi as [_ ->]. cbn [i_name]. rewrite snake_ends. eapply stops_weaken; eauto.
    + reflexivity.
  - destruct (name_read _ _ _ Hn Hw) as (N1 & N2 & N3). pose proof (ident_ok_raw _ _ N1 Hi) as Hr. destruct Hi as [_ ->].
    inversion Hk as [| | | |Hu Hs Hd Hm]; subst. rewrite (no_dash_snake _ Hd) in *. split; [now constructor|split; [|intros; exact I]].
    intros s [= <-]. exact N2.
  - destruct (name_read _ _ _ Hn Hw) as (N1 & N2 & N3). pose proof (ident_ok_raw _ _ N1 Hi) as Hr. destruct Hi as [_ ->].
    inversion Hk as [|Hu Hs| | |]; subst. pose proof (svg_no_dash _ Hs) as Hd. rewrite (no_dash_snake _ Hd) in *.
    split; [now constructor|split; [|intros; exact I]]. intros s [= <-]. exact N2.
  - destruct (name_read _ _ _ Hn Hw) as (N1 & N2 & N3). pose proof (ident_ok_raw _ _ N1 Hi) as Hr. destruct Hi as [_ ->].
    pose proof (math_no_dash _ Hk) as Hd. rewrite (no_dash_snake _ Hd) in *.
    split; [now constructor|split; [|intros; exact I]]. intros s [= <-]. exact N2.
  - destruct (name_read _ _ _ Hn Hw) as (N1 & N2 & N3). split; [now constructor|split].
    + intros s [= <-]. exact N2.
    + apply N3.
Qed.

(** The first token after a tag. *)
Lemma end_head C ts a c f : element_end C ts a c -> no_path (ts ++ f).
Proof.
  intros H. destruct H as [sp|b cs Hb|sp args sp' b cs Hp Hb]; [| |]; try destruct Hb; cbn; split; intros [sp0 Hx]; discriminate.
Qed.
Lemma attr_head ts a f g : attr_phrase ts a f -> no_path (ts ++ g).
Proof.
  intros H. destruct H as [ts k ts' v follow (Hn & _) Hv _|ts k v follow H|sp ts follow|i sp ks k ms m vs v follow Hk Hm Hv|i sp ks k v ms m follow H Hm];
    [destruct Hn|destruct H|..]; cbn; split; intros [sp0 Hx]; discriminate.
Qed.
Lemma attrs_head ts l f g : attrs_phrase ts l f -> no_path g -> no_path (ts ++ g).
Proof. intros H Hg. destruct H as [|ts a ts' l f Ha H]; [exact Hg|]. rewrite <- app_assoc. eapply attr_head; eauto. Qed.
Lemma selectors_head ts l f g : selectors_phrase ts l f -> no_path g -> no_path (ts ++ g).
Proof.
  intros H Hg. destruct H as [|ts a ts' l f Ha H]; [exact Hg|]. destruct Ha; cbn; split; intros [sp0 Hx]; discriminate.
Qed.

Section Read.
Variable E : env.
Hypothesis HE : env_ok E.

Lemma element_read (C : list tt -> list child -> Prop) ts e f : wf ts ->
  (forall d inner cs, In (TGroup d inner) ts -> C inner cs -> Forall (child_ok E) cs) ->
  element_phrase_g E C ts e f -> element_ok E e /\ (next_ident ts -> starts_word (el_tag e)).
Proof.
  intros Hw HC H. destruct H as [ts1 t ts2 sels ts3 attrs ts4 args cs follow H1 H2 H3 H4].
  apply wf_app in Hw. destruct Hw as [W1 Hw]. apply wf_app in Hw. destruct Hw as [W2 Hw]. apply wf_app in Hw. destruct Hw as [W3 W4].
  assert (Hnp : no_path (ts2 ++ ts3 ++ ts4 ++ follow)).
  { eapply selectors_head; [exact H2|]. eapply attrs_head; [exact H3|]. eapply end_head; eassumption. }
  destruct (tag_read _ _ _ _ HE H1 W1 Hnp) as (T1 & T2 & T3).
  destruct (selectors_read _ _ _ H2 W2) as (S1 & S2). destruct (attrs_read _ _ _ H3 W3) as (A1 & A2).
  split.
  - constructor; [exact T1|exact S1|exact A1| | |].
    + apply A2. unfold name_before. apply S2. exact T2.
    + inversion H4 as [sp|b c0 Hb|sp a0 sp' b c0 Hp Hb]; subst; [exact I|exact I|]. split; [discriminate|].
      exists a0. split; [reflexivity|split; [|exact Hp]]. apply wf_cons in W4. destruct W4 as [_ W4]. apply wf_app in W4. apply W4.
    + assert (HC4 : forall b c0, (exists pre, ts4 = pre ++ b) -> block C b c0 -> Forall (child_ok E) c0).
      { intros b c0 (pre & ->) Hb. inversion Hb; subst; (eapply HC; [|eassumption]); rewrite !in_app_iff; do 4 right; now left. }
      intros c Hc. inversion H4 as [sp|b c0 Hb|sp a0 sp' b c0 Hp Hb]; subst; [destruct Hc|..].
      * apply (Forall_forall (child_ok E) c0); auto. eapply HC4; [|eassumption]. now exists [].
      * apply (Forall_forall (child_ok E) c0); auto. eapply HC4; [|eassumption]. exists (TPunct "|" sp :: a0 ++ [TPunct "|" sp']).
        cbn [app]. now rewrite <- app_assoc.
  - cbn [el_tag]. destruct ts1 as [|t1 ts1].
    + exfalso. inversion H1; subst; try (match goal with h : name [] _ _ |- _ => destruct h as [h _]; inversion h end).
      match goal with h : path_phrase _ [] _ _ |- _ => inversion h as [a b c Hs|]; subst end.
      inversion Hs as [x1 x2 x3 Hseg _ E1|x1 x2 x3 x4 x5 x6 Hseg _ E1]; subst; [inversion Hseg|].
      apply app_eq_nil in E1. destruct E1. discriminate.
    + exact T3.
Qed.
Lemma child_read (C : list tt -> list child -> Prop) ts c f : wf ts ->
  (forall d inner cs, In (TGroup d inner) ts -> C inner cs -> Forall (child_ok E) cs) ->
  child_phrase_g E C ts c f -> child_ok E c.
Proof.
  intros Hw HC H. destruct H as [ts v follow H Hl|ts e follow H Hi Hs Hn|sp ts e follow Hp H].
  - constructor; [eapply value_read; eauto|exact Hl].
  - destruct (element_read _ _ _ _ Hw HC H) as [H1 H2]. constructor; auto.
  - do 2 (apply wf_cons in Hw; destruct Hw as [_ Hw]). apply co_slot. eapply element_read; [exact Hw| |exact H].
    intros d inner cs Hin. apply HC with d. right. right. exact Hin.
Qed.
Theorem children_read n : forall ts cs, size ts < n -> wf ts -> children_phrase E ts cs -> Forall (child_ok E) cs.
Proof.
  induction n as [|n IH]; intros ts cs Hn Hw H; [lia|]. induction H as [|ts c ts' cs Hc H IHc] using children_phrase_ind; constructor;
    pose proof Hw as Hw'; apply wf_app in Hw'; destruct Hw' as [W1 W2].
  - apply child_phrase_g_iff in Hc. eapply child_read; [exact W1| |eassumption].
    intros d inner cs' Hin. assert (Hsz := in_group_size d inner (ts ++ ts') (in_or_app _ _ _ (or_introl Hin))).
    apply IH; [lia|]. unfold wf in W1. rewrite Forall_forall in W1. apply W1 in Hin. now apply wf_group in Hin.
  - apply IHc; [rewrite size_app in Hn; lia|exact W2].
Qed.
End Read.
