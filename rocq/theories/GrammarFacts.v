(** Each reader of Parse.v against its grammar relation (clean successes). *)
From Verif Require Export KebabFacts.

Lemma phrase_prefix a b : name_phrase (a ++ b) -> a <> [] -> name_phrase a.
Proof.
  intros H Ha. destruct a as [|t a]; [congruence|]. cbn in H.
  inversion H; subst; apply run_split in H1; destruct H1 as (m & ? & ?); econstructor; eauto.
Qed.

Lemma app_eq_cases {A} (a b c d : list A) : a ++ b = c ++ d ->
  (exists x, c = a ++ x /\ b = x ++ d) \/ (exists x, a = c ++ x /\ d = x ++ b).
Proof.
  revert c. induction a as [|t a IH]; cbn; intros c H.
  - left. exists c. auto.
  - destruct c as [|t' c]; cbn in H.
    + right. exists (t :: a). auto.
    + injection H as -> H. destruct (IH _ H) as [(x & -> & ->)|(x & -> & ->)]; [left|right]; exists x; auto.
Qed.

Lemma phrase_nonempty a : name_phrase a -> a <> [].
Proof. intros []; discriminate. Qed.

(** The longest name at the start of a stream is unique. *)
Lemma longest_unique a b a' b' :
  a ++ b = a' ++ b' -> name_phrase a -> name_ends a b -> name_phrase a' -> name_ends a' b' ->
  a = a' /\ b = b'.
Proof.
  intros H Ha Hb Ha' Hb'.
  apply app_eq_cases in H. destruct H as [(x & -> & ->)|(x & -> & ->)].
  - destruct x as [|t x]; [now rewrite app_nil_r|]. exfalso. cbn in Hb. apply Hb.
    change (t :: x) with ([t] ++ x) in Ha'. rewrite app_assoc in Ha'.
    eapply phrase_prefix; eauto. destruct a; discriminate.
  - destruct x as [|t x]; [now rewrite app_nil_r|]. exfalso. cbn in Hb'. apply Hb'.
    change (t :: x) with ([t] ++ x) in Ha. rewrite app_assoc in Ha.
    eapply phrase_prefix; eauto. destruct a'; discriminate.
Qed.

Lemma phrase_starts a r : name_phrase a -> starts_name (a ++ r).
Proof. intros []; cbn; [left; exact I|right; red; eauto]. now exists sp. Qed.

Lemma starts_phrase ts : starts_name ts -> exists t r, ts = t :: r /\ name_phrase [t].
Proof.
  intros [H|H]; destruct ts as [|t r]; try contradiction; exists t, r; split; auto.
  - destruct t; try contradiction. econstructor. constructor.
  - destruct H as [sp ->]. eapply name_dash. constructor.
Qed.

Definition wf_head (ts : list tt) : Prop := match ts with t :: _ => wf_tt t | [] => True end.
Lemma wf_wf_head ts : wf ts -> wf_head ts.
Proof. destruct 1; cbn; auto. Qed.

(** Full description of [parse_kebab]. *)
Lemma parse_kebab_cases ts : wf_head ts ->
  (exists used rest, ts = used ++ rest /\ name_phrase used /\ name_ends used rest /\
     parse_kebab ts = name_result used rest) \/
  (~ starts_name ts /\ parse_kebab ts = PR (Fail (EKebab (found_in ts))) ts []).
Proof.
  intros Hwf.
  assert (Hdec : starts_name ts \/ ~ starts_name ts).
  { unfold starts_name. destruct (dash_dec ts) as [[? (sp & r & _ & ->)]|Hd].
    - left; right. red. eexists; reflexivity.
    - destruct ts as [|[| | |] ?]; cbn in *; tauto. }
  destruct Hdec as [Hs|Hs].
  - left. destruct (parse_kebab_run ts Hwf Hs) as (used & rest & e & -> & Hp & Hst & Heq).
    exists used, rest. repeat split; auto.
    + apply name_phrase_end. eauto.
    + eapply name_ends_iff; eauto.
  - right. split; auto. now apply parse_kebab_fail.
Qed.

Lemma parse_kebab_iff ts k r d : wf_head ts ->
  parse_kebab ts = PR (Ret k) r d <->
  exists used, ts = used ++ r /\ name_phrase used /\ name_ends used r /\
    k = Kebab (name_text used) (section_count used) /\ d = raw_diags (tl used).
Proof.
  intros Hwf. destruct (parse_kebab_cases ts Hwf) as [(u & rest & -> & Hp & He & Heq)|[Hs Heq]];
    rewrite Heq.
  - split.
    + intros H. inversion H; subst. eauto 10.
    + intros (u' & Hu & Hp' & He' & -> & ->).
      destruct (longest_unique _ _ _ _ Hu Hp He Hp' He') as [-> ->]. reflexivity.
  - split; [discriminate|]. intros (u & -> & Hp & _). exfalso. apply Hs. now apply phrase_starts.
Qed.

Lemma parse_kebab_ok ts k r : wf_head ts ->
  parse_kebab on ts >> k, r <-> exists used, ts = used ++ r /\ name used k r.
Proof.
  intros Hwf. rewrite (parse_kebab_iff ts k r [] Hwf). unfold name.
  split; intros (u & H); exists u; rewrite <- raw_diags_nil in *; intuition congruence.
Qed.

Lemma parse_kebab_fails ts e r d : wf_head ts ->
  parse_kebab ts = PR (Fail e) r d <-> ~ starts_name ts /\ e = EKebab (found_in ts) /\ r = ts /\ d = [].
Proof.
  intros Hwf. destruct (parse_kebab_cases ts Hwf) as [(u & rest & -> & Hp & He & Heq)|[Hs Heq]];
    rewrite Heq.
  - split; [discriminate|]. intros [H _]. exfalso. apply H. now apply phrase_starts.
  - split; [intros H; inversion H; subst; auto | intros (_ & -> & -> & ->); reflexivity].
Qed.

(** ** Snake identifiers *)

Lemma dashes_snake s : dashes_to_underscores s = snake_name s.
Proof.
  unfold snake_name, unchars, chars. induction s as [|c s IH]; cbn; [reflexivity|].
  rewrite IH. destruct (ascii_dec c "-") as [->|Hc].
  - reflexivity.
  - destruct (Ascii.eqb c "-") eqn:He; [apply Ascii.eqb_eq in He; congruence|reflexivity].
Qed.

Lemma existsb_In s l : existsb (String.eqb s) l = true <-> In s l.
Proof.
  rewrite existsb_exists. split.
  - intros (x & H & He). apply String.eqb_eq in He. now subst.
  - intros H. exists s. split; auto. apply String.eqb_refl.
Qed.
Lemma existsb_In_f s l : existsb (String.eqb s) l = false <-> ~ In s l.
Proof. rewrite <- existsb_In. destruct (existsb _ l); split; congruence. Qed.

Lemma not_raw_able_iff s : In s not_raw_able <-> In s ("" :: reserved_words).
Proof. cbn. tauto. Qed.

Lemma new_raw_iff s i : new_raw s = Some i <-> ~ In s ("" :: reserved_words) /\ i = Id true s.
Proof.
  unfold new_raw. destruct (existsb (String.eqb s) not_raw_able) eqn:H.
  - apply existsb_In, not_raw_able_iff in H. split; [discriminate|tauto].
  - apply existsb_In_f in H. rewrite not_raw_able_iff in H. split; [|intros [_ ->]; reflexivity].
    intros He; inversion He; auto.
Qed.

Lemma to_snake_iff k i : to_snake_ident k = Some i <-> name_ident_ok k i.
Proof. unfold to_snake_ident, name_ident_ok. rewrite dashes_snake. apply new_raw_iff. Qed.

Lemma snake_ok k i ts r : snake k on ts >> i, r <-> name_ident_ok k i /\ ts = r.
Proof.
  unfold snake, or_panic. rewrite <- to_snake_iff. destruct (to_snake_ident k).
  - rewrite ret_ok. split; intros [? ?]; split; congruence.
  - rewrite ppanic_ok. split; [tauto|]. intros [? ?]; discriminate.
Qed.

(** ** Values *)

Lemma parse_value_run ts : parse_value ts =
  match ts with
  | TGroup Bracket l :: r => PR (Ret (VBracket None l)) r []
  | TIdent i :: TGroup Bracket l :: r => PR (Ret (VBracket (Some i) l)) r []
  | TGroup Brace l :: r => PR (Ret (VBlock l)) r []
  | _ =>
      match take_lit ts with
      | Some (l, r) => PR (Ret (VLit l)) r []
      | None => PR (Fail EValue) ts []
      end
  end.
Proof.
  unfold parse_value. rewrite (bind_run0 (look (peek_group Bracket)) _ ts _ _ eq_refl).
  destruct (peek_group Bracket ts) eqn:H1.
  { destruct ts as [|[| | |[] ?] ?]; try discriminate. reflexivity. }
  rewrite (bind_run0 (look (fun ts0 => peek_any ts0 && peek2 (peek_group Bracket) ts0)) _ ts _ _ eq_refl).
  cbn beta. destruct (peek_any ts && peek2 (peek_group Bracket) ts) eqn:H2.
  { destruct ts as [|[| | |] [|[| | |[] ?] ?]]; try discriminate. reflexivity. }
  rewrite (bind_run0 (look (peek_group Brace)) _ ts _ _ eq_refl).
  destruct (peek_group Brace ts) eqn:H3.
  { destruct ts as [|[| | |[] ?] ?]; try discriminate. reflexivity. }
  rewrite (bind_run0 (look peek_lit) _ ts _ _ eq_refl).
  assert (H : (if peek_lit ts then (l <- unwrap parse_lit ;; ret (VLit l))%parse else fail EValue) ts =
          match take_lit ts with
          | Some (l, r) => PR (Ret (VLit l)) r []
          | None => PR (Fail EValue) ts []
          end).
  { unfold peek_lit. destruct (take_lit ts) as [[l r]|] eqn:Ht; [|reflexivity].
    unfold bind, unwrap, parse_lit. rewrite Ht. reflexivity. }
  rewrite H. destruct ts as [|[i| | |[] ?] r]; try discriminate; auto.
  destruct r as [|[| | |[] ?] r]; auto. discriminate.
Qed.

Lemma parse_value_cases ts :
  (exists used v r, ts = used ++ r /\ value_phrase used v r /\ parse_value on ts >> v, r) \/
  ((forall used v r, ts = used ++ r -> ~ value_phrase used v r) /\
   parse_value ts = PR (Fail EValue) ts []).
Proof.
  assert (Hid : forall i, (ident_is i "true" = true -> i = Id false "true") /\
                          (ident_is i "false" = true -> i = Id false "false")).
  { intros i; split; apply ident_is_eq; no_raw. }
  destruct ts as [|[i|c sp|k s|d l] r].
  - right. split; [|reflexivity]. intros u v r H. symmetry in H. apply app_nil_inv in H.
    destruct H as [-> ->]. intros H; inversion H.
  - (* identifier *)
    destruct (peek_group Bracket r) eqn:Hb.
    + left. destruct r as [|[| | |[] l] r]; try discriminate.
      exists [TIdent i; TGroup Bracket l], (VBracket (Some i) l), r.
      split; [reflexivity|]. split; [constructor|]. reflexivity.
    + apply peek_group_f in Hb.
      assert (Hrun : parse_value (TIdent i :: r) =
        match take_lit (TIdent i :: r) with
        | Some (l, r) => PR (Ret (VLit l)) r []
        | None => PR (Fail EValue) (TIdent i :: r) []
        end).
      { rewrite parse_value_run. destruct r as [|[| | |[] ?] r]; auto. exfalso. now apply Hb. }
      destruct (ident_is i "true") eqn:Ht; [|destruct (ident_is i "false") eqn:Hf].
      * left. exists [TIdent i], (VLit (LitBool true)), r. apply Hid in Ht. subst i.
        split; [reflexivity|]. split; [now constructor|]. now rewrite Hrun.
      * left. exists [TIdent i], (VLit (LitBool false)), r. apply Hid in Hf. subst i.
        split; [reflexivity|]. split; [now constructor|]. now rewrite Hrun.
      * right. split.
        -- intros u v r' Hu Hv. inversion Hv; subst; cbn in Hu; inversion Hu; subst; try discriminate.
           now apply Hb.
        -- rewrite Hrun. cbn. now rewrite Ht, Hf.
  - (* punctuation *)
    assert (Hrun : parse_value (TPunct c sp :: r) =
        match take_lit (TPunct c sp :: r) with
        | Some (l, r) => PR (Ret (VLit l)) r []
        | None => PR (Fail EValue) (TPunct c sp :: r) []
        end).
    { exact (parse_value_run (TPunct c sp :: r)). }
    assert (Hno : (forall k s r', TPunct c sp :: r = TPunct "-" sp :: TLit k s :: r' -> ~ (k = LkInt \/ k = LkFloat)) ->
                  forall used v r', TPunct c sp :: r = used ++ r' -> ~ value_phrase used v r').
    { intros Hn u v r' Hu Hv. inversion Hv; subst; cbn in Hu; inversion Hu; subst.
      eapply Hn; eauto. }
    destruct (ascii_dec c "-") as [->|Hc].
    + destruct r as [|[|?|k s|] r]; try (right; rewrite Hrun; split; [apply Hno; discriminate|reflexivity]).
      destruct k; try (right; rewrite Hrun; split; [apply Hno; intros ? ? ? He; inversion He; subst;
                          intros [|]; discriminate|reflexivity]).
      * left. eexists [_; _], _, r. split; [reflexivity|]. split; [constructor; auto|]. now rewrite Hrun.
      * left. eexists [_; _], _, r. split; [reflexivity|]. split; [constructor; auto|]. now rewrite Hrun.
    + right. split; [apply Hno; intros ? ? ? He; inversion He; congruence|].
      rewrite Hrun. unfold take_lit. destruct r as [|[| |k s|] r]; auto.
      destruct (Ascii.eqb c "-") eqn:Hq; auto. apply Ascii.eqb_eq in Hq; congruence.
  - left. exists [TLit k s], (VLit (LitTok k s)), r. split; [reflexivity|]. split; [constructor|]. reflexivity.
  - destruct d.
    + right. split; [|reflexivity]. intros u v r' Hu Hv.
      inversion Hv; subst; cbn in Hu; inversion Hu.
    + left. exists [TGroup Bracket l], (VBracket None l), r. split; [reflexivity|]. split; [constructor|]. reflexivity.
    + left. exists [TGroup Brace l], (VBlock l), r. split; [reflexivity|]. split; [constructor|]. reflexivity.
Qed.

Lemma value_phrase_det ts u v r u' v' r' :
  ts = u ++ r -> value_phrase u v r -> ts = u' ++ r' -> value_phrase u' v' r' ->
  u = u' /\ v = v' /\ r = r'.
Proof.
  intros H1 H2 -> H4. inversion H2; subst; inversion H4; subst; cbn in *;
    try discriminate; inversion H1; subst; auto;
    try (exfalso; match goal with h : ~ next_group Bracket _ |- _ => apply h; reflexivity end).
Qed.

Lemma parse_value_ok ts v r :
  parse_value on ts >> v, r <-> exists used, ts = used ++ r /\ value_phrase used v r.
Proof.
  destruct (parse_value_cases ts) as [(u & v' & r' & Hts & Hp & Heq)|[Hn Heq]]; rewrite Heq.
  - split.
    + intros H; inversion H; subst. eauto.
    + intros (u' & Hts' & Hp'). destruct (value_phrase_det _ _ _ _ _ _ _ Hts Hp Hts' Hp') as (_ & -> & ->).
      reflexivity.
  - split; [discriminate|]. intros (u & Hts & Hp). exfalso. eapply Hn; eauto.
Qed.

Lemma parse_value_fails ts e r d :
  parse_value ts = PR (Fail e) r d ->
  d = [] /\ r = ts /\ forall used v r, ts = used ++ r -> ~ value_phrase used v r.
Proof.
  destruct (parse_value_cases ts) as [(u & v' & r' & Hts & Hp & Heq)|[Hn Heq]]; rewrite Heq;
    intros H; inversion H; subst; auto.
Qed.

Lemma parse_or_emit_ok ts v r :
  parse_or_emit_err on ts >> v, r <-> exists used, ts = used ++ r /\ value_phrase used v r.
Proof.
  unfold parse_or_emit_err. rewrite bind_ok. split.
  - intros ([v'|] & r1 & H1 & H2).
    + rewrite rollback_some in H1. apply ret_ok in H2. destruct H2 as [-> ->].
      now apply parse_value_ok.
    + apply bind_ok in H2. destruct H2 as (? & ? & _ & H2). apply bind_ok in H2.
      destruct H2 as (? & ? & H2 & _). now apply emit_ok in H2.
  - intros H. apply parse_value_ok in H. exists (Some v), r.
    rewrite rollback_some, ret_ok. auto.
Qed.

(** ** Optional parts *)

Lemma rollback_punct_some c ts u r : c <> "'"%char ->
  rollback_err (parse_punct (String c "")) on ts >> Some u, r <-> exists sp, ts = TPunct c sp :: r.
Proof. intros Hc. rewrite rollback_some. now apply parse_punct1. Qed.

Lemma rollback_punct_none c ts r : c <> "'"%char ->
  rollback_err (parse_punct (String c "")) on ts >> None, r <-> r = ts /\ ~ next_punct c ts.
Proof.
  intros Hc. rewrite rollback_none. split.
  - intros (-> & e & r' & H). split; auto. intros Hn.
    destruct ts as [|t ts]; [contradiction|]. destruct Hn as [sp ->].
    rewrite parse_punct1_run in H; auto. discriminate.
  - intros [-> Hn]. split; auto. rewrite parse_punct1_fail; eauto.
Qed.

Lemma opt_value_ok {A} (f : option value -> A) ts a r :
  (eq <- rollback_err (parse_punct "=") ;;
   match eq with
   | Some _ => v <- parse_or_emit_err ;; ret (f (Some v))
   | None => ret (f None)
   end)%parse on ts >> a, r <->
  exists used v, ts = used ++ r /\ opt_value used v r /\ a = f v.
Proof.
  rewrite bind_ok. split.
  - intros ([u|] & r1 & H1 & H2).
    + apply rollback_punct_some in H1; [|discriminate]. destruct H1 as [sp ->].
      apply bind_ok in H2. destruct H2 as (v & r2 & H2 & H3). apply ret_ok in H3. destruct H3; subst.
      apply parse_or_emit_ok in H2. destruct H2 as (u' & -> & Hv).
      exists (TPunct "=" sp :: u'), (Some v). repeat split; auto. now constructor.
    + apply rollback_punct_none in H1; [|discriminate]. destruct H1 as [-> Hn].
      apply ret_ok in H2. destruct H2; subst. exists [], None. repeat split; auto. now constructor.
  - intros (u & v & -> & Hv & ->). inversion Hv; subst.
    + exists None, r. split; [|now apply ret_ok]. apply rollback_punct_none; [discriminate|]. auto.
    + exists (Some Datatypes.tt), (ts ++ r). split.
      * apply rollback_punct_some; [discriminate|]. eexists; reflexivity.
      * apply bind_ok. exists v0, r. split; [|now apply ret_ok]. apply parse_or_emit_ok. eauto.
Qed.

Lemma try_parse_modifier_ok ts m r :
  try_parse_modifier on ts >> m, r <-> exists used, ts = used ++ r /\ opt_modifier used m r.
Proof.
  unfold try_parse_modifier. rewrite bind_ok. split.
  - intros ([u|] & r1 & H1 & H2).
    + apply rollback_punct_some in H1; [|discriminate]. destruct H1 as [sp ->].
      apply bind_ok in H2. destruct H2 as (v & r2 & H2 & H3). apply ret_ok in H3. destruct H3; subst.
      apply parse_any_ok in H2. subst. eexists [_; _]. split; [reflexivity|constructor].
    + apply rollback_punct_none in H1; [|discriminate]. destruct H1 as [-> Hn].
      apply ret_ok in H2. destruct H2; subst. exists []. split; auto. now constructor.
  - intros (u & -> & Hv). inversion Hv; subst.
    + exists None, r. split; [|now apply ret_ok]. apply rollback_punct_none; [discriminate|]. auto.
    + exists (Some Datatypes.tt), (TIdent i :: r). split.
      * apply rollback_punct_some; [discriminate|]. eexists; reflexivity.
      * apply bind_ok. exists i, r. split; [|now apply ret_ok]. now apply parse_any_ok.
Qed.

(** ** Keys and shorthands *)

Lemma parse_lit_str_cases ts :
  (exists s r, ts = TLit LkStr s :: r /\ parse_lit_str on ts >> s, r) \/
  ((forall s r, ts <> TLit LkStr s :: r) /\ exists e r', parse_lit_str ts = PR (Fail e) r' []).
Proof.
  unfold parse_lit_str, take_lit.
  destruct ts as [|[i|c sp|k s|d l] r].
  - right; split; [discriminate|eauto].
  - right; split; [discriminate|]. destruct (ident_is i "true"), (ident_is i "false"); eauto.
  - right; split; [discriminate|]. destruct r as [|[| |k s|] r]; eauto.
    destruct (Ascii.eqb c "-"); eauto. destruct k; eauto.
  - destruct k; try (right; split; [discriminate|eauto]; fail). left. eauto.
  - right; split; [discriminate|eauto].
Qed.

Lemma parse_kebab_or_str_ok ts k r : wf_head ts ->
  parse_kebab_or_str on ts >> k, r <-> exists used, ts = used ++ r /\ key_phrase used k r.
Proof.
  intros Hwf. unfold parse_kebab_or_str. rewrite bind_ok.
  destruct (parse_lit_str_cases ts) as [(s & r0 & -> & Heq)|[Hn (e & r' & Heq)]].
  - split.
    + intros ([s'|] & r1 & H1 & H2).
      * rewrite rollback_some in H1. rewrite Heq in H1. inversion H1; subst.
        apply ret_ok in H2. destruct H2; subst. eexists [_]. split; [reflexivity|constructor].
      * apply rollback_none in H1. destruct H1 as (_ & ? & ? & H1). congruence.
    + intros (u & Hu & Hk). inversion Hk; subst.
      * cbn in Hu. inversion Hu; subst. exists (Some s0), r. rewrite rollback_some, ret_ok. auto.
      * destruct H as (Hp & _). inversion Hp; subst; discriminate.
  - split.
    + intros ([s'|] & r1 & H1 & H2).
      * rewrite rollback_some in H1. congruence.
      * apply rollback_none in H1. destruct H1 as (-> & _). apply bind_ok in H2.
        destruct H2 as (k' & r2 & H2 & H3). apply ret_ok in H3. destruct H3; subst.
        apply parse_kebab_ok in H2; auto. destruct H2 as (u & -> & Hk). exists u. split; auto.
        now constructor.
    + intros (u & Hu & Hk). inversion Hk; subst.
      * exfalso. eapply Hn. cbn. reflexivity.
      * exists None, (u ++ r). split.
        -- apply rollback_none. eauto.
        -- apply bind_ok. exists k0, r. rewrite ret_ok. split; auto.
           apply parse_kebab_ok; eauto.
Qed.

Lemma wf_head_group d l r : wf_head (TGroup d l :: r) -> wf l.
Proof. cbn [wf_head]. apply wf_group. Qed.

Lemma shorthand_ok {A} (f : kebab -> value -> P A) ts a r : wf_head ts ->
  (k <- parse_braced_kebab ;; v <- into_block_value k ;; f k v)%parse on ts >> a, r <->
  exists used k v r1, ts = used ++ r1 /\ shorthand used k v /\ f k v on r1 >> a, r.
Proof.
  intros Hwf. rewrite bind_ok. split.
  - intros (k & r1 & H1 & H2). apply bind_ok in H2. destruct H2 as (v & r2 & H2 & H3).
    unfold into_block_value in H2. apply bind_ok in H2. destruct H2 as (i & r3 & H2 & H4).
    apply snake_ok in H2. apply ret_ok in H4. destruct H2 as [H2 ->], H4 as [<- ->].
    unfold parse_braced_kebab in H1. apply delimited_ok in H1. destruct H1 as (inner & -> & H1).
    apply parse_kebab_ok in H1; [|apply wf_wf_head; eapply wf_head_group; eauto].
    destruct H1 as (u & -> & Hk). rewrite app_nil_r in *.
    exists [TGroup Brace u], k, (VBlock [TIdent i]), r2. split; [reflexivity|]. split; auto. now constructor.
  - intros (u & k & v & r1 & -> & Hs & Hf). inversion Hs; subst.
    exists k, r1. split.
    + apply delimited_ok. exists inner. split; [reflexivity|].
      apply parse_kebab_ok; [apply wf_wf_head; eapply wf_head_group; eauto|].
      exists inner. rewrite app_nil_r. auto.
    + apply bind_ok. exists (VBlock [TIdent i]), r1. split; auto.
      apply bind_ok. exists i, r1. split; [now apply snake_ok|now apply ret_ok].
Qed.

(** ** Key-value attributes *)

Definition kv_of k (v : option value) :=
  KvAttr k match v with Some v => v | None => VLit (LitBool true) end.

Lemma kv_tail_ok k ts a r :
  (eq <- rollback_err (parse_punct "=") ;;
   match eq with
   | Some _ => v <- parse_or_emit_err ;; ret (KvAttr k v)
   | None => ret (KvAttr k new_true)
   end)%parse on ts >> a, r <->
  exists used v, ts = used ++ r /\ opt_value used v r /\ a = kv_of k v.
Proof. exact (opt_value_ok (kv_of k) ts a r). Qed.

Lemma parse_kv_ok ts a r : wf ts ->
  parse_kv on ts >> a, r <->
  (exists used k v, ts = used ++ r /\ shorthand used k v /\ a = KvAttr k v) \/
  (exists used k used' v, ts = used ++ used' ++ r /\ name used k (used' ++ r) /\
                          opt_value used' v r /\ a = kv_of k v).
Proof.
  intros Hwf. unfold parse_kv. rewrite bind_ok. split.
  - intros (b & r1 & H1 & H2). apply look_ok in H1. destruct H1 as [-> <-].
    destruct (peek_group Brace ts) eqn:Hb.
    + left. apply shorthand_ok in H2; [|now apply wf_wf_head].
      destruct H2 as (u & k & v & r1 & -> & Hs & H2). apply ret_ok in H2. destruct H2; subst.
      eauto 10.
    + right. apply bind_ok in H2. destruct H2 as (k & r1 & H2 & H3).
      apply parse_kebab_ok in H2; [|now apply wf_wf_head]. destruct H2 as (u & -> & Hk).
      apply kv_tail_ok in H3. destruct H3 as (u' & v & -> & Hv & ->). eauto 10.
  - intros [(u & k & v & -> & Hs & ->)|(u & k & u' & v & -> & Hk & Hv & ->)].
    + exists true, (u ++ r). split; [apply look_ok; split; auto|].
      * inversion Hs; subst. reflexivity.
      * apply shorthand_ok; [now apply wf_wf_head|]. exists u, k, v, r. split; [reflexivity|]. split; [assumption|reflexivity].
    + exists false, (u ++ u' ++ r). split; [apply look_ok; split; auto|].
      * destruct Hk as (Hp & _). inversion Hp; subst; reflexivity.
      * apply bind_ok. exists k, (u' ++ r). split.
        -- apply parse_kebab_ok; [now apply wf_wf_head|]. eauto.
        -- apply kv_tail_ok. eauto.
Qed.

(** ** Directives *)

Lemma parse_directive_ok ts d r : wf ts ->
  parse_directive on ts >> d, r <->
  exists i sp ts', ts = TIdent i :: TPunct ":" sp :: ts' /\
   ((exists ks k v ms m, ts' = ks ++ ms ++ r /\ shorthand ks k v /\ opt_modifier ms m r /\
       d = Directive i (KKebab k) m (Some v)) \/
    (exists ks k ms m vs v, ts' = ks ++ ms ++ vs ++ r /\ key_phrase ks k (ms ++ vs ++ r) /\
       opt_modifier ms m (vs ++ r) /\ opt_value vs v r /\ d = Directive i k m v)).
Proof.
  intros Hwf. unfold parse_directive. rewrite bind_ok. split.
  - intros (i & r1 & H1 & H2). apply parse_any_ok in H1. subst ts.
    apply bind_ok in H2. destruct H2 as (u & r2 & H1 & H2).
    apply parse_punct1 in H1; [|discriminate]. destruct H1 as [sp ->].
    apply wf_cons in Hwf. destruct Hwf as [_ Hwf]. apply wf_cons in Hwf. destruct Hwf as [_ Hwf].
    exists i, sp, r2. split; auto.
    apply bind_ok in H2. destruct H2 as (b & r3 & H1 & H2). apply look_ok in H1. destruct H1 as [-> <-].
    destruct (peek_group Brace r2) eqn:Hb.
    + left. apply shorthand_ok in H2; [|now apply wf_wf_head].
      destruct H2 as (ks & k & v & r3 & -> & Hs & H2).
      apply bind_ok in H2. destruct H2 as (m & r4 & H2 & H3). apply ret_ok in H3. destruct H3; subst.
      apply try_parse_modifier_ok in H2. destruct H2 as (ms & -> & Hm).
      exists ks, k, v, ms, m. auto.
    + right. apply bind_ok in H2. destruct H2 as (k & r3 & H2 & H3).
      apply parse_kebab_or_str_ok in H2; [|now apply wf_wf_head]. destruct H2 as (ks & -> & Hk).
      apply bind_ok in H3. destruct H3 as (m & r4 & H2 & H3).
      apply try_parse_modifier_ok in H2. destruct H2 as (ms & -> & Hm).
      apply (opt_value_ok (Directive i k m)) in H3. destruct H3 as (vs & v & -> & Hv & ->).
      exists ks, k, ms, m, vs, v. auto.
  - intros (i & sp & ts' & -> & H).
    apply wf_cons in Hwf. destruct Hwf as [_ Hwf]. apply wf_cons in Hwf. destruct Hwf as [_ Hwf].
    exists i, (TPunct ":" sp :: ts'). split; [now apply parse_any_ok|].
    apply bind_ok. exists Datatypes.tt, ts'. split; [apply parse_punct1; [discriminate|eauto]|].
    apply bind_ok. exists (peek_group Brace ts'), ts'. split; [now apply look_ok|].
    destruct H as [(ks & k & v & ms & m & -> & Hs & Hm & ->)
                  |(ks & k & ms & m & vs & v & -> & Hk & Hm & Hv & ->)].
    + assert (peek_group Brace (ks ++ ms ++ r) = true) as -> by (inversion Hs; subst; reflexivity).
      apply shorthand_ok; [now apply wf_wf_head|]. exists ks, k, v, (ms ++ r). split; [reflexivity|]. split; [assumption|].
      apply bind_ok. exists m, r. split; [apply try_parse_modifier_ok; eauto|now apply ret_ok].
    + assert (peek_group Brace (ks ++ ms ++ vs ++ r) = false) as ->.
      { inversion Hk; subst; [reflexivity|]. destruct H as (Hp & _). inversion Hp; subst; reflexivity. }
      apply bind_ok. exists k, (ms ++ vs ++ r).
      split; [apply parse_kebab_or_str_ok; [now apply wf_wf_head|eauto]|].
      apply bind_ok. exists m, (vs ++ r). split; [apply try_parse_modifier_ok; eauto|].
      apply (opt_value_ok (Directive i k m)). eauto.
Qed.

(** ** Attributes *)

Lemma parse_spread_ok ts s r :
  parse_spread on ts >> s, r <->
  exists sp, ts = TGroup Brace (TPunct "." Joint :: TPunct "." sp :: s) :: r.
Proof.
  unfold parse_spread. rewrite bind_ok. split.
  - intros (inner & r1 & H1 & H2). unfold extract in H1.
    destruct ts as [|[| | |[] l] ts]; try discriminate. cbn in H1. inversion H1; subst.
    destruct (take_punct ".." inner) eqn:Ht.
    + apply take_punct2 in Ht; try discriminate. destruct Ht as [sp ->].
      apply ret_ok in H2. destruct H2; subst. eauto.
    + now apply fail_ok in H2.
  - intros [sp ->]. eexists _, r. split; [reflexivity|]. cbn. reflexivity.
Qed.

Lemma parse_attr_step ts : parse_attr ts =
  if peek_any ts && peek2 (peek_punct ":") ts then
    (d <- unwrap_or_abort parse_directive ;; ret (ADir d))%parse ts
  else if peek_ident ts then (kv <- parse_kv ;; ret (AKv kv))%parse ts
  else
    (kv <- rollback_err parse_kv ;;
      match kv with
      | Some kv => ret (AKv kv)
      | None =>
          sp <- rollback_err parse_spread ;;
          match sp with
          | Some sp => ret (ASpread sp)
          | None => fail EAttr
          end
      end)%parse ts.
Proof.
  unfold parse_attr. rewrite (bind_run0 _ _ _ _ _ eq_refl). cbn beta.
  destruct (peek_any ts && peek2 (peek_punct ":") ts); [reflexivity|].
  rewrite (bind_run0 _ _ _ _ _ eq_refl). cbn beta. destruct (peek_ident ts); reflexivity.
Qed.

Lemma dir_test ts : peek_any ts && peek2 (peek_punct ":") ts = true <->
  exists i sp r, ts = TIdent i :: TPunct ":" sp :: r.
Proof.
  rewrite andb_true_iff, peek_any_iff. split.
  - intros [H1 H2]. destruct ts as [|[i| | |] r]; try contradiction.
    unfold peek2 in H2. cbn [skip] in H2. apply peek_punct1 in H2; [|discriminate].
    destruct r as [|t r]; [contradiction|]. destruct H2 as [sp ->]. eauto.
  - intros (i & sp & r & ->). split; cbn; auto.
Qed.

Lemma dir_test_f ts : peek_any ts && peek2 (peek_punct ":") ts = false <->
  (next_ident ts -> ~ next_punct ":" (tl ts)).
Proof.
  rewrite <- not_true_iff_false, dir_test. split.
  - intros H H1 H2. destruct ts as [|[i| | |] r]; try contradiction. cbn in H2.
    destruct r as [|t r]; [contradiction|]. destruct H2 as [sp ->]. eauto.
  - intros H (i & sp & r & ->). apply H; cbn; auto. red. eauto.
Qed.

Lemma name_follow_tl (ts x : list tt) : ts <> [] -> tl (ts ++ x) = tl ts ++ x.
Proof. destruct ts; cbn; congruence. Qed.
Lemma next_ident_app ts x : ts <> [] -> next_ident (ts ++ x) <-> next_ident ts.
Proof. destruct ts; cbn; tauto. Qed.

Lemma name_nonempty ts k f : name ts k f -> ts <> [].
Proof. intros (H & _). now apply phrase_nonempty. Qed.

Lemma parse_kv_brace_fail inner r e r' :
  wf inner ->
  parse_kv (TGroup Brace inner :: r) = PR (Fail e) r' [] ->
  ~ name_phrase inner /\
  forall ts s, inner = ts ++ s -> name_phrase ts -> Forall (fun t => ~ raw_token t) (tl ts).
Proof.
  intros Hwf H. unfold parse_kv in H. rewrite (bind_run0 _ _ _ _ _ eq_refl) in H.
  cbn [peek_group delim_eqb] in H. unfold bind in H at 1.
  unfold parse_braced_kebab in H. unfold delimited at 1 in H. cbn [delim_eqb] in H.
  destruct (parse_kebab_cases inner (wf_wf_head _ Hwf)) as [(u & rest & -> & Hp & He & Heq)|[Hs Heq]].
  - rewrite Heq in H. unfold name_result in H. destruct rest as [|t rest].
    { exfalso. cbn in H. unfold into_block_value, snake, or_panic, bind in H.
      destruct (to_snake_ident _); cbn in H; inversion H. }
    inversion H as [[H0 H1 H2]]. apply raw_diags_nil in H2. split.
    + intros Hn. cbn in He. apply He. change (t :: rest) with ([t] ++ rest) in Hn.
      rewrite app_assoc in Hn. eapply phrase_prefix; eauto. destruct u; discriminate.
    + intros ts s Hts Hp'. apply app_eq_cases in Hts. destruct Hts as [(x & -> & Hx)|(x & -> & Hx)].
      * destruct x as [|t' x]; [now rewrite app_nil_r|]. exfalso. cbn in He.
        cbn in Hx. inversion Hx; subst t'. apply He.
        change (t :: x) with ([t] ++ x) in Hp'. rewrite app_assoc in Hp'.
        eapply phrase_prefix; eauto. destruct u; discriminate.
      * destruct ts as [|t0 ts]; [constructor|]. cbn [tl] in H2 |- *. cbn in H2.
        apply Forall_app in H2. tauto.
  - split.
    + intros Hp. apply Hs. rewrite <- (app_nil_r inner). now apply phrase_starts.
    + intros ts s -> Hp. exfalso. apply Hs. now apply phrase_starts.
Qed.

Lemma parse_kv_brace_fail' inner r :
  wf inner -> ~ name_phrase inner ->
  (forall ts s, inner = ts ++ s -> name_phrase ts -> Forall (fun t => ~ raw_token t) (tl ts)) ->
  exists e r', parse_kv (TGroup Brace inner :: r) = PR (Fail e) r' [].
Proof.
  intros Hwf Hn Hraw. unfold parse_kv. rewrite (bind_run0 _ _ _ _ _ eq_refl).
  cbn [peek_group delim_eqb]. unfold bind at 1.
  unfold parse_braced_kebab, delimited at 1. cbn [delim_eqb].
  destruct (parse_kebab_cases inner (wf_wf_head _ Hwf)) as [(u & rest & -> & Hp & He & Heq)|[Hs Heq]].
  - rewrite Heq. unfold name_result. destruct rest as [|t rest].
    { rewrite app_nil_r in Hn. contradiction. }
    specialize (Hraw u (t :: rest) eq_refl Hp). apply raw_diags_nil in Hraw. rewrite Hraw. eauto.
  - rewrite Heq. eauto.
Qed.

Lemma parse_spread_nofail ts : exists e r, ~ (exists s r, parse_spread on ts >> s, r) ->
  parse_spread ts = PR (Fail e) r [].
Proof.
  unfold parse_spread, bind, extract.
  destruct ts as [|[| | |[] l] ts]; cbn -[take_punct]; eauto.
  destruct (take_punct ".." l) eqn:Ht; cbn; eauto.
  exists EAttr, []. intros H. exfalso. apply H. eauto.
Qed.

Lemma parse_or_emit_total ts : exists v r d, parse_or_emit_err ts = PR (Ret v) r d.
Proof.
  unfold parse_or_emit_err.
  destruct (parse_value_cases ts) as [(u & v & r & _ & _ & Hv)|[_ Hv]].
  - rewrite (bind_run0 _ _ _ _ _ (rollback_nofail _ _ _ _ _ Hv)). unfold ret. eauto.
  - rewrite (bind_run0 _ _ _ _ _ (rollback_fail _ _ _ _ _ Hv)). cbn. eauto.
Qed.

Lemma rollback_punct_total c ts : exists o r, rollback_err (parse_punct c) ts = PR (Ret o) r [].
Proof. unfold rollback_err, parse_punct. destruct (take_punct c ts); eauto. Qed.

Lemma parse_kv_total ts : wf_head ts -> starts_name ts ->
  exists k r d, parse_kv ts = PR (Ret k) r d.
Proof.
  intros Hwf Hs. destruct (parse_kebab_cases ts Hwf) as [(u & rest & Hu & Hp & He & Heq)|[Hs' _]]; [|contradiction].
  unfold parse_kv. rewrite (bind_run0 (look (peek_group Brace)) _ ts _ _ eq_refl).
  assert (peek_group Brace ts = false) as ->.
  { destruct Hs as [Hs|Hs]; destruct ts as [|t ts]; try contradiction;
      [destruct t; try contradiction|destruct Hs as [? ->]]; reflexivity. }
  rewrite (bind_run _ _ _ _ _ _ Heq).
  destruct (rollback_punct_total "=" rest) as (o & r & Ho).
  rewrite (bind_run0 _ _ _ _ _ Ho). destruct o.
  - destruct (parse_or_emit_total r) as (v & r' & d & Hv).
    rewrite (bind_run _ _ _ _ _ _ Hv). cbn. eauto.
  - cbn. eauto.
Qed.

(** No attribute starts here. *)
Lemma parse_attr_end ts : wf ts ->
  (exists e r, parse_attr ts = PR (Fail e) r []) <-> attrs_end ts.
Proof.
  intros Hwf. rewrite parse_attr_step. split.
  - intros (e & r & H).
    destruct (peek_any ts && peek2 (peek_punct ":") ts) eqn:Hd.
    { exfalso. unfold bind, unwrap_or_abort in H. destruct (parse_directive ts) as [[| | | |] ? ?]; discriminate. }
    rewrite dir_test_f in Hd.
    destruct ts as [|t ts]; [exact I|].
    assert (Hkeb : starts_name (t :: ts) ->
       exists k r' d, parse_kv (t :: ts) = PR (Ret k) r' d).
    { apply parse_kv_total. now apply wf_wf_head. }
    destruct t as [i|c sp|k s|d l].
    + exfalso. destruct (Hkeb (or_introl I)) as (kv & r' & dd & Hk).
      destruct (peek_ident (TIdent i :: ts)).
      * rewrite (bind_run _ _ _ _ _ _ Hk) in H. discriminate.
      * rewrite (bind_run _ _ _ _ _ _ (rollback_nofail _ _ _ _ _ Hk)) in H. discriminate.
    + cbn. intros ->. destruct (Hkeb (or_intror (ex_intro _ sp eq_refl))) as (kv & r' & dd & Hk).
      cbn [peek_ident] in H.
      rewrite (bind_run _ _ _ _ _ _ (rollback_nofail _ _ _ _ _ Hk)) in H. discriminate.
    + exact I.
    + destruct d; try exact I. cbn [peek_ident] in H. cbn [attrs_end].
      apply wf_cons in Hwf. destruct Hwf as [Hwl _]. apply wf_group in Hwl.
      unfold rollback_err at 1 in H. unfold bind at 1 in H.
      destruct (parse_kv (TGroup Brace l :: ts)) as [[| | | |] ? dd] eqn:Hkv; try discriminate.
      destruct (parse_spread_nofail (TGroup Brace l :: ts)) as (e' & r' & Hsp).
      unfold bind, rollback_err in H.
      destruct (parse_spread (TGroup Brace l :: ts)) as [[| | | |] ? ?] eqn:Hps; try discriminate.
      cbn in H. inversion H as [[H0 H1 H2]]. rewrite app_nil_r in H2. apply app_nil_inv in H2. destruct H2; subst.
      apply parse_kv_brace_fail in Hkv; auto. destruct Hkv as [Hk1 Hk2].
      repeat split; auto. intros (sp & s & ->).
      unfold parse_spread, bind, extract in Hps. cbn in Hps. discriminate.
  - intros Hend.
    destruct (peek_any ts && peek2 (peek_punct ":") ts) eqn:Hd.
    { apply dir_test in Hd. destruct Hd as (? & ? & ? & ->). contradiction. }
    assert (peek_ident ts = false) as ->.
    { destruct ts as [|[| | |] ?]; try contradiction; reflexivity. }
    assert (Hfail : exists e r, parse_kv ts = PR (Fail e) r []).
    { assert (Hn : ~ starts_name ts -> ~ next_group Brace ts -> exists e r, parse_kv ts = PR (Fail e) r []).
      { intros Hs Hg. unfold parse_kv. rewrite (bind_run0 _ _ _ _ _ eq_refl).
        apply peek_group_f in Hg. rewrite Hg.
        rewrite (bind_fail _ _ _ _ _ _ (parse_kebab_fail _ Hs)). eauto. }
      destruct ts as [|[|c sp|k s|d l] ts]; try contradiction.
      - apply Hn; [intros [[]|[]]|cbn; auto].
      - apply Hn; [intros [[]|[? H]]; inversion H; subst; now apply Hend|cbn; auto].
      - apply Hn; [intros [[]|[? H]]; discriminate|cbn; auto].
      - destruct d.
        + apply Hn; [intros [[]|[? H]]; discriminate|cbn; discriminate].
        + apply Hn; [intros [[]|[? H]]; discriminate|cbn; discriminate].
        + destruct Hend as (H1 & H2 & H3).
          apply wf_cons in Hwf. destruct Hwf as [Hwl _]. apply wf_group in Hwl.
          now apply parse_kv_brace_fail'. }
    destruct Hfail as (e & r & Hfail).
    rewrite (bind_run0 _ _ _ _ _ (rollback_fail _ _ _ _ _ Hfail)). cbn iota.
    destruct (parse_spread_nofail ts) as (e' & r' & Hsp).
    assert (Hsp' : parse_spread ts = PR (Fail e') r' []).
    { apply Hsp. intros (s & r0 & Hs). apply parse_spread_ok in Hs. destruct Hs as [sp ->].
      destruct Hend as (_ & Hend & _). apply Hend. red. eauto. }
    rewrite (bind_run0 _ _ _ _ _ (rollback_fail _ _ _ _ _ Hsp')). unfold fail. eauto.
Qed.

Lemma parse_attr_ok ts a r : wf ts ->
  parse_attr on ts >> a, r <-> exists used, ts = used ++ r /\ attr_phrase used a r.
Proof.
  intros Hwf. rewrite parse_attr_step.
  destruct (peek_any ts && peek2 (peek_punct ":") ts) eqn:Hd.
  - (* directive *)
    apply dir_test in Hd. destruct Hd as (i0 & sp0 & r0 & Hts). split.
    + intros H. apply bind_ok in H. destruct H as (d & r1 & H1 & H2).
      rewrite unwrap_or_abort_ok in H1. apply ret_ok in H2. destruct H2; subst.
      apply parse_directive_ok in H1; auto.
      destruct H1 as (i & sp & ts' & Heq & [(ks & k & v & ms & m & -> & Hs & Hm & ->)
                  |(ks & k & ms & m & vs & v & -> & Hk & Hm & Hv & ->)]); rewrite Heq.
      * exists (TIdent i :: TPunct ":" sp :: ks ++ ms). split; [cbn; now rewrite <- app_assoc|].
        now constructor.
      * exists (TIdent i :: TPunct ":" sp :: ks ++ ms ++ vs). split; [cbn; now rewrite <- !app_assoc|].
        now constructor.
    + intros (u & Hu & Ha). apply bind_ok.
      assert (Hdir : forall d, (exists i sp ts', ts = TIdent i :: TPunct ":" sp :: ts' /\
         ((exists ks k v ms m, ts' = ks ++ ms ++ r /\ shorthand ks k v /\ opt_modifier ms m r /\
             d = Directive i (KKebab k) m (Some v)) \/
          (exists ks k ms m vs v, ts' = ks ++ ms ++ vs ++ r /\ key_phrase ks k (ms ++ vs ++ r) /\
             opt_modifier ms m (vs ++ r) /\ opt_value vs v r /\ d = Directive i k m v))) ->
         a = ADir d -> exists a0 r1, unwrap_or_abort parse_directive on ts >> a0, r1 /\
                                     ret (ADir a0) on r1 >> a, r).
      { intros d Hdd ->. exists d, r. rewrite unwrap_or_abort_ok, ret_ok. split; auto.
        now apply parse_directive_ok. }
      inversion Ha; subst a.
      * (* kv: excluded *)
        exfalso. subst u. rewrite <- app_assoc in Hu. rewrite Hts in Hu.
        pose proof (name_nonempty _ _ _ H) as Hne. destruct ts0 as [|t0 ts0]; [congruence|].
        cbn in Hu. inversion Hu; subst. apply H1; cbn; auto. rewrite <- H5. now exists sp0.
      * exfalso. inversion H; subst. discriminate.
      * subst. discriminate.
      * eapply Hdir; eauto. rewrite Hu, <- H2. cbn. rewrite <- !app_assoc. eauto 20.
      * eapply Hdir; eauto. rewrite Hu, <- H1. cbn. rewrite <- !app_assoc. eauto 20.
  - assert (Hd' := Hd). rewrite dir_test_f in Hd.
    (* a key-value attribute or a spread *)
    assert (Hkv : forall kv, parse_kv on ts >> kv, r <->
                             exists used, ts = used ++ r /\ attr_phrase used (AKv kv) r).
    { intros kv. rewrite parse_kv_ok; auto. split.
      - intros [(u & k & v & -> & Hs & ->)|(u & k & u' & v & -> & Hk & Hv & ->)].
        + exists u. split; auto. now constructor.
        + exists (u ++ u'). split; [now rewrite <- app_assoc|]. constructor; auto.
          pose proof (name_nonempty _ _ _ Hk) as Hne.
          rewrite next_ident_app, name_follow_tl in Hd; auto.
      - intros (u & -> & Ha). inversion Ha; subst.
        + right. exists ts, k, ts', v. rewrite <- app_assoc. unfold kv_of. auto.
        + left. exists u, k, v. auto. }
    assert (Hother : forall used, ts = used ++ r -> attr_phrase used a r ->
              (exists kv, a = AKv kv) \/ (exists s sp, a = ASpread s /\
                 used = [TGroup Brace (TPunct "." Joint :: TPunct "." sp :: s)])).
    { intros used -> Ha. inversion Ha; subst; eauto.
      - exfalso. apply Hd; cbn; auto. red; eauto.
      - exfalso. apply Hd; cbn; auto. red; eauto. }
    destruct (peek_ident ts) eqn:Hpi.
    + (* starts with an identifier *)
      rewrite bind_ok. split.
      * intros (kv & r1 & H1 & H2). apply ret_ok in H2. destruct H2; subst. now apply Hkv.
      * intros (u & Hu & Ha). destruct (Hother _ Hu Ha) as [[kv ->]|(s & sp & -> & ->)].
        -- exists kv, r. rewrite ret_ok. split; auto. apply Hkv. eauto.
        -- subst. discriminate.
    + rewrite bind_ok. split.
      * intros ([kv|] & r1 & H1 & H2).
        -- rewrite rollback_some in H1. apply ret_ok in H2. destruct H2; subst. now apply Hkv.
        -- apply rollback_none in H1. destruct H1 as (-> & _). apply bind_ok in H2.
           destruct H2 as ([s|] & r1 & H1 & H2).
           ++ rewrite rollback_some in H1. apply ret_ok in H2. destruct H2; subst.
              apply parse_spread_ok in H1. destruct H1 as [sp ->]. eexists [_]. split; [reflexivity|].
              constructor.
           ++ now apply fail_ok in H2.
      * intros (u & Hu & Ha). destruct (Hother _ Hu Ha) as [[kv ->]|(s & sp & -> & ->)].
        -- exists (Some kv), r. rewrite rollback_some, ret_ok. split; auto. apply Hkv. eauto.
        -- exists None, ts. split.
           ++ apply rollback_none. split; auto. rewrite Hu. cbn [app].
              rewrite Hu in Hwf. apply wf_cons in Hwf. destruct Hwf as [Hwl _].
              apply parse_kv_brace_fail'; [now apply wf_group in Hwl| |].
              ** intros Hp. inversion Hp.
              ** intros x y Hx Hp. destruct x as [|t x]; [inversion Hp|]. cbn in Hx. inversion Hx; subst.
                 inversion Hp.
           ++ apply bind_ok. exists (Some s), r. rewrite rollback_some, ret_ok. split; auto.
              apply parse_spread_ok. subst. cbn. eauto.
Qed.
