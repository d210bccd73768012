(** Reading names, values, attributes and selectors of any token stream. *)
From Verif Require Export SpecBroken SpellFacts.
From Verif Require Import KebabFacts GrammarFacts GrammarFacts2 TagFacts PlacedFacts SpecStr SpecGrammar.
Open Scope list_scope.
Open Scope sparse_scope.

(** ** Running *)

Lemma here_place sc ts : here sc ts = next_place sc ts.
Proof. now destruct ts as [|[] ts]. Qed.
Lemma bind_inv_d {A B} (m : SP A) (f : A -> SP B) sc ts b r d : sbind m f sc ts = SPR (SRet b) r d ->
  exists a r1 d1 d2, m sc ts = SPR (SRet a) r1 d1 /\ f a sc r1 = SPR (SRet b) r d2 /\ d = d1 ++ d2.
Proof.
  unfold sbind. destruct (m sc ts) as [[a| | | |] r1 d1]; try discriminate.
  destruct (f a sc r1) as [o r2 d2] eqn:Ef. cbn. intros [= -> -> <-]. eauto 8.
Qed.
Lemma run_bind {A B} (m : SP A) (f : A -> SP B) sc ts a r d o r' d' :
  m sc ts = SPR (SRet a) r d -> f a sc r = SPR o r' d' -> sbind m f sc ts = SPR o r' (d ++ d').
Proof. intros H H'. unfold sbind. now rewrite H, H'. Qed.
Lemma run_bind0 {A B} (m : SP A) (f : A -> SP B) sc ts a r : m sc ts = SPR (SRet a) r [] -> sbind m f sc ts = f a sc r.
Proof. intros H. unfold sbind. rewrite H. now destruct (f a sc r). Qed.
Lemma run_fail {A B} (m : SP A) (f : A -> SP B) sc ts e s r d : m sc ts = SPR (SFail e s) r d ->
  sbind m f sc ts = SPR (SFail e s) r d.
Proof. intros H. unfold sbind. now rewrite H. Qed.
(** Where everything ends: after the reports, or by a panic. *)
Definition ended {A} (o : option panic) : soutcome A := match o with None => SAbort | Some w => SPanic w end.
Lemma run_abort {A B} (m : SP A) (f : A -> SP B) o sc ts r d : m sc ts = SPR (ended o) r d -> sbind m f sc ts = SPR (ended o) r d.
Proof. intros H. unfold sbind. rewrite H. now destruct o. Qed.
Lemma run_back_abort {A} (m : SP A) o sc ts r d : m sc ts = SPR (ended o) r d -> srollback m sc ts = SPR (ended o) r d.
Proof. intros H. unfold srollback. rewrite H. now destruct o. Qed.
Lemma run_look {A B} (g : list stt -> A) (f : A -> SP B) sc ts : sbind (slook g) f sc ts = f (g ts) sc ts.
Proof. exact (run_bind0 (slook g) f sc ts (g ts) ts eq_refl). Qed.
Lemma run_back_some {A} (m : SP A) sc ts a r d : m sc ts = SPR (SRet a) r d -> srollback m sc ts = SPR (SRet (Some a)) r d.
Proof. intros H. unfold srollback. now rewrite H. Qed.
Lemma run_back_none {A} (m : SP A) sc ts e s r d : m sc ts = SPR (SFail e s) r d -> srollback m sc ts = SPR (SRet None) ts d.
Proof. intros H. unfold srollback. now rewrite H. Qed.

(** ** Punctuation *)

Lemma next_punct_s c ts : next_punct c (erases ts) -> exists s sp r, ts = SPunct s c sp :: r.
Proof. destruct ts as [|[] ts]; cbn; try tauto; intros [sp' H]; try discriminate. injection H as -> ->. eauto. Qed.
Lemma punct_yes c s sp r sc : c <> "'"%char -> sparse_punct (String c EmptyString) sc (SPunct s c sp :: r) = SPR (SRet [s]) r [].
Proof.
  intros Hc. unfold sparse_punct. cbn. destruct (Ascii.eqb_spec c "'") as [->|]; [congruence|].
  now rewrite Ascii.eqb_refl.
Qed.
Lemma punct_no c ts sc : ~ next_punct c (erases ts) ->
  sparse_punct (String c EmptyString) sc ts = SPR (SFail (EPunct (String c EmptyString)) (here sc ts)) ts [].
Proof.
  intros H. unfold sparse_punct. cbn. destruct ts as [|[s i|s c' sp|s k v|b d l] r]; try reflexivity. cbn.
  destruct (Ascii.eqb c' "'"); [reflexivity|]. destruct (Ascii.eqb_spec c' c) as [->|]; [|reflexivity].
  exfalso. apply H. now exists sp.
Qed.
Lemma punct_cases c ts sc : c <> "'"%char ->
  (exists s sp r, ts = SPunct s c sp :: r /\ srollback (sparse_punct (String c EmptyString)) sc ts = SPR (SRet (Some [s])) r []) \/
  (~ next_punct c (erases ts) /\ srollback (sparse_punct (String c EmptyString)) sc ts = SPR (SRet None) ts []).
Proof.
  intros Hc. destruct (next_punct_dec c (erases ts)) as [H|H].
  - left. destruct (next_punct_s _ _ H) as (s & sp & r & ->). exists s, sp, r. split; [reflexivity|].
    now apply run_back_some, punct_yes.
  - right. split; [exact H|]. eapply run_back_none, punct_no, H.
Qed.
Lemma speek_punct_iff c ts : c <> "'"%char -> speek_punct (String c EmptyString) ts = true <-> next_punct c (erases ts).
Proof. intros Hc. rewrite peek_punct_erase. now apply peek_punct1. Qed.
Lemma speek_punct_f c ts : c <> "'"%char -> speek_punct (String c EmptyString) ts = false <-> ~ next_punct c (erases ts).
Proof. intros Hc. rewrite <- speek_punct_iff by assumption. now destruct (speek_punct _ ts). Qed.

(** ** Names *)

Lemma raw_reports_app a b : raw_reports (a ++ b) = raw_reports a ++ raw_reports b.
Proof. unfold raw_reports. now rewrite flat_map_app. Qed.

Lemma segment_adds_d E k sc ts k' r d : skebab_segment E k sc ts = SPR (SRet k') r d ->
  exists u, ts = u ++ r /\ d = raw_reports u /\
    ((exists i s, u = [SIdent s i] /\ k' = SKebab (sk_repr k ++ i_name i) (sk_spans k ++ [s])) \/
     (exists s v, u = [SLit s LkInt v] /\ k' = SKebab (sk_repr k ++ v) (sk_spans k ++ [s])) \/
     (exists s sp s' v, u = [SPunct s "-" sp; SLit s' LkInt v] /\
        k' = SKebab (sk_repr k ++ ("-" ++ v)) (sk_spans k ++ [joinx E s s'])) \/
     (u = [] /\ k' = k /\ no_int r)).
Proof.
  destruct ts as [|[s i|s c sp|s kd v|b dl l] ts].
  - intros [= <- <- <-]. exists []. cbn. repeat split; auto 10.
  - unfold skebab_segment, sbind, srollback. cbn. destruct i as [rw n]; intros H; exists [SIdent s (Id rw n)];
      destruct rw; cbn in H; injection H as <- <- <-; (split; [reflexivity|]); (split; [reflexivity|]); left; do 2 eexists; split; reflexivity.
  - intros H. assert (Hc : d = []).
    { revert H. unfold skebab_segment, sbind, srollback, sparse_lit_int. cbn.
      destruct ts as [|[| |s' [] v|] ts]; cbn; try (intros [= <- <- <-]; reflexivity); destruct (Ascii.eqb c "-"); cbn; intros [= <- <- <-]; reflexivity. }
    subst d. destruct (segment_adds _ _ _ _ _ _ H) as (u & Hu & Hc). exists u. split; [exact Hu|]. split; [|exact Hc].
    destruct Hc as [(i & s1 & -> & _)|[(s1 & v & -> & _)|[(s1 & sp1 & s2 & v & -> & _)|(-> & _ & _)]]]; try reflexivity. discriminate.
  - intros H. assert (Hc : d = []).
    { revert H. unfold skebab_segment, sbind, srollback, sparse_lit_int. cbn. destruct kd; cbn; intros [= <- <- <-]; reflexivity. }
    subst d. destruct (segment_adds _ _ _ _ _ _ H) as (u & Hu & Hc). exists u. split; [exact Hu|]. split; [|exact Hc].
    destruct Hc as [(i & s1 & -> & _)|[(s1 & v' & -> & _)|[(s1 & sp1 & s2 & v' & -> & _)|(-> & _ & _)]]]; try reflexivity. discriminate.
  - intros [= <- <- <-]. exists []. cbn. repeat split; auto 10.
Qed.
Lemma back_any_d sc ts o r d : srollback sparse_any sc ts = SPR (SRet o) r d -> d = [].
Proof. destruct ts as [|[] ts]; now intros [= <- <- <-]. Qed.
Lemma back_punct_d w sc ts o r d : srollback (sparse_punct w) sc ts = SPR (SRet o) r d -> d = [].
Proof. unfold srollback, sparse_punct. destruct (stake_punct w ts) as [[]|]; now intros [= <- <- <-]. Qed.

Lemma loop_adds_d E n : forall second k sc ts k' r d,
  skebab_loop E n second k sc ts = SPR (SRet k') r d ->
  exists u, ts = u ++ r /\ d = raw_reports u /\ (sk_spans k' = sk_spans k ++ sections E false u) /\
    sk_repr k' = (sk_repr k ++ name_text (erases u))%string /\
    exists e, run (second && String.eqb (sk_repr k) "-") (erases u) e.
Proof.
  induction n as [|n IH]; intros second k sc ts k' r d; cbn [skebab_loop]; [discriminate|].
  intros H. apply bind_inv_d in H as ([l|] & r1 & d1 & d2 & Ed & H & ->).
  - assert (d1 = []) by (eapply back_punct_d, Ed). subst d1. cbn [app].
    destruct (reads0_rollback _ _ (reads0_punct "-" ltac:(discriminate)) _ _ _ _ Ed) as (u & -> & s & sp & -> & ->).
    apply bind_inv_d in H as (k1 & r2 & d3 & d4 & Es & El & ->).
    destruct (segment_adds_d _ _ _ _ _ _ _ Es) as (u1 & -> & -> & Hu).
    destruct (IH _ _ _ _ _ _ _ El) as (u2 & -> & -> & Hs & Ht & e & Hrun). cbn [andb] in Hrun.
    exists ([SPunct s "-" sp] ++ u1 ++ u2). rewrite <- !app_assoc. split; [reflexivity|].
    split; [now rewrite !raw_reports_app|].
    destruct Hu as [(i & s1 & -> & ->)|[(s1 & v & -> & ->)|[(s1 & sp1 & s2 & v & -> & ->)|(-> & -> & Hn)]]]; cbn in Hs, Ht |- *.
    + rewrite Hs, Ht, <- app_assoc. split; [reflexivity|]. split; [now rewrite !str_app_assoc|]. exists e. now constructor; constructor.
    + rewrite Hs, Ht, <- app_assoc. split; [reflexivity|]. split; [now rewrite !str_app_assoc|]. exists e. now constructor; constructor.
    + rewrite Hs, Ht, <- app_assoc. split; [reflexivity|]. split; [now rewrite !str_app_assoc|].
      exists e. constructor. constructor. now constructor.
    + rewrite Hs, Ht.
      assert (Hrun' : exists e', run true (erases u2) e').
      { now apply run_true with e. }
      destruct Hrun' as (e' & Hrun'). rewrite <- (sections_no_int E u2 r e' Hn Hrun').
      split; [reflexivity|]. split; [now rewrite !str_app_assoc|]. exists e'. now constructor.
  - assert (Hd : speek_punct "-" ts = false).
    { unfold srollback, sparse_punct in Ed. unfold speek_punct. destruct (stake_punct "-" ts) as [[]|]; [discriminate|reflexivity]. }
    assert (d1 = []) by (eapply back_punct_d, Ed). subst d1. cbn [app].
    destruct (reads0_rollback _ _ (reads0_punct "-" ltac:(discriminate)) _ _ _ _ Ed) as (u & -> & ->). cbn [app] in *.
    destruct (second && String.eqb (sk_repr k) "-") eqn:Eb; cbn [negb] in H.
    + apply bind_inv_d in H as (k1 & r2 & d3 & d4 & Es & El & ->).
      destruct (segment_adds_d _ _ _ _ _ _ _ Es) as (u1 & -> & -> & Hu).
      destruct (IH _ _ _ _ _ _ _ El) as (u2 & -> & -> & Hs & Ht & e & Hrun). cbn [andb] in Hrun.
      exists (u1 ++ u2). rewrite <- !app_assoc. split; [reflexivity|]. split; [now rewrite !raw_reports_app|].
      destruct Hu as [(i & s1 & -> & ->)|[(s1 & v & -> & ->)|[(s1 & sp1 & s2 & v & -> & ->)|(-> & -> & Hn)]]]; cbn in Hs, Ht |- *.
      * rewrite Hs, Ht, <- app_assoc. split; [reflexivity|]. split; [now rewrite !str_app_assoc|]. exists e. now constructor.
      * rewrite Hs, Ht, <- app_assoc. split; [reflexivity|]. split; [now rewrite !str_app_assoc|]. exists e. now constructor.
      * discriminate Hd.
      * split; [exact Hs|]. split; [exact Ht|].
        now apply run_true with e.
    + injection H as <- <- <-. exists []. cbn. rewrite app_nil_r, str_app_nil.
      split; [reflexivity|]. split; [reflexivity|]. split; [reflexivity|]. split; [reflexivity|]. eexists. constructor.
Qed.

Lemma kebab_reads_d E sc ts k r d : wf_head (erases ts) -> sparse_kebab E sc ts = SPR (SRet k) r d ->
  exists u, ts = u ++ r /\ sp_name E u k /\ d = raw_reports (tl u).
Proof.
  intros Hw. unfold sparse_kebab. set (n := S (S (List.length ts))). clearbody n.
  intros H. apply bind_inv_d in H as ([[s i]|] & r1 & d1 & d2 & Ea & H & ->); apply bind_inv_d in H as (k0 & r2 & d3 & d4 & Ek & El & ->);
    assert (d1 = []) by (eapply back_any_d, Ea); subst d1; cbn [app].
  - injection Ek as <- <- <-. destruct (reads0_rollback _ _ reads0_any _ _ _ _ Ea) as (u & -> & ->).
    destruct (loop_adds_d _ _ _ _ _ _ _ _ _ El) as (u1 & -> & -> & Hs & Ht & e & Hr). cbn in Hs, Ht, Hr.
    exists (SIdent s i :: u1). split; [reflexivity|]. split; [|reflexivity]. destruct k as [kr ks]. cbn in Hs, Ht. subst.
    apply (spn E (SIdent s i) u1). cbn.
    assert (Hi : String.eqb (i_name i) "-" = false).
    { cbn in Hw. apply String.eqb_neq. now apply lex_ident_not_dash, Hw. }
    rewrite Hi in Hr. now apply name_ident with e.
  - destruct (reads0_rollback _ _ reads0_any _ _ _ _ Ea) as (u & -> & ->). cbn [app] in *.
    apply bind_inv_d in Ek as ([l|] & r3 & d5 & d6 & Ed & Ek & ->); [|discriminate]. injection Ek as <- <- <-.
    assert (d5 = []) by (eapply back_punct_d, Ed). subst d5.
    destruct (reads0_rollback _ _ (reads0_punct "-" ltac:(discriminate)) _ _ _ _ Ed) as (u & -> & s & sp & -> & ->).
    destruct (loop_adds_d _ _ _ _ _ _ _ _ _ El) as (u1 & -> & -> & Hs & Ht & e & Hr). cbn in Hs, Ht, Hr.
    exists (SPunct s "-" sp :: u1). split; [reflexivity|]. split; [|reflexivity]. destruct k as [kr ks]. cbn in Hs, Ht. subst.
    apply (spn E (SPunct s "-" sp) u1). cbn. now apply name_dash with e.
Qed.

Lemma starts_dec ts : starts_name_here ts \/ ~ starts_name_here ts.
Proof.
  unfold starts_name_here. destruct (next_punct_dec "-" (erases ts)); [tauto|]. destruct ts as [|[] ts]; cbn; tauto.
Qed.
Lemma sp_name_phrase E u k : sp_name E u k -> name_phrase (erases u).
Proof. now intros []. Qed.
Lemma name_cases E sc ts : wf_head (erases ts) ->
  (exists u k ds r, ts = u ++ r /\ rd_name E u k ds r /\ sparse_kebab E sc ts = SPR (SRet k) r ds) \/
  (~ starts_name_here ts /\ sparse_kebab E sc ts = SPR (SFail (EKebab (found_in (erases ts))) (next_place sc ts)) ts []).
Proof.
  intros Hw. destruct (starts_dec ts) as [Hs|Hs].
  - left. assert (Hk := sim_kebab E sc ts). destruct (parse_kebab_cases _ Hw) as [(u & r & Heq & Hp & Hend & Hr)|[Hn _]]; [|now destruct Hn].
    rewrite Hr in Hk. unfold name_result in Hk.
    destruct (sparse_kebab E sc ts) as [[k| | | |] r' d] eqn:Ek; try discriminate. unfold epres in Hk. cbn in Hk.
    injection Hk as _ _ Hr' _. destruct (kebab_reads_d _ _ _ _ _ _ Hw Ek) as (u' & -> & Hn & ->).
    exists u', k, (raw_reports (tl u')), r'. split; [reflexivity|]. split; [|reflexivity].
    split; [exact Hn|]. split; [|reflexivity].
    change (erases r' = r) in Hr'. rewrite erases_app, Hr' in Heq. apply app_inv_tail in Heq. now rewrite Heq, Hr'.
  - right. split; [exact Hs|]. assert (Hk := sim_kebab E sc ts). rewrite (parse_kebab_fail _ Hs) in Hk.
    rewrite <- here_place. unfold starts_name_here in Hs. destruct ts as [|[s i|s c sp|s k v|b d l] ts]; try reflexivity.
    + now destruct Hs; left.
    + unfold sparse_kebab. rewrite (run_bind0 (srollback sparse_any) _ sc (SPunct s c sp :: ts) None (SPunct s c sp :: ts) eq_refl).
      apply run_fail. rewrite (run_bind0 (srollback (sparse_punct "-")) _ sc (SPunct s c sp :: ts) None (SPunct s c sp :: ts)); [reflexivity|].
      eapply run_back_none, punct_no. tauto.
Qed.
Lemma name_starts E u k ds r : rd_name E u k ds r -> starts_name_here (u ++ r).
Proof. intros (H & _). unfold starts_name_here. rewrite erases_app. now apply phrase_starts, sp_name_phrase with E k. Qed.
Lemma erases_inj_len a b : List.length (erases a) = List.length (erases b) -> List.length a = List.length b.
Proof. now rewrite !erases_length. Qed.
Lemma app_same_length {A} (a b c d : list A) : a ++ b = c ++ d -> List.length a = List.length c -> a = c /\ b = d.
Proof.
  revert c. induction a as [|x a IH]; intros [|y c] H Hl; try discriminate; [auto|].
  cbn in *. injection H as -> H. injection Hl as Hl. destruct (IH _ H Hl) as [-> ->]. auto.
Qed.
Lemma name_det E u k ds r u' k' ds' r' : u ++ r = u' ++ r' -> rd_name E u k ds r -> rd_name E u' k' ds' r' ->
  u = u' /\ k = k' /\ ds = ds' /\ r = r'.
Proof.
  intros H (Hn & He & ->) (Hn' & He' & ->).
  assert (Ho : erases u = erases u' /\ erases r = erases r').
  { apply longest_unique; auto; [now rewrite <- !erases_app, H| |]; eapply sp_name_phrase; eassumption. }
  destruct Ho as [Ho _]. destruct (app_same_length _ _ _ _ H) as [<- <-].
  { apply erases_inj_len. now rewrite Ho. }
  inversion Hn; subst. inversion Hn'; subst. auto.
Qed.
Lemma name_run E sc u k ds r : wf_head (erases (u ++ r)) -> rd_name E u k ds r ->
  sparse_kebab E sc (u ++ r) = SPR (SRet k) r ds.
Proof.
  intros Hw H. destruct (name_cases E sc (u ++ r) Hw) as [(u' & k' & ds' & r' & He & Hn & ->)|[Hn _]].
  - destruct (name_det _ _ _ _ _ _ _ _ _ He H Hn) as (-> & -> & -> & ->). reflexivity.
  - destruct Hn. eapply name_starts, H.
Qed.

(** ** Values *)

Lemma value_cases E sc ts : wf (erases ts) ->
  (exists u v r, ts = u ++ r /\ rd_value E u v r /\ sparse_value E sc ts = SPR (SRet v) r []) \/
  (no_value ts /\ sparse_value E sc ts = SPR (SFail EValue (next_place sc ts)) ts []).
Proof.
  intros Hw. assert (Hs := sim_value E sc ts). destruct (parse_value_cases (erases ts)) as [(u & v & r & He & Hv & Hp)|[Hn Hp]].
  - left. rewrite Hp in Hs. destruct (sparse_value E sc ts) as [[v'| | | |] r' [|]] eqn:Ev; try discriminate.
    injection Hs as <- <-. destruct (reads_value E _ _ _ _ Hw Ev) as (u' & -> & Hu).
    exists u', v', r'. split; [reflexivity|]. split; [|reflexivity]. split; [exact Hu|].
    rewrite erases_app in He. apply app_inv_tail in He. now rewrite He.
  - right. split; [intros (u & v & r & He & Hv); now apply (Hn _ _ _ He Hv)|].
    rewrite Hp in Hs. rewrite <- here_place.
    assert (Hx : forall s, sparse_value E sc ts = SPR (SFail EValue s) ts [] -> s = here sc ts).
    { unfold sparse_value. intros s. rewrite !run_look. destruct (speek_group Bracket ts) eqn:E1.
      { destruct ts as [|[| | |b [] l] ts]; try discriminate. }
      rewrite !run_look. destruct (speek_any ts && speek2 (speek_group Bracket) ts) eqn:E2.
      { destruct ts as [|[| | |] [|[| | |b [] l] ts]]; try discriminate. }
      rewrite !run_look. destruct (speek_group Brace ts) eqn:E3.
      { destruct ts as [|[| | |b [] l] ts]; try discriminate. }
      rewrite !run_look. destruct (speek_lit E ts) eqn:E4.
      { unfold speek_lit in E4. unfold sbind, sunwrap, sparse_lit. destruct (stake_lit E ts) as [[]|]; discriminate. }
      now intros [= <-]. }
    destruct (sparse_value E sc ts) as [[v'|e s| | |] r' [|]] eqn:Ev; try discriminate.
    injection Hs as -> Hr.
    assert (r' = ts).
    { revert Ev. unfold sparse_value. rewrite !run_look. destruct (speek_group Bracket ts) eqn:E1.
      { destruct ts as [|[| | |b [] l] ts]; try discriminate. }
      rewrite !run_look. destruct (speek_any ts && speek2 (speek_group Bracket) ts) eqn:E2.
      { destruct ts as [|[| | |] [|[| | |b [] l] ts]]; try discriminate. }
      rewrite !run_look. destruct (speek_group Brace ts) eqn:E3.
      { destruct ts as [|[| | |b [] l] ts]; try discriminate. }
      rewrite !run_look. destruct (speek_lit E ts) eqn:E4.
      { unfold speek_lit in E4. unfold sbind, sunwrap, sparse_lit. destruct (stake_lit E ts) as [[]|]; discriminate. }
      now intros [= _ <-]. }
    subst r'. now rewrite (Hx _ eq_refl).
Qed.
Lemma value_none E u v r : rd_value E u v r -> ~ no_value (u ++ r).
Proof. intros [_ H] Hn. apply Hn. exists (erases u), (evalue v), (erases r). now rewrite erases_app. Qed.
Lemma value_det E u v r u' v' r' : u ++ r = u' ++ r' -> rd_value E u v r -> rd_value E u' v' r' -> u = u' /\ v = v' /\ r = r'.
Proof.
  intros H [Hn Hp] [Hn' Hp'].
  destruct (value_phrase_det (erases (u ++ r)) (erases u) (evalue v) (erases r) (erases u') (evalue v') (erases r')) as (Hu & Hv & _);
    auto; [apply erases_app|rewrite H; apply erases_app|].
  destruct (app_same_length _ _ _ _ H) as [<- <-]; [apply erases_inj_len; now rewrite Hu|]. split; [reflexivity|]. split; [|reflexivity].
  inversion Hn; subst; inversion Hn'; subst; cbn in *; congruence.
Qed.
Lemma value_run E sc u v r : wf (erases (u ++ r)) -> rd_value E u v r -> sparse_value E sc (u ++ r) = SPR (SRet v) r [].
Proof.
  intros Hw H. destruct (value_cases E sc (u ++ r) Hw) as [(u' & v' & r' & He & Hn & ->)|[Hn _]].
  - destruct (value_det _ _ _ _ _ _ _ He H Hn) as (-> & -> & ->). reflexivity.
  - now destruct (value_none _ _ _ _ H).
Qed.
Lemma no_value_run E sc ts : wf (erases ts) -> no_value ts -> sparse_value E sc ts = SPR (SFail EValue (next_place sc ts)) ts [].
Proof.
  intros Hw H. destruct (value_cases E sc ts Hw) as [(u' & v' & r' & -> & Hn & _)|[_ ->]]; [|reflexivity].
  now destruct (value_none _ _ _ _ Hn).
Qed.

(** ** Optional values, keys, modifiers *)

Lemma next_word_iff ts : speek_ident ts = true <-> next_word ts.
Proof. destruct ts as [|[s i| | |] ts]; cbn; try (split; [discriminate|tauto]). apply accept_iff. Qed.

Definition opt_code {A} (E : senv) (f : option svalue -> A) : SP A :=
  eq <- srollback (sparse_punct "=") ;;
  match eq with
  | Some eq => v <- sparse_or_emit_err E (punct_span eq) ;; sret (f (Some v))
  | None => sret (f None)
  end.
Lemma opt_run {A} E (f : option svalue -> A) sc u v ds r : wf (erases (u ++ r)) -> rd_opt E u v ds r ->
  opt_code E f sc (u ++ r) = SPR (SRet (f v)) r ds.
Proof.
  intros Hw H. unfold opt_code. destruct H as [r Hn|s sp ts v r Hv|s sp b p r Hn -> Hb].
  - cbn [app]. rewrite (run_bind0 _ _ _ _ _ _ (run_back_none _ _ _ _ _ _ _ (punct_no "=" r sc Hn))). reflexivity.
  - cbn [app] in *. rewrite (run_bind0 _ _ _ _ _ _ (run_back_some _ _ _ _ _ _ (punct_yes "=" s sp (ts ++ r) sc ltac:(discriminate)))).
    apply wf_cons in Hw as [_ Hw].
    assert (Hr : sparse_or_emit_err E (punct_span [s]) sc (ts ++ r) = SPR (SRet v) r []).
    { unfold sparse_or_emit_err. now rewrite (run_bind0 _ _ _ _ _ _ (run_back_some _ _ _ _ _ _ (value_run E sc _ _ _ Hw Hv))). }
    now rewrite (run_bind0 _ _ _ _ _ _ Hr).
  - cbn [app] in *. rewrite (run_bind0 _ _ _ _ _ _ (run_back_some _ _ _ _ _ _ (punct_yes "=" s sp r sc ltac:(discriminate)))).
    apply wf_cons in Hw as [_ Hw].
    assert (Hr : sparse_or_emit_err E (punct_span [s]) sc r = SPR (SRet (stand_in (next_place s r))) r [(DExpectedValue b, next_place s r)]).
    { unfold sparse_or_emit_err. rewrite (run_bind0 _ _ _ _ _ _ (run_back_none _ _ _ _ _ _ _ (no_value_run E sc _ Hw Hn))).
      assert (Hb' : b = speek_ident r).
      { apply Bool.eq_true_iff_eq. now rewrite Hb, next_word_iff. }
      subst b. now destruct r as [|[] r]. }
    rewrite (run_bind _ _ _ _ _ _ _ _ _ _ Hr eq_refl). reflexivity.
Qed.
Lemma opt_cases {A} E (f : option svalue -> A) sc ts : wf (erases ts) ->
  exists u v ds r, ts = u ++ r /\ rd_opt E u v ds r /\ opt_code E f sc ts = SPR (SRet (f v)) r ds.
Proof.
  intros Hw. enough (exists u v ds r, ts = u ++ r /\ rd_opt E u v ds r) as (u & v & ds & r & -> & H).
  { exists u, v, ds, r. split; [reflexivity|]. split; [exact H|]. now apply opt_run. }
  destruct (punct_cases "=" ts Call ltac:(discriminate)) as [(s & sp & r & -> & _)|[Hn _]].
  - apply wf_cons in Hw as [_ Hw]. destruct (value_cases E Call r Hw) as [(u & v & r' & -> & Hv & _)|[Hn _]].
    + exists (SPunct s "=" sp :: u), (Some v), [], r'. split; [reflexivity|]. now constructor.
    + exists [SPunct s "=" sp], (Some (stand_in (next_place s r))), [(DExpectedValue (speek_ident r), next_place s r)], r.
      split; [reflexivity|]. constructor; auto. apply next_word_iff.
  - exists [], None, [], ts. split; [reflexivity|]. now constructor.
Qed.

Lemma modifier_run sc u m r : rd_modifier u m r -> stry_parse_modifier sc (u ++ r) = SPR (SRet m) r [].
Proof.
  intros [Hs Hp]. destruct Hs as [|s sp s' i].
  - inversion Hp; subst. cbn [app]. unfold stry_parse_modifier.
    now rewrite (run_bind0 _ _ _ _ _ _ (run_back_none _ _ _ _ _ _ _ (punct_no ":" r sc H))).
  - reflexivity.
Qed.
Lemma modifier_bad sc s sp r : ~ next_ident (erases r) ->
  stry_parse_modifier sc (SPunct s ":" sp :: r) = SPR (SFail (EIdent (found_in (erases r))) (next_place sc r)) r [].
Proof.
  intros Hn. unfold stry_parse_modifier.
  rewrite (run_bind0 _ _ _ _ _ _ (run_back_some _ _ _ _ _ _ (punct_yes ":" s sp r sc ltac:(discriminate)))).
  apply run_fail. destruct r as [|[] r]; try reflexivity. now destruct Hn.
Qed.
Lemma modifier_cases ts :
  (exists u m r, ts = u ++ r /\ rd_modifier u m r) \/
  (exists s sp r, ts = SPunct s ":" sp :: r /\ ~ next_ident (erases r)).
Proof.
  destruct (punct_cases ":" ts Call ltac:(discriminate)) as [(s & sp & r & -> & _)|[Hn _]].
  - destruct r as [|[s' i| | |] r]; try (right; exists s, sp, []; now split); try (right; do 3 eexists; split; [reflexivity|]; tauto).
    left. exists [SPunct s ":" sp; SIdent s' i], (Some (SId s' i)), r. split; [reflexivity|]. split; constructor.
  - left. exists [], None, ts. split; [reflexivity|]. split; constructor. exact Hn.
Qed.

Lemma lit_str_d E sc ts o r d : srollback (sparse_lit_str E) sc ts = SPR (SRet o) r d ->
  d = [] /\ match o with Some x => ts = SLit (fst x) LkStr (snd x) :: r | None => r = ts /\ forall s v r', ts <> SLit s LkStr v :: r' end.
Proof.
  unfold srollback, sparse_lit_str, stake_lit. destruct ts as [|[s i|s c sp|s k v|b dl l] ts].
  - now intros [= <- <- <-].
  - destruct (ident_is i "true"), (ident_is i "false"); now intros [= <- <- <-].
  - destruct ts as [|[| |s' k v|] ts]; try (now intros [= <- <- <-]).
    destruct (Ascii.eqb c "-"); [|now intros [= <- <- <-]]. destruct k; now intros [= <- <- <-].
  - destruct k; now intros [= <- <- <-].
  - now intros [= <- <- <-].
Qed.
Lemma lit_str_total E sc ts : exists o r d, srollback (sparse_lit_str E) sc ts = SPR (SRet o) r d.
Proof.
  unfold srollback, sparse_lit_str. destruct (stake_lit E ts) as [[[s [] v|s b] r]|]; eauto.
Qed.
Lemma key_run E sc u k ds r : wf_head (erases (u ++ r)) -> rd_key E u k ds r -> sparse_kebab_or_str E sc (u ++ r) = SPR (SRet k) r ds.
Proof.
  intros Hw H. unfold sparse_kebab_or_str. destruct H as [s v r|u k ds r Hn]; [reflexivity|].
  destruct (lit_str_total E sc (u ++ r)) as (o & r' & d & Hl). destruct (lit_str_d _ _ _ _ _ _ Hl) as [-> Ho].
  rewrite (run_bind0 _ _ _ _ _ _ Hl). destruct o as [x|].
  - exfalso. apply name_starts in Hn. rewrite Ho in Hn. destruct Hn as [[]|[sp Hsp]]. discriminate.
  - destruct Ho as [-> _]. rewrite (run_bind _ _ _ _ _ _ _ _ _ _ (name_run E sc _ _ _ _ Hw Hn) eq_refl). now rewrite app_nil_r.
Qed.
Lemma key_bad E sc ts : wf_head (erases ts) -> no_key ts -> sparse_kebab_or_str E sc ts = SPR (SFail (EKebab (found_in (erases ts))) (next_place sc ts)) ts [].
Proof.
  intros Hw Hk. unfold sparse_kebab_or_str.
  destruct (lit_str_total E sc ts) as (o & r' & d & Hl). destruct (lit_str_d _ _ _ _ _ _ Hl) as [-> Ho].
  rewrite (run_bind0 _ _ _ _ _ _ Hl). destruct o as [x|].
  - subst ts. destruct Hk.
  - destruct Ho as [-> _]. destruct (name_cases E sc ts Hw) as [(u & k & ds & r & -> & Hn & _)|[_ H]].
    + exfalso. apply name_starts in Hn. destruct (u ++ r) as [|[s i|s c sp| |] ts]; cbn in Hk, Hn; try tauto.
      * destruct Hn as [[]|[]].
      * destruct Hn as [[]|[sp' [= -> ->]]]. now destruct Hk.
      * destruct Hn as [[]|[sp' Hn]]. discriminate.
      * destruct Hn as [[]|[sp' Hn]]. discriminate.
    + now apply run_fail.
Qed.
Lemma key_cases E ts : wf_head (erases ts) -> ~ next_group Brace (erases ts) ->
  (exists u k ds r, ts = u ++ r /\ rd_key E u k ds r) \/ no_key ts.
Proof.
  intros Hw Hg. destruct (name_cases E Call ts Hw) as [(u & k & ds & r & -> & Hn & _)|[Hn _]].
  - left. exists u, (SKKebab k), ds, r. split; [reflexivity|]. now constructor.
  - destruct ts as [|[s i|s c sp|s kd v|b d l] ts]; cbn; auto.
    + destruct Hn. now left.
    + right. intros ->. apply Hn. right. now exists sp.
    + destruct kd; auto. left. exists [SLit s LkStr v], (SKStr s v), [], ts. split; [reflexivity|constructor].
    + destruct d; auto. now destruct Hg.
Qed.

(** ** Shorthands *)

Lemma short_run {B} E (f : dspan * skebab -> svalue -> SP B) sc ts k v ds r o r' d' : wf (erases (ts ++ r)) ->
  rd_short E ts k v ds -> (forall b, f (b, k) v sc r = SPR o r' d') ->
  (k <- sparse_braced_kebab E ;; v <- sinto_block_value E k ;; f k v) sc (ts ++ r) = SPR o r' (ds ++ d').
Proof.
  intros Hw H. revert Hw. destruct H as [b inner k0 i ds0 Hn Hi]. cbn [app]. intros Hw Hf.
  apply wf_cons in Hw as [Hw _]. apply wf_group in Hw. change (wf (erases inner)) in Hw.
  assert (Hb : sparse_braced_kebab E sc (SGroup b Brace inner :: r) = SPR (SRet (b, k0)) r ds0).
  { unfold sparse_braced_kebab, sdelimited. cbn [delim_eqb].
    rewrite <- (app_nil_r inner) at 1. rewrite (name_run E (d_close b) inner k0 ds0 []); auto.
    rewrite app_nil_r. now apply wf_wf_head. }
  eapply run_bind; [exact Hb|]. unfold sinto_block_value. cbn [fst snd].
  apply snake_iff in Hi. unfold ssnake. rewrite Hi. rewrite (run_bind0 _ _ sc r (SVBlock b [stoken i]) r).
  - apply Hf.
  - reflexivity.
Qed.
Lemma braced_more E sc b u k ds v r : wf (erases (u ++ v)) -> rd_name E u k ds v -> v <> [] ->
  sparse_braced_kebab E sc (SGroup b Brace (u ++ v) :: r) =
  SPR (SFail EBraceExtra (next_place (d_close b) v)) (SGroup b Brace (u ++ v) :: r) ds.
Proof.
  intros Hw Hn Hv. unfold sparse_braced_kebab, sdelimited. cbn [delim_eqb].
  rewrite (name_run E (d_close b) u k ds v); auto; [|now apply wf_wf_head].
  destruct v; [congruence|]. now rewrite here_place.
Qed.
Lemma braced_none E sc b inner r : wf (erases inner) -> ~ starts_name_here inner ->
  sparse_braced_kebab E sc (SGroup b Brace inner :: r) =
  SPR (SFail (EKebab (found_in (erases inner))) (next_place (d_close b) inner)) (SGroup b Brace inner :: r) [].
Proof.
  intros Hw Hn. unfold sparse_braced_kebab, sdelimited. cbn [delim_eqb].
  destruct (name_cases E (d_close b) inner (wf_wf_head _ Hw)) as [(u & k & ds & r0 & -> & Hk & _)|[_ ->]]; [|reflexivity].
  destruct Hn. eapply name_starts, Hk.
Qed.
Lemma snake_bad E k sc ts : bad_name k -> ssnake E k sc ts = SPR (ended (name_panic k)) ts [].
Proof.
  intros Hb. unfold ssnake. destruct (sto_snake_ident E k) as [i|] eqn:Ei.
  - apply snake_iff in Ei as [[Hi _] _]. now destruct Hi.
  - unfold sppanic, ended, name_panic. now rewrite dashes_snake.
Qed.
Lemma snake_no E k : sto_snake_ident E k = None -> bad_name k.
Proof.
  intros Hn. destruct (in_dec string_dec (snake_name (sk_repr k)) (""%string :: reserved_words)) as [|Hi]; [assumption|]. exfalso.
  assert (sp_ident E k (SId (name_place E k) (Id true (snake_name (sk_repr k))))) as Hs by (split; [split|]; auto).
  apply snake_iff in Hs. congruence.
Qed.
Lemma braced_panic {B} E (f : dspan * skebab -> svalue -> SP B) sc b inner k ds r : wf (erases inner) ->
  rd_name E inner k ds [] -> bad_name k ->
  (k <- sparse_braced_kebab E ;; v <- sinto_block_value E k ;; f k v) sc (SGroup b Brace inner :: r) = SPR (ended (name_panic k)) r ds.
Proof.
  intros Hw Hn Hi.
  assert (Hb : sparse_braced_kebab E sc (SGroup b Brace inner :: r) = SPR (SRet (b, k)) r ds).
  { unfold sparse_braced_kebab, sdelimited. cbn [delim_eqb].
    rewrite <- (app_nil_r inner) at 1. rewrite (name_run E (d_close b) inner k ds []); auto.
    rewrite app_nil_r. now apply wf_wf_head. }
  rewrite <- (app_nil_r ds). eapply run_bind; [exact Hb|]. apply run_abort. unfold sinto_block_value. apply run_abort. cbn [snd].
  now apply snake_bad.
Qed.
(** What is in braces. *)
Lemma braced_cases E inner : wf (erases inner) ->
  (exists k ds i, rd_name E inner k ds [] /\ sp_ident E k i) \/
  (exists k ds, rd_name E inner k ds [] /\ bad_name k) \/
  (exists u k ds v, inner = u ++ v /\ rd_name E u k ds v /\ v <> []) \/
  ~ starts_name_here inner.
Proof.
  intros Hw. destruct (name_cases E Call inner (wf_wf_head _ Hw)) as [(u & k & ds & r & -> & Hn & _)|[Hn _]]; [|auto].
  destruct r as [|t r].
  - rewrite app_nil_r. destruct (sto_snake_ident E k) as [i|] eqn:Ei.
    + left. exists k, ds, i. split; [exact Hn|]. now apply snake_iff.
    + right. left. exists k, ds. split; [exact Hn|]. eapply snake_no, Ei.
  - right. right. left. exists u, k, ds, (t :: r). split; [reflexivity|]. split; [exact Hn|]. discriminate.
Qed.

(** ** Attributes *)

Section Attrs.
Variable E : senv.
Hypothesis HE : senv_ok E.

Lemma err_at s : err_span E s = s.
Proof. unfold err_span. now apply join_self. Qed.

Definition attr_rest : SP sattr :=
  kv <- srollback (sparse_kv E) ;;
  match kv with
  | Some kv => sret (SAKv kv)
  | None =>
      sp <- srollback sparse_spread ;;
      match sp with
      | Some sp => sret (SASpread (fst (fst sp)) (snd (fst sp)) (snd sp))
      | None => sfail EAttr
      end
  end.
Lemma attr_step sc ts : sparse_attr E sc ts =
  if speek_any ts && speek2 (speek_punct ":") ts
  then (d <- sunwrap_or_abort E (sparse_directive E) ;; sret (SADir d)) sc ts
  else if speek_ident ts then (kv <- sparse_kv E ;; sret (SAKv kv)) sc ts else attr_rest sc ts.
Proof.
  unfold sparse_attr. rewrite run_look. destruct (speek_any ts && _); [reflexivity|].
  rewrite run_look. now destruct (speek_ident ts).
Qed.
Lemma dir_yes s i s' sp r : speek_any (SIdent s i :: SPunct s' ":" sp :: r) && speek2 (speek_punct ":") (SIdent s i :: SPunct s' ":" sp :: r) = true.
Proof. reflexivity. Qed.
Lemma sdir_test ts : speek_any ts && speek2 (speek_punct ":") ts = true ->
  exists s i s' sp r, ts = SIdent s i :: SPunct s' ":" sp :: r.
Proof.
  destruct ts as [|[s i| | |] r]; try discriminate. unfold speek2. cbn [speek_any sskip andb].
  intros H. apply speek_punct_iff in H; [|discriminate]. destruct (next_punct_s _ _ H) as (s' & sp & r' & ->). eauto 8.
Qed.
Lemma sdir_test_f ts : speek_any ts && speek2 (speek_punct ":") ts = false <->
  (next_ident (erases ts) -> ~ next_punct ":" (erases (tl ts))).
Proof.
  destruct ts as [|[s i|s c sp| |] r]; try (cbn; tauto). unfold speek2. cbn [speek_any sskip andb tl].
  rewrite speek_punct_f by discriminate. cbn. tauto.
Qed.

Definition kv_value (v : option svalue) : svalue := match v with Some v => v | None => snew_true end.
Lemma kv_run sc ts k ds ts' v ds' r : wf (erases (ts ++ ts' ++ r)) -> rd_name E ts k ds (ts' ++ r) -> rd_opt E ts' v ds' r ->
  sparse_kv E sc (ts ++ ts' ++ r) = SPR (SRet (SKvAttr k (kv_value v))) r (ds ++ ds').
Proof.
  intros Hw Hn Ho. unfold sparse_kv. rewrite run_look.
  assert (Hb : speek_group Brace (ts ++ ts' ++ r) = false).
  { apply name_starts in Hn. destruct (ts ++ ts' ++ r) as [|[| | |b d l] x]; try reflexivity. destruct Hn as [[]|[sp Hsp]]. discriminate. }
  rewrite Hb. eapply run_bind; [apply name_run; [now apply wf_wf_head|exact Hn]|].
  rewrite erases_app in Hw. apply wf_app in Hw as [_ Hw].
  exact (opt_run E (fun v => SKvAttr k (kv_value v)) sc ts' v ds' r Hw Ho).
Qed.
Lemma not_brace_name ts : starts_name_here ts -> speek_group Brace ts = false.
Proof. intros H. destruct ts as [|[| | |b d l] x]; try reflexivity. destruct H as [[]|[sp Hsp]]. discriminate. Qed.

Definition dir_tail (name : sident) : SP sdirective :=
  k <- sparse_kebab_or_str E ;; m <- stry_parse_modifier ;; opt_code E (fun v => SDirective name k m v).
Definition dir_short_tail (name : sident) : SP sdirective :=
  k <- sparse_braced_kebab E ;; v <- sinto_block_value E k ;;
  m <- stry_parse_modifier ;; sret (SDirective name (SKKebab (snd k)) m (Some v)).
Lemma directive_step sc s i s' sp r :
  sparse_directive E sc (SIdent s i :: SPunct s' ":" sp :: r) =
  if speek_group Brace r then dir_short_tail (SId s i) sc r else dir_tail (SId s i) sc r.
Proof.
  unfold sparse_directive. rewrite (run_bind0 sparse_any _ sc (SIdent s i :: SPunct s' ":" sp :: r) (SId s i) _ eq_refl).
  rewrite (run_bind0 (sparse_punct ":") _ sc (SPunct s' ":" sp :: r) [s'] r eq_refl). rewrite run_look.
  now destruct (speek_group Brace r).
Qed.
Lemma key_not_brace u k ds r : rd_key E u k ds r -> speek_group Brace (u ++ r) = false.
Proof. intros [s v f|ts k0 ds0 f Hn]; [reflexivity|]. eapply not_brace_name, name_starts, Hn. Qed.
Lemma unwrap_abort_ret {A} (m : SP A) sc ts a r d : m sc ts = SPR (SRet a) r d -> sunwrap_or_abort E m sc ts = SPR (SRet a) r d.
Proof. intros H. unfold sunwrap_or_abort. now rewrite H. Qed.
Lemma unwrap_abort_fail {A} (m : SP A) sc ts e s r d : m sc ts = SPR (SFail e s) r d ->
  sunwrap_or_abort E m sc ts = SPR (ended None) r (d ++ [(DAbortParse e, s)]).
Proof. intros H. unfold sunwrap_or_abort. now rewrite H, err_at. Qed.
Lemma unwrap_abort_end {A} (m : SP A) o sc ts r d : m sc ts = SPR (ended o) r d -> sunwrap_or_abort E m sc ts = SPR (ended o) r d.
Proof. intros H. unfold sunwrap_or_abort. rewrite H. now destruct o. Qed.

Lemma attr_run sc u a ds r : wf (erases (u ++ r)) -> rd_attr E u a ds r -> sparse_attr E sc (u ++ r) = SPR (SRet a) r ds.
Proof.
  intros Hw H. rewrite attr_step. revert Hw.
  destruct H as [ts k ds ts' v ds' r Hn Ho Hd|ts k v ds r Hs|b s s' sp ts r|s i s' sp ks k ds ms m vs v ds' r Hk Hm Ho
                |s i s' sp ks k v ds ms m r Hs Hm]; intros Hw.
  - rewrite <- app_assoc in *.
    assert (Hf : speek_any (ts ++ ts' ++ r) && speek2 (speek_punct ":") (ts ++ ts' ++ r) = false).
    { apply sdir_test_f. assert (Hne : ts <> []) by (destruct Hn as ([] & _); discriminate).
      rewrite erases_app, next_ident_app by (now destruct ts). intros Hi. specialize (Hd Hi).
      now destruct ts. }
    rewrite Hf. assert (Hkv := kv_run sc _ _ _ _ _ _ _ Hw Hn Ho). destruct (speek_ident _).
    + rewrite (run_bind _ _ _ _ _ _ _ _ _ _ Hkv eq_refl). now rewrite app_nil_r.
    + unfold attr_rest. rewrite (run_bind _ _ _ _ _ _ _ _ _ _ (run_back_some _ _ _ _ _ _ Hkv) eq_refl). now rewrite app_nil_r.
  - assert (Hk : sparse_kv E sc (ts ++ r) = SPR (SRet (SKvAttr k v)) r (ds ++ [])).
    { unfold sparse_kv. rewrite run_look. destruct Hs as [b inner k i ds Hn Hi]. cbn [app speek_group delim_eqb].
      apply (short_run E (fun k v => sret (SKvAttr (snd k) v)) sc [SGroup b Brace inner] k (SVBlock b [SIdent (si_span i) (si_ident i)]) ds r); auto.
      now apply rds. }
    rewrite app_nil_r in Hk. destruct Hs. cbn [app] in *. cbn [speek_any andb speek_ident].
    unfold attr_rest. rewrite (run_bind _ _ _ _ _ _ _ _ _ _ (run_back_some _ _ _ _ _ _ Hk) eq_refl). now rewrite app_nil_r.
  - cbn [app] in *. cbn [speek_any andb speek_ident]. apply wf_cons in Hw as [Hw _]. apply wf_group in Hw.
    assert (Hk : sparse_kv E sc (SGroup b Brace (SPunct s "." Joint :: SPunct s' "." sp :: ts) :: r) =
                 SPR (SFail (EKebab AtOther) s) (SGroup b Brace (SPunct s "." Joint :: SPunct s' "." sp :: ts) :: r) []).
    { unfold sparse_kv. rewrite run_look. cbn [speek_group delim_eqb]. apply run_fail. apply braced_none; [exact Hw|].
      intros [[]|[sp' Hsp]]. discriminate. }
    unfold attr_rest. rewrite (run_bind0 _ _ _ _ _ _ (run_back_none _ _ _ _ _ _ _ Hk)). reflexivity.
  - assert (He : (SIdent s i :: SPunct s' ":" sp :: ks ++ ms ++ vs) ++ r = SIdent s i :: SPunct s' ":" sp :: ks ++ ms ++ vs ++ r)
      by (cbn; now rewrite !app_assoc).
    rewrite He in *. rewrite dir_yes. apply wf_cons in Hw as [_ Hw]. apply wf_cons in Hw as [_ Hw].
    change (wf (erases (ks ++ ms ++ vs ++ r))) in Hw.
    assert (Hr : sparse_directive E sc (SIdent s i :: SPunct s' ":" sp :: ks ++ ms ++ vs ++ r) =
                 SPR (SRet (SDirective (SId s i) k m v)) r (ds ++ ds')).
    { rewrite directive_step, (key_not_brace _ _ _ _ Hk). unfold dir_tail.
      eapply run_bind; [apply key_run; [now apply wf_wf_head|exact Hk]|].
      rewrite (run_bind0 _ _ _ _ _ _ (modifier_run sc _ _ _ Hm)).
      apply (opt_run E (fun v => SDirective (SId s i) k m v)); [|exact Ho].
      rewrite !erases_app in Hw. apply wf_app in Hw as [_ Hw]. apply wf_app in Hw as [_ Hw]. now rewrite erases_app. }
    rewrite (run_bind _ _ _ _ _ _ _ _ _ _ (unwrap_abort_ret _ _ _ _ _ _ Hr) eq_refl). now rewrite app_nil_r.
  - assert (He : (SIdent s i :: SPunct s' ":" sp :: ks ++ ms) ++ r = SIdent s i :: SPunct s' ":" sp :: ks ++ ms ++ r)
      by (cbn; now rewrite !app_assoc).
    rewrite He in *. rewrite dir_yes. apply wf_cons in Hw as [_ Hw]. apply wf_cons in Hw as [_ Hw].
    change (wf (erases (ks ++ ms ++ r))) in Hw.
    assert (Hr : sparse_directive E sc (SIdent s i :: SPunct s' ":" sp :: ks ++ ms ++ r) =
                 SPR (SRet (SDirective (SId s i) (SKKebab k) m (Some v))) r (ds ++ [])).
    { rewrite directive_step. assert (Hb : speek_group Brace (ks ++ ms ++ r) = true) by (now destruct Hs). rewrite Hb.
      unfold dir_short_tail. eapply short_run; [exact Hw|exact Hs|]. intros b.
      rewrite (run_bind0 _ _ _ _ _ _ (modifier_run sc _ _ _ Hm)). reflexivity. }
    rewrite app_nil_r in Hr.
    rewrite (run_bind _ _ _ _ _ _ _ _ _ _ (unwrap_abort_ret _ _ _ _ _ _ Hr) eq_refl). now rewrite app_nil_r.
Qed.

Lemma attr_abort sc ts o ds : wf (erases ts) -> ab_attr E sc ts o ds -> exists r, sparse_attr E sc ts = SPR (ended o) r ds.
Proof.
  intros Hw H. rewrite attr_step. revert Hw.
  assert (Hgo : forall s i s' sp r e p r' d,
    (if speek_group Brace r then dir_short_tail (SId s i) sc r else dir_tail (SId s i) sc r) = SPR (SFail e p) r' d ->
    exists r0, (if speek_any (SIdent s i :: SPunct s' ":" sp :: r) && speek2 (speek_punct ":") (SIdent s i :: SPunct s' ":" sp :: r)
      then (d <- sunwrap_or_abort E (sparse_directive E) ;; sret (SADir d)) sc (SIdent s i :: SPunct s' ":" sp :: r)
      else if speek_ident (SIdent s i :: SPunct s' ":" sp :: r) then (kv <- sparse_kv E ;; sret (SAKv kv)) sc (SIdent s i :: SPunct s' ":" sp :: r)
           else attr_rest sc (SIdent s i :: SPunct s' ":" sp :: r)) = SPR (ended None) r0 (d ++ [(DAbortParse e, p)])).
  { intros s i s' sp r e p r' d Hr. rewrite dir_yes. rewrite <- (directive_step sc s i s' sp r) in Hr.
    exists r'. apply run_abort. now apply unwrap_abort_fail. }
  destruct H as [s i s' sp r Hk|s i s' sp b inner r Hn|s i s' sp b u k ds v r Hn Hv|s i s' sp ks k ds s'' sp' r Hk Hr
                |s i s' sp ks k v ds s'' sp' r Hs Hr|b inner k ds r Hn Hk|s i s' sp b inner k ds r Hn Hk]; intros Hw;
    [apply wf_cons in Hw as [_ Hw]; apply wf_cons in Hw as [_ Hw]..|
     |apply wf_cons in Hw as [_ Hw]; apply wf_cons in Hw as [_ Hw]].
  - apply (Hgo s i s' sp r (EKebab (found_in (erases r))) (next_place sc r) r []).
    assert (Hb : speek_group Brace r = false) by (destruct r as [|[| | |? []] ?]; try reflexivity; destruct Hk). rewrite Hb.
    unfold dir_tail. apply run_fail. apply key_bad; [now apply wf_wf_head|exact Hk].
  - apply (Hgo s i s' sp _ (EKebab (found_in (erases inner))) (next_place (d_close b) inner) (SGroup b Brace inner :: r) []). cbn [speek_group delim_eqb].
    unfold dir_short_tail. apply run_fail. apply braced_none; [|exact Hn]. apply wf_cons in Hw as [Hw _]. now apply wf_group in Hw.
  - apply (Hgo s i s' sp _ EBraceExtra (next_place (d_close b) v) (SGroup b Brace (u ++ v) :: r) ds). cbn [speek_group delim_eqb].
    unfold dir_short_tail. apply run_fail. apply braced_more with k; auto. apply wf_cons in Hw as [Hw _]. now apply wf_group in Hw.
  - apply (Hgo s i s' sp _ (EIdent (found_in (erases r))) (next_place sc r) r ds). rewrite (key_not_brace _ _ _ _ Hk). unfold dir_tail.
    rewrite <- (app_nil_r ds) at 1. eapply run_bind; [apply key_run; [now apply wf_wf_head|exact Hk]|].
    apply run_fail. now apply modifier_bad.
  - apply (Hgo s i s' sp _ (EIdent (found_in (erases r))) (next_place sc r) r ds).
    assert (Hb : speek_group Brace (ks ++ SPunct s'' ":" sp' :: r) = true) by (now destruct Hs). rewrite Hb.
    unfold dir_short_tail. rewrite <- (app_nil_r ds) at 1. eapply short_run; [exact Hw|exact Hs|]. intros b.
    apply run_fail. now apply modifier_bad.
  - exists r. cbn [speek_any speek_ident andb]. unfold attr_rest. apply run_abort, run_back_abort. unfold sparse_kv. rewrite run_look.
    cbn [speek_group delim_eqb]. eapply (braced_panic E (fun k v => sret (SKvAttr (snd k) v))); [|exact Hn|exact Hk].
    apply wf_cons in Hw as [Hw _]. now apply wf_group in Hw.
  - exists r. rewrite dir_yes. apply run_abort, unwrap_abort_end. rewrite directive_step. cbn [speek_group delim_eqb].
    unfold dir_short_tail. eapply braced_panic; [|exact Hn|exact Hk]. apply wf_cons in Hw as [Hw _]. now apply wf_group in Hw.
Qed.

Lemma spread_none sc b inner r : ~ next_op "." "." (erases inner) ->
  exists e p r', sparse_spread sc (SGroup b Brace inner :: r) = SPR (SFail e p) r' [].
Proof.
  intros Hn. unfold sparse_spread. rewrite (run_bind0 (sextract Brace) _ sc (SGroup b Brace inner :: r) (b, inner) r eq_refl). cbn [snd].
  destruct (stake_punct ".." inner) as [[l r']|] eqn:Et; [|unfold sfail; eauto].
  apply stake_two in Et as (s & s' & sp & -> & _); try discriminate. destruct Hn. red. cbn. eauto.
Qed.
Lemma attr_stop sc ts ds : wf (erases ts) -> stop_attrs E ts ds -> exists e p r, sparse_attr E sc ts = SPR (SFail e p) r ds.
Proof.
  intros Hw H. rewrite attr_step.
  assert (Hf : speek_any ts = false) by (destruct ts as [|[] ts]; try reflexivity; destruct H).
  assert (Hf' : speek_ident ts = false) by (destruct ts as [|[] ts]; try reflexivity; destruct H).
  rewrite Hf, Hf'. cbn [andb]. unfold attr_rest.
  enough (exists e p r, sparse_kv E sc ts = SPR (SFail e p) r ds /\ exists e p r, sparse_spread sc ts = SPR (SFail e p) r []) as
    (e & p & r & Hk & e' & p' & r' & Hs).
  { exists EAttr, (here sc ts), ts. rewrite <- (app_nil_r ds). eapply run_bind; [eapply run_back_none, Hk|]. cbv iota.
    rewrite (run_bind0 _ _ _ _ _ _ (run_back_none _ _ _ _ _ _ _ Hs)). reflexivity. }
  assert (Hnb : (forall b l r, ts <> SGroup b Brace l :: r) -> ~ starts_name_here ts -> ds = [] ->
    exists e p r, sparse_kv E sc ts = SPR (SFail e p) r ds /\ exists e p r, sparse_spread sc ts = SPR (SFail e p) r []).
  { intros Hb Hn ->. exists (EKebab (found_in (erases ts))), (next_place sc ts), ts. split.
    - unfold sparse_kv. rewrite run_look. assert (Hg : speek_group Brace ts = false).
      { destruct ts as [|[| | |b [] l] r]; try reflexivity. now destruct (Hb b l r). }
      rewrite Hg. apply run_fail. destruct (name_cases E sc ts (wf_wf_head _ Hw)) as [(u & k & ds & r & -> & Hk & _)|[_ Hk]]; [|exact Hk].
      destruct Hn. eapply name_starts, Hk.
    - unfold sparse_spread, sbind, sextract. destruct ts as [|[| | |b [] l] r]; cbn; eauto. now destruct (Hb b l r). }
  destruct ts as [|[s i|s c sp|s k v|b d inner] ts]; cbn in H; try contradiction.
  - apply Hnb; auto; try discriminate. intros [[]|[]].
  - destruct H as [Hc ->]. apply Hnb; auto; try discriminate. intros [[]|[sp' Hsp]]. injection Hsp as -> ->. congruence.
  - apply Hnb; auto; try discriminate. intros [[]|[sp' Hsp]]. discriminate.
  - destruct d.
    + apply Hnb; auto; try discriminate. intros [[]|[sp' Hsp]]. discriminate.
    + apply Hnb; auto; try discriminate. intros [[]|[sp' Hsp]]. discriminate.
    + destruct H as [Hop Ht]. apply wf_cons in Hw as [Hw _]. apply wf_group in Hw. destruct (spread_none sc b inner ts Hop) as (e & p & r & Hs).
      assert (Hk : exists e p r, sparse_braced_kebab E sc (SGroup b Brace inner :: ts) = SPR (SFail e p) r ds).
      { destruct Ht as [inner Hn|u k ds v Hn Hv].
        - do 3 eexists. now apply braced_none.
        - do 3 eexists. now apply braced_more with k. }
      destruct Hk as (e' & p' & r' & Hk). exists e', p', r'. split; [|eauto].
      unfold sparse_kv. rewrite run_look. cbn [speek_group delim_eqb]. now apply run_fail.
Qed.

Lemma attr_cases sc ts : wf (erases ts) ->
  (exists u a ds r, ts = u ++ r /\ rd_attr E u a ds r) \/ (exists o ds, ab_attr E sc ts o ds) \/
  (exists ds, stop_attrs E ts ds).
Proof.
  intros Hw. destruct (speek_any ts && speek2 (speek_punct ":") ts) eqn:Ed.
  - destruct (sdir_test _ Ed) as (s & i & s' & sp & r & ->). assert (Hw0 := Hw).
    apply wf_cons in Hw as [_ Hw]. apply wf_cons in Hw as [_ Hw]. change (wf (erases r)) in Hw.
    destruct (speek_group Brace r) eqn:Eb.
    + destruct r as [|[| | |b [] inner] r]; try discriminate. assert (Hwi := Hw). apply wf_cons in Hwi as [Hwi Hwr]. apply wf_group in Hwi.
      destruct (braced_cases E inner Hwi) as [(k & ds & j & Hk & Hj)|[(k & ds & Hk & Hj)|[(u & k & ds & v & -> & Hk & Hv)|Hn]]].
      * assert (Hs := rds E b inner k j ds Hk Hj). destruct (modifier_cases r) as [(u & m & r' & -> & Hm)|(s'' & sp' & r' & -> & Hr)].
        -- left. exists (SIdent s i :: SPunct s' ":" sp :: [SGroup b Brace inner] ++ u). do 3 eexists. split; [reflexivity|].
           eapply rda_dir_short; eassumption.
        -- right. left. exists None, (ds ++ [(DAbortParse (EIdent (found_in (erases r'))), next_place sc r')]).
           exact (aba_modifier_short E sc s i s' sp [SGroup b Brace inner] k _ ds s'' sp' r' Hs Hr).
      * right. left. do 2 eexists. eapply aba_name_dir; eassumption.
      * right. left. do 2 eexists. eapply aba_braces_more; eassumption.
      * right. left. do 2 eexists. now eapply aba_braces_none.
    + assert (Hg : ~ next_group Brace (erases r)).
      { destruct r as [|[| | |b [] l] r]; try discriminate; cbn; try tauto; discriminate. }
      destruct (key_cases E r (wf_wf_head _ Hw) Hg) as [(u & k & ds & r' & -> & Hk)|Hk].
      * destruct (modifier_cases r') as [(ms & m & r & -> & Hm)|(s'' & sp' & r & -> & Hr)].
        -- rewrite erases_app in Hw. apply wf_app in Hw as [_ Hw]. rewrite erases_app in Hw. apply wf_app in Hw as [_ Hw].
           destruct (opt_cases E (fun v => v) sc r Hw) as (vs & v & ds' & r' & -> & Ho & _).
           left. exists (SIdent s i :: SPunct s' ":" sp :: u ++ ms ++ vs). do 3 eexists.
           split; [|eapply rda_dir; eassumption]. cbn. now rewrite !app_assoc.
        -- right. left. do 2 eexists. eapply aba_modifier; eassumption.
      * right. left. do 2 eexists. now eapply aba_key.
  - assert (Hd := Ed). rewrite sdir_test_f in Ed.
    destruct (name_cases E sc ts (wf_wf_head _ Hw)) as [(u & k & ds & r & -> & Hn & _)|[Hn _]].
    + assert (Hwr := Hw). rewrite erases_app in Hwr. apply wf_app in Hwr as [_ Hwr].
      destruct (opt_cases E (fun v => v) sc r Hwr) as (vs & v & ds' & r' & -> & Ho & _).
      left. exists (u ++ vs). do 3 eexists. split; [now rewrite app_assoc|]. eapply rda_kv; try eassumption.
      assert (Hne : u <> []) by (destruct Hn as ([] & _); discriminate).
      rewrite erases_app, next_ident_app in Ed by (now destruct u). now destruct u.
    + destruct ts as [|[s i|s c sp|s k v|b d inner] ts].
      * right. right. now exists [].
      * destruct Hn. now left.
      * right. right. exists []. split; [|reflexivity]. intros ->. apply Hn. right. now exists sp.
      * right. right. now exists [].
      * destruct d; try (right; right; now exists []).
        apply wf_cons in Hw as [Hw _]. apply wf_group in Hw. change (wf (erases inner)) in Hw.
        destruct (braced_cases E inner Hw) as [(k & ds & j & Hk & Hj)|[(k & ds & Hk & Hj)|[(u & k & ds & v & -> & Hk & Hv)|Hi]]].
        -- left. exists [SGroup b Brace inner]. do 3 eexists. split; [reflexivity|]. eapply rda_short. econstructor; eassumption.
        -- right. left. do 2 eexists. eapply aba_name_short; eassumption.
        -- right. right. exists ds. split; [|now apply tried_name with k].
           apply name_starts in Hk. intros (sp & r & Hop). rewrite Hop in Hk || (unfold starts_name_here in Hk; rewrite Hop in Hk).
           destruct Hk as [[]|[sp' Hsp]]. discriminate.
        -- destruct (next_op_dec "." "." (erases inner)) as [Hop|Hop].
           ++ left. destruct Hop as (sp & r & Hop). destruct inner as [|[] [|[] inner]]; try discriminate. cbn in Hop. injection Hop as -> -> -> -> <-.
              eexists [_]. do 3 eexists. split; [reflexivity|]. apply rda_spread.
           ++ right. right. exists []. split; [exact Hop|]. now constructor.
Qed.
End Attrs.
