(** What the reports say, and what is at their places. *)
From Verif Require Import PropFacts1 GrammarFacts2 Texts BrokenFacts3 Properties20 PlacedFacts WhereFacts UserIn UserBroken.
From Verif Require Import SpecStr SpecGrammar SpecReports SpecSpan SpecSpell SpecBroken SpecWhere SpecText STokens Erase.
Open Scope list_scope.
Close Scope sparse_scope.
Close Scope sexpand_scope.

(** ** Parts of streams *)

Lemma within_trans u v w : within u v -> within v w -> within u w.
Proof.
  intros Hu. induction 1 as [a b|a s d ts b Hv IH]; [|now constructor]. destruct Hu as [a' b'|a' s d ts b' Hu].
  - rewrite <- !app_assoc, (app_assoc a a'). constructor.
  - rewrite <- !app_assoc, (app_assoc a a'). cbn [app]. now constructor.
Qed.
Lemma within_refl u : within u u.
Proof. rewrite <- (app_nil_r u) at 2. exact (wi_here u [] []). Qed.
Lemma within_l u v w : within u v -> within u (v ++ w).
Proof. intros H. eapply within_trans; [exact H|]. exact (wi_here v [] w). Qed.
Lemma within_r u v w : within u w -> within u (v ++ w).
Proof. intros H. eapply within_trans; [exact H|]. rewrite <- (app_nil_r w) at 2. exact (wi_here w v []). Qed.
Lemma within_skip u t w : within u w -> within u (t :: w).
Proof. exact (within_r u [t] w). Qed.
Lemma within_in u s d ts r : within u ts -> within u (SGroup s d ts :: r).
Proof. exact (wi_deep u [] s d ts r). Qed.
Lemma within_1 t r : within [t] (t :: r).
Proof. exact (wi_here [t] [] r). Qed.
Lemma within_2 t t' r : within [t; t'] (t :: t' :: r).
Proof. exact (wi_here [t; t'] [] r). Qed.
Lemma within_3 t t' t'' r : within [t; t'; t''] (t :: t' :: t'' :: r).
Proof. exact (wi_here [t; t'; t''] [] r). Qed.

(** ** Larger streams *)

Section Up.
Variable E : senv.
Variable sc sc' : span.
Variable ts ts' : list stt.
Hypothesis Hw : within ts ts'.
Hypothesis Hend : forall p, end_place sc ts p -> end_place sc' ts' p.
Lemma has_up u : has ts u -> has ts' u.
Proof. intros H. eapply within_trans; [exact H|exact Hw]. Qed.
Lemma token_up p Q : token_at ts p Q -> token_at ts' p Q.
Proof. intros (t & H & H'). exists t. split; auto. now apply has_up. Qed.
Lemma tag_up p : tag_at E ts p -> tag_at E ts' p.
Proof. intros (u & t & H & H'). exists u, t. split; auto. now apply has_up. Qed.
Lemma value_up p Q : value_at E ts p Q -> value_at E ts' p Q.
Proof. intros (u & t & H & H'). exists u, t. split; auto. now apply has_up. Qed.
Lemma equals_up p Q : equals_at ts p Q -> equals_at ts' p Q.
Proof.
  intros (s & sp & H & [H'|(t & H1 & H2)]); exists s, sp; (split; [now apply has_up|]); auto.
  right. exists t. split; auto. now apply has_up.
Qed.
Lemma about_up p t h : about E sc ts p t h -> about E sc' ts' p t h.
Proof.
  assert (H1 := token_up p). assert (H1' := token_up). assert (H2 := tag_up). assert (H3 := value_up). assert (H4 := equals_up). assert (H5 := has_up).
  destruct 1; try (econstructor; eauto; fail).
  - apply abt_no_block. destruct H; auto.
  - eapply abt_clone_value. destruct H; auto.
  - apply abt_root_slot. destruct H as [H|(s & sp & H)]; eauto.
Qed.
End Up.

Definition fits (E : senv) (sc : span) (ts : list stt) (d : sdiag) : Prop :=
  match diag_text (fst d) with
  | Some t => about E sc ts (snd d) t (diag_help (fst d))
  | None => exists s sp, has ts [SPunct s "<" sp]
  end.
Lemma fits_up E sc ts ts' d : within ts ts' -> fits E sc ts d -> fits E sc ts' d.
Proof.
  intros Hw. unfold fits. destruct (diag_text (fst d)); [|intros (s & sp & H); exists s, sp; eapply has_up; eassumption].
  apply about_up; [exact Hw|]. intros p [->|(b & k & us & H & ->)]; [now left|]. right. exists b, k, us. split; auto. eapply has_up; eassumption.
Qed.
Lemma fits_in E sc b k inner ts d : within [SGroup b k inner] ts -> fits E (d_close b) inner d -> fits E sc ts d.
Proof.
  intros Hw. assert (Hi : within inner ts) by (eapply within_trans; [|exact Hw]; apply within_in, within_refl).
  unfold fits. destruct (diag_text (fst d)); [|intros (s & sp & H); exists s, sp; eapply has_up; eassumption].
  apply about_up; [exact Hi|]. intros p [->|(b' & k' & us & H & ->)]; right; [now exists b, k, inner|].
  exists b', k', us. split; auto. eapply has_up; eassumption.
Qed.
Definition all_tell (E : senv) (sc : span) (ts : list stt) (ds : list sdiag) : Prop := Forall (fits E sc ts) ds.
Lemma all_up E sc ts ts' ds : within ts ts' -> all_tell E sc ts ds -> all_tell E sc ts' ds.
Proof. intros H. apply Forall_impl. intros d. now apply fits_up. Qed.
Lemma all_in_group E sc b k inner ts ds : within [SGroup b k inner] ts -> all_tell E (d_close b) inner ds -> all_tell E sc ts ds.
Proof. intros H. apply Forall_impl. intros d. eapply fits_in, H. Qed.
Lemma all_l E sc u v ds : all_tell E sc u ds -> all_tell E sc (u ++ v) ds.
Proof. apply all_up, within_l, within_refl. Qed.
Lemma all_r E sc u v ds : all_tell E sc v ds -> all_tell E sc (u ++ v) ds.
Proof. apply all_up, within_r, within_refl. Qed.
Lemma all_skip E sc t v ds : all_tell E sc v ds -> all_tell E sc (t :: v) ds.
Proof. apply all_up, within_skip, within_refl. Qed.
Lemma all_app E sc ts ds ds' : all_tell E sc ts ds -> all_tell E sc ts ds' -> all_tell E sc ts (ds ++ ds').
Proof. intros. now apply Forall_app. Qed.


Section Read.
Variable E : senv.
Hypothesis HE : senv_ok E.

(** The place of the next token. *)
Lemma next_starts sc t r : starts_at t (next_place sc (t :: r)).
Proof. destruct t; reflexivity. Qed.
Lemma next_end sc : end_place sc [] (next_place sc []).
Proof. now left. Qed.
Lemma token_here sc t r (Q : stt -> Prop) : Q t -> token_at (t :: r) (next_place sc (t :: r)) Q.
Proof. intros HQ. exists t. split; [apply within_1|]. split; [apply next_starts|exact HQ]. Qed.
Lemma punct_here c r : next_punct c (erases r) -> exists s sp r', r = SPunct s c sp :: r'.
Proof. destruct r as [|[s i|s c' sp|s k v|b d l] r]; intros H; try destruct H as (sp0 & [= -> ->]); try discriminate; eauto. destruct H. Qed.

(** ** Names and values *)

Lemma t_name sc ts k ds f : rd_name E ts k ds f -> all_tell E sc ts ds.
Proof.
  intros (_ & _ & ->). apply Forall_forall. intros d Hd. unfold raw_reports in Hd. apply in_flat_map in Hd as (t & Ht & Hd).
  assert (Ht' : In t ts) by (destruct ts; [destruct Ht|now right]).
  destruct t as [s [[] n]|?|?|?]; try destruct Hd as [<-|[]]; try destruct Hd. apply abt_raw with n.
  apply in_split in Ht' as (a & b & ->). exact (wi_here [_] a b).
Qed.
Lemma t_opt sc ts v ds f : rd_opt E ts v ds f -> all_tell E sc (ts ++ f) ds.
Proof.
  intros [| |s sp b p f0 Hn -> Hb]; [constructor|constructor|]. constructor; [|constructor]. unfold fits. cbn [fst snd diag_text diag_help app].
  destruct b.
  - assert (Hw := proj1 Hb eq_refl). destruct f0 as [|[q i|?|?|?] f0]; try (now destruct Hw).
    eapply abt_value_word with (s := s) (sp := sp) (i := i); [apply within_2|exact Hw].
  - apply abt_value. exists s, sp. split; [apply within_1|]. destruct f0 as [|t f0]; [now left|]. right. exists t. split; [apply within_2|].
    split; [apply next_starts|]. intros Hw. enough (false = true) by discriminate. apply Hb. destruct t; exact Hw.
Qed.
Lemma t_key sc ts k ds f : rd_key E ts k ds f -> all_tell E sc ts ds.
Proof. intros [|? ? ? ? H]; [constructor|eapply t_name, H]. Qed.
Lemma t_short sc ts k v ds : rd_short E ts k v ds -> all_tell E sc ts ds.
Proof. intros [b inner k0 i ds0 H _]. eapply all_in_group; [apply within_1|eapply t_name, H]. Qed.

(** ** Attributes *)

Lemma t_attr sc ts a ds f : rd_attr E ts a ds f -> all_tell E sc (ts ++ f) ds.
Proof.
  intros [ts0 k d ts' v d' f0 Hk Hv _|ts0 k v d f0 H|b s s' sp ts0 f0|s i s' sp ks k d ms m vs v d' f0 Hk Hm Hv|s i s' sp ks k v d ms m f0 H Hm].
  - apply all_app; rewrite <- app_assoc; [eapply all_l, t_name, Hk|eapply all_r, t_opt, Hv].
  - eapply all_l, t_short, H.
  - constructor.
  - cbn [app]. do 2 apply all_skip. rewrite <- !app_assoc. apply all_app; [eapply all_l, t_key, Hk|eapply all_r, all_r, t_opt, Hv].
  - cbn [app]. do 2 apply all_skip. rewrite <- !app_assoc. eapply all_l, t_short, H.
Qed.
Lemma t_kebab sc ts : ~ starts_name_here ts -> forall d, d = DParse (EKebab (found_in (erases ts))) \/ d = DAbortParse (EKebab (found_in (erases ts))) ->
  fits E sc ts (d, next_place sc ts).
Proof.
  intros Hn d Hd. assert (Hx : diag_text d = error_text (EKebab (found_in (erases ts))) /\ diag_help d = None) by (destruct Hd as [-> | ->]; auto).
  unfold fits. cbn [fst snd]. destruct Hx as [-> ->]. cbn [error_text]. destruct ts as [|t ts]; [apply abt_kebab_end, next_end|].
  assert (Ht : ~ word_token t /\ forall s sp, t <> SPunct s "-" sp).
  { split; [intros H; apply Hn; left; destruct t; try destruct H; exact I|]. intros s sp ->. apply Hn. right. now exists sp. }
  replace (cursor_text _ _) with "expected a kebab-cased ident"%string by (destruct t; reflexivity || now destruct (proj1 Ht)).
  now apply abt_kebab, token_here.
Qed.
Lemma t_ident sc ts : ~ next_ident (erases ts) -> forall d, d = DParse (EIdent (found_in (erases ts))) \/ d = DAbortParse (EIdent (found_in (erases ts))) ->
  fits E sc ts (d, next_place sc ts).
Proof.
  intros Hn d Hd. assert (Hx : diag_text d = error_text (EIdent (found_in (erases ts))) /\ diag_help d = None) by (destruct Hd as [-> | ->]; auto).
  unfold fits. cbn [fst snd]. destruct Hx as [-> ->]. destruct ts as [|t ts]; [apply abt_ident_end, next_end|].
  assert (Ht : ~ word_token t) by (intros H; apply Hn; destruct t; try destruct H; exact I).
  replace (error_text _) with (Some "expected identifier"%string) by (destruct t; reflexivity || now destruct Ht).
  now apply abt_ident, token_here.
Qed.
Lemma no_key_name ts : no_key ts -> ~ starts_name_here ts.
Proof.
  destruct ts as [|[s i|s c sp|s k v|b d l] ts]; cbn; intros H [H'|H']; try exact H; try destruct H' as (? & [=]); try easy; congruence.
Qed.
Lemma one_tells sc ts d : fits E sc ts d -> all_tell E sc ts [d].
Proof. now constructor. Qed.
Lemma t_ab_attr sc ts o ds : ab_attr E sc ts o ds -> all_tell E sc ts ds.
Proof.
  intros [s i s' sp r Hn|s i s' sp b inner r Hn|s i s' sp b u k d v r Hk Hv|s i s' sp ks k d s2 sp' r Hk Hn|s i s' sp ks k v d s2 sp' r Hk Hn
    |b inner k d r Hk _|s i s' sp b inner k d r Hk _].
  - do 2 apply all_skip. apply one_tells, t_kebab; auto. now apply no_key_name.
  - do 2 apply all_skip. eapply all_in_group; [apply within_1|]. apply one_tells, t_kebab; auto.
  - do 2 apply all_skip. apply all_app; [eapply all_in_group; [apply within_1|]; eapply all_l, t_name, Hk|].
    apply one_tells. unfold fits. cbn [fst snd diag_text diag_help error_text]. destruct v as [|t v]; [easy|].
    eapply abt_extra with (b := b) (u := u) (t := t) (v := v); [apply within_1| |apply next_starts]. destruct Hk as [[] _]. discriminate.
  - do 2 apply all_skip. apply all_app; [eapply all_l, t_key, Hk|]. apply all_r, all_skip, one_tells, t_ident; auto.
  - do 2 apply all_skip. apply all_app; [eapply all_l, t_short, Hk|]. apply all_r, all_skip, one_tells, t_ident; auto.
  - eapply all_in_group; [apply within_1|eapply t_name, Hk].
  - do 2 apply all_skip. eapply all_in_group; [apply within_1|eapply t_name, Hk].
Qed.
Lemma t_stop sc f ds : stop_attrs E f ds -> all_tell E sc f ds.
Proof.
  destruct f as [|[s i|s c sp|s k v|b [] l] f]; cbn [stop_attrs]; intros H; try subst ds; try constructor; try easy.
  - destruct H as [_ ->]. constructor.
  - destruct H as [_ H]. eapply all_in_group; [apply within_1|]. destruct H as [|u k d v H _]; [constructor|eapply all_l, t_name, H].
Qed.
Lemma t_many {A} (P : list stt -> A -> list sdiag -> list stt -> Prop) (stop : list stt -> list sdiag -> Prop) sc ts l ds f :
  (forall ts a ds f, P ts a ds f -> all_tell E sc (ts ++ f) ds) -> (forall f ds, stop f ds -> all_tell E sc f ds) ->
  rd_many P stop ts l ds f -> all_tell E sc (ts ++ f) ds.
Proof.
  intros HP Hs. induction 1 as [|? ? ? ? ? ? ? Ha Hl IH]; [auto|]. rewrite <- app_assoc. apply all_app; [now apply HP in Ha|]. now apply all_r.
Qed.
Lemma t_attrs sc ts l ds f : rd_attrs E ts l ds f -> all_tell E sc (ts ++ f) ds.
Proof. apply t_many; [intros ts0 a d f0; apply t_attr|intros; now apply t_stop]. Qed.
Lemma t_ab_attrs sc ts o ds : ab_attrs E sc ts o ds -> all_tell E sc ts ds.
Proof.
  induction 1 as [? ? ? H|u a d ts' o d' Ha _ IH]; [eapply t_ab_attr, H|]. apply all_app; [eapply t_attr, Ha|now apply all_r].
Qed.
Lemma t_selectors sc ts l ds f : rd_selectors E ts l ds f -> all_tell E sc (ts ++ f) ds.
Proof.
  apply t_many; [|intros ? ? [_ ->]; constructor].
  intros ? ? ? ? [s sp ts0 k d f0 H|s sp ts0 k d f0 H]; cbn [app]; eapply all_skip, all_l, t_name, H.
Qed.
Lemma t_tag sc ts t ds f : rd_tag E ts t ds f -> all_tell E sc ts ds.
Proof. intros [|? ? ? ? ? _ H _]; [constructor|eapply t_name, H]. Qed.
Lemma t_head sc ts t sels attrs ds f : rd_head E ts t sels attrs ds f -> all_tell E sc (ts ++ f) ds.
Proof.
  intros [ts1 t0 ds1 ts2 l ds2 ts3 l' ds3 f0 H1 H2 H3]. rewrite <- !app_assoc. apply all_app; [eapply all_l, t_tag, H1|].
  apply all_r. apply all_app; [eapply t_selectors, H2|]. apply all_r. eapply t_attrs, H3.
Qed.

(** ** What cannot be read *)

Definition bad_fits (sc : span) (ts : list stt) (e : perr) (p : span) (rest : list stt) : Prop :=
  fits E sc ts (DParse e, p) /\ forall s sp r, rest = SPunct s ";" sp :: r -> fits E sc ts (DExtraSemi, p).
Lemma bad_up sc ts ts' e p rest : within ts ts' -> bad_fits sc ts e p rest -> bad_fits sc ts' e p rest.
Proof. intros H [H1 H2]. split; [eapply fits_up; eassumption|]. intros s sp r Hr. eapply fits_up; [exact H|]. eauto. Qed.
Lemma semi_here sc ts s sp r : ts = SPunct s ";" sp :: r -> fits E sc ts (DExtraSemi, next_place sc ts).
Proof. intros ->. apply abt_semi with sp. apply within_1. Qed.
Lemma t_generics sc ts r p rest : next_punct "<" (erases r) -> s_generic E sc r = inr (rest, p) -> within r ts -> bad_fits sc ts EGenerics p rest.
Proof.
  intros H Hg Hw. apply punct_here in H as (s & sp & r' & ->).
  assert (Hh : has ts [SPunct s "<" sp]) by (eapply within_trans; [apply within_1|exact Hw]).
  split; [unfold fits; cbn; eauto|]. intros s' sp' r0 ->. apply abt_semi_generics with s' sp' s sp; [|exact Hh].
  destruct (proj1 (proj2 (proj2 (proj2 HE))) _ _ _ _ Hg) as [[u Hu] _]. eapply within_trans; [|exact Hw]. rewrite Hu. exact (wi_here [_] u r0).
Qed.
Lemma not_plain i : ~ plain_segment i -> i_raw i = false /\ In (i_name i) keyword_names.
Proof.
  intros H. split; [destruct (i_raw i) eqn:Hi; auto; destruct H; now left|].
  destruct (in_dec string_dec (i_name i) keyword_names) as [Hi|Hi]; auto. destruct H. right. now left.
Qed.
Lemma t_segment sc ts e p rest : bad_segment E sc ts e p rest -> bad_fits sc ts e p rest.
Proof.
  intros [ts0 Hn|s i r p0 r0 _ _ H _ Hg|s i c l r p0 r0 _ _ Hc H Hg].
  - split; [|intros s sp r; apply semi_here]. destruct ts0 as [|[s i|s c sp|s k v|b d l] ts0];
    try (apply t_ident; [intros H; exact H|now left]).
    destruct Hn as [Hn _]. apply not_plain in Hn as [Hr Hk]. unfold fits. cbn [fst snd diag_text diag_help error_text erases map erase found_in].
    replace (ident_to_string i) with (i_name i) by (unfold ident_to_string; now rewrite Hr). apply abt_keyword; [apply within_1|exact Hr|exact Hk].
  - eapply t_generics; [exact H|exact Hg|]. apply within_skip, within_refl.
  - eapply t_generics; [exact H|exact Hg|]. apply within_skip, within_r, within_refl.
Qed.
Lemma t_segments sc ts e p rest : bad_segments E sc ts e p rest -> bad_fits sc ts e p rest.
Proof.
  induction 1 as [? ? ? ? H|ts0 s c l ts' ? ? ? _ _ _ _ _ IH]; [now apply t_segment|]. eapply bad_up; [|exact IH]. apply within_r, within_r, within_refl.
Qed.
Lemma t_bad_tag sc ts e p rest : bad_tag E sc ts e p rest -> bad_fits sc ts e p rest.
Proof.
  intros [? ? ? ? _ _ H|c l ts0 ? ? ? _ H|ts0 _ H]; [now apply t_segments| |].
  - eapply bad_up; [|apply t_segments, H]. apply within_r, within_refl.
  - split; [apply t_kebab; auto|intros s sp r; apply semi_here].
Qed.
Lemma t_bad_element sc ts ds e p rest : bad_element E sc ts ds e p rest -> all_tell E sc ts ds /\ bad_fits sc ts e p rest.
Proof.
  intros [? ? ? ? H|ts0 t sels attrs d s sp args H _]; [split; [constructor|now apply t_bad_tag]|].
  split; [eapply t_head, H|]. split; [|easy]. apply abt_args with sp. exact (wi_here [_] ts0 args).
Qed.
Lemma no_value_head ts t r : ts = t :: r -> no_value ts -> match t with SLit _ _ _ => False | SGroup _ d _ => d = Paren | _ => True end.
Proof.
  intros -> Hn. destruct t as [s i|s c sp|s k v|b d l]; auto.
  - apply Hn. exists [TLit k v], (VLit (LitTok k v)), (erases r). split; [reflexivity|constructor].
  - destruct d; auto; exfalso; apply Hn.
    + exists [TGroup Bracket (erases l)], (VBracket None (erases l)), (erases r). split; [reflexivity|constructor].
    + exists [TGroup Brace (erases l)], (VBlock (erases l)), (erases r). split; [reflexivity|constructor].
Qed.
Lemma t_bad_child sc ts ds e p rest : bad_child E sc ts ds e p rest -> all_tell E sc ts ds /\ bad_fits sc ts e p rest.
Proof.
  intros [ts0 Hn Hv Hi|ts0 d e0 p0 r _ _ _ H|s s' sp ts0 d e0 p0 r _ H].
  - split; [constructor|]. split; [|intros s sp r; apply semi_here]. destruct ts0 as [|t ts0]; [easy|]. apply abt_child, token_here.
    assert (H := no_value_head _ t ts0 eq_refl Hv). destruct t; auto.
  - now apply t_bad_element.
  - apply t_bad_element in H as [H1 H2]. split; [now do 2 apply all_skip|]. eapply bad_up; [|exact H2]. apply within_skip, within_skip, within_refl.
Qed.

(** ** What is said about the tree *)

Lemma not_word i s : is_word i s = false -> i <> Id false s.
Proof. unfold is_word. destruct (ident_dec i (Id false s)); [discriminate|auto]. Qed.
Lemma word_is i s : is_word i s = true -> i = Id false s.
Proof. unfold is_word. destruct (ident_dec i (Id false s)); [auto|discriminate]. Qed.
Lemma v_value sc ts v : sp_value E ts v -> all_tell E sc ts (p_value v).
Proof.
  intros [| | | | | |s i b ts0]; cbn [p_value]; try constructor. cbn [si_ident si_span]. destruct (is_word i "f") eqn:Hw; constructor; [|constructor].
  apply abt_prefix with i b ts0; [apply within_refl|]. now apply not_word.
Qed.
Lemma v_opt sc ts v ds f : rd_opt E ts v ds f -> all_tell E sc (ts ++ f) (p_opt v).
Proof.
  intros [|s sp ts0 v0 f0 [H _]|]; cbn [p_opt]; [constructor| |constructor]. cbn [app]. apply all_skip, all_l, v_value, H.
Qed.
Lemma v_place ts v ds f x : rd_opt E ts v ds f -> v = Some x ->
  value_at E (ts ++ f) (value_place x) (fun _ => True) \/ equals_at (ts ++ f) (value_place x) (fun _ => True).
Proof.
  intros [|s sp ts0 v0 f0 [H _]|s sp b p f0 _ -> _] Hx; [discriminate| |]; injection Hx as <-.
  - left. exists ts0, v0. split; [cbn [app]; apply within_skip, within_l, within_refl|auto].
  - right. cbn. exists s, sp. split; [apply within_1|]. destruct f0 as [|t f0]; [now left|]. right. exists t. split; [apply within_2|].
    split; [apply next_starts|exact I].
Qed.

(** What the view has of a directive. *)
Definition dir_seen (sc : span) (U : list stt) (d : sdirective) : Prop :=
  (exists s' sp, has U [SIdent (si_span (sd_dir d)) (si_ident (sd_dir d)); SPunct s' ":" sp] /\
     forall s v, sd_key d = SKStr s v -> has U [SIdent (si_span (sd_dir d)) (si_ident (sd_dir d)); SPunct s' ":" sp; SLit s LkStr v]) /\
  (forall m, sd_modifier d = Some m -> exists s sp, has U [SPunct s ":" sp; SIdent (si_span m) (si_ident m)]) /\
  all_tell E sc U (p_opt (sd_value d)) /\
  (forall v, sd_value d = Some v -> value_at E U (value_place v) (fun _ => True) \/ equals_at U (value_place v) (fun _ => True)).
Lemma seen_modifier ts m f U : rd_modifier ts m f -> within ts U -> forall x, m = Some x -> exists s sp, has U [SPunct s ":" sp; SIdent (si_span x) (si_ident x)].
Proof. intros [Hm _] Hw x ->. inversion Hm; subst. exists s, sp. exact Hw. Qed.
Lemma seen_dir sc ts d ds f : rd_attr E ts (SADir d) ds f -> dir_seen sc (ts ++ f) d.
Proof.
  intros H. inversion H as [| | |s i s' sp ks k d0 ms m vs v d' f0 Hk Hm Hv|s i s' sp ks k v d0 ms m f0 Hk Hm]; subst; unfold dir_seen; cbn [sd_dir sd_key sd_modifier sd_value si_span si_ident app].
  - split; [|split; [|split]].
    + exists s', sp. split; [apply within_2|]. intros s0 v0 ->. inversion Hk; subst. cbn [app]. apply within_3.
    + eapply seen_modifier; [exact Hm|]. do 2 apply within_skip. rewrite <- !app_assoc. apply within_r, within_l, within_refl.
    + do 2 apply all_skip. rewrite <- !app_assoc. do 2 apply all_r. eapply v_opt, Hv.
    + intros x Hx. destruct (v_place _ _ _ _ _ Hv Hx) as [Hp|Hp]; [left; eapply value_up; [|exact Hp]|right; eapply equals_up; [|exact Hp]];
      do 2 apply within_skip; rewrite <- !app_assoc; do 2 apply within_r; apply within_refl.
  - split; [|split; [|split]].
    + exists s', sp. split; [apply within_2|]. intros s0 v0 [=].
    + eapply seen_modifier; [exact Hm|]. do 2 apply within_skip. rewrite <- !app_assoc. apply within_r, within_l, within_refl.
    + destruct Hk. constructor.
    + intros x [= <-]. left. destruct Hk as [b inner k i0 d1 _ _]. exists [SGroup b Brace inner], (SVBlock b inner). split; [|split; [constructor|auto]].
      do 2 apply within_skip. rewrite <- !app_assoc. apply within_1.
Qed.
Section Dir.
Variable sc : span.
Variable U : list stt.
Variable d : sdirective.
Hypothesis Hd : dir_seen sc U d.
Lemma d_key : all_tell E sc U (p_key (sd_key d)).
Proof.
  destruct Hd as ((s' & sp & _ & H) & _). destruct (sd_key d) as [k|s v]; [constructor|]. apply one_tells, abt_ident. exists (SLit s LkStr v).
  split; [|easy]. eapply within_trans; [|apply (H _ _ eq_refl)]. apply within_skip, within_skip, within_1.
Qed.
Lemma d_modifier : all_tell E sc U (p_modifier (sd_modifier d)).
Proof.
  destruct Hd as (_ & H & _). destruct (sd_modifier d) as [m|]; [|constructor]. destruct (H m eq_refl) as (s & sp & Hm).
  apply one_tells. eapply abt_modifier, Hm.
Qed.
Lemma d_value : all_tell E sc U (p_opt (sd_value d)).
Proof. apply Hd. Qed.
Lemma d_event : snamed d "on" = true -> all_tell E sc U (p_event d).
Proof.
  intros Hn. apply word_is in Hn. destruct Hd as ((s' & sp & _ & H) & Hm & _). unfold p_event. apply all_app.
  - destruct (sd_key d) as [k|s v]; [constructor|]. apply one_tells. specialize (H _ _ eq_refl). rewrite Hn in H. eapply abt_event, H.
  - destruct (sd_modifier d) as [m|]; [|constructor]. destruct (Hm m eq_refl) as (s & sp0 & H'). destruct (is_word (si_ident m) "undelegated") eqn:Hu; [constructor|].
    apply one_tells. eapply abt_on_modifier; [exact H'|now apply not_word].
Qed.
Lemma d_on : snamed d "on" = true -> all_tell E sc U (p_on d).
Proof. intros Hn. apply all_app; [now apply d_event|apply d_value]. Qed.
Lemma d_use : all_tell E sc U (p_use d).
Proof. apply all_app; [apply d_key|]. apply all_app; [apply d_modifier|apply d_value]. Qed.
Lemma d_clone : all_tell E sc U (p_clone d).
Proof.
  apply all_app; [apply d_modifier|]. apply all_app; [apply d_key|]. apply all_app; [apply d_modifier|].
  destruct Hd as (_ & _ & _ & H). destruct (sd_value d) as [v|]; [|constructor]. apply one_tells, abt_clone_value. now apply H.
Qed.
Lemma d_unknown : (forall w, In w known_directives -> snamed d w = false) -> all_tell E sc U [(DUnknownDirective, si_span (sd_dir d))].
Proof.
  intros Hn. destruct Hd as ((s' & sp & H & _) & _). apply one_tells. eapply abt_unknown; [exact H|]. intros Hin. apply in_map_iff in Hin as (w & Hw & Hin).
  specialize (Hn w Hin). apply not_word in Hn. congruence.
Qed.
Ltac known := intros w Hw; repeat (destruct Hw as [<-|Hw]; [assumption|]); destruct Hw.
Lemma d_html : all_tell E sc U (p_html_dir d).
Proof.
  assert (H1 := d_modifier). assert (H2 := d_value). assert (H3 := d_on). assert (H4 := d_use). assert (H5 := d_unknown).
  unfold p_html_dir. destruct (snamed d "class") eqn:E1; [now apply all_app|]. destruct (snamed d "style") eqn:E2; [now apply all_app|].
  destruct (snamed d "prop") eqn:E3; [now apply all_app|]. cbn [orb]. destruct (snamed d "on") eqn:E4; [now apply H3|].
  destruct (snamed d "use") eqn:E5; [exact H4|]. destruct Hd as ((s' & sp & H & _) & _).
  destruct (snamed d "attr") eqn:E6; cbn [orb].
  { assert (Hi := word_is _ _ E6). unfold snamed in E6. rewrite Hi in H |- *. apply one_tells. unfold fits. cbn. eapply abt_attr_dir, H. }
  destruct (snamed d "clone") eqn:E7.
  { assert (Hi := word_is _ _ E7). rewrite Hi in H |- *. apply one_tells. unfold fits. cbn. eapply abt_clone_dir, H. }
  apply H5. known.
Qed.
Lemma d_component : all_tell E sc U (p_component_dir d).
Proof.
  assert (H1 := d_key). assert (H2 := d_value). assert (H3 := d_on). assert (H4 := d_use). assert (H5 := d_unknown). assert (H6 := d_clone).
  unfold p_component_dir. destruct (snamed d "clone") eqn:E1; [exact H6|]. destruct (snamed d "class") eqn:E2; [exact H2|].
  destruct (snamed d "style") eqn:E3; [exact H2|]. cbn [orb]. destruct (snamed d "attr") eqn:E4.
  { apply all_app; [|exact H2]. destruct (is_custom _); [constructor|exact H1]. }
  destruct (snamed d "prop") eqn:E5; [now apply all_app|]. destruct (snamed d "on") eqn:E6; [now apply H3|].
  destruct (snamed d "use") eqn:E7; [exact H4|]. apply H5. known.
Qed.
Lemma d_slot : all_tell E sc U (p_slot_dir d).
Proof.
  unfold p_slot_dir. destruct (snamed d "clone") eqn:E1; [apply d_clone|]. destruct Hd as ((s' & sp & H & _) & _). apply one_tells.
  eapply abt_slot_dir; [exact H|]. now apply not_word.
Qed.
End Dir.

Lemma v_attr sc ts a ds f : rd_attr E ts a ds f -> forall r, all_tell E sc (ts ++ f) (p_attr r a).
Proof.
  intros H r. destruct a as [[k v]|d|b dots us]; cbn [p_attr skv_value].
  - inversion H as [ts0 k0 d0 ts' v0 d' f0 Hk Hv|? ? ? ? ? Hs| | |]; subst.
    + rewrite <- app_assoc. apply all_r. destruct v0 as [v|]; [exact (v_opt sc _ _ _ _ Hv)|constructor].
    + destruct Hs. constructor.
  - apply (seen_dir sc) in H. destruct r; [now apply d_html|now apply d_component|now apply d_slot].
  - inversion H; subst. destruct r; try constructor; [|constructor]. eapply abt_slot_spread; [apply within_1|reflexivity].
Qed.
Lemma v_attrs sc ts l ds f r : rd_attrs E ts l ds f -> all_tell E sc (ts ++ f) (flat_map (p_attr r) l).
Proof.
  induction 1 as [|? ? ? ? ? ? ? Ha Hl IH]; [constructor|]. cbn [flat_map]. rewrite <- app_assoc. apply all_app; [eapply v_attr, Ha|now apply all_r].
Qed.
Lemma v_selectors sc ts l ds f r : rd_selectors E ts l ds f -> all_tell E sc (ts ++ f) (p_selectors r l).
Proof.
  intros H. destruct r; try constructor. destruct H as [|? ? ? ? ? ? ? Ha _]; [constructor|]. cbn [p_selectors]. apply one_tells. rewrite <- app_assoc.
  destruct Ha as [s sp|s sp]; eapply abt_slot_selectors; try apply within_1; auto.
Qed.
Lemma tag_here ts t ds f U : rd_tag E ts t ds f -> within ts U -> tag_at E U (tag_place E t).
Proof. intros H Hw. exists ts, t. split; [exact Hw|]. split; [eapply tag_found, H|reflexivity]. Qed.
Lemma head_attrs_end ts t sels attrs ds f : rd_head E ts t sels attrs ds f -> exists d, stop_attrs E f d.
Proof.
  intros [? ? ? ? ? ? ts3 l ds3 f0 _ _ H]. induction H as [? ? H|? ? ? ? ? ? ? _ _ IH]; [eauto|exact IH].
Qed.

Definition element_fits (sc : span) (U : list stt) (e : selement) : Prop :=
  tag_at E U (tag_place E (sel_tag e)) /\ forall slot, all_tell E sc U (p_element E slot e).
Definition child_fits (sc : span) (U : list stt) (c : schild) : Prop :=
  match c with
  | SCValue v => all_tell E sc U (p_value v)
  | SCElement e => element_fits sc U e
  | SCSlot s e => (exists s' sp, has U [SIdent s (Id false "slot"); SPunct s' ":" sp]) /\ element_fits sc U e
  end.
Lemma child_up sc U U' c : within U U' -> child_fits sc U c -> child_fits sc U' c.
Proof.
  intros Hw. assert (He : forall e, element_fits sc U e -> element_fits sc U' e).
  { intros e [H1 H2]. split; [eapply tag_up; eassumption|]. intros slot. eapply all_up; eauto. }
  destruct c as [v|e|s e]; cbn [child_fits]; [now apply all_up|apply He|]. intros ((s' & sp & H) & H'). split; auto. exists s', sp. eapply has_up; eassumption.
Qed.
Lemma child_in sc b k inner U c : within [SGroup b k inner] U -> child_fits (d_close b) inner c -> child_fits sc U c.
Proof.
  intros Hw. assert (Hi : within inner U) by (eapply within_trans; [|exact Hw]; apply within_in, within_refl).
  assert (He : forall e, element_fits (d_close b) inner e -> element_fits sc U e).
  { intros e [H1 H2]. split; [eapply tag_up; eassumption|]. intros slot. eapply all_in_group; eauto. }
  destruct c as [v|e|s e]; cbn [child_fits]; [now apply all_in_group with k|apply He|]. intros ((s' & sp & H) & H'). split; auto. exists s', sp. eapply has_up; eassumption.
Qed.
Lemma children_p sc U l : (forall c, In c l -> child_fits sc U c) -> all_tell E sc U (flat_map (p_child E) l).
Proof.
  induction l as [|c l IH]; intros H; [constructor|]. cbn [flat_map]. apply all_app; [|apply IH; intros; apply H; now right].
  specialize (H c (or_introl eq_refl)). destruct c as [v|e|s e]; cbn [p_child child_fits] in *; [exact H|apply H|constructor].
Qed.
Lemma slots_p sc U l : (forall c, In c l -> child_fits sc U c) ->
  all_tell E sc U (flat_map (fun c => match c with SCSlot _ e => p_slot_item E e | _ => [] end) l).
Proof.
  induction l as [|c l IH]; intros H; [constructor|]. cbn [flat_map]. apply all_app; [|apply IH; intros; apply H; now right].
  specialize (H c (or_introl eq_refl)). destruct c as [v|e|s e]; try constructor. destruct H as [_ [Ht He]]. unfold p_slot_item.
  destruct (ssingle_name _); [apply He|]. now apply one_tells, abt_slot_path.
Qed.

Combined Scheme rd_mut from rd_children_ind2, rd_child_ind2, rd_element_ind2, rd_end_ind2.
Lemma t_read :
  (forall sc ts cs ds, rd_children E sc ts cs ds -> all_tell E sc ts ds /\ forall c, In c cs -> child_fits sc ts c) /\
  (forall sc ts c ds f, rd_child E sc ts c ds f -> all_tell E sc (ts ++ f) ds /\ child_fits sc (ts ++ f) c).
Proof.
  unshelve refine (let H := rd_mut E
    (fun sc ts cs ds _ => all_tell E sc ts ds /\ forall c, In c cs -> child_fits sc ts c)
    (fun sc ts c ds f _ => all_tell E sc (ts ++ f) ds /\ child_fits sc (ts ++ f) c)
    (fun sc ts e ds f _ => all_tell E sc (ts ++ f) ds /\ element_fits sc (ts ++ f) e)
    (fun sc t ts args cs ds f _ => forall u, tag_at E (u ++ ts ++ f) (tag_place E t) -> (exists d, stop_attrs E (ts ++ f) d) ->
       all_tell E sc (u ++ ts ++ f) ds /\ forall c, In c (schild_list cs) -> child_fits sc (u ++ ts ++ f) c)
    _ _ _ _ _ _ _ _ _ _ _ _ _ _ _ in conj (fun sc => proj1 (H sc)) (fun sc => proj1 (proj2 (H sc)))); cbv beta.
  - intros sc. split; [constructor|easy].
  - intros sc ts c ds ts' cs ds' _ [H1 H2] _ [H3 H4]. split; [apply all_app; [exact H1|now apply all_r]|].
    intros x [<-|Hx]; [exact H2|]. eapply child_up; [|apply H4, Hx]. apply within_r, within_refl.
  - intros sc ts ds e p s sp r cs ds' Hb _ [H1 H2]. destruct (child_suffix E HE _ _ _ _ _ _ Hb) as (u & Hu). apply t_bad_child in Hb as [H3 [_ H4]].
    assert (Hr : within r ts) by (rewrite Hu; apply within_r, within_skip, within_refl).
    split; [apply all_app; [exact H3|]; constructor; [eapply H4; reflexivity|eapply all_up; eassumption]|].
    intros x Hx. eapply child_up; [exact Hr|auto].
  - intros sc ts ds e p rest Hb _. apply t_bad_child in Hb as [H3 [H4 _]]. split; [apply all_app; [exact H3|now apply one_tells]|easy].
  - intros sc ts v f [Hv _] _. split; [constructor|]. cbn [child_fits]. now apply all_l, v_value.
  - intros sc ts l f [Hv _] Hl. split; [|constructor]. apply one_tells, abt_literal. exists ts, (SVLit l). split; [apply within_l, within_refl|].
    split; [exact Hv|]. split; [reflexivity|]. eauto.
  - intros sc ts e ds f _ [H1 H2] _ _ _. now split.
  - intros sc s s' sp ts e ds f _ _ [H1 H2]. cbn [app]. split; [now do 2 apply all_skip|]. split; [exists s', sp; apply within_2|].
    eapply (child_up sc _ _ (SCElement e)); [|exact H2]. do 2 apply within_skip. apply within_refl.
  - intros sc ts t sels attrs ds ts' args cs ds' f Hh _ IH. rewrite <- app_assoc.
    assert (Hs := head_attrs_end _ _ _ _ _ _ Hh). assert (Hd := t_head sc _ _ _ _ _ _ Hh). destruct Hh as [ts1 t ds1 ts2 sels ds2 ts3 attrs ds3 f0 Ht Hl Ha].
    assert (Htag : tag_at E ((ts1 ++ ts2 ++ ts3) ++ f0) (tag_place E t)).
    { eapply tag_here; [exact Ht|]. do 2 apply within_l. apply within_refl. }
    destruct (IH _ Htag Hs) as [H1 H2]. split; [now apply all_app|]. split; [exact Htag|]. intros slot. rewrite p_element_eq.
    rewrite <- !app_assoc in *. apply all_app; [apply all_r; eapply v_selectors, Hl|]. apply all_app; [do 2 apply all_r; eapply v_attrs, Ha|].
    apply all_app; [now apply children_p|]. destruct (srole slot t); [constructor|now apply slots_p|now apply slots_p].
  - intros sc t s sp f u _ _. split; [constructor|easy].
  - intros sc t b d inner cs ds f _ _ [H1 H2] u _ _. assert (Hw : within [SGroup b d inner] (u ++ [SGroup b d inner] ++ f)) by apply wi_here.
    split; [eapply all_in_group; eassumption|]. intros c Hc. eapply child_in; [exact Hw|auto].
  - intros sc t s sp args s' sp' b d inner cs ds f _ _ _ [H1 H2] u _ _.
    assert (Hw : within [SGroup b d inner] (u ++ (SPunct s "|" sp :: args ++ [SPunct s' "|" sp'; SGroup b d inner]) ++ f)).
    { apply within_r, within_l, within_skip, within_r, within_skip, within_refl. }
    split; [eapply all_in_group; eassumption|]. intros c Hc. eapply child_in; [exact Hw|auto].
  - intros sc t u Ht _. split; [|easy]. now apply one_tells, abt_unterminated.
  - intros sc t s sp args s' sp' f _ Hn u _ _. split; [|easy]. apply one_tells, abt_no_block.
    destruct f as [|t0 f]; [left; now left|]. right. eapply token_up; [|apply token_here].
    + rewrite app_assoc. apply within_r, within_refl.
    + destruct t0 as [| | |b [] l]; auto; destruct Hn; [now right|now left].
  - intros sc t f p Hn -> u Ht [d Hs]. split; [|easy]. cbn [app] in *. destruct f as [|t0 f]; [destruct Hn; exact I|].
    assert (Hw : within (t0 :: f) (u ++ t0 :: f)) by apply within_r, within_refl.
    constructor; [|constructor; [|constructor]].
    + apply abt_attribute. eapply token_up; [exact Hw|apply token_here]. destruct t0 as [s i|s c sp|s k v|b [] l]; auto.
      * destruct Hs as [Hc _]. intros [<-|[<-|[<-|[]]]]; [apply Hn; now left|apply Hn; now right|now apply Hc].
      * now destruct Hn.
      * now destruct Hn.
    + eapply abt_no_child; [exact Ht| |reflexivity]. eapply token_up; [exact Hw|now apply token_here].
Qed.
Scheme ab_children_ind2 := Induction for ab_children Sort Prop
  with ab_child_ind2 := Induction for SpecBroken.ab_child Sort Prop
  with ab_element_ind2 := Induction for ab_element Sort Prop.
Lemma t_ab_children sc ts o ds : ab_children E sc ts o ds -> all_tell E sc ts ds.
Proof.
  apply (ab_children_ind2 E (fun sc ts o ds _ => all_tell E sc ts ds) (fun sc ts o ds _ => all_tell E sc ts ds) (fun sc ts o ds _ => all_tell E sc ts ds)); clear sc ts o ds.
  - auto.
  - intros sc ts c ds ts' o ds' Hc _ IH. apply all_app; [exact (proj1 (proj2 t_read _ _ _ _ _ Hc))|now apply all_r].
  - intros sc ts ds e p s sp r o ds' Hb _ IH. destruct (child_suffix E HE _ _ _ _ _ _ Hb) as (u & Hu). apply t_bad_child in Hb as [H3 [_ H4]].
    assert (Hr : within r ts) by (rewrite Hu; apply within_r, within_skip, within_refl).
    apply all_app; [exact H3|]; constructor; [eapply H4; reflexivity|eapply all_up; eassumption].
  - auto.
  - intros sc s s' sp ts o ds _ _ IH. now do 2 apply all_skip.
  - intros sc ts k ds r _ Hk _ _. eapply all_l, t_name, Hk.
  - intros sc ts1 t ds1 ts2 sels ds2 ts3 o ds3 H1 H2 H3. apply all_app; [eapply all_l, t_tag, H1|].
    apply all_r. apply all_app; [eapply t_selectors, H2|]. apply all_r. eapply t_ab_attrs, H3.
  - intros sc ts t sels attrs ds b d inner o ds' r Hh _ _ IH. apply all_app; [eapply t_head, Hh|].
    eapply all_in_group; [|exact IH]. exact (wi_here [_] ts r).
  - intros sc ts t sels attrs ds s sp args s' sp' b d inner o ds' r Hh _ _ _ IH. apply all_app; [eapply t_head, Hh|].
    eapply all_in_group; [|exact IH]. apply within_r, within_skip, within_r, within_skip, within_1.
Qed.

(** ** The whole view *)

Lemma t_placed sc ts cs : (forall c, In c cs -> child_fits sc ts c) -> all_tell E sc ts (placed_reports E cs).
Proof.
  intros H. assert (Hc := children_p sc ts cs H).
  assert (Hs : all_tell E sc ts match filter (fun c => match c with SCSlot _ _ => true | _ => false end) cs with
      | SCSlot _ e :: _ => [(DRootSlot, tag_place E (sel_tag e))]
      | _ => flat_map (p_child E) cs end).
  { destruct (filter _ cs) as [|[v|e|s e] l] eqn:Hf; auto. assert (Hin : In (SCSlot s e) cs).
    { eapply proj1. apply (filter_In (fun c => match c with SCSlot _ _ => true | _ => false end)). rewrite Hf. now left. }
    destruct (H _ Hin) as [_ [Ht _]]. apply one_tells, abt_root_slot. now left. }
  unfold placed_reports. destruct cs as [|[v|e|s e] [|c cs]]; try exact Hs. apply one_tells, abt_root_slot. right. now destruct (H _ (or_introl eq_refl)).
Qed.
End Read.
