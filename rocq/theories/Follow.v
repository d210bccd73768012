(** How far ahead the grammar looks: what follows a phrase only matters up to
    the first token that ends an element ([;], [|] or a group). *)
From Verif Require Export Fuel SpecContext.

(** Tokens that end every run of tag, selector and attribute tokens.  In other
    modes also tokens at which an attribute (but no operator and no selector)
    starts: the same token on both sides, or the start of a name on one side
    and a braced group on the other. *)
Inductive mode := Narrow | Wide | Into | From.
Definition name_start (t : tt) : Prop := next_ident [t] \/ punct "-" t.
Definition not_op_start (t : tt) : Prop := match t with TPunct c _ => c = "-"%char | _ => True end.
Inductive same_stop (m : mode) : tt -> tt -> Prop :=
| ss_punct c sp sp' : c = ";"%char \/ c = "|"%char -> same_stop m (TPunct c sp) (TPunct c sp')
| ss_group d d' x x' : (d = Bracket <-> d' = Bracket) -> same_stop m (TGroup d x) (TGroup d' x')
| ss_same t : m = Wide -> not_op_start t -> same_stop m t t
| ss_ident i i' : m = Wide -> same_stop m (TIdent i) (TIdent i')
| ss_into t x : m = Into -> name_start t -> same_stop m t (TGroup Brace x)
| ss_from t x : m = From -> name_start t -> same_stop m (TGroup Brace x) t.

(** Two streams that agree up to such a token.  The end of the stream counts
    as a [;]. *)
Inductive upto (m : mode) : list tt -> list tt -> Prop :=
| up_refl f : upto m f f
| up_stop z z' b b' : same_stop m z z' -> upto m (z :: b) (z' :: b')
| up_end sp b : upto m [] (TPunct ";" sp :: b)
| up_end' sp b : upto m (TPunct ";" sp :: b) []
| up_cons t f f' : upto m f f' -> upto m (t :: f) (t :: f').

Definition flip (m : mode) : mode := match m with Into => From | From => Into | m => m end.
Lemma same_stop_sym {m} z z' : same_stop m z z' -> same_stop (flip m) z' z.
Proof.
  intros H. destruct H; subst.
  - now apply ss_punct.
  - apply ss_group. tauto.
  - now apply ss_same.
  - now apply ss_ident.
  - now apply ss_from.
  - now apply ss_into.
Qed.
Lemma upto_sym {m} f f' : upto m f f' -> upto (flip m) f' f.
Proof.
  intros H. induction H.
  - apply up_refl.
  - now apply up_stop, same_stop_sym.
  - apply up_end'.
  - apply up_end.
  - now apply up_cons.
Qed.
Lemma narrow_sym f f' : upto Narrow f f' -> upto Narrow f' f.
Proof. apply (@upto_sym Narrow). Qed.
Lemma upto_app {m} u f f' : upto m f f' -> upto m (u ++ f) (u ++ f').
Proof. intros H. induction u; cbn; auto. now apply up_cons. Qed.

Definition not_stop_char (c : ascii) : Prop := c <> ";"%char /\ c <> "|"%char /\ c <> "-"%char.
Ltac nsc := repeat split; discriminate.
Lemma name_start_not c sp : c <> "-"%char -> ~ name_start (TPunct c sp).
Proof. intros Hc [H|[sp' H]]; [exact H|congruence]. Qed.
(** A punctuation character that does not stop cannot be a stopping token. *)
Lemma nonstop {m} c sp z : not_stop_char c -> ~ same_stop m (TPunct c sp) z.
Proof.
  intros (H1 & H2 & H3) H. inversion H; subst.
  - match goal with H : _ \/ _ |- _ => destruct H; congruence end.
  - contradiction.
  - now apply (name_start_not c sp).
Qed.
Lemma nonstop' {m} c sp z : not_stop_char c -> ~ same_stop m z (TPunct c sp).
Proof. intros Hc H. apply same_stop_sym in H. now apply (nonstop (m := flip m) c sp z). Qed.

Lemma upto_punct {m} c f f' : not_stop_char c -> upto m f f' -> next_punct c f -> next_punct c f'.
Proof.
  intros Hc H. destruct H; auto; cbn; try tauto.
  - intros [sp0 ->]. exfalso. eapply nonstop; eauto.
  - intros [sp0 Hs]. destruct Hc. congruence.
Qed.
Lemma upto_punct_not {m} c f f' : not_stop_char c -> upto m f f' -> ~ next_punct c f -> ~ next_punct c f'.
Proof. intros Hc Hu Hn H. apply Hn. eapply upto_punct; eauto. eapply upto_sym; eassumption. Qed.

Lemma upto_ident f f' : upto Narrow f f' -> next_ident f -> next_ident f'.
Proof. intros H. destruct H; cbn; auto; try tauto. now destruct H. Qed.

Lemma upto_bracket {m} f f' : upto m f f' -> next_group Bracket f -> next_group Bracket f'.
Proof.
  intros H. destruct H; cbn; auto; try tauto.
  destruct z; try tauto. intros ->. inversion H; subst; try tauto.
  - match goal with H : name_start (TGroup _ _) |- _ => destruct H as [[]|[? Hx]]; discriminate end.
Qed.
Lemma upto_bracket_not {m} f f' : upto m f f' -> ~ next_group Bracket f -> ~ next_group Bracket f'.
Proof. intros Hu Hn H. apply Hn. eapply upto_bracket; eauto. eapply upto_sym; eassumption. Qed.

Lemma upto_op {m} c d f f' : not_stop_char c -> not_stop_char d ->
  upto m f f' -> next_op c d f -> next_op c d f'.
Proof.
  intros Hc Hd H (sp & r & Heq). destruct H.
  - now exists sp, r.
  - inversion Heq; subst. exfalso. eapply (nonstop c); eauto.
  - discriminate.
  - inversion Heq; subst. destruct Hc; congruence.
  - inversion Heq; subst. pose proof (upto_punct d _ _ Hd H) as Hp. cbn in Hp.
    destruct f' as [|t f']; [destruct Hp; now exists sp|].
    destruct Hp as [sp' ->]; [now exists sp|]. now exists sp', f'.
Qed.
Lemma upto_op_not {m} c d f f' : not_stop_char c -> not_stop_char d ->
  upto m f f' -> ~ next_op c d f -> ~ next_op c d f'.
Proof. intros Hc Hd Hu Hn H. apply Hn. eapply upto_op; eauto. eapply upto_sym; eassumption. Qed.

Lemma upto_cons_inv {m} t f g : (forall z, ~ same_stop m t z) -> upto m (t :: f) g ->
  exists g', g = t :: g' /\ upto m f g'.
Proof.
  intros Ht H. inversion H; subst.
  - exists f. split; auto. apply up_refl.
  - exfalso. eapply Ht; eauto.
  - exfalso. apply (Ht (TPunct ";" sp)). constructor. auto.
  - eauto.
Qed.
Lemma colon_nonstop {m} sp z : ~ same_stop m (TPunct ":" sp) z.
Proof. apply nonstop. nsc. Qed.
Lemma ident_nonstop i z : ~ same_stop Narrow (TIdent i) z.
Proof. intros H. inversion H; discriminate. Qed.

(** ** Names *)

Lemma name_last_stop ts z : match z with TPunct c _ => c <> "-"%char | TGroup _ _ => True | _ => False end ->
  ~ name_phrase (ts ++ [z]).
Proof.
  assert (Hr : forall b ts e, match z with TPunct c _ => c <> "-"%char | TGroup _ _ => True | _ => False end ->
    run b (ts ++ [z]) e -> False).
  { intros b ts0. revert b. induction ts0 as [|t ts0 IH]; intros b e Hz H; cbn in H.
    - inversion H; subst; try contradiction; congruence.
    - inversion H; subst; eapply IH; eauto. }
  intros Hz H. destruct ts as [|t ts]; cbn in H.
  - inversion H; subst; try contradiction; congruence.
  - inversion H; subst; eapply Hr; eauto.
Qed.
(** Which identifier it is does not matter. *)
Lemma run_any_ident b a i i' r e : run b (a ++ TIdent i :: r) e -> run b (a ++ TIdent i' :: r) e.
Proof.
  revert b. induction a as [|t a IH]; intros b H; cbn in *; inversion H; subst; constructor; auto.
Qed.
Lemma name_any_ident a i i' r : name_phrase (a ++ TIdent i :: r) -> name_phrase (a ++ TIdent i' :: r).
Proof.
  destruct a as [|t a]; cbn; intros H; inversion H; subst; econstructor; eauto; eapply run_any_ident; eauto.
Qed.
Definition forward (m : mode) : Prop := m <> From.
Lemma upto_name_ends {m} ts f f' : forward m -> upto m f f' -> name_ends ts f -> name_ends ts f'.
Proof.
  intros Hm H. destruct H; auto; cbn [name_ends]; auto.
  - destruct H; auto; intros Hn; subst.
    + apply name_last_stop. destruct H; subst; discriminate.
    + now apply name_last_stop.
    + intros H. apply Hn. eapply name_any_ident; eauto.
    + now apply name_last_stop.
  - intros _. apply name_last_stop. discriminate.
Qed.
Lemma upto_name {m} ts k f f' : forward m -> upto m f f' -> name ts k f -> name ts k f'.
Proof. intros Hm Hu (H1 & H2 & H3 & H4). split; [|split]; auto. eapply upto_name_ends; eauto. Qed.

(** ** Values and attributes *)

Lemma upto_value {m} ts v f f' : upto m f f' -> value_phrase ts v f -> value_phrase ts v f'.
Proof.
  intros Hu H. inversion H; subst; constructor; auto; eapply upto_bracket_not; eauto.
Qed.
Lemma upto_opt_value {m} ts v f f' : upto m f f' -> opt_value ts v f -> opt_value ts v f'.
Proof.
  intros Hu H. inversion H; subst; constructor.
  - eapply upto_punct_not; eauto; nsc.
  - eapply upto_value; eauto.
Qed.
Lemma upto_opt_modifier {m} ts o f f' : upto m f f' -> opt_modifier ts o f -> opt_modifier ts o f'.
Proof.
  intros Hu H. inversion H; subst; constructor. eapply upto_punct_not; eauto; nsc.
Qed.
Lemma upto_key {m} ts k f f' : forward m -> upto m f f' -> key_phrase ts k f -> key_phrase ts k f'.
Proof. intros Hm Hu H. inversion H; subst; constructor. eapply upto_name; eauto. Qed.
Lemma upto_attr {m} ts a f f' : forward m -> upto m f f' -> attr_phrase ts a f -> attr_phrase ts a f'.
Proof.
  intros Hm Hu H. inversion H; subst.
  - apply at_kv.
    + eapply upto_name; [exact Hm| |eauto]. apply upto_app; eassumption.
    + eapply upto_opt_value; eauto.
    + intros Hi. eapply upto_punct_not; [nsc| |now apply H2]. repeat apply upto_app; eassumption.
  - now apply at_short.
  - apply at_spread.
  - apply at_dir.
    + eapply upto_key; [exact Hm| |eauto]. repeat apply upto_app; eassumption.
    + eapply upto_opt_modifier; [|eauto]. apply upto_app; eassumption.
    + eapply upto_opt_value; eauto.
  - apply at_dir_short; auto. eapply upto_opt_modifier; eauto.
Qed.
(** Whether the attributes stop is the one question that looks into a group. *)
Lemma upto_attrs {m} ts l f f' : forward m -> upto m f f' -> (attrs_end f -> attrs_end f') ->
  attrs_phrase ts l f -> attrs_phrase ts l f'.
Proof.
  intros Hm Hu He H. induction H; [constructor; auto|].
  apply ats_cons; auto. eapply upto_attr; [exact Hm| |eauto]. apply upto_app; eassumption.
Qed.

(** ** Selectors *)

Lemma upto_selector {m} ts s f f' : forward m -> upto m f f' -> selector_phrase ts s f -> selector_phrase ts s f'.
Proof. intros Hm Hu H. inversion H; subst; constructor; eapply upto_name; eauto. Qed.
Lemma upto_selectors_end {m} f f' : forward m -> upto m f f' -> selectors_end f -> selectors_end f'.
Proof.
  intros Hm H. destruct H; auto; cbn [selectors_end]; auto.
  - intros _ Hz. exfalso. destruct Hz as [[sp ->]|[sp ->]]; eapply nonstop'; eauto; nsc.
  - intros _ [[sp' Hs]|[sp' Hs]]; discriminate.
  - intros Hs Ht. specialize (Hs Ht). destruct Hs as [H1 H2]. destruct H; auto; cbn in *; try tauto.
    + destruct H; subst; auto; try (split; auto; intros [? ?]; discriminate).
      split; auto. intros [sp0 H0]. inversion H0; subst. destruct H; discriminate.
    + split; auto. intros [sp0 H0]. discriminate.
Qed.
Lemma upto_selectors {m} ts l f f' : forward m -> upto m f f' -> selectors_phrase ts l f -> selectors_phrase ts l f'.
Proof.
  intros Hm Hu H. induction H; [constructor; eapply upto_selectors_end; eauto|].
  apply sels_cons; auto. eapply upto_selector; [exact Hm| |eauto]. apply upto_app; eassumption.
Qed.

(** ** Tags *)

Lemma upto_triple {m} f f' : upto m f f' ->
  (exists sp r, f = TPunct "<" Joint :: TPunct "<" Joint :: TPunct "=" sp :: r) ->
  exists sp r, f' = TPunct "<" Joint :: TPunct "<" Joint :: TPunct "=" sp :: r.
Proof.
  intros H (sp & r & Heq). destruct H; try discriminate.
  - eauto.
  - inversion Heq; subst. exfalso. eapply nonstop; [|eassumption]. nsc.
  - inversion Heq; subst.
    assert (Hop : next_op "<" "=" f') by (eapply upto_op; [nsc|nsc|eauto|now exists sp, r]).
    destruct Hop as (sp' & r' & ->). eauto.
Qed.
Lemma upto_generics {m} f f' : upto m f f' -> generics_follow f -> generics_follow f'.
Proof.
  intros Hu [(H1 & H2 & H3)|[(sp & r & ->) H2]].
  - left. split; [eapply upto_punct; eauto; nsc|]. split; [eapply upto_op_not; eauto; nsc|].
    intros H. apply H3. eapply upto_triple; eauto. eapply upto_sym; eassumption.
  - right. cbn in H2.
    destruct (upto_cons_inv _ _ _ (colon_nonstop _) Hu) as (g & -> & Hu1).
    destruct (upto_cons_inv _ _ _ (colon_nonstop _) Hu1) as (g' & -> & Hu2).
    split; [now exists sp, g'|]. cbn. eapply upto_punct; eauto; nsc.
Qed.
Lemma upto_segment {m} E ts s f f' : env_ok E -> upto m f f' ->
  segment_phrase E ts s f -> segment_phrase E ts s f'.
Proof.
  intros (HE & _) Hu H. inversion H; subst.
  - now apply seg_kw.
  - apply seg_plain; auto. intros Hg. apply H2. eapply upto_generics; eauto. eapply upto_sym; eassumption.
  - destruct (HE _ _ _ H4) as (_ & _ & Hr). apply seg_generic; auto.
    eapply upto_generics; eauto. apply upto_app; eassumption.
  - destruct (HE _ _ _ H3) as (_ & _ & Hr). apply seg_turbofish; auto.
Qed.
Lemma upto_segments {m} E ts l f f' : env_ok E -> upto m f f' -> (next_op ":" ":" f -> f = f') ->
  segments_phrase E ts l f -> segments_phrase E ts l f'.
Proof.
  intros HE Hu Hno H. induction H.
  - apply segs_one; [eapply upto_segment; eauto|]. intros Hop.
    assert (Hop' : next_op ":" ":" follow) by (eapply (upto_op ":" ":" f'); [nsc|nsc|eapply upto_sym; eassumption|exact Hop]).
    specialize (Hno Hop'). subst. auto.
  - apply segs_cons; auto. eapply upto_segment; eauto.
    apply (upto_app (TPunct ":" Joint :: TPunct ":" sp :: ts')). eassumption.
Qed.
Lemma upto_path {m} E ts p f f' : env_ok E -> upto m f f' -> (next_op ":" ":" f -> f = f') ->
  path_phrase E ts p f -> path_phrase E ts p f'.
Proof.
  intros HE Hu Hno H. inversion H; subst; [apply path_rel|apply path_abs]; eapply upto_segments; eauto.
Qed.
Lemma upto_path_follows {m} t f f' : upto m f f' -> path_follows (t :: f) -> path_follows (t :: f').
Proof.
  intros Hu [H|[H|H]]; cbn [tl] in *.
  - left. eapply (upto_op ":" ":" (t :: f)); [nsc|nsc|apply up_cons; eassumption|exact H].
  - right. left. eapply upto_op; eauto; try nsc; discriminate.
  - right. right. cbn [tl]. eapply upto_punct; eauto; nsc.
Qed.
Lemma upto_tag {m} E ts t f f' : env_ok E -> forward m -> upto m f f' -> (next_op ":" ":" f -> f = f') ->
  tag_phrase E ts t f -> tag_phrase E ts t f'.
Proof.
  intros HE Hm Hu Hno H. pose proof (tag_nonempty _ _ _ _ H) as Hne.
  assert (Hpf : path_follows (ts ++ f) <-> path_follows (ts ++ f')).
  { destruct ts as [|x ts]; [congruence|]. cbn [app].
    split; [apply (upto_path_follows (m := m))|apply (upto_path_follows (m := flip m))]; apply upto_app; auto.
    now apply upto_sym. }
  inversion H; subst; rewrite Hpf in *.
  - apply tag_path; auto. eapply upto_path; eauto.
  - eapply tag_component; eauto. eapply upto_name; eauto.
  - eapply tag_html; eauto. eapply upto_name; eauto.
  - eapply tag_svg; eauto. eapply upto_name; eauto.
  - eapply tag_math; eauto. eapply upto_name; eauto.
  - eapply tag_web; eauto. eapply upto_name; eauto.
Qed.

(** ** Elements *)

Lemma attr_starts u a f : attr_phrase u a f ->
  exists x r, u = x :: r /\ (next_ident [x] \/ punct "-" x \/ exists inner, x = TGroup Brace inner).
Proof.
  intros H. inversion H; subst.
  - destruct (name_head _ _ _ H0) as (x & r & -> & Hx). exists x, (r ++ ts'). split; auto. tauto.
  - inversion H0; subst. eexists _, _. split; eauto.
  - eexists _, _. split; eauto.
  - eexists _, _. split; eauto. left. exact I.
  - eexists _, _. split; eauto. left. exact I.
Qed.
Lemma attrs_not_op u l f : attrs_phrase u l f -> ~ next_op ":" ":" f -> ~ next_op ":" ":" (u ++ f).
Proof.
  intros H Hf. inversion H; subst; auto. apply attr_starts in H0.
  destruct H0 as (x & r & -> & Hx). intros (sp & r' & Heq). cbn in Heq. inversion Heq; subst.
  destruct Hx as [[]|[[sp' Hx]|[inner Hx]]]; discriminate.
Qed.
Lemma selectors_not_op u l f : selectors_phrase u l f -> ~ next_op ":" ":" f -> ~ next_op ":" ":" (u ++ f).
Proof.
  intros H Hf. inversion H; subst; auto. intros (sp & r' & Heq).
  inversion H0; subst; discriminate.
Qed.
Lemma stop_not_op {m} z b : same_stop m z z -> ~ next_op ":" ":" (z :: b).
Proof. intros H (sp & r & Heq). inversion Heq; subst. exfalso. eapply nonstop; [|eassumption]. nsc. Qed.

(** Heads do not look beyond the token that ends them. *)
Lemma upto_head {m} E ts t sels attrs f f' : env_ok E -> forward m -> upto m f f' -> ~ next_op ":" ":" f ->
  (attrs_end f -> attrs_end f') ->
  elem_head E ts t sels attrs f -> elem_head E ts t sels attrs f'.
Proof.
  intros HE Hm Hu Hno He (ts1 & ts2 & ts3 & -> & H1 & H2 & H3).
  exists ts1, ts2, ts3. split; auto. split; [|split].
  - eapply upto_tag; [auto|exact Hm| |intros Hop; exfalso; revert Hop|exact H1]; [repeat apply upto_app; eassumption|].
    eapply selectors_not_op; eauto. eapply attrs_not_op; eauto.
  - eapply upto_selectors; [exact Hm| |exact H2]. apply upto_app; eassumption.
  - eapply upto_attrs; eauto.
Qed.
Lemma upto_attr_run {m} ts l f f' : forward m -> upto m f f' -> attr_run ts l f -> attr_run ts l f'.
Proof.
  intros Hm Hu H. induction H; [constructor|].
  apply ar_cons; auto. eapply upto_attr; [exact Hm| |eauto]. apply upto_app; eassumption.
Qed.
Lemma attr_run_not_op u l f : attr_run u l f -> ~ next_op ":" ":" f -> ~ next_op ":" ":" (u ++ f).
Proof.
  intros H Hf. inversion H; subst; auto. apply attr_starts in H0.
  destruct H0 as (x & r & -> & Hx). intros (sp & r' & Heq). cbn in Heq. inversion Heq; subst.
  destruct Hx as [[]|[[sp' Hx]|[inner Hx]]]; discriminate.
Qed.
Lemma upto_open {m} E ts t sels attrs f f' : env_ok E -> forward m -> upto m f f' -> ~ next_op ":" ":" f ->
  open_head E ts t sels attrs f -> open_head E ts t sels attrs f'.
Proof.
  intros HE Hm Hu Hno (ts1 & ts2 & ts3 & -> & H1 & H2 & H3).
  exists ts1, ts2, ts3. split; auto. split; [|split].
  - eapply upto_tag; [auto|exact Hm| |intros Hop; exfalso; revert Hop|exact H1]; [repeat apply upto_app; eassumption|].
    eapply selectors_not_op; eauto. eapply attr_run_not_op; eauto.
  - eapply upto_selectors; [exact Hm| |exact H2]. apply upto_app; eassumption.
  - eapply upto_attr_run; eauto.
Qed.

Lemma element_phrase_head E C ts e f : element_phrase_g E C ts e f <->
  exists u v t sels attrs args cs, ts = u ++ v /\ e = Element t sels attrs args cs /\
    elem_head E u t sels attrs (v ++ f) /\ element_end C v args cs.
Proof.
  split.
  - intros []. exists (ts1 ++ ts2 ++ ts3), ts4, t, sels, attrs, args, cs.
    rewrite <- !app_assoc. split; [|split; [|split]]; auto.
    exists ts1, ts2, ts3. auto.
  - intros (u & v & t & sels & attrs & args & cs & -> & -> & (ts1 & ts2 & ts3 & -> & H1 & H2 & H3) & He).
    rewrite <- !app_assoc. econstructor; eauto.
Qed.
Lemma end_stops C v args cs : element_end C v args cs -> exists z b, v = z :: b /\ same_stop Narrow z z.
Proof.
  intros [].
  - eexists _, _. split; eauto. constructor. auto.
  - destruct H; eexists _, _; (split; [eauto|]); constructor; tauto.
  - eexists _, _. split; eauto. constructor. auto.
Qed.

(** Elements do not look beyond their end. *)
Lemma element_follow E C ts e f f' : env_ok E ->
  element_phrase_g E C ts e f -> element_phrase_g E C ts e f'.
Proof.
  intros HE H. rewrite element_phrase_head in *.
  destruct H as (u & v & t & sels & attrs & args & cs & -> & -> & Hh & He).
  exists u, v, t, sels, attrs, args, cs. split; [|split; [|split]]; auto.
  destruct (end_stops _ _ _ _ He) as (z & b & -> & Hz). cbn [app] in *.
  eapply (upto_head (m := Narrow) E u t sels attrs (z :: b ++ f)); [auto|discriminate|now apply up_stop|eapply stop_not_op; eassumption| |exact Hh].
  destruct z as [| | |[]]; auto.
Qed.

Lemma element_two E C ts e f : element_phrase_g E C ts e f ->
  exists x y r, ts = x :: y :: r.
Proof.
  intros H. rewrite element_phrase_head in H.
  destruct H as (u & v & t & sels & attrs & args & cs & -> & -> & (ts1 & ts2 & ts3 & -> & H1 & _) & He).
  apply tag_nonempty in H1. destruct (end_stops _ _ _ _ He) as (z & b & -> & Hz).
  destruct ts1 as [|x ts1]; [congruence|]. cbn.
  destruct ((ts1 ++ ts2 ++ ts3) ++ z :: b) as [|y r] eqn:Hy; [|eauto].
  apply app_nil_inv in Hy. destruct Hy; discriminate.
Qed.

(** An element contains the token that ends it, at the top level. *)
Lemma element_upto E C ts e f f' : element_phrase_g E C ts e f -> upto Narrow (ts ++ f) (ts ++ f').
Proof.
  intros H. rewrite element_phrase_head in H.
  destruct H as (u & v & t & sels & attrs & args & cs & -> & -> & _ & He).
  destruct (end_stops _ _ _ _ He) as (z & b & -> & Hz). rewrite <- !app_assoc.
  apply upto_app. cbn. now apply up_stop.
Qed.

Lemma upto_slot f f' : upto Narrow f f' -> slot_prefix f -> slot_prefix f'.
Proof.
  intros Hu (sp & r & -> & Hn).
  destruct (upto_cons_inv _ _ _ (ident_nonstop _) Hu) as (g & -> & Hu1).
  destruct (upto_cons_inv _ _ _ (colon_nonstop _) Hu1) as (g' & -> & Hu2).
  exists sp, g'. split; auto. intros [-> Hp]. apply Hn. split; auto.
  eapply upto_punct; [nsc| |exact Hp]. eapply upto_sym; eassumption.
Qed.

(** A value at the start of a stream that starts with a word. *)
Lemma ident_value_upto {m} i f f' : upto m f f' ->
  (exists v ts r, TIdent i :: f = ts ++ r /\ value_phrase ts v r) ->
  exists v ts r, TIdent i :: f' = ts ++ r /\ value_phrase ts v r.
Proof.
  intros Hu (v & ts & r & Heq & Hv). inversion Hv; subst; inversion Heq; subst.
  - eexists _, [TIdent (Id false "true")], f'. split; eauto. constructor. eapply upto_bracket_not; eauto.
  - eexists _, [TIdent (Id false "false")], f'. split; eauto. constructor. eapply upto_bracket_not; eauto.
  - pose proof (upto_bracket _ _ Hu eq_refl) as Hb. destruct f' as [|[| | |d x] f']; try contradiction.
    cbn in Hb. subst d. eexists _, [TIdent _; TGroup Bracket x], f'. split; [reflexivity|apply val_prefixed].
Qed.

Lemma child_follow E C ts c f f' : env_ok E ->
  child_phrase_g E C ts c f -> child_phrase_g E C ts c f'.
Proof.
  intros HE H. inversion H; subst.
  - apply chg_value; auto. inversion H0; subst; try constructor; auto.
    + destruct (H1 _ eq_refl). discriminate.
    + destruct (H1 _ eq_refl). discriminate.
  - assert (Hu := element_upto _ _ _ _ _ f' H0).
    apply chg_element; auto.
    + eapply element_follow; eauto.
    + intros Hs. apply H2. eapply upto_slot; [|exact Hs]. now apply narrow_sym.
    + destruct (element_two _ _ _ _ _ H0) as (x & y & r & ->).
      destruct x as [i| | |]; try contradiction. cbn [app] in *.
      intros Hv. apply H3. eapply ident_value_upto; [|exact Hv].
      apply narrow_sym. destruct (upto_cons_inv _ _ _ (ident_nonstop _) Hu) as (g & Hg & Hu1).
      inversion Hg; subst. exact Hu1.
  - apply chg_slot.
    + eapply upto_slot; [|exact H0].
      apply (upto_app [TIdent (Id false "slot"); TPunct ":" sp]).
      eapply element_upto; eauto.
    + eapply element_follow; eauto.
Qed.

Definition append_to (cs : list child) (x : pres (list child)) : pres (list child) :=
  match x with
  | PR (Ret cs') r d => PR (Ret (cs ++ cs')) r d
  | x => x
  end.

(** Children that are read cleanly are read the same whatever follows. *)
Lemma children_app E ts cs rest : env_ok E -> wf (ts ++ rest) -> children_phrase E ts cs ->
  children_of E (ts ++ rest) = append_to cs (children_of E rest).
Proof.
  intros HE Hwf H. revert Hwf.
  induction H as [|ts c ts' cs Hc Hcs IH] using children_phrase_ind; intros Hwf.
  { cbn [app]. unfold append_to. now destruct (children_of E rest) as [[] ? ?]. }
  rewrite <- app_assoc in *.
  apply child_phrase_g_iff in Hc. pose proof (child_nonempty _ _ _ _ _ Hc) as Hne.
  apply (child_follow E _ _ _ _ (ts' ++ rest) HE) in Hc.
  assert (Hpc : pc_ok (children_of E) (children_phrase E) (ts ++ ts' ++ rest)).
  { intros d inner Hin cs0. pose proof (in_group_wf _ _ _ Hwf Hin). rewrite children_of_ok; auto. tauto. }
  assert (Hp : parse_child E (children_of E) on ts ++ ts' ++ rest >> c, (ts' ++ rest)).
  { apply (parse_child_ok E (children_of E) (children_phrase E)); eauto. }
  destruct ts as [|t ts]; [congruence|]. cbn [app] in *. rewrite children_of_step, Hp; auto.
  rewrite IH; [|apply wf_cons in Hwf; destruct Hwf as [_ Hwf]; apply wf_app in Hwf; tauto].
  destruct (children_of E rest) as [[] ? ?]; reflexivity.
Qed.

(** The same for a child whose own parse is known. *)
Lemma children_prefix E ts cs x rest : env_ok E -> wf (ts ++ x :: rest) -> children_phrase E ts cs ->
  children_of E (ts ++ x :: rest) =
  append_to cs (match parse_child E (children_of E) (x :: rest) with
  | PR (Ret c) r d => prepend d (cons_child c (children_of E r))
  | PR (Fail e) r d =>
      if peek_punct ";" r then prepend (d ++ [DExtraSemi]) (children_of E (tl r))
      else prepend (d ++ [DParse e]) (children_of E [])
  | PR Abort r d => PR Abort r d
  | PR (Panic w) r d => PR (Panic w) r d
  | PR NoFuel r d => PR NoFuel r d
  end).
Proof. intros HE Hwf H. rewrite (children_app E ts cs); auto. now rewrite children_of_step. Qed.
