(** Facts about views that are being typed (C66): what the phrases of the
    grammar look like up to some place. *)
From Verif Require Import SpecStr SpecGrammar SpecContext SpecTyped.
From Verif Require Import Follow Context Swap Inv Fuel GrammarFacts GrammarFacts2.
From Coq Require Import Lia.
Open Scope list_scope.

(** ** Cutting *)

Lemma cut_refl x : cut x x.
Proof. rewrite <- (app_nil_r x) at 1. apply cut_here. Qed.
Lemma cut_nil y : cut [] y -> y = [].
Proof.
  intros H. inversion H; subst.
  - now destruct y.
  - destruct a; discriminate.
Qed.
Lemma cut_pre u x y : cut x y -> cut (u ++ x) (u ++ y).
Proof.
  intros H. destruct H.
  - rewrite app_assoc. apply cut_here.
  - rewrite (app_assoc u a (TGroup d x :: b)), (app_assoc u a [TGroup d y]). now apply cut_in.
Qed.
Lemma cut_cons t x y : cut x y -> cut (t :: x) (t :: y).
Proof. apply (cut_pre [t]). Qed.
Lemma cut_none x : cut x [].
Proof. apply (cut_here []). Qed.
(** The first token stays, or the cut is in it. *)
Lemma cut_cons_inv t x y : cut (t :: x) y ->
  y = [] \/ (exists y', y = t :: y' /\ cut x y') \/ exists d g g', t = TGroup d g /\ y = [TGroup d g'] /\ cut g g'.
Proof.
  intros H. remember (t :: x) as z eqn:Hz. destruct H as [a b|a d x0 y b H].
  - destruct a as [|t' a]; [now left|]. cbn in Hz. inversion Hz; subst. right. left. exists a. split; auto. apply cut_here.
  - destruct a as [|t' a]; cbn in Hz; inversion Hz; subst.
    + right. right. exists d, x0, y. auto.
    + right. left. eexists. split; [reflexivity|]. now apply cut_in.
Qed.
Lemma size_pos t : 0 < tt_size t.
Proof. destruct t; cbn; lia. Qed.
Lemma size_group d g : tt_size (TGroup d g) = S (size g).
Proof. reflexivity. Qed.
Lemma cut_size x y : cut x y -> size y <= size x /\ (size y = size x -> y = x).
Proof.
  intros H. induction H as [a b|a d x y b H [IH1 IH2]].
  - rewrite size_app. split; [lia|]. intros Hs. destruct b as [|t b]; [now rewrite app_nil_r|].
    pose proof (size_pos t). change (size (t :: b)) with (tt_size t + size b) in Hs. lia.
  - rewrite !size_app. change (size (TGroup d x :: b)) with (tt_size (TGroup d x) + size b).
    change (size [TGroup d y]) with (tt_size (TGroup d y) + 0). rewrite !size_group. split; [lia|].
    intros Hs. destruct b as [|t b].
    + change (size []) with 0 in Hs. rewrite IH2; auto. lia.
    + pose proof (size_pos t). change (size (t :: b)) with (tt_size t + size b) in Hs. lia.
Qed.
Lemma cut_dec x y : cut x y -> y = x \/ y <> x.
Proof.
  intros H. destruct (Nat.eq_dec (size y) (size x)) as [He|Hn].
  - left. now apply (cut_size x y H).
  - right. congruence.
Qed.
Lemma cut_app_inv u x y : cut (u ++ x) y -> cut u y /\ y <> u \/ exists y', y = u ++ y' /\ cut x y'.
Proof.
  revert y. induction u as [|t u IH]; intros y H; cbn [app] in *; [right; eauto|].
  destruct (cut_cons_inv _ _ _ H) as [->|[(y' & -> & Hy)|(d & g & g' & -> & -> & Hg)]].
  - left. split; [apply cut_none|discriminate].
  - destruct (IH _ Hy) as [[Hc Hn]|(z & -> & Hz)].
    + left. split; [now apply cut_cons|congruence].
    + right. eauto.
  - destruct u as [|t u].
    + destruct (cut_dec g g' Hg) as [->|Hn].
      * right. exists []. split; [reflexivity|apply cut_none].
      * left. split; [|congruence]. apply (cut_in [] d g g' []). auto.
    + left. split; [|discriminate]. apply (cut_in [] d g g' (t :: u)). auto.
Qed.

Lemma cut_next_punct c f f' : cut f f' -> next_punct c f' -> next_punct c f.
Proof.
  intros H Hn. destruct f as [|t f]; [apply cut_nil in H; subst; exact Hn|].
  destruct (cut_cons_inv _ _ _ H) as [->|[(y' & -> & Hy)|(d & g & g' & -> & -> & Hg)]]; auto; [destruct Hn|].
  destruct Hn as [sp Hn]. discriminate.
Qed.
Lemma cut_next_ident f f' : cut f f' -> next_ident f' -> next_ident f.
Proof.
  intros H Hn. destruct f as [|t f]; [apply cut_nil in H; subst; exact Hn|].
  destruct (cut_cons_inv _ _ _ H) as [->|[(y' & -> & Hy)|(d & g & g' & -> & -> & Hg)]]; auto; destruct Hn.
Qed.
Lemma cut_next_group d f f' : cut f f' -> next_group d f' -> next_group d f.
Proof.
  intros H Hn. destruct f as [|t f]; [apply cut_nil in H; subst; exact Hn|].
  destruct (cut_cons_inv _ _ _ H) as [->|[(y' & -> & Hy)|(d' & g & g' & -> & -> & Hg)]]; auto; destruct Hn.
Qed.
Lemma cut_next_op c d f f' : cut f f' -> next_op c d f' -> next_op c d f.
Proof.
  intros H (sp & r & ->). destruct f as [|t f]; [apply cut_nil in H; discriminate|].
  destruct (cut_cons_inv _ _ _ H) as [Hx|[(y' & Hx & Hy)|(d' & g & g' & _ & Hx & _)]]; try discriminate.
  inversion Hx; subst. destruct f as [|t f]; [apply cut_nil in Hy; discriminate|].
  destruct (cut_cons_inv _ _ _ Hy) as [Hz|[(y' & Hz & _)|(d' & g & g' & _ & Hz & _)]]; try discriminate.
  inversion Hz; subst. now exists sp, f.
Qed.

(** ** Phrases before the cut *)

Lemma cut_name_ends ts f f' : cut f f' -> name_ends ts f -> name_ends ts f'.
Proof.
  intros H Hn. destruct f as [|t f]; [apply cut_nil in H; now subst|].
  destruct (cut_cons_inv _ _ _ H) as [->|[(y' & -> & Hy)|(d' & g & g' & -> & -> & Hg)]]; cbn; auto.
  apply name_last_stop. exact I.
Qed.
Lemma cut_name ts k f f' : cut f f' -> name ts k f -> name ts k f'.
Proof. intros Hc (H1 & H2 & H3 & H4). split; [auto|]. split; [eapply cut_name_ends; eauto|auto]. Qed.
Lemma cut_value ts v f f' : cut f f' -> value_phrase ts v f -> value_phrase ts v f'.
Proof. intros Hc H. inversion H; subst; constructor; auto; intros Hg; eapply cut_next_group in Hg; eauto. Qed.
Lemma cut_opt_value ts v f f' : cut f f' -> opt_value ts v f -> opt_value ts v f'.
Proof.
  intros Hc H. inversion H; subst; constructor.
  - intros Hg; eapply cut_next_punct in Hg; eauto.
  - eapply cut_value; eauto.
Qed.
Lemma cut_opt_modifier ts v f f' : cut f f' -> opt_modifier ts v f -> opt_modifier ts v f'.
Proof. intros Hc H. inversion H; subst; constructor. intros Hg; eapply cut_next_punct in Hg; eauto. Qed.
Lemma cut_key ts v f f' : cut f f' -> key_phrase ts v f -> key_phrase ts v f'.
Proof. intros Hc H. inversion H; subst; constructor. eapply cut_name; eauto. Qed.
Lemma cut_attr ts a f f' : cut f f' -> attr_phrase ts a f -> attr_phrase ts a f'.
Proof.
  intros Hc H. inversion H; subst.
  - apply at_kv.
    + eapply cut_name; [|eauto]. now apply cut_pre.
    + eapply cut_opt_value; eauto.
    + intros Hi Hp. apply (H2 Hi). eapply cut_next_punct; [|exact Hp]. now do 2 apply cut_pre.
  - now apply at_short.
  - apply at_spread.
  - apply at_dir.
    + eapply cut_key; [|eauto]. now do 2 apply cut_pre.
    + eapply cut_opt_modifier; [|eauto]. now apply cut_pre.
    + eapply cut_opt_value; eauto.
  - apply at_dir_short; auto. eapply cut_opt_modifier; eauto.
Qed.
Lemma cut_attr_run ts l f f' : cut f f' -> attr_run ts l f -> attr_run ts l f'.
Proof.
  intros Hc H. induction H; constructor; auto. eapply cut_attr; [|eauto]. now apply cut_pre.
Qed.
Lemma cut_selector ts s f f' : cut f f' -> selector_phrase ts s f -> selector_phrase ts s f'.
Proof. intros Hc H. inversion H; subst; constructor; eapply cut_name; eauto. Qed.
Lemma cut_selector_run ts l f f' : cut f f' -> selector_run ts l f -> selector_run ts l f'.
Proof.
  intros Hc H. induction H; constructor; auto. eapply cut_selector; [|eauto]. now apply cut_pre.
Qed.
Lemma cut_selectors_end f f' : cut f f' -> selectors_end f -> selectors_end f'.
Proof.
  intros Hc H. destruct f as [|t f]; [apply cut_nil in Hc; now subst|].
  destruct (cut_cons_inv _ _ _ Hc) as [->|[(y' & -> & Hy)|(d' & g & g' & -> & -> & Hg)]]; cbn in *; auto.
  - intros Ht. destruct (H Ht) as [H1 H2]. split; intros Hn.
    + apply H1. eapply cut_next_ident; eauto.
    + apply H2. eapply cut_next_punct; eauto.
Qed.
Lemma cut_selectors ts l f f' : cut f f' -> selectors_phrase ts l f -> selectors_phrase ts l f'.
Proof.
  intros Hc H. induction H; [constructor; eapply cut_selectors_end; eauto|].
  apply sels_cons; auto. eapply cut_selector; [|eauto]. now apply cut_pre.
Qed.

Lemma cut_generics f f' : cut f f' -> ~ next_punct "<" f -> generics_follow f' -> generics_follow f.
Proof.
  intros Hc Hn [(H1 & _)|[(sp & r & ->) H2]].
  - exfalso. apply Hn. eapply cut_next_punct; eauto.
  - right. cbn in H2. split; [eapply cut_next_op; [exact Hc|]; now exists sp, r|].
    destruct f as [|t f]; [apply cut_nil in Hc; discriminate|].
    destruct (cut_cons_inv _ _ _ Hc) as [Hx|[(y' & Hx & Hy)|(d' & g & g' & _ & Hx & _)]]; try discriminate.
    inversion Hx; subst. destruct f as [|t f]; [apply cut_nil in Hy; discriminate|].
    destruct (cut_cons_inv _ _ _ Hy) as [Hz|[(y' & Hz & Hy')|(d' & g & g' & _ & Hz & _)]]; try discriminate.
    inversion Hz; subst. cbn. eapply cut_next_punct; eauto.
Qed.
Lemma cut_head t y z : cut y (t :: z) -> ~ (exists d g, t = TGroup d g) -> exists y', y = t :: y' /\ cut y' z.
Proof.
  intros H Ht. destruct y as [|t' y]; [apply cut_nil in H; discriminate|].
  destruct (cut_cons_inv _ _ _ H) as [Hz|[(y' & Hz & Hy)|(d' & ? & ? & _ & Hz & _)]]; [discriminate| |].
  - inversion Hz; subst. eauto.
  - inversion Hz; subst. exfalso. eauto.
Qed.
Lemma cut_triple f f' : cut f f' ->
  (exists sp r, f' = TPunct "<" Joint :: TPunct "<" Joint :: TPunct "=" sp :: r) ->
  exists sp r, f = TPunct "<" Joint :: TPunct "<" Joint :: TPunct "=" sp :: r.
Proof.
  intros H (sp & r & ->).
  destruct (cut_head _ _ _ H) as (y1 & -> & H1); [intros (? & ? & ?); discriminate|].
  destruct (cut_head _ _ _ H1) as (y2 & -> & H2); [intros (? & ? & ?); discriminate|].
  destruct (cut_head _ _ _ H2) as (y3 & -> & H3); [intros (? & ? & ?); discriminate|]. eauto.
Qed.
Lemma cut_segment E ts s f f' : env_ok E -> cut f f' -> ~ next_punct "<" f ->
  segment_phrase E ts s f -> segment_phrase E ts s f'.
Proof.
  intros (HE & _) Hc Hn H. inversion H; subst.
  - now apply seg_kw.
  - apply seg_plain; auto. intros Hg. apply H2. eapply cut_generics; eauto.
  - destruct (HE _ _ _ H4) as (_ & _ & Hr). apply seg_generic; auto.
    destruct g as [|[|c sp| |] g]; [contradiction| | | |]; destruct H3 as [sp' H3]; try discriminate. inversion H3; subst.
    destruct H2 as [(_ & Ho & Ht)|[(? & ? & Ho) _]]; [|discriminate]. left. split; [now eexists|]. split.
    + intros Hx. apply Ho. eapply cut_next_op; [|exact Hx]. now apply cut_pre.
    + intros Hx. apply Ht. eapply cut_triple; [|exact Hx]. now apply cut_pre.
  - destruct (HE _ _ _ H3) as (_ & _ & Hr). apply seg_turbofish; auto.
Qed.
Lemma cut_segments E ts l f f' : env_ok E -> cut f f' -> ~ next_punct "<" f -> ~ next_op ":" ":" f ->
  segments_phrase E ts l f -> segments_phrase E ts l f'.
Proof.
  intros HE Hc Hn Hno H. induction H.
  - apply segs_one; [eapply cut_segment; eauto|]. intros Hop. exfalso. apply Hno. eapply cut_next_op; eauto.
  - apply segs_cons; auto. eapply cut_segment; [auto| | |exact H].
    + apply (cut_pre (TPunct ":" Joint :: TPunct ":" sp :: ts')). auto.
    + intros [sp' Hx]. discriminate.
Qed.
Lemma cut_path E ts p f f' : env_ok E -> cut f f' -> ~ next_punct "<" f -> ~ next_op ":" ":" f ->
  path_phrase E ts p f -> path_phrase E ts p f'.
Proof.
  intros HE Hc Hn Hno H. inversion H; subst; [apply path_rel|apply path_abs]; eapply cut_segments; eauto.
Qed.
Lemma segment_shape E ts s f : segment_phrase E ts s f ->
  exists i r, ts = TIdent i :: r /\ (r = [] \/ next_punct "<" r \/ next_op ":" ":" r).
Proof. intros H. inversion H; subst; eexists _, _; (split; [reflexivity|]); auto. right. right. now exists sp, g. Qed.
Lemma segments_shape E ts s f : segments_phrase E ts s f ->
  exists i r, ts = TIdent i :: r /\ (r = [] \/ next_punct "<" r \/ next_op ":" ":" r).
Proof.
  intros H. inversion H; subst; [eapply segment_shape; eauto|].
  destruct (segment_shape _ _ _ _ H0) as (i & r & -> & [->|[Hr|(sp' & r' & ->)]]);
    eexists _, _; (split; [reflexivity|]); right.
  - right. now exists sp, ts'.
  - left. destruct r; [contradiction|exact Hr].
  - right. now eexists _, _.
Qed.
Lemma path_stays E ts p f f' : path_phrase E ts p f -> ~ next_punct "<" f -> ~ next_op ":" ":" f ->
  path_follows (ts ++ f) -> path_follows (ts ++ f').
Proof.
  intros H Hn Ho Hp. inversion H; subst.
  - destruct (segments_shape _ _ _ _ H0) as (i & r & -> & [->|[Hr|(sp' & r' & ->)]]).
    + destruct Hp as [(? & ? & Hx)|[Hx|Hx]]; [discriminate|contradiction|contradiction].
    + right. right. cbn [app tl]. destruct r; [contradiction|exact Hr].
    + right. left. now eexists _, _.
  - left. now eexists _, _.
Qed.
Lemma cut_path_follows x y : cut x y -> path_follows y -> path_follows x.
Proof.
  intros Hc H. destruct x as [|t x].
  { apply cut_nil in Hc. now subst. }
  destruct (cut_cons_inv _ _ _ Hc) as [->|[(y' & -> & Hy)|(d' & g & g' & -> & -> & Hg)]].
  - destruct H as [(? & ? & Hx)|[(? & ? & Hx)|Hx]]; [discriminate|discriminate|contradiction].
  - destruct H as [Hx|[Hx|Hx]]; [left; eapply cut_next_op; eauto|right; left|right; right]; cbn [tl] in *;
      [eapply cut_next_op; eauto|eapply cut_next_punct; eauto].
  - destruct H as [(? & ? & Hx)|[(? & ? & Hx)|Hx]]; [discriminate|discriminate|contradiction].
Qed.
Lemma cut_tag E ts t f f' : env_ok E -> cut f f' -> ~ next_punct "<" f -> ~ next_op ":" ":" f ->
  tag_phrase E ts t f -> tag_phrase E ts t f'.
Proof.
  intros HE Hc Hn Ho H.
  assert (Hpf : path_follows (ts ++ f') -> path_follows (ts ++ f)).
  { apply cut_path_follows. now apply cut_pre. }
  inversion H; subst.
  - apply tag_path; [eapply path_stays; eauto|eapply cut_path; eauto].
  - eapply tag_component; eauto using cut_name.
  - eapply tag_html; eauto using cut_name.
  - eapply tag_svg; eauto using cut_name.
  - eapply tag_math; eauto using cut_name.
  - eapply tag_web; eauto using cut_name.
Qed.
