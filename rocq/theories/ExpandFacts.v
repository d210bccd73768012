(** The expander against the specification of emitted code. *)
From Verif Require Export Macro SpecOut TagFacts.
Open Scope list_scope.
Open Scope expand_scope.

(** ** The expansion monad *)

(** A clean success. *)
Notation "m 'gives' a" := (m = XR (XRet a) []) (at level 70, a at next level).

Lemma xbind_ok {A B} (m : X A) (f : A -> X B) b :
  xbind m f gives b <-> exists a, m gives a /\ f a gives b.
Proof.
  unfold xbind. split.
  - destruct m as [[a| |w] d]; intros H; try discriminate. destruct (f a) as [o d'] eqn:Hf. cbn in H.
    inversion H as [[H1 H2]]. apply app_nil_inv in H2. destruct H2; subst. eauto.
  - intros (a & -> & H). now rewrite H.
Qed.
Lemma xret_ok {A} (a b : A) : xret a gives b <-> a = b.
Proof. unfold xret. split; [intros H; inversion H; auto|congruence]. Qed.
Lemma xemit_ok d u : xemit d gives u <-> False.
Proof. split; [discriminate|tauto]. Qed.
Lemma xpanic_ok {A} w (a : A) : xpanic w gives a <-> False.
Proof. split; [discriminate|tauto]. Qed.
Lemma xabort_ok {A} d (a : A) : xabort d gives a <-> False.
Proof. split; [discriminate|tauto]. Qed.
Lemma xseq_ok {A} (l : list (X A)) r : xseq l gives r <-> Forall2 (fun m a => m gives a) l r.
Proof.
  revert r. induction l as [|m l IH]; intros r; cbn [xseq].
  - rewrite xret_ok. split; [intros <-; constructor|]. intros H. now inversion H.
  - rewrite xbind_ok. split.
    + intros (a & Hm & H). apply xbind_ok in H. destruct H as (x & Hx & H). rewrite xret_ok in H. subst.
      constructor; auto. now apply IH.
    + intros H. inversion H; subst. exists y. split; auto. apply xbind_ok. exists l'.
      split; [now apply IH|]. now apply xret_ok.
Qed.
Lemma xseq_map_ok {A B} (f : A -> X B) l r : xseq (map f l) gives r <-> Forall2 (fun x a => f x gives a) l r.
Proof.
  rewrite xseq_ok. revert r. induction l as [|x l IH]; intros r; cbn.
  - split; intros H; inversion H; constructor.
  - split; intros H; inversion H; subst; constructor; auto; now apply IH.
Qed.

Ltac xinv := repeat match goal with
  | H : xbind _ _ gives _ |- _ => apply xbind_ok in H; destruct H as (? & ? & ?)
  | H : xret _ gives _ |- _ => rewrite xret_ok in H; subst
  | H : xemit _ gives _ |- _ => discriminate H
  | H : xpanic _ gives _ |- _ => discriminate H
  | H : xabort _ gives _ |- _ => discriminate H
  | H : exists _, _ |- _ => destruct H
  | H : _ /\ _ |- _ => destruct H
  end.

(** ** Names *)

Lemma xsnake_ok k i : xsnake k gives i <-> name_ident_ok k i.
Proof.
  unfold xsnake. rewrite <- to_snake_iff. destruct (to_snake_ident k); [rewrite xret_ok|rewrite xpanic_ok];
    split; try congruence; try tauto.
Qed.
Lemma ident_string_is i s : (forall r, s <> ("r#" ++ r)%string) ->
  String.eqb (ident_to_string i) s = true <-> i = Id false s.
Proof. intros Hs. change (String.eqb (ident_to_string i) s) with (ident_is i s). now apply ident_is_eq. Qed.
Lemma ident_string_is_f i s : (forall r, s <> ("r#" ++ r)%string) ->
  String.eqb (ident_to_string i) s = false <-> i <> Id false s.
Proof. intros Hs. rewrite <- (ident_string_is i s Hs). destruct (String.eqb _ _); split; congruence. Qed.
Lemma ident_is_f i s : (forall r, s <> ("r#" ++ r)%string) -> ident_is i s = false <-> i <> Id false s.
Proof. apply ident_string_is_f. Qed.

Lemma to_ident_or_emit_ok k i : to_ident_or_emit k gives i <-> exists k', k = KKebab k' /\ name_ident_ok k' i.
Proof.
  unfold to_ident_or_emit. destruct k as [k|s].
  - rewrite xsnake_ok. split; [eauto|]. intros (k' & H & Hk). now inversion H; subst.
  - split; [discriminate|]. intros (k' & H & _). discriminate.
Qed.
Lemma modifier_ok m u : emit_error_if_modifier m gives u <-> m = None.
Proof. destruct m; cbn; split; try discriminate; auto. destruct u. reflexivity. Qed.

Lemma starts_with_iff p s : starts_with p s = true <-> exists r, s = (p ++ r)%string.
Proof.
  revert s. induction p as [|a p IH]; intros s; cbn.
  - split; eauto.
  - destruct s as [|b s].
    + split; [discriminate|]. intros [r H]. discriminate.
    + rewrite andb_true_iff, Ascii.eqb_eq, IH. split.
      * intros [-> [r ->]]. now exists r.
      * intros [r H]. inversion H; subst. eauto.
Qed.
Lemma custom_iff s : contains_dash s && negb (starts_with "aria-" s) = true <-> custom_name s.
Proof.
  rewrite andb_true_iff, negb_true_iff, contains_dash_iff. unfold custom_name.
  rewrite <- starts_with_iff. destruct (starts_with "aria-" s); intuition congruence.
Qed.
Lemma custom_not_plain s : s = "class" \/ s = "style" -> ~ custom_name s.
Proof. intros [->| ->] H; apply custom_iff in H; discriminate H. Qed.
Inductive kind_view (s : string) : attribute_kind -> Prop :=
| kview_class : s = "class" -> kind_view s AkClass
| kview_style : s = "style" -> kind_view s AkStyle
| kview_custom : s <> "class" -> s <> "style" -> custom_name s -> kind_view s AkCustom
| kview_other : s <> "class" -> s <> "style" -> ~ custom_name s -> kind_view s AkOther.
Lemma attribute_kind_view s : kind_view s (attribute_kind_from s).
Proof.
  unfold attribute_kind_from.
  destruct (String.eqb s "class") eqn:H1; [apply String.eqb_eq in H1; now constructor|].
  destruct (String.eqb s "style") eqn:H2; [apply String.eqb_eq in H2; now constructor|].
  apply String.eqb_neq in H1, H2.
  destruct (_ && _) eqn:H3.
  - apply custom_iff in H3. now constructor.
  - constructor; auto. intros H. apply custom_iff in H. congruence.
Qed.

(** ** Emitted pieces *)

Lemma gpath_abs l : gpath l = abs_path l.
Proof. induction l as [|s l IH]; [reflexivity|]. cbn. now rewrite <- IH. Qed.
Lemma gpath_app a b : gpath (a ++ b) = gpath a ++ gpath b.
Proof. unfold gpath. apply flat_map_app. Qed.
Lemma chain_app a b : chain (a ++ b) = chain a ++ chain b.
Proof. unfold chain. rewrite map_app. apply concat_app. Qed.
Lemma method_call i a : method i a = call_tokens (Call i a).
Proof. reflexivity. Qed.
Lemma chain_one c : chain [c] = call_tokens c.
Proof. unfold chain. cbn. reflexivity. Qed.
Lemma chain_cons c l : chain (c :: l) = call_tokens c ++ chain l.
Proof. reflexivity. Qed.
Lemma flat_map_chain {A} (f : A -> list tt) (g : A -> call) l :
  (forall x, f x = call_tokens (g x)) -> flat_map f l = chain (map g l).
Proof. intros H. unfold chain. induction l as [|x l IH]; cbn; [reflexivity|]. now rewrite H, IH. Qed.

Lemma value_ok v ts : value_tokens v gives ts <-> value_code v ts.
Proof.
  split.
  - destruct v as [[k s|[]]|b|[p|] b]; cbn [value_tokens]; intros H.
    + rewrite xret_ok in H. subst. constructor.
    + rewrite xret_ok in H. subst. constructor.
    + rewrite xret_ok in H. subst. constructor.
    + rewrite xret_ok in H. subst. constructor.
    + destruct (ident_is p "f") eqn:Hp.
      * apply ident_is_eq in Hp; [|no_raw]. subst. rewrite xret_ok in H. subst. constructor.
      * xinv.
    + rewrite xret_ok in H. subst. constructor.
  - intros []; reflexivity.
Qed.
Lemma opt_value_ok' v ts : opt_value_tokens v gives ts <-> opt_value_code v ts.
Proof.
  destruct v as [v|]; cbn.
  - rewrite value_ok. split; [now constructor|]. intros H. now inversion H.
  - rewrite xret_ok. split; [intros <-; constructor|]. intros H. now inversion H.
Qed.
Lemma value_or_true_ok v ts : value_tokens (value_or_true v) gives ts <-> value_or_true_code v ts.
Proof.
  destruct v as [v|]; cbn.
  - rewrite value_ok. split; [now constructor|]. intros H. now inversion H.
  - rewrite xret_ok. split; [intros <-; constructor|]. intros H. now inversion H.
Qed.

Ltac vok := repeat match goal with
  | H : value_tokens (value_or_true _) gives _ |- _ => apply value_or_true_ok in H
  | H : value_tokens _ gives _ |- _ => apply value_ok in H
  | H : opt_value_tokens _ gives _ |- _ => apply opt_value_ok' in H
  | H : xsnake _ gives _ |- _ => apply xsnake_ok in H
  | H : emit_error_if_modifier _ gives _ |- _ => apply modifier_ok in H
  | H : to_ident_or_emit _ gives _ |- _ =>
      apply to_ident_or_emit_ok in H; let k := fresh "k" in let Hk := fresh "Hk" in destruct H as (k & -> & Hk)
  end.

Ltac bad_or := match goal with H : _ = _ \/ _ = _ |- _ => destruct H; congruence end.
Ltac xleaf := first
  [ apply value_or_true_ok; eassumption
  | apply value_ok; eassumption
  | apply opt_value_ok'; eassumption
  | apply xsnake_ok; eassumption
  | apply to_ident_or_emit_ok; eexists; split; [reflexivity|eassumption]
  | reflexivity ].
Ltac xgo := repeat (apply xbind_ok; eexists; split; [xleaf|]); try (apply xret_ok; reflexivity).

(** ** HTML elements *)

Lemma html_attr_ok a k ts : xml_kv_attribute_tokens a k gives ts <->
  exists c, html_attr_call k a c /\ ts = call_tokens c.
Proof.
  unfold xml_kv_attribute_tokens. destruct (String.eqb (k_repr (kv_key a)) "ref") eqn:Href.
  { apply String.eqb_eq in Href. rewrite xbind_ok. split.
    - intros (v & Hv & H). apply value_ok in Hv. rewrite xret_ok in H. subst.
      eexists. split; [eapply ha_ref; eauto|reflexivity].
    - intros (c & Hc & ->). inversion Hc; subst; try congruence. exists v. rewrite value_ok, xret_ok. auto. }
  apply String.eqb_neq in Href.
  assert (Hun : ((k_repr (kv_key a)) <> "class" /\ (k_repr (kv_key a)) <> "style" /\ (k = KSvg \/ k = KWeb \/ custom_name (k_repr (kv_key a)))) ->
    v <- value_tokens (kv_value a);;
    xret (method (Id false "attr") ([TLit LkStr (k_repr (kv_key a)); pu ","] ++
      gpath ["leptos"; "prelude"; "IntoAttributeValue"; "into_attribute_value"] ++ [par v])) gives ts <->
    exists c, html_attr_call k a c /\ ts = call_tokens c).
  { intros (H1 & H2 & H3). rewrite xbind_ok. split.
    - intros (v & Hv & H). apply value_ok in Hv. rewrite xret_ok in H. subst.
      eexists. split; [eapply ha_unchecked; eauto|reflexivity].
    - intros (c & Hc & ->). inversion Hc; subst; try congruence.
      + exists v. rewrite value_ok, xret_ok. auto.
      + exfalso. intuition congruence. }
  assert (Hty : ((k_repr (kv_key a)) = "class" \/ (k_repr (kv_key a)) = "style" \/ (k <> KSvg /\ k <> KWeb /\ ~ custom_name (k_repr (kv_key a)))) ->
    (i <- xsnake (kv_key a);; v <- value_tokens (kv_value a);; xret (method i v)) gives ts <->
    exists c, html_attr_call k a c /\ ts = call_tokens c).
  { intros H0. split.
    - intros H. xinv. vok. vok.
      eexists. split; [eapply ha_typed; eauto|reflexivity].
    - intros (c & Hc & ->). inversion Hc; subst; try congruence.
      + exfalso. intuition congruence.
      + apply xbind_ok. exists i. rewrite xsnake_ok. split; auto. apply xbind_ok. exists v.
        rewrite value_ok, xret_ok. auto. }
  pose proof (attribute_kind_view (k_repr (kv_key a))) as Hv. destruct Hv as [Hs|Hs|Hs1 Hs2 Hs3|Hs1 Hs2 Hs3].
  - rewrite andb_false_r. apply Hty. auto.
  - rewrite andb_false_r. apply Hty. auto.
  - rewrite orb_true_r. cbn [andb negb]. apply Hun. auto.
  - rewrite orb_false_r. cbn [negb]. rewrite andb_true_r.
    destruct k; cbn; first [apply Hun; auto; fail|apply Hty; right; right; repeat split; auto; discriminate].
Qed.

Lemma event_ok d ts : event_listener_event_path d gives ts <->
  d_dir d = Id false "on" /\ event_code (d_key d) (d_modifier d) ts.
Proof.
  unfold event_listener_event_path. destruct d as [dir key m v]. cbn [d_dir d_key d_modifier].
  destruct (ident_is dir "on") eqn:Hd.
  - apply ident_is_eq in Hd; [|no_raw]. subst dir. split.
    + intros H. xinv. split; auto. destruct key as [k|s].
      * vok. destruct m as [m|].
        -- destruct (ident_is m "undelegated") eqn:Hm.
           ++ apply ident_is_eq in Hm; [|no_raw]. subst m. xinv. now constructor.
           ++ xinv.
        -- xinv. now constructor.
      * xinv.
    + intros [_ H]. inversion H; subst.
      * apply xbind_ok. eexists. split; [reflexivity|]. apply xbind_ok. exists i. rewrite xsnake_ok. split; auto.
      * apply xbind_ok. eexists. split; [reflexivity|]. apply xbind_ok. exists i. rewrite xsnake_ok. split; auto.
  - apply ident_is_f in Hd; [|no_raw]. split; [discriminate|]. tauto.
Qed.

Lemma use_ok d fv : use_directive_fn_value d gives fv <->
  d_dir d = Id false "use" /\ d_modifier d = None /\
  use_code (d_key d) (d_value d) (TIdent (fst fv) :: pu "," :: snd fv).
Proof.
  unfold use_directive_fn_value. destruct d as [dir key m v]. cbn [d_dir d_key d_modifier d_value].
  destruct (ident_is dir "use") eqn:Hd.
  - apply ident_is_eq in Hd; [|no_raw]. subst dir. split.
    + intros H. xinv. vok.
      vok. split; auto. split; auto. destruct v as [v|].
      * xinv. vok. cbn. now constructor.
      * xinv. cbn. now constructor.
    + intros (_ & -> & H). apply xbind_ok. eexists. split; [reflexivity|].
      destruct fv as [f t]. cbn [fst snd] in *. inversion H; subst.
      * apply xbind_ok. exists f. rewrite to_ident_or_emit_ok. split; eauto.
      * apply xbind_ok. exists f. rewrite to_ident_or_emit_ok. split; eauto.
        apply xbind_ok. eexists. split; [reflexivity|]. apply xbind_ok. exists ts. rewrite value_ok, xret_ok. auto.
  - apply ident_is_f in Hd; [|no_raw]. split; [discriminate|]. tauto.
Qed.

Lemma use_code_shape k v ts : use_code k v ts -> exists f t, ts = TIdent f :: pu "," :: t.
Proof. intros []; eexists _, _; reflexivity. Qed.

Lemma html_dir_ok d ts : xml_directive_tokens d gives ts <-> exists c, html_dir_call d c /\ ts = call_tokens c.
Proof.
  unfold xml_directive_tokens. destruct d as [dir key m v].
  cbn [d_dir d_key d_modifier d_value].
  destruct (String.eqb (ident_to_string dir) "class" || String.eqb (ident_to_string dir) "style") eqn:H1.
  { assert (exists n, (n = "class" \/ n = "style") /\ dir = Id false n) as (n & Hn & ->).
    { apply orb_true_iff in H1. destruct H1 as [H1|H1]; apply ident_string_is in H1; try no_raw; eauto. }
    split.
    - intros H. xinv. vok. vok. subst.
      eexists. split; [eapply hd_class_style; eauto|reflexivity].
    - intros (c & Hc & ->). inversion Hc; subst; try (destruct Hn; discriminate).
      xgo. }
  apply orb_false_iff in H1. destruct H1 as [Hc1 Hc2]. apply ident_string_is_f in Hc1, Hc2; try no_raw.
  destruct (String.eqb (ident_to_string dir) "prop") eqn:H1.
  { apply ident_string_is in H1; [|no_raw]. subst dir. split.
    - intros H. xinv. vok. vok. subst.
      eexists. split; [eapply hd_prop; eauto|reflexivity].
    - intros (c & Hc & ->). inversion Hc; subst.
      + bad_or.
      + xgo. }
  apply ident_string_is_f in H1; [|no_raw].
  destruct (String.eqb (ident_to_string dir) "on") eqn:H2.
  { apply ident_string_is in H2; [|no_raw]. subst dir. split.
    - intros H. xinv. apply event_ok in H. vok. destruct H as [_ H].
      eexists. split; [eapply hd_on; eauto|reflexivity].
    - intros (c & Hc & ->). inversion Hc; subst.
      + bad_or.
      + apply xbind_ok. exists ev. rewrite event_ok. split; auto. xgo. }
  apply ident_string_is_f in H2; [|no_raw].
  destruct (String.eqb (ident_to_string dir) "use") eqn:H3.
  { apply ident_string_is in H3; [|no_raw]. subst dir. split.
    - intros H. xinv. apply use_ok in H. destruct H as (_ & Hm & H). cbn in Hm, H. subst m.
      eexists. split; [eapply hd_use; eauto|reflexivity].
    - intros (c & Hc & ->). inversion Hc; subst.
      + bad_or.
      + match goal with H : use_code _ _ _ |- _ => pose proof (use_code_shape _ _ _ H) as (f & t & ->) end.
        apply xbind_ok. exists (f, t). rewrite use_ok. split; [cbn; auto|]. reflexivity. }
  apply ident_string_is_f in H3; [|no_raw].
  assert (Hno : ~ exists c, html_dir_call (Directive dir key m v) c /\ ts = call_tokens c).
  { intros (c & Hc & ->). inversion Hc; subst; try congruence. bad_or. }
  destruct (_ || _); split; try discriminate; intros H; exfalso; auto.
Qed.

Definition attr_loop_ok k l : forall a b c a' b' c',
  xml_attr_loop k l (a, b, c) gives (a', b', c') <->
  exists kvs dirs, Forall2 (html_attr_call k) (kvs_of l) kvs /\ Forall2 html_dir_call (dirs_of l) dirs /\
    a' = a ++ chain kvs /\ b' = b ++ chain dirs /\ c' = c ++ chain (map spread_call (spreads_of l)).
Proof.
  induction l as [|x l IH]; intros a b c a' b' c'; cbn [xml_attr_loop kvs_of dirs_of spreads_of].
  { rewrite xret_ok. split.
    - intros H. inversion H; subst. exists [], []. cbn. rewrite !app_nil_r. repeat split; constructor.
    - intros (kvs & dirs & H1 & H2 & -> & -> & ->). inversion H1; inversion H2; subst. cbn. now rewrite !app_nil_r. }
  destruct x as [kv|d|s].
  - rewrite xbind_ok. split.
    + intros (t & Ht & H). apply html_attr_ok in Ht. destruct Ht as (cl & Hcl & ->). apply IH in H.
      destruct H as (kvs & dirs & H1 & H2 & -> & -> & ->). exists (cl :: kvs), dirs.
      split; [now constructor|]. split; auto. rewrite chain_cons, app_assoc. auto.
    + intros (kvs & dirs & H1 & H2 & -> & -> & ->). inversion H1; subst.
      exists (call_tokens y). split; [apply html_attr_ok; eauto|]. apply IH. exists l', dirs.
      rewrite chain_cons, app_assoc. auto.
  - rewrite xbind_ok. split.
    + intros (t & Ht & H). apply html_dir_ok in Ht. destruct Ht as (cl & Hcl & ->). apply IH in H.
      destruct H as (kvs & dirs & H1 & H2 & -> & -> & ->). exists kvs, (cl :: dirs).
      split; auto. split; [now constructor|]. rewrite chain_cons, app_assoc. auto.
    + intros (kvs & dirs & H1 & H2 & -> & -> & ->). inversion H2; subst.
      exists (call_tokens y). split; [apply html_dir_ok; eauto|]. apply IH. exists kvs, l'.
      rewrite chain_cons, app_assoc. auto.
  - rewrite IH. cbn [map]. rewrite chain_cons.
    change (xml_spread_tokens s) with (call_tokens (spread_call s)).
    split; intros (kvs & dirs & H1 & H2 & -> & -> & ->); exists kvs, dirs; rewrite app_assoc; auto.
Qed.

Lemma partition_sels l : partition sel_is_class l =
  (map SelClass (classes_of l), map SelId (ids_of l)).
Proof.
  induction l as [|[k|k] l IH]; cbn; [reflexivity| |]; rewrite IH; reflexivity.
Qed.
Lemma name_block_eq k : to_str_colored k = name_block k.
Proof. reflexivity. Qed.
Lemma selectors_eq l : xml_selectors_tokens l =
  chain (map class_call (classes_of l) ++ map id_call (ids_of l)).
Proof.
  unfold xml_selectors_tokens. rewrite partition_sels, chain_app.
  rewrite (flat_map_chain _ (fun s => class_call (sel_kebab s))) by reflexivity.
  rewrite (flat_map_chain _ (fun s => id_call (sel_kebab s))) by reflexivity.
  rewrite !map_map. reflexivity.
Qed.
Lemma tag_path_ok t head : xml_tag_path t = Some head <-> html_head t head.
Proof.
  split.
  - destruct t; cbn; intros H; inversion H; constructor.
  - intros []; reflexivity.
Qed.

Lemma xml_ok t sels attrs nodes x ts : xml_to_tokens t sels attrs nodes = Some x -> x gives ts <->
  exists head kvs dirs codes, html_head t head /\
    Forall2 (html_attr_call (kind_of t)) (kvs_of attrs) kvs /\
    Forall2 html_dir_call (dirs_of attrs) dirs /\
    Forall2 (fun m a => m gives a) (match nodes with Some l => l | None => [] end) codes /\
    ts = head ++ chain (kvs ++ dirs ++ map class_call (classes_of sels) ++ map id_call (ids_of sels)
                      ++ map spread_call (spreads_of attrs) ++ map child_call codes).
Proof.
  unfold xml_to_tokens. destruct (xml_tag_path t) as [head|] eqn:Ht; [|discriminate].
  apply tag_path_ok in Ht. intros H. inversion H; subst x; clear H.
  assert (Hch : forall ch, match nodes with Some nodes => xml_child_methods_tokens nodes | None => xret [] end gives ch <->
     exists codes, Forall2 (fun m a => m gives a) (match nodes with Some l => l | None => [] end) codes /\
       ch = chain (map child_call codes)).
  { intros ch. destruct nodes as [nodes|].
    - unfold xml_child_methods_tokens. rewrite xbind_ok. split.
      + intros (l & Hl & H). apply xseq_ok in Hl. rewrite xret_ok in H. subst. exists l. split; auto.
        now apply flat_map_chain.
      + intros (l & Hl & ->). exists l. rewrite xseq_ok, xret_ok. split; auto. now apply flat_map_chain.
    - rewrite xret_ok. split.
      + intros <-. exists []. split; auto.
      + intros (l & Hl & ->). now inversion Hl. }
  rewrite xbind_ok. split.
  - intros ([[a b] c] & Hl & H). apply attr_loop_ok in Hl. destruct Hl as (kvs & dirs & H1 & H2 & -> & -> & ->).
    apply xbind_ok in H. destruct H as (ch & Hc & H). apply Hch in Hc. destruct Hc as (codes & H3 & ->).
    rewrite xret_ok in H. subst ts. exists head, kvs, dirs, codes. repeat split; auto.
    cbn [app]. rewrite selectors_eq, !chain_app, <- !app_assoc. reflexivity.
  - intros (head' & kvs & dirs & codes & Hh & H1 & H2 & H3 & ->).
    assert (head' = head) as -> by (apply tag_path_ok in Ht, Hh; congruence).
    exists (chain kvs, chain dirs, chain (map spread_call (spreads_of attrs))). split.
    { apply attr_loop_ok. exists kvs, dirs. auto. }
    apply xbind_ok. exists (chain (map child_call codes)). split; [apply Hch; eauto|]. apply xret_ok.
    rewrite selectors_eq, !chain_app, <- !app_assoc. reflexivity.
Qed.

(** ** Components *)

Lemma turbofish_ok p p' : turbofishify p gives p' ->
  forall ts, path_tokens p' = ts <-> path_code p ts.
Proof.
  unfold turbofishify. intros H. xinv. apply xseq_map_ok in H. destruct p as [ld l]. cbn [segs leading] in *.
  assert (Hseg : forall s s', turbofish_seg s gives s' -> forall ts, seg_code s ts <-> seg_tokens s' = ts).
  { intros [i a] s' Hs ts. destruct a as [|b g|g]; cbn in Hs; xinv; unfold seg_tokens; cbn; split;
      intros Hx; try (inversion Hx; reflexivity); try (subst ts; constructor). }
  assert (Hsegs : forall l l', Forall2 (fun x a => turbofish_seg x gives a) l l' -> forall ts, segs_code l ts <-> segs_tokens l' = ts).
  { clear -Hseg. induction 1 as [|s s' l l' Hs Hl IH]; intros ts.
    - cbn. split; intros Hx; [now inversion Hx|subst; constructor].
    - destruct Hl as [|s2 s2' l l' Hs2 Hl].
      + cbn. split.
        * intros Hx. inversion Hx; subst. now apply (Hseg _ _ Hs).
        * intros <-. constructor. now apply (Hseg _ _ Hs).
      + change (segs_tokens (s' :: s2' :: l')) with (seg_tokens s' ++ dcolon ++ segs_tokens (s2' :: l')).
        split.
        * intros Hx. inversion Hx; subst. apply (Hseg _ _ Hs) in H3. apply IH in H4. now rewrite H3, H4.
        * intros <-. constructor; [now apply (Hseg _ _ Hs)|now apply IH]. }
  intros ts. unfold path_tokens. cbn [leading segs].
  specialize (Hsegs _ _ H). destruct ld; split.
  - intros <-. constructor. now apply Hsegs.
  - intros Hx. inversion Hx; subst. apply Hsegs in H1. now rewrite H1.
  - intros <-. constructor. now apply Hsegs.
  - intros Hx. inversion Hx; subst. apply Hsegs in H1. now rewrite H1.
Qed.
Lemma turbofish_total p ts : path_code p ts -> exists p', turbofishify p gives p'.
Proof.
  assert (forall l ts, segs_code l ts -> exists l', Forall2 (fun x a => turbofish_seg x gives a) l l').
  { assert (Hseg : forall s ts, seg_code s ts -> exists s', turbofish_seg s gives s').
    { intros s ts0 []; cbn; eexists; reflexivity. }
    induction 1 as [|s ts0 Hs|s ts0 s' l ts' Hs Hl [l' IH]].
    - exists []. constructor.
    - apply Hseg in Hs. destruct Hs as [s' Hs]. exists [s']. auto.
    - apply Hseg in Hs. destruct Hs as [s2 Hs]. exists (s2 :: l'). auto. }
  unfold turbofishify. intros [l ts0 Hl|l ts0 Hl]; apply H in Hl; destruct Hl as [l' Hl];
    eexists; apply xbind_ok; exists l'; (split; [now apply xseq_map_ok|reflexivity]).
Qed.

Lemma prop_ok a ts : component_kv_attribute_tokens a gives ts <-> exists c, prop_call a c /\ ts = call_tokens c.
Proof.
  unfold component_kv_attribute_tokens. split.
  - intros H. xinv. vok. vok. eexists. split; [econstructor; eauto|reflexivity].
  - intros (c & Hc & ->). inversion Hc; subst. apply xbind_ok. exists i. rewrite xsnake_ok. split; auto.
    apply xbind_ok. exists v. rewrite value_ok, xret_ok. auto.
Qed.
Lemma clone_ok d ts : d_dir d = Id false "clone" ->
  (emit_error_if_modifier (d_modifier d) ;;; component_clone_tokens d) gives ts <-> clone_code d ts.
Proof.
  destruct d as [dir key m v]. cbn [d_dir d_key d_modifier d_value]. intros ->.
  unfold component_clone_tokens. cbn [d_dir d_key d_modifier d_value]. split.
  - intros H. xinv. vok. vok.
    destruct v; xinv. subst. now constructor.
  - intros H. inversion H; subst. apply xbind_ok. exists Datatypes.tt. split; [reflexivity|].
    apply xbind_ok. exists i. rewrite to_ident_or_emit_ok. split; eauto.
Qed.

Lemma entry_ok d : match directive_to_any_attr_path d with
  | Some m => forall ts, m gives ts <-> entry_code (ADir d) ts
  | None => forall ts, ~ entry_code (ADir d) ts
  end.
Proof.
  unfold directive_to_any_attr_path. destruct d as [dir key m v].
  cbn [d_dir d_key d_modifier d_value].
  destruct (String.eqb (ident_to_string dir) "class" || String.eqb (ident_to_string dir) "style") eqn:H1.
  { assert (exists n, (n = "class" \/ n = "style") /\ dir = Id false n) as (n & Hn & ->).
    { apply orb_true_iff in H1. destruct H1 as [H1|H1]; apply ident_string_is in H1; try no_raw; eauto. }
    intros ts. split.
    - intros H. xinv. vok. pose proof (en_class_style n key m v x Hn H) as Hx.
      destruct Hn as [->| ->]; exact Hx.
    - intros H. inversion H; subst; try (destruct Hn; discriminate).
      xgo. }
  apply orb_false_iff in H1. destruct H1 as [Hc1 Hc2]. apply ident_string_is_f in Hc1, Hc2; try no_raw.
  destruct (String.eqb (ident_to_string dir) "attr") eqn:H1.
  { apply ident_string_is in H1; [|no_raw]. subst dir.
    pose proof (attribute_kind_view (key_string key)) as Hk.
    assert (Hcs : forall ts, key_string key = "class" \/ key_string key = "style" ->
      (i <- to_ident_or_emit key;;
        v <- value_tokens (value_or_true v);;
        xret (gpath ["leptos"; "tachys"; "html"] ++ colon2 ++ [TIdent (unraw i)] ++ colon2 ++ [TIdent i] ++ [par v])) gives ts <->
      entry_code (ADir (Directive (Id false "attr") key m v)) ts).
    { clear Hk. intros ts Hn. split.
      - intros H. xinv. apply to_ident_or_emit_ok in H. destruct H as ([r c] & -> & _ & ->).
        vok. cbn [key_string k_repr] in *.
        destruct Hn as [->| ->]; [apply (en_attr_class_style "class")|apply (en_attr_class_style "style")]; auto.
      - intros H. inversion H; subst; cbn [key_string key_text k_repr] in *.
        + bad_or.
        + apply xbind_ok. exists (Id true n). rewrite to_ident_or_emit_ok. split.
          * eexists. split; [reflexivity|]. destruct Hn as [->| ->]; (split; [cbn; intuition discriminate|reflexivity]).
          * xgo.
        + exfalso. eapply custom_not_plain; [exact Hn|]. assumption.
        + exfalso. destruct Hn; congruence. }
    destruct Hk as [Hk|Hk|Hk1 Hk2 Hk3|Hk1 Hk2 Hk3].
    - intros ts. apply Hcs; auto.
    - intros ts. apply Hcs; auto.
    - intros ts. split.
      + intros H. xinv. vok. now apply en_attr_custom.
      + intros H. inversion H; subst; cbn [key_string key_text] in *.
        * bad_or.
        * exfalso. cbn in *. intuition congruence.
        * xgo.
        * contradiction.
    - intros ts. split.
      + intros H. xinv. vok.
        vok. now apply en_attr.
      + intros H. inversion H; subst; cbn [key_string key_text] in *.
        * bad_or.
        * exfalso. cbn in *. intuition congruence.
        * contradiction.
        * xgo. }
  apply ident_string_is_f in H1; [|no_raw].
  destruct (String.eqb (ident_to_string dir) "prop") eqn:H2.
  { apply ident_string_is in H2; [|no_raw]. subst dir. intros ts. split.
    - intros H. xinv. vok.
      vok. now apply en_prop.
    - intros H. inversion H; subst.
      + bad_or.
      + xgo. }
  apply ident_string_is_f in H2; [|no_raw].
  destruct (String.eqb (ident_to_string dir) "on") eqn:H3.
  { apply ident_string_is in H3; [|no_raw]. subst dir. intros ts. split.
    - intros H. xinv. apply event_ok in H. vok. destruct H as [_ H]. now apply en_on.
    - intros H. inversion H; subst.
      + bad_or.
      + apply xbind_ok. exists ev. rewrite event_ok. split; auto. xgo. }
  apply ident_string_is_f in H3; [|no_raw].
  destruct (String.eqb (ident_to_string dir) "use") eqn:H4.
  { apply ident_string_is in H4; [|no_raw]. subst dir. intros ts. split.
    - intros H. xinv. apply use_ok in H. destruct H as (_ & Hm & H). cbn in Hm, H. subst m. now apply en_use.
    - intros H. inversion H; subst.
      + bad_or.
      + match goal with H : use_code _ _ _ |- _ => pose proof (use_code_shape _ _ _ H) as (f & t & ->) end.
        apply xbind_ok. exists (f, t). rewrite use_ok. split; [cbn; auto|]. reflexivity. }
  apply ident_string_is_f in H4; [|no_raw].
  intros ts H. inversion H; subst; try congruence. bad_or.
Qed.

Lemma is_clone_iff d : is_clone d = true <-> d_dir d = Id false "clone".
Proof.
  unfold is_clone. destruct (d_dir d) as [[] n]; [split; discriminate|]. rewrite String.eqb_eq. split; congruence.
Qed.
Lemma clone_test d : String.eqb (ident_to_string (d_dir d)) "clone" = is_clone d.
Proof.
  destruct (is_clone d) eqn:H.
  - apply is_clone_iff in H. rewrite H. reflexivity.
  - apply ident_string_is_f; [no_raw|]. intros H'. apply is_clone_iff in H'. congruence.
Qed.

Lemma comp_loop_ok slot l : forall a b c a' b' c',
  component_attr_loop slot l (a, b, c) gives (a', b', c') <->
  exists props entries clones, Forall2 prop_call (kvs_of l) props /\
    Forall2 entry_code (entries_of l) entries /\ (slot = true -> entries_of l = []) /\
    Forall2 clone_code (clones_of l) clones /\
    a' = a ++ chain props /\ b' = b ++ entries /\ c' = c ++ List.concat clones.
Proof.
  induction l as [|x l IH]; intros a b c a' b' c'; cbn [component_attr_loop kvs_of entries_of].
  { rewrite xret_ok. split.
    - intros H. inversion H; subst. exists [], [], []. cbn. rewrite !app_nil_r. repeat split; constructor.
    - intros (props & entries & clones & H1 & H2 & _ & H3 & -> & -> & ->).
      inversion H1; inversion H2; inversion H3; subst. cbn. now rewrite !app_nil_r. }
  destruct x as [kv|d|s].
  - change (clones_of (AKv kv :: l)) with (clones_of l). rewrite xbind_ok. split.
    + intros (t & Ht & H). apply prop_ok in Ht. destruct Ht as (cl & Hcl & ->). apply IH in H.
      destruct H as (props & entries & clones & H1 & H2 & H3 & H4 & -> & -> & ->).
      exists (cl :: props), entries, clones. split; [now constructor|].
      rewrite chain_cons, app_assoc. repeat split; auto.
    + intros (props & entries & clones & H1 & H2 & H3 & H4 & -> & -> & ->). inversion H1; subst.
      exists (call_tokens y). split; [apply prop_ok; eauto|]. apply IH. exists l', entries, clones.
      rewrite chain_cons, app_assoc. repeat split; auto.
  - rewrite clone_test. unfold clones_of. cbn [dirs_of filter]. fold (clones_of l).
    destruct (is_clone d) eqn:Hcl.
    + apply is_clone_iff in Hcl. rewrite xbind_ok. split.
      * intros (u & Hu & H). apply xbind_ok in H. destruct H as (t & Ht & H).
        assert (Hc : clone_code d t) by (apply clone_ok; auto; apply xbind_ok; eauto).
        apply IH in H. destruct H as (props & entries & clones & H1 & H2 & H3 & H4 & -> & -> & ->).
        exists props, entries, (t :: clones). cbn [List.concat]. rewrite app_assoc. repeat split; auto.
      * intros (props & entries & clones & H1 & H2 & H3 & H4 & -> & -> & ->). inversion H4; subst.
        match goal with H : clone_code d ?y |- _ => apply (clone_ok d y Hcl) in H; apply xbind_ok in H;
           destruct H as (u & Hu & Ht) end.
        exists u. split; auto. apply xbind_ok. exists y. split; auto. apply IH. exists props, entries, l'.
        cbn [List.concat]. rewrite app_assoc. repeat split; auto.
    + pose proof (entry_ok d) as He. destruct slot.
      * split; [intros H; xinv|]. intros (props & entries & clones & H1 & H2 & H3 & _). specialize (H3 eq_refl). discriminate.
      * destruct (directive_to_any_attr_path d) as [m|].
        -- rewrite xbind_ok. split.
           ++ intros (t & Ht & H). apply He in Ht. apply IH in H.
              destruct H as (props & entries & clones & H1 & H2 & H3 & H4 & -> & -> & ->).
              exists props, (t :: entries), clones. rewrite <- app_assoc. repeat split; auto. discriminate.
           ++ intros (props & entries & clones & H1 & H2 & H3 & H4 & -> & -> & ->). inversion H2; subst.
              exists y. split; [now apply He|]. apply IH. exists props, l', clones. rewrite <- app_assoc.
              repeat split; auto. discriminate.
        -- split; [intros H; xinv|]. intros (props & entries & clones & H1 & H2 & H3 & _).
           inversion H2; subst. exfalso. eapply He; eauto.
  - change (clones_of (ASpread s :: l)) with (clones_of l). destruct slot.
    + split; [intros H; xinv|]. intros (props & entries & clones & H1 & H2 & H3 & _). specialize (H3 eq_refl). discriminate.
    + rewrite IH. split.
      * intros (props & entries & clones & H1 & H2 & H3 & H4 & -> & -> & ->).
        exists props, (s :: entries), clones. rewrite <- app_assoc. repeat split; auto.
        -- constructor; auto. constructor.
        -- discriminate.
      * intros (props & entries & clones & H1 & H2 & H3 & H4 & -> & -> & ->). inversion H2; subst.
        exists props, l', clones. rewrite <- app_assoc. repeat split; auto.
        -- discriminate.
        -- match goal with H : entry_code (ASpread _) _ |- _ => inversion H end. reflexivity.
Qed.

Lemma class_entry_ok k : expect_path (directive_to_any_attr_path (class_directive k)) gives (class_entry k).
Proof. reflexivity. Qed.
Lemma join_spaced l : join_space l = spaced l.
Proof. induction l as [|s [|s' l] IH]; auto. Qed.
Lemma sels_ok l r : component_selectors l gives r <-> r = selector_entries l.
Proof.
  unfold component_selectors, selector_entries. rewrite partition_sels.
  assert (Hcl : forall r, xseq (map (fun s => expect_path (directive_to_any_attr_path (class_directive (sel_kebab s)))) (map SelClass (classes_of l))) gives r <-> r = map class_entry (classes_of l)).
  { clear. intros r. rewrite map_map, xseq_map_ok. cbn [sel_kebab].
    generalize (classes_of l) as ks. intros ks. revert r.
    induction ks as [|k ks IH]; intros r; cbn [map]; split; intros H.
    - now inversion H.
    - subst. constructor.
    - inversion H; subst. apply IH in H4. subst. rewrite class_entry_ok in H2. now inversion H2.
    - subst. constructor; [apply class_entry_ok|now apply IH]. }
  rewrite xbind_ok. split.
  - intros (cl & H & H'). apply Hcl in H. subst cl. destruct (ids_of l) as [|k ks] eqn:Hid; cbn [map] in H'.
    + rewrite xret_ok in H'. subst. cbn. now rewrite app_nil_r.
    + apply xbind_ok in H'. destruct H' as (i & Hi & H'). rewrite xret_ok in H'. subst r. f_equal. f_equal.
      cbn [id_entries]. cbn in Hi. inversion Hi. rewrite map_map. cbn [sel_kebab].
      change (k_repr k :: map (fun x => k_repr x) ks) with (map k_repr (k :: ks)). now rewrite join_spaced.
  - intros ->. eexists. split; [now apply Hcl|]. destruct (ids_of l) as [|k ks] eqn:Hid; cbn [map].
    + apply xret_ok. cbn. now rewrite app_nil_r.
    + apply xbind_ok. eexists. split; [reflexivity|]. apply xret_ok. f_equal. cbn [id_entries].
      rewrite map_map. cbn [sel_kebab]. change (k_repr k :: map (fun x => k_repr x) ks) with (map k_repr (k :: ks)).
      reflexivity.
Qed.

Lemma fragment_eq l : children_fragment_tokens l = fragment l.
Proof. unfold children_fragment_tokens, fragment, comma_ended. now rewrite <- flat_map_concat_map. Qed.
Lemma comp_children_ok nodes args clones r :
  component_children_tokens nodes args clones gives r <->
  exists codes, Forall2 (fun m a => m gives a) nodes codes /\
    r = call_tokens (plain_call "children" [braces (clones ++
           match args with
           | Some a => word "move" :: a ++ fragment codes
           | None => abs_path ["leptos"; "children"; "ToChildren"; "to_children"]
                     ++ [parens (word "move" :: bars ++ fragment codes)]
           end)]).
Proof.
  unfold component_children_tokens. rewrite xbind_ok. split.
  - intros (l & Hl & H). apply xseq_ok in Hl. rewrite xret_ok in H. subst r. exists l. split; auto.
    rewrite fragment_eq. destruct args; reflexivity.
  - intros (l & Hl & ->). exists l. rewrite xseq_ok, xret_ok. split; auto. rewrite fragment_eq. destruct args; reflexivity.
Qed.
