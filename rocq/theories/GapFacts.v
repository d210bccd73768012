(** The expander against the code with gaps of SpecGaps.v: as ExpandFacts.v and
    ExpandFacts2.v, for runs that may report errors. *)
From Verif Require Export ExpandFacts2 SpecGaps.
From Coq Require Import Permutation Lia.
Open Scope list_scope.
Open Scope expand_scope.

(** Success, whatever is reported. *)
Notation "m 'returns' a" := (x_out m = XRet a) (at level 70, a at next level).

Lemma bind_ret {A B} (m : X A) (f : A -> X B) b :
  xbind m f returns b <-> exists a, m returns a /\ f a returns b.
Proof.
  unfold xbind. split.
  - destruct m as [[a| |w] d]; intros H; try discriminate. exists a. split; [reflexivity|exact H].
  - intros (a & Hm & H). destruct m as [o d]. cbn in Hm. subst o. exact H.
Qed.
Lemma ret_ret {A} (a b : A) : xret a returns b <-> a = b.
Proof. unfold xret. cbn. split; congruence. Qed.
Lemma emit_ret d u : xemit d returns u <-> True.
Proof. destruct u. split; auto. Qed.
Lemma seq_ret {A} (l : list (X A)) r : xseq l returns r <-> Forall2 (fun m a => m returns a) l r.
Proof.
  revert r. induction l as [|m l IH]; intros r; cbn [xseq].
  - rewrite ret_ret. split; [intros <-; constructor|]. intros H. now inversion H.
  - rewrite bind_ret. split.
    + intros (a & Hm & H). apply bind_ret in H. destruct H as (x & Hx & H). rewrite ret_ret in H. subst.
      constructor; auto. now apply IH.
    + intros H. inversion H; subst. exists y. split; auto. apply bind_ret. exists l'.
      split; [now apply IH|]. now apply ret_ret.
Qed.
Lemma seq_map_ret {A B} (f : A -> X B) l r : xseq (map f l) returns r <-> Forall2 (fun x a => f x returns a) l r.
Proof.
  rewrite seq_ret. revert r. induction l as [|x l IH]; intros r; cbn.
  - split; intros H; inversion H; constructor.
  - split; intros H; inversion H; subst; constructor; auto; now apply IH.
Qed.

Ltac rinv := repeat match goal with
  | H : xbind _ _ returns _ |- _ => apply bind_ret in H; destruct H as (? & ? & ?)
  | H : xret _ returns _ |- _ => rewrite ret_ret in H; subst
  | H : xemit _ returns _ |- _ => clear H
  | H : xpanic _ returns _ |- _ => discriminate H
  | H : xabort _ returns _ |- _ => discriminate H
  | H : emit_error_if_modifier _ returns _ |- _ => clear H
  | H : exists _, _ |- _ => destruct H
  | H : _ /\ _ |- _ => destruct H
  end.

(** ** Values and names *)

Lemma snake_ret k i : xsnake k returns i <-> name_ident_ok k i.
Proof.
  rewrite <- xsnake_ok. unfold xsnake. destruct (to_snake_ident k); [|split; discriminate].
  rewrite ret_ret, xret_ok. tauto.
Qed.
Lemma key_ret k i : to_ident_or_emit k returns i <-> gap_key no_ident k i.
Proof.
  unfold to_ident_or_emit. destruct k as [k|s].
  - rewrite snake_ret. split; [now constructor|]. intros H. now inversion H.
  - split.
    + intros H. rinv. constructor.
    + intros H. inversion H; subst. reflexivity.
Qed.
Lemma modifier_ret m u : emit_error_if_modifier m returns u <-> True.
Proof. destruct u, m; cbn; split; auto. Qed.
Lemma value_ret v ts : value_tokens v returns ts <-> gap_value v ts.
Proof.
  split.
  - destruct v as [[k s|[]]|b|[p|] b]; cbn [value_tokens]; intros H.
    + rinv. do 2 constructor.
    + rinv. do 2 constructor.
    + rinv. do 2 constructor.
    + rinv. do 2 constructor.
    + destruct (ident_is p "f") eqn:Hp.
      * apply ident_is_eq in Hp; [|no_raw]. subst. rinv. do 2 constructor.
      * apply ident_is_f in Hp; [|no_raw]. rinv. now apply gv_gap.
    + rinv. do 2 constructor.
  - intros [v' ts' []|p b Hp]; try reflexivity. cbn [value_tokens].
    apply ident_is_f in Hp; [|no_raw]. now rewrite Hp.
Qed.
Lemma opt_ret v ts : opt_value_tokens v returns ts <-> gap_opt v ts.
Proof.
  destruct v as [v|]; cbn [opt_value_tokens].
  - rewrite value_ret. split; [now constructor|]. intros H. now inversion H.
  - rewrite ret_ret. split; [intros <-; constructor|]. intros H. now inversion H.
Qed.
Lemma or_true_ret v ts : value_tokens (value_or_true v) returns ts <-> gap_or_true v ts.
Proof.
  destruct v as [v|]; cbn [value_or_true].
  - rewrite value_ret. split; [now constructor|]. intros H. now inversion H.
  - cbn. split; [intros [= <-]; constructor|]. intros H. now inversion H.
Qed.

Ltac vret := repeat match goal with
  | H : value_tokens (value_or_true _) returns _ |- _ => apply or_true_ret in H
  | H : value_tokens _ returns _ |- _ => apply value_ret in H
  | H : opt_value_tokens _ returns _ |- _ => apply opt_ret in H
  | H : xsnake _ returns _ |- _ => apply snake_ret in H
  | H : to_ident_or_emit _ returns _ |- _ => apply key_ret in H
  end.
Ltac rleaf := first
  [ apply or_true_ret; eassumption
  | apply value_ret; eassumption
  | apply opt_ret; eassumption
  | apply snake_ret; eassumption
  | apply key_ret; eassumption
  | apply (modifier_ret _ Datatypes.tt); exact I
  | reflexivity ].
Ltac rgo := repeat (apply bind_ret; eexists; split; [rleaf|]); try (apply ret_ret; reflexivity).

(** ** HTML elements *)

Lemma attr_ret a k ts : xml_kv_attribute_tokens a k returns ts <->
  exists c, gap_attr k a c /\ ts = call_tokens c.
Proof.
  unfold xml_kv_attribute_tokens. destruct (String.eqb (k_repr (kv_key a)) "ref") eqn:Href.
  { apply String.eqb_eq in Href. split.
    - intros H. rinv. vret. eexists. split; [eapply ga_ref; eauto|reflexivity].
    - intros (c & Hc & ->). inversion Hc; subst; try congruence. rgo. }
  apply String.eqb_neq in Href.
  assert (Hun : ((k_repr (kv_key a)) <> "class" /\ (k_repr (kv_key a)) <> "style" /\ (k = KSvg \/ k = KWeb \/ custom_name (k_repr (kv_key a)))) ->
    v <- value_tokens (kv_value a);;
    xret (method (Id false "attr") ([TLit LkStr (k_repr (kv_key a)); pu ","] ++
      gpath ["leptos"; "prelude"; "IntoAttributeValue"; "into_attribute_value"] ++ [par v])) returns ts <->
    exists c, gap_attr k a c /\ ts = call_tokens c).
  { intros (H1 & H2 & H3). split.
    - intros H. rinv. vret. eexists. split; [eapply ga_unchecked; eauto|reflexivity].
    - intros (c & Hc & ->). inversion Hc; subst; try congruence.
      + rgo.
      + exfalso. intuition congruence. }
  assert (Hty : ((k_repr (kv_key a)) = "class" \/ (k_repr (kv_key a)) = "style" \/ (k <> KSvg /\ k <> KWeb /\ ~ custom_name (k_repr (kv_key a)))) ->
    (i <- xsnake (kv_key a);; v <- value_tokens (kv_value a);; xret (method i v)) returns ts <->
    exists c, gap_attr k a c /\ ts = call_tokens c).
  { intros H0. split.
    - intros H. rinv. vret. eexists. split; [eapply ga_typed; eauto|reflexivity].
    - intros (c & Hc & ->). inversion Hc; subst; try congruence.
      + exfalso. intuition congruence.
      + rgo. }
  pose proof (attribute_kind_view (k_repr (kv_key a))) as Hv. destruct Hv as [Hs|Hs|Hs1 Hs2 Hs3|Hs1 Hs2 Hs3].
  - rewrite andb_false_r. apply Hty. auto.
  - rewrite andb_false_r. apply Hty. auto.
  - rewrite orb_true_r. cbn [andb negb]. apply Hun. auto.
  - rewrite orb_false_r. cbn [negb]. rewrite andb_true_r.
    destruct k; cbn; first [apply Hun; auto; fail|apply Hty; right; right; repeat split; auto; discriminate].
Qed.

Lemma event_key_ret key i :
  match key with KKebab k => xsnake k | KStr _ => xemit DEventType ;;; xret (Id false "invalid_event") end returns i
  <-> gap_key no_event key i.
Proof.
  destruct key as [k|s].
  - rewrite snake_ret. split; [now constructor|]. intros H. now inversion H.
  - split.
    + intros H. rinv. constructor.
    + intros H. inversion H; subst. reflexivity.
Qed.
Lemma event_ret d ts : event_listener_event_path d returns ts <->
  d_dir d = Id false "on" /\ gap_event (d_key d) (d_modifier d) ts.
Proof.
  unfold event_listener_event_path. destruct d as [dir key m v]. cbn [d_dir d_key d_modifier].
  destruct (ident_is dir "on") eqn:Hd.
  - apply ident_is_eq in Hd; [|no_raw]. subst dir. split.
    + intros H. apply bind_ret in H as (u & _ & H). apply bind_ret in H as (i & Hi & H).
      apply event_key_ret in Hi. split; auto. destruct m as [m|].
      * destruct (ident_is m "undelegated") eqn:Hm.
        -- apply ident_is_eq in Hm; [|no_raw]. subst m. rinv. now constructor.
        -- apply ident_is_f in Hm; [|no_raw]. rinv. apply ge_plain; [congruence|assumption].
      * rinv. apply ge_plain; [discriminate|assumption].
    + intros [_ H]. apply bind_ret. exists Datatypes.tt. split; [reflexivity|].
      apply bind_ret. inversion H as [? ? i Hm Hk|? i Hk]; subst; exists i; (split; [now apply event_key_ret|]).
      * destruct m as [m|]; [|reflexivity]. assert (Hm' : m <> Id false "undelegated") by congruence.
        apply ident_is_f in Hm'; [|no_raw]. rewrite Hm'. reflexivity.
      * reflexivity.
  - apply ident_is_f in Hd; [|no_raw]. split; [discriminate|]. tauto.
Qed.

Lemma use_ret d fv : use_directive_fn_value d returns fv <->
  d_dir d = Id false "use" /\ gap_use (d_key d) (d_value d) (TIdent (fst fv) :: pu "," :: snd fv).
Proof.
  unfold use_directive_fn_value. destruct d as [dir key m v]. cbn [d_dir d_key d_modifier d_value].
  destruct (ident_is dir "use") eqn:Hd.
  - apply ident_is_eq in Hd; [|no_raw]. subst dir. split.
    + intros H. rinv. vret. split; auto. destruct v as [v|].
      * rinv. vret. cbn. now constructor.
      * rinv. cbn. now constructor.
    + intros (_ & H). apply bind_ret. exists Datatypes.tt. split; [reflexivity|].
      destruct fv as [f t]. cbn [fst snd] in *. inversion H; subst.
      * apply bind_ret. exists f. split; [now apply key_ret|]. apply bind_ret. exists Datatypes.tt.
        split; [now apply modifier_ret|reflexivity].
      * apply bind_ret. exists f. split; [now apply key_ret|]. apply bind_ret. exists Datatypes.tt.
        split; [now apply modifier_ret|]. rgo.
  - apply ident_is_f in Hd; [|no_raw]. split; [discriminate|]. tauto.
Qed.
Lemma gap_use_shape k v ts : gap_use k v ts -> exists f t, ts = TIdent f :: pu "," :: t.
Proof. intros []; eexists _, _; reflexivity. Qed.

Ltac rejected := match goal with
  H : forall n, In n _ -> _ <> Id false n |- _ =>
    exfalso; cbn [d_dir] in H;
    first [ now apply (H "class"); cbn; auto 10 | now apply (H "style"); cbn; auto 10 | now apply (H "attr"); cbn; auto 10
          | now apply (H "prop"); cbn; auto 10 | now apply (H "on"); cbn; auto 10 | now apply (H "use"); cbn; auto 10 ] end.

Lemma dir_ret d ts : xml_directive_tokens d returns ts <-> exists c, gap_dir d c /\ ts = chain c.
Proof.
  unfold xml_directive_tokens. destruct d as [dir key m v].
  cbn [d_dir d_key d_modifier d_value].
  destruct (String.eqb (ident_to_string dir) "class" || String.eqb (ident_to_string dir) "style") eqn:H1.
  { assert (exists n, (n = "class" \/ n = "style") /\ dir = Id false n) as (n & Hn & ->).
    { apply orb_true_iff in H1. destruct H1 as [H1|H1]; apply ident_string_is in H1; try no_raw; eauto. }
    split.
    - intros H. rinv. vret. eexists. split; [eapply gd_class_style; eauto|reflexivity].
    - intros (c & Hc & ->). inversion Hc; subst; try (destruct Hn; discriminate).
      + rgo.
      + destruct Hn as [->| ->]; rejected. }
  apply orb_false_iff in H1. destruct H1 as [Hc1 Hc2]. apply ident_string_is_f in Hc1, Hc2; try no_raw.
  destruct (String.eqb (ident_to_string dir) "prop") eqn:H1.
  { apply ident_string_is in H1; [|no_raw]. subst dir. split.
    - intros H. rinv. vret. eexists. split; [eapply gd_prop; eauto|reflexivity].
    - intros (c & Hc & ->). inversion Hc; subst.
      + bad_or.
      + rgo.
      + rejected. }
  apply ident_string_is_f in H1; [|no_raw].
  destruct (String.eqb (ident_to_string dir) "on") eqn:H2.
  { apply ident_string_is in H2; [|no_raw]. subst dir. split.
    - intros H. apply bind_ret in H as (p & Hp & H). apply event_ret in Hp as [_ Hp]. rinv. vret.
      eexists. split; [eapply gd_on; eauto|reflexivity].
    - intros (c & Hc & ->). inversion Hc; subst.
      + bad_or.
      + apply bind_ret. exists ev. rewrite event_ret. split; auto. rgo.
      + rejected. }
  apply ident_string_is_f in H2; [|no_raw].
  destruct (String.eqb (ident_to_string dir) "use") eqn:H3.
  { apply ident_string_is in H3; [|no_raw]. subst dir. split.
    - intros H. apply bind_ret in H as (fv & Hf & H). apply use_ret in Hf as [_ Hf]. rinv.
      eexists. split; [eapply gd_use; eauto|reflexivity].
    - intros (c & Hc & ->). inversion Hc; subst.
      + bad_or.
      + match goal with H : gap_use _ _ _ |- _ => pose proof (gap_use_shape _ _ _ H) as (f & t & ->) end.
        apply bind_ret. exists (f, t). rewrite use_ret. split; [cbn; auto|]. reflexivity.
      + rejected. }
  apply ident_string_is_f in H3; [|no_raw].
  assert (Hno : (exists c, gap_dir (Directive dir key m v) c /\ ts = chain c) <-> ts = []).
  { split.
    - intros (c & Hc & ->). inversion Hc; subst; try congruence; [bad_or|reflexivity].
    - intros ->. exists []. split; [|reflexivity]. apply gd_rejected. intros n Hn. cbn in Hn |- *.
      intuition congruence. }
  rewrite Hno. destruct (_ || _); cbn; split; congruence.
Qed.

Lemma attr_loop_ret k l : forall a b c a' b' c',
  xml_attr_loop k l (a, b, c) returns (a', b', c') <->
  exists kvs dirs, Forall2 (gap_attr k) (kvs_of l) kvs /\ Forall2 gap_dir (dirs_of l) dirs /\
    a' = a ++ chain kvs /\ b' = b ++ chain (List.concat dirs) /\ c' = c ++ chain (map spread_call (spreads_of l)).
Proof.
  induction l as [|x l IH]; intros a b c a' b' c'; cbn [xml_attr_loop kvs_of dirs_of spreads_of].
  { rewrite ret_ret. split.
    - intros H. inversion H; subst. exists [], []. cbn. rewrite !app_nil_r. repeat split; constructor.
    - intros (kvs & dirs & H1 & H2 & -> & -> & ->). inversion H1; inversion H2; subst. cbn. now rewrite !app_nil_r. }
  destruct x as [kv|d|s].
  - rewrite bind_ret. split.
    + intros (t & Ht & H). apply attr_ret in Ht. destruct Ht as (cl & Hcl & ->). apply IH in H.
      destruct H as (kvs & dirs & H1 & H2 & -> & -> & ->). exists (cl :: kvs), dirs.
      split; [now constructor|]. split; auto. rewrite chain_cons, app_assoc. auto.
    + intros (kvs & dirs & H1 & H2 & -> & -> & ->). inversion H1; subst.
      exists (call_tokens y). split; [apply attr_ret; eauto|]. apply IH. exists l', dirs.
      rewrite chain_cons, app_assoc. auto.
  - rewrite bind_ret. split.
    + intros (t & Ht & H). apply dir_ret in Ht. destruct Ht as (cl & Hcl & ->). apply IH in H.
      destruct H as (kvs & dirs & H1 & H2 & -> & -> & ->). exists kvs, (cl :: dirs).
      split; auto. split; [now constructor|]. cbn [List.concat]. rewrite chain_app, app_assoc. auto.
    + intros (kvs & dirs & H1 & H2 & -> & -> & ->). inversion H2; subst.
      exists (chain y). split; [apply dir_ret; eauto|]. apply IH. exists kvs, l'.
      cbn [List.concat]. rewrite chain_app, app_assoc. auto.
  - rewrite IH. cbn [map]. rewrite chain_cons.
    change (xml_spread_tokens s) with (call_tokens (spread_call s)).
    split; intros (kvs & dirs & H1 & H2 & -> & -> & ->); exists kvs, dirs; rewrite app_assoc; auto.
Qed.

Lemma xml_ret t sels attrs nodes x ts : xml_to_tokens t sels attrs nodes = Some x -> x returns ts <->
  exists head kvs dirs codes, html_head t head /\
    Forall2 (gap_attr (kind_of t)) (kvs_of attrs) kvs /\
    Forall2 gap_dir (dirs_of attrs) dirs /\
    Forall2 (fun m a => m returns a) (match nodes with Some l => l | None => [] end) codes /\
    ts = head ++ chain (kvs ++ List.concat dirs ++ map class_call (classes_of sels) ++ map id_call (ids_of sels)
                      ++ map spread_call (spreads_of attrs) ++ map child_call codes).
Proof.
  unfold xml_to_tokens. destruct (xml_tag_path t) as [head|] eqn:Ht; [|discriminate].
  apply tag_path_ok in Ht. intros H. inversion H; subst x; clear H.
  assert (Hch : forall ch, match nodes with Some nodes => xml_child_methods_tokens nodes | None => xret [] end returns ch <->
     exists codes, Forall2 (fun m a => m returns a) (match nodes with Some l => l | None => [] end) codes /\
       ch = chain (map child_call codes)).
  { intros ch. destruct nodes as [nodes|].
    - unfold xml_child_methods_tokens. rewrite bind_ret. split.
      + intros (l & Hl & H). apply seq_ret in Hl. rewrite ret_ret in H. subst. exists l. split; auto.
        now apply flat_map_chain.
      + intros (l & Hl & ->). exists l. rewrite seq_ret, ret_ret. split; auto. now apply flat_map_chain.
    - rewrite ret_ret. split.
      + intros <-. exists []. split; auto.
      + intros (l & Hl & ->). now inversion Hl. }
  rewrite bind_ret. split.
  - intros ([[a b] c] & Hl & H). apply attr_loop_ret in Hl. destruct Hl as (kvs & dirs & H1 & H2 & -> & -> & ->).
    apply bind_ret in H. destruct H as (ch & Hc & H). apply Hch in Hc. destruct Hc as (codes & H3 & ->).
    rewrite ret_ret in H. subst ts. exists head, kvs, dirs, codes. repeat split; auto.
    cbn [app]. rewrite selectors_eq, !chain_app, <- !app_assoc. reflexivity.
  - intros (head' & kvs & dirs & codes & Hh & H1 & H2 & H3 & ->).
    assert (head' = head) as -> by (apply tag_path_ok in Ht, Hh; congruence).
    exists (chain kvs, chain (List.concat dirs), chain (map spread_call (spreads_of attrs))). split.
    { apply attr_loop_ret. exists kvs, dirs. auto. }
    apply bind_ret. exists (chain (map child_call codes)). split; [apply Hch; eauto|]. apply ret_ret.
    rewrite selectors_eq, !chain_app, <- !app_assoc. reflexivity.
Qed.

(** ** Components *)

(** Nothing is reported about a path that has code. *)
Lemma turbofish_ret p p' : turbofishify p returns p' <-> turbofishify p gives p'.
Proof.
  assert (Hseg : forall s s', turbofish_seg s returns s' <-> turbofish_seg s gives s').
  { intros [i []] s'; cbn; split; intros H; inversion H; reflexivity. }
  unfold turbofishify. rewrite bind_ret, xbind_ok.
  split; intros (l & Hl & H); exists l; (split; [|first [rewrite ret_ret in H; now apply xret_ok|rewrite xret_ok in H; now apply ret_ret]]).
  - apply seq_map_ret in Hl. apply xseq_map_ok. clear H. induction Hl; constructor; auto. now apply Hseg.
  - apply xseq_map_ok in Hl. apply seq_map_ret. clear H. induction Hl; constructor; auto. now apply Hseg.
Qed.

Lemma prop_ret a ts : component_kv_attribute_tokens a returns ts <-> exists c, gap_prop a c /\ ts = call_tokens c.
Proof.
  unfold component_kv_attribute_tokens. split.
  - intros H. rinv. vret. eexists. split; [econstructor; eauto|reflexivity].
  - intros (c & Hc & ->). inversion Hc; subst. rgo.
Qed.
Lemma clone_ret d ts : d_dir d = Id false "clone" ->
  (emit_error_if_modifier (d_modifier d) ;;; component_clone_tokens d) returns ts <-> gap_clone d ts.
Proof.
  destruct d as [dir key m v]. cbn [d_dir d_key d_modifier d_value]. intros ->.
  unfold component_clone_tokens. cbn [d_dir d_key d_modifier d_value]. split.
  - intros H. rinv. vret. now constructor.
  - intros H. inversion H; subst. apply bind_ret. exists Datatypes.tt. split; [now apply modifier_ret|].
    apply bind_ret. exists i. split; [now apply key_ret|]. apply bind_ret. exists Datatypes.tt. split; [now apply modifier_ret|].
    destruct v; reflexivity.
Qed.

Lemma entry_ret d : match directive_to_any_attr_path d with
  | Some m => forall ts, m returns ts <-> gap_entry (ADir d) [ts]
  | None => True
  end /\ (directive_to_any_attr_path d = None <-> gap_entry (ADir d) []) /\
  (forall l, gap_entry (ADir d) l -> l = [] \/ exists ts, l = [ts]).
Proof.
  assert (Hshape : forall a l, gap_entry a l -> l = [] \/ exists ts, l = [ts]).
  { intros a l []; eauto. }
  unfold directive_to_any_attr_path. destruct d as [dir key m v].
  cbn [d_dir d_key d_modifier d_value].
  assert (Hsome : forall n, In n ["class"; "style"; "attr"; "prop"; "on"; "use"] -> dir = Id false n ->
    ~ gap_entry (ADir (Directive dir key m v)) []).
  { intros n Hn -> H. inversion H as [| | | | | | | |? Hr]; subst. now apply (Hr n). }
  destruct (String.eqb (ident_to_string dir) "class" || String.eqb (ident_to_string dir) "style") eqn:H1.
  { assert (exists n, (n = "class" \/ n = "style") /\ dir = Id false n) as (n & Hn & ->).
    { apply orb_true_iff in H1. destruct H1 as [H1|H1]; apply ident_string_is in H1; try no_raw; eauto. }
    split; [|split; [split; [discriminate|intros H; exfalso; apply (Hsome n); auto; cbn; intuition congruence]|exact (Hshape _)]].
    intros ts. split.
    - intros H. rinv. vret. pose proof (gn_class_style n key m v x Hn H) as Hx.
      destruct Hn as [->| ->]; exact Hx.
    - intros H. inversion H; subst; try (destruct Hn; discriminate).
      rgo. }
  apply orb_false_iff in H1. destruct H1 as [Hc1 Hc2]. apply ident_string_is_f in Hc1, Hc2; try no_raw.
  destruct (String.eqb (ident_to_string dir) "attr") eqn:H1.
  { apply ident_string_is in H1; [|no_raw]. subst dir.
    split; [|split; [split; [discriminate|intros H; exfalso; apply (Hsome "attr"); auto; cbn; auto]|exact (Hshape _)]].
    pose proof (attribute_kind_view (key_string key)) as Hk.
    assert (Hcs : forall ts, key_string key = "class" \/ key_string key = "style" ->
      (i <- to_ident_or_emit key;;
        v <- value_tokens (value_or_true v);;
        xret (gpath ["leptos"; "tachys"; "html"] ++ colon2 ++ [TIdent (unraw i)] ++ colon2 ++ [TIdent i] ++ [par v])) returns ts <->
      gap_entry (ADir (Directive (Id false "attr") key m v)) [ts]).
    { clear Hk. intros ts Hn. split.
      - intros H. rinv. vret. exact (gn_attr_class_style key _ m v _ Hn H H0).
      - intros H. inversion H; subst.
        + bad_or.
        + rgo.
        + exfalso. eapply custom_not_plain; [exact Hn|]. assumption.
        + exfalso. destruct Hn; contradiction. }
    destruct Hk as [Hk|Hk|Hk1 Hk2 Hk3|Hk1 Hk2 Hk3].
    - intros ts. apply Hcs; auto.
    - intros ts. apply Hcs; auto.
    - intros ts. split.
      + intros H. rinv. vret. now apply gn_attr_custom.
      + intros H. inversion H; subst.
        * bad_or.
        * exfalso. match goal with H : key_text _ = _ \/ _ |- _ => destruct H; contradiction end.
        * rgo.
        * contradiction.
    - intros ts. split.
      + intros H. rinv. vret. now apply gn_attr.
      + intros H. inversion H; subst.
        * bad_or.
        * exfalso. match goal with H : key_text _ = _ \/ _ |- _ => destruct H; contradiction end.
        * contradiction.
        * rgo. }
  apply ident_string_is_f in H1; [|no_raw].
  destruct (String.eqb (ident_to_string dir) "prop") eqn:H2.
  { apply ident_string_is in H2; [|no_raw]. subst dir.
    split; [|split; [split; [discriminate|intros H; exfalso; apply (Hsome "prop"); auto; cbn; auto]|exact (Hshape _)]].
    intros ts. split.
    - intros H. rinv. vret. now apply gn_prop.
    - intros H. inversion H; subst.
      + bad_or.
      + rgo. }
  apply ident_string_is_f in H2; [|no_raw].
  destruct (String.eqb (ident_to_string dir) "on") eqn:H3.
  { apply ident_string_is in H3; [|no_raw]. subst dir.
    split; [|split; [split; [discriminate|intros H; exfalso; apply (Hsome "on"); auto; cbn; auto 10]|exact (Hshape _)]].
    intros ts. split.
    - intros H. apply bind_ret in H as (p & Hp & H). apply event_ret in Hp as [_ Hp]. rinv. vret. now apply gn_on.
    - intros H. inversion H; subst.
      + bad_or.
      + apply bind_ret. exists ev. rewrite event_ret. split; auto. rgo. }
  apply ident_string_is_f in H3; [|no_raw].
  destruct (String.eqb (ident_to_string dir) "use") eqn:H4.
  { apply ident_string_is in H4; [|no_raw]. subst dir.
    split; [|split; [split; [discriminate|intros H; exfalso; apply (Hsome "use"); auto; cbn; auto 10]|exact (Hshape _)]].
    intros ts. split.
    - intros H. apply bind_ret in H as (fv & Hf & H). apply use_ret in Hf as [_ Hf]. rinv. exact (gn_use _ _ _ _ Hf).
    - intros H. inversion H; subst.
      + bad_or.
      + match goal with H : gap_use _ _ _ |- _ => pose proof (gap_use_shape _ _ _ H) as (f & t & ->) end.
        apply bind_ret. exists (f, t). rewrite use_ret. split; [cbn; auto|]. reflexivity. }
  apply ident_string_is_f in H4; [|no_raw].
  split; [exact I|]. split; [|exact (Hshape _)]. split; [|reflexivity]. intros _. apply gn_rejected. intros n Hn. cbn in Hn |- *.
  intuition congruence.
Qed.

Lemma entry_some d m t : directive_to_any_attr_path d = Some m -> m returns t <-> gap_entry (ADir d) [t].
Proof. intros H. destruct (entry_ret d) as (He & _). rewrite H in He. apply He. Qed.
Lemma entry_none d : directive_to_any_attr_path d = None <-> gap_entry (ADir d) [].
Proof. apply entry_ret. Qed.
Lemma entry_shape d l : gap_entry (ADir d) l -> l = [] \/ exists ts, l = [ts].
Proof. apply entry_ret. Qed.

Lemma comp_loop_ret slot l : forall a b c a' b' c',
  component_attr_loop slot l (a, b, c) returns (a', b', c') <->
  exists props entries clones, Forall2 gap_prop (kvs_of l) props /\
    (if slot then entries = [] else Forall2 gap_entry (entries_of l) entries) /\
    Forall2 gap_clone (clones_of l) clones /\
    a' = a ++ chain props /\ b' = b ++ List.concat entries /\ c' = c ++ List.concat clones.
Proof.
  induction l as [|x l IH]; intros a b c a' b' c'; cbn [component_attr_loop kvs_of entries_of].
  { rewrite ret_ret. split.
    - intros H. inversion H; subst. exists [], [], []. cbn. rewrite !app_nil_r. destruct slot; repeat split; constructor.
    - intros (props & entries & clones & H1 & H2 & H3 & -> & -> & ->).
      assert (entries = []) as -> by (destruct slot; [auto|now inversion H2]).
      inversion H1; inversion H3; subst. cbn. now rewrite !app_nil_r. }
  destruct x as [kv|d|s].
  - change (clones_of (AKv kv :: l)) with (clones_of l). rewrite bind_ret. split.
    + intros (t & Ht & H). apply prop_ret in Ht. destruct Ht as (cl & Hcl & ->). apply IH in H.
      destruct H as (props & entries & clones & H1 & H2 & H4 & -> & -> & ->).
      exists (cl :: props), entries, clones. split; [now constructor|].
      rewrite chain_cons, app_assoc. repeat split; auto.
    + intros (props & entries & clones & H1 & H2 & H4 & -> & -> & ->). inversion H1; subst.
      exists (call_tokens y). split; [apply prop_ret; eauto|]. apply IH. exists l', entries, clones.
      rewrite chain_cons, app_assoc. repeat split; auto.
  - rewrite clone_test. unfold clones_of. cbn [dirs_of filter]. fold (clones_of l).
    destruct (is_clone d) eqn:Hcl.
    + apply is_clone_iff in Hcl. rewrite bind_ret. split.
      * intros (u & Hu & H). apply bind_ret in H. destruct H as (t & Ht & H).
        assert (Hc : gap_clone d t) by (apply clone_ret; auto; apply bind_ret; eauto).
        apply IH in H. destruct H as (props & entries & clones & H1 & H2 & H4 & -> & -> & ->).
        exists props, entries, (t :: clones). cbn [List.concat]. rewrite app_assoc. repeat split; auto.
      * intros (props & entries & clones & H1 & H2 & H4 & -> & -> & ->). inversion H4; subst.
        match goal with H : gap_clone d ?y |- _ => apply (clone_ret d y Hcl) in H; apply bind_ret in H;
           destruct H as (u & Hu & Ht) end.
        exists u. split; auto. apply bind_ret. exists y. split; auto. apply IH. exists props, entries, l'.
        cbn [List.concat]. rewrite app_assoc. repeat split; auto.
    + destruct slot.
      * rewrite bind_ret. split.
        -- intros (u & _ & H). now apply IH in H.
        -- intros H. exists Datatypes.tt. split; [reflexivity|]. now apply IH.
      * destruct (directive_to_any_attr_path d) as [m|] eqn:Hd.
        -- rewrite bind_ret. split.
           ++ intros (t & Ht & H). apply (entry_some _ _ _ Hd) in Ht. apply IH in H.
              destruct H as (props & entries & clones & H1 & H2 & H4 & -> & -> & ->).
              exists props, ([t] :: entries), clones. cbn [List.concat]. rewrite app_assoc. repeat split; auto.
           ++ intros (props & entries & clones & H1 & H2 & H4 & -> & -> & ->). inversion H2 as [|? y ? l' Hy Hl]; subst.
              destruct (entry_shape _ _ Hy) as [->|(t & ->)]; [apply entry_none in Hy; congruence|].
              exists t. split; [now apply (entry_some _ _ _ Hd)|]. apply IH. exists props, l', clones.
              cbn [List.concat]. rewrite app_assoc. repeat split; auto.
        -- rewrite bind_ret. split.
           ++ intros (u & _ & H). apply IH in H.
              destruct H as (props & entries & clones & H1 & H2 & H4 & -> & -> & ->).
              exists props, ([] :: entries), clones. repeat split; auto. constructor; auto. now apply entry_none.
           ++ intros (props & entries & clones & H1 & H2 & H4 & -> & -> & ->). inversion H2 as [|? y ? l' Hy Hl]; subst.
              exists Datatypes.tt. split; [reflexivity|]. apply IH. exists props, l', clones. repeat split; auto.
              destruct (entry_shape _ _ Hy) as [->|(t & ->)]; [reflexivity|]. exfalso.
              apply entry_none in Hd. inversion Hd as [| | | | | | | |? Hr]; subst. clear -Hy Hr.
              inversion Hy; subst; first [rejected|match goal with H : _ \/ _ |- _ => destruct H; subst; rejected end].
  - change (clones_of (ASpread s :: l)) with (clones_of l). destruct slot.
    + rewrite bind_ret. split.
      * intros (u & _ & H). now apply IH in H.
      * intros H. exists Datatypes.tt. split; [reflexivity|]. now apply IH.
    + rewrite IH. split.
      * intros (props & entries & clones & H1 & H2 & H4 & -> & -> & ->).
        exists props, ([s] :: entries), clones. cbn [List.concat]. rewrite app_assoc. repeat split; auto.
        constructor; auto. constructor.
      * intros (props & entries & clones & H1 & H2 & H4 & -> & -> & ->). inversion H2 as [|? y ? l' Hy Hl]; subst.
        inversion Hy; subst.
        exists props, l', clones. cbn [List.concat]. rewrite app_assoc. repeat split; auto.
Qed.

(** Nothing is reported about the selectors of a component. *)
Lemma sels_ret l r : component_selectors l returns r <-> r = selector_entries l.
Proof.
  assert (H := proj2 (sels_ok l _) eq_refl). rewrite H. cbn. split; congruence.
Qed.
Lemma comp_children_ret nodes args clones r :
  component_children_tokens nodes args clones returns r <->
  exists codes, Forall2 (fun m a => m returns a) nodes codes /\
    r = call_tokens (plain_call "children" [braces (clones ++
           match args with
           | Some a => word "move" :: a ++ fragment codes
           | None => abs_path ["leptos"; "children"; "ToChildren"; "to_children"]
                     ++ [parens (word "move" :: bars ++ fragment codes)]
           end)]).
Proof.
  unfold component_children_tokens. rewrite bind_ret. split.
  - intros (l & Hl & H). apply seq_ret in Hl. rewrite ret_ret in H. subst r. exists l. split; auto.
    rewrite fragment_eq. destruct args; reflexivity.
  - intros (l & Hl & ->). exists l. rewrite seq_ret, ret_ret. split; auto. rewrite fragment_eq. destruct args; reflexivity.
Qed.
Lemma children_call_ret args clones (nodes : option (list (X (list tt)))) r :
  match nodes with Some ((_ :: _) as ns) => component_children_tokens ns args (List.concat clones) | _ => xret [] end returns r <->
  exists codes, Forall2 (fun m a => m returns a) (match nodes with Some l => l | None => [] end) codes /\
    r = chain (children_calls args clones codes).
Proof.
  destruct nodes as [[|m nodes]|].
  1,3: rewrite ret_ret; split;
    [intros <-; exists []; split; auto|intros (codes & H & ->); inversion H; reflexivity].
  rewrite comp_children_ret. split; intros (codes & H & ->); exists codes; (split; [auto|]);
      inversion H; subst; unfold children_calls; rewrite chain_one; reflexivity.
Qed.

(** ** Slots *)

Lemma slot_method_ret k l ts : slot_method k l returns ts <-> slot_method k l gives ts.
Proof.
  unfold slot_method. destruct (new_raw _); [rewrite ret_ret, xret_ok; tauto|]. split; discriminate.
Qed.

(** What each slot of a list contributes. *)
Inductive gap_items : list (tag * X (list tt)) -> list (ident * list tt) -> Prop :=
| gi_nil : gap_items [] []
| gi_slot i x ts l slots : x returns ts -> gap_items l slots ->
    gap_items ((TagComponent (Path false [PSeg i PNone]), x) :: l) ((i, ts) :: slots)
| gi_path p x l slots : get_ident p = None -> gap_items l slots ->
    gap_items ((TagComponent p, x) :: l) slots.
Lemma collect_ret l : forall m0 m, collect_slots l m0 returns m <->
  exists slots, gap_items l slots /\ m = slot_map slots m0.
Proof.
  induction l as [|[t x] l IH]; intros m0 m; cbn [collect_slots].
  - rewrite ret_ret. split.
    + intros <-. exists []. split; constructor.
    + intros (slots & H & ->). inversion H. reflexivity.
  - destruct t as [i|p|i|i|k].
    1,3-5: split; [discriminate|]; intros (slots & H & _); inversion H.
    destruct (get_ident p) as [i|] eqn:Hp.
    + rewrite bind_ret. assert (Hp' := Hp). apply get_ident_iff in Hp. subst p. split.
      * intros (ts & Hx & H). apply IH in H. destruct H as (slots & H & ->). exists ((i, ts) :: slots).
        split; [now constructor|reflexivity].
      * intros (slots & H & ->). inversion H as [|j ? ts ? ? H1 H2|? ? ? ? H1 H2]; subst; [|discriminate].
        exists ts. split; auto. apply IH. eauto.
    + rewrite bind_ret. split.
      * intros (u & _ & H). apply IH in H. destruct H as (slots & H & ->). exists slots. split; auto. now constructor.
      * intros (slots & H & ->). exists Datatypes.tt. split; [reflexivity|]. apply IH.
        inversion H as [|j ? ts ? ? H1 H2|? ? ? ? H1 H2]; subst; [discriminate|]. eauto.
Qed.
Lemma gap_slots_sound E at_ l ts : env_ok E -> slots_to_tokens E at_ l returns ts ->
  exists slots scalls, gap_items l slots /\ slot_calls slots scalls /\ ts = chain scalls.
Proof.
  intros (_ & _ & HP) H. unfold slots_to_tokens in H. apply bind_ret in H. destruct H as (m & Hm & H).
  apply bind_ret in H. destruct H as (r & Hr & H). rewrite ret_ret in H. subst ts.
  apply collect_ret in Hm. destruct Hm as (slots & Hs & ->).
  destruct (slot_map_ok slots [] (NoDup_nil _)) as (H1 & H2 & H3). cbn in H2, H3.
  apply seq_map_ret in Hr. pose proof (HP at_ (map fst (slot_map slots []))) as Hp.
  remember (slot_order E at_ (map fst (slot_map slots []))) as order eqn:Ho.
  assert (Hc : exists calls, Forall2 (slot_call slots) order calls /\ r = map call_tokens calls).
  { clear -Hr H3. induction Hr as [|k t order r Hk Hr IH].
    - exists []. split; auto.
    - destruct IH as (calls & Hc & ->). apply slot_method_ret, slot_method_ok in Hk. destruct Hk as (m & Hm1 & Hm2 & ->).
      rewrite H3. eexists (_ :: calls). split; [constructor; [econstructor; eauto|auto]|reflexivity]. }
  destruct Hc as (calls & Hc & ->). exists slots, calls. split; auto. split; [|reflexivity].
  apply slot_calls_intro with order; auto.
  - eapply Permutation_NoDup; eauto.
  - intros i. split; intros Hi.
    + assert (In i (map fst (slot_map slots []))) as Hj by (eapply Permutation_in; [apply Permutation_sym; exact Hp|auto]).
      apply H2 in Hj. tauto.
    + eapply Permutation_in; [exact Hp|]. apply H2. auto.
Qed.
Lemma gap_slots_total E at_ l slots scalls : env_ok E -> gap_items l slots -> slot_calls slots scalls ->
  exists ts, slots_to_tokens E at_ l returns ts.
Proof.
  intros (_ & _ & HP) Hl Hs. unfold slots_to_tokens.
  destruct (slot_map_ok slots [] (NoDup_nil _)) as (H1 & H2 & H3). cbn in H2, H3.
  inversion Hs as [order calls Ho1 Ho2 Ho3]; subst.
  pose proof (HP at_ (map fst (slot_map slots []))) as Hp.
  assert (Hin : forall i, In i (slot_order E at_ (map fst (slot_map slots []))) -> exists m,
    camel_snake (i_name i) m /\ ~ In m ("" :: reserved_words)).
  { intros i Hi. apply (Permutation_in i (Permutation_sym Hp)) in Hi. apply H2 in Hi. destruct Hi as [[]|Hi]. apply Ho2 in Hi.
    clear -Hi Ho3. induction Ho3 as [|k c order calls Hk Hr IH]; [destruct Hi|]. destruct Hi as [->|Hi]; auto.
    inversion Hk; subst. eauto. }
  assert (exists r, Forall2 (fun k a => slot_method k (slot_get (slot_map slots []) k) returns a)
     (slot_order E at_ (map fst (slot_map slots []))) r) as (r & Hr).
  { clear -Hin. induction (slot_order E at_ (map fst (slot_map slots []))) as [|k order IH].
    - exists []. constructor.
    - destruct IH as (r & Hr); [intros; apply Hin; now right|]. destruct (Hin k (or_introl eq_refl)) as (m & Hm1 & Hm2).
      eexists (_ :: r). constructor; auto. apply slot_method_ret, slot_method_ok. eauto. }
  eexists. apply bind_ret. eexists. split; [apply collect_ret; eauto|]. apply bind_ret. exists r.
  split; [now apply seq_map_ret|reflexivity].
Qed.

(** ** The recursion *)

Lemma gap_nodes_sound E at_ l :
  (forall e, In (CElement e) l -> forall at_ ts, expand_element E at_ false e returns ts -> gap_element e ts) ->
  forall n codes, Forall2 (fun m a => m returns a) (expand_nodes E at_ n l) codes -> gap_nodes l codes.
Proof.
  induction l as [|c l IH]; intros He n codes H; cbn [expand_nodes] in H.
  - inversion H. constructor.
  - assert (IH' := IH (fun e Hin => He e (or_intror Hin))). destruct c as [v|e|e].
    + inversion H as [|m a ? ? Hm Hr]; subst. cbn [expand_node] in Hm. rinv. vret. constructor; eauto.
    + inversion H as [|m a ? ? Hm Hr]; subst. cbn [expand_node] in Hm. rinv. constructor; eauto.
      eapply He; eauto. now left.
    + constructor. eauto.
Qed.
Lemma gap_nodes_total E at_ l codes :
  (forall e, In (CElement e) l -> forall at_ ts, gap_element e ts -> exists ts', expand_element E at_ false e returns ts') ->
  gap_nodes l codes -> forall n, exists codes', Forall2 (fun m a => m returns a) (expand_nodes E at_ n l) codes'.
Proof.
  intros He Hn. induction l as [|c l IH] in codes, He, Hn |- *; intros n; cbn [expand_nodes].
  - exists []. constructor.
  - assert (IH' := fun codes => IH codes (fun e Hin => He e (or_intror Hin))).
    inversion Hn as [|v ts l' codes' Hv Hr|e ts l' codes' Hv Hr|e l' codes' Hr]; subst;
      destruct (IH' _ Hr (S n)) as (cs & Hcs).
    + eexists (_ :: cs). constructor; auto. cbn [expand_node]. rgo.
    + destruct (He e (or_introl eq_refl) (n :: at_) ts Hv) as (ts' & Hts).
      eexists (_ :: cs). constructor; auto. cbn [expand_node]. apply bind_ret. eexists. split; [exact Hts|reflexivity].
    + exists cs. auto.
Qed.
Lemma not_single p : get_ident p = None <-> forall i, p <> Path false [PSeg i PNone].
Proof.
  split.
  - intros H i ->. discriminate.
  - intros H. destruct (get_ident p) as [i|] eqn:Hp; [|reflexivity]. apply get_ident_iff in Hp. now destruct (H i).
Qed.
Lemma gap_slot_list_sound E at_ l :
  (forall e, In (CSlot e) l -> forall at_ ts, expand_element E at_ true e returns ts -> gap_slot e ts) ->
  forall n slots, gap_items (expand_slots E at_ n l) slots -> gap_slots l slots.
Proof.
  induction l as [|c l IH]; intros He n slots H; cbn [expand_slots] in H.
  - inversion H. constructor.
  - assert (IH' := IH (fun e Hin => He e (or_intror Hin))). destruct c as [v|e|e].
    + constructor. eauto.
    + constructor. eauto.
    + inversion H as [|i x ts l' slots' H1 H2 Ht|p x l' slots' H1 H2 Ht]; subst.
      * constructor; eauto. eapply He; eauto. now left.
      * apply gls_path with p; eauto. now apply not_single.
Qed.
Lemma gap_slot_list_total E at_ l slots :
  (forall e, In (CSlot e) l -> forall at_ ts, gap_slot e ts -> exists ts', expand_element E at_ true e returns ts') ->
  gap_slots l slots -> forall n, exists slots', gap_items (expand_slots E at_ n l) slots' /\ map fst slots' = map fst slots.
Proof.
  intros He Hn. induction l as [|c l IH] in slots, He, Hn |- *; intros n; cbn [expand_slots].
  - inversion Hn. exists []. split; constructor.
  - assert (IH' := fun codes => IH codes (fun e Hin => He e (or_intror Hin))).
    inversion Hn as [|v l' slots' Hr|e l' slots' Hr|e i ts l' slots' Ht Hv Hr|e p l' slots' Ht Hp Hr]; subst;
      destruct (IH' _ Hr (S n)) as (cs & Hcs & Hf).
    + exists cs; auto.
    + exists cs; auto.
    + destruct (He e (or_introl eq_refl) (n :: at_) ts Hv) as (ts' & Hts).
      exists ((i, ts') :: cs). rewrite Ht. split; [now constructor|]. cbn. congruence.
    + exists cs. rewrite Ht. split; auto. constructor; auto. now apply not_single.
Qed.

(** [component_to_tokens], given what the children expand to. *)
Lemma component_ret E at_ (slot : bool) p sels attrs args nodes slots ts :
  expect_path (component_to_tokens E at_ slot (TagComponent p) sels attrs args nodes slots) returns ts <->
  exists path props entries clones codes sl,
    path_code p path /\
    Forall2 gap_prop (kvs_of attrs) props /\
    (if slot then entries = [] else Forall2 gap_entry (entries_of attrs) entries) /\
    Forall2 gap_clone (clones_of attrs) clones /\
    Forall2 (fun m a => m returns a) (match nodes with Some l => l | None => [] end) codes /\
    match slots with Some l => slots_to_tokens E at_ l | None => xret [] end returns sl /\
    ts = if slot then slot_frame path (props ++ children_calls args clones codes)
         else [sym "#"; brackets [word "allow"; parens [word "unreachable_code"]]] ++
              abs_path ["leptos"; "prelude"; "View"; "new"] ++
              [parens (abs_path ["leptos"; "component"; "component_view"] ++
                 [parens (sym "&" :: path ++ sym "," ::
                          abs_path ["leptos"; "component"; "component_props_builder"] ++
                          [parens (sym "&" :: path)] ++
                          chain props ++ chain (children_calls args clones codes) ++ sl ++ chain [plain_call "build" []])] ++
                 chain [plain_call "add_any_attr" [parens (comma_ended (selector_entries sels ++ List.concat entries))]])].
Proof.
  cbn [component_to_tokens expect_path].
  assert (Hsel : forall d0, (if slot then match sels with [] => xret [] | _ => xemit DSlotSelectors ;;; xret [] end
                   else component_selectors sels) returns d0 <-> d0 = if slot then [] else selector_entries sels).
  { intros d0. destruct slot; [|apply sels_ret]. destruct sels; cbn; split; congruence. }
  split.
  - intros H. apply bind_ret in H. destruct H as (p' & Hp & H). apply turbofish_ret in Hp.
    apply bind_ret in H. destruct H as (d0 & Hd & H). apply Hsel in Hd.
    apply bind_ret in H. destruct H as ([[props0 dirs] clones0] & Hl & H).
    apply comp_loop_ret in Hl. destruct Hl as (props & entries & clones & H1 & H2 & H4 & E1 & E2 & E3).
    cbn [app] in E1, E3. subst props0 clones0 dirs.
    apply bind_ret in H. destruct H as (ch & Hc & H).
    apply children_call_ret in Hc. destruct Hc as (codes & Hcodes & ->).
    apply bind_ret in H. destruct H as (sl & Hsl & H).
    exists (path_tokens p'), props, entries, clones, codes, sl.
    split; [now apply (turbofish_ok _ _ Hp)|].
    do 5 (split; [assumption|]). subst d0.
    destruct slot; rewrite ret_ret in H; subst ts.
    + unfold slot_frame. rewrite !chain_app, <- !app_assoc. reflexivity.
    + unfold comma_ended. rewrite <- flat_map_concat_map. reflexivity.
  - intros (path & props & entries & clones & codes & sl & Hp & H1 & H2 & H4 & Hcodes & Hsl & ->).
    destruct (turbofish_total _ _ Hp) as (p' & Hp'). apply bind_ret. exists p'. split; [now apply turbofish_ret|].
    apply (turbofish_ok _ _ Hp') in Hp.
    apply bind_ret. exists (if slot then [] else selector_entries sels). split; [now apply Hsel|].
    apply bind_ret. exists (chain props, (if slot then [] else selector_entries sels) ++ List.concat entries, List.concat clones).
    split; [apply comp_loop_ret; exists props, entries, clones; repeat split; auto|].
    apply bind_ret. eexists. split; [apply children_call_ret; eauto|].
    apply bind_ret. exists sl. split; auto.
    destruct slot; rewrite ret_ret; rewrite Hp.
    + unfold slot_frame. rewrite !chain_app, <- !app_assoc. reflexivity.
    + unfold comma_ended. rewrite <- flat_map_concat_map. reflexivity.
Qed.

Definition gap_sound_at E e := (forall at_ ts, expand_element E at_ false e returns ts -> gap_element e ts) /\
  (forall at_ ts, expand_element E at_ true e returns ts -> gap_slot e ts).

Lemma gap_slots_opt_sound E at_ ch sl : env_ok E ->
  (forall e, In (CSlot e) (child_list ch) -> gap_sound_at E e) ->
  match option_map (expand_slots E at_ 0) ch with Some l => slots_to_tokens E at_ l | None => xret [] end returns sl ->
  exists slots scalls, gap_slots (child_list ch) slots /\ slot_calls slots scalls /\ sl = chain scalls.
Proof.
  intros HE He H. destruct ch as [l|]; cbn [option_map child_list] in *.
  - apply gap_slots_sound in H; auto. destruct H as (slots & scalls & H1 & H2 & ->). exists slots, scalls.
    split; auto. eapply gap_slot_list_sound; eauto. intros e Hin. apply He. auto.
  - rewrite ret_ret in H. subst. exists [], []. split; [constructor|]. split; [|reflexivity].
    apply slot_calls_intro with []; constructor. intros []. auto.
Qed.
Lemma gap_slots_opt_total E at_ ch slots scalls : env_ok E ->
  (forall e, In (CSlot e) (child_list ch) -> forall at_ ts, gap_slot e ts -> exists ts', expand_element E at_ true e returns ts') ->
  gap_slots (child_list ch) slots -> slot_calls slots scalls ->
  exists sl, match option_map (expand_slots E at_ 0) ch with Some l => slots_to_tokens E at_ l | None => xret [] end returns sl.
Proof.
  intros HE He H1 H2. destruct ch as [l|]; cbn [option_map child_list] in *; [|eexists; reflexivity].
  destruct (gap_slot_list_total E at_ l slots He H1 0) as (slots' & H3 & H4).
  destruct (slot_calls_names _ _ _ H4 H2) as (scalls' & H5). eapply gap_slots_total; eauto.
Qed.

Lemma gap_expand_sound E e : env_ok E -> gap_sound_at E e.
Proof.
  intros HE. induction e as [t sels attrs args ch IHe IHs] using element_children_ind. split; intros at_ ts H;
    rewrite expand_element_eq in H; unfold element_tokens in H.
  - destruct (xml_to_tokens t sels attrs (option_map (expand_nodes E at_ 0) ch)) as [x|] eqn:Hx.
    + apply (xml_ret _ _ _ _ _ _ Hx) in H. destruct H as (head & kvs & dirs & codes & Hh & H1 & H2 & H3 & ->).
      rewrite nodes_opt in H3. apply gap_nodes_sound in H3; [|intros e Hin; now apply IHe].
      now apply gap_html.
    + apply xml_none in Hx. destruct Hx as (p & ->). apply component_ret in H.
      destruct H as (path & props & entries & clones & codes & sl & H1 & H2 & H3 & H4 & H5 & H6 & ->).
      rewrite nodes_opt in H5. apply gap_nodes_sound in H5; [|intros e Hin; now apply IHe].
      apply gap_slots_opt_sound in H6; auto. destruct H6 as (slots & scalls & H6 & H7 & ->).
      rewrite <- component_frame_eq. eapply gap_component; eauto.
  - destruct t as [i|p|i|i|k]; try discriminate H. apply component_ret in H.
    destruct H as (path & props & entries & clones & codes & sl & H1 & H2 & H3 & H4 & H5 & H6 & ->).
    rewrite nodes_opt in H5. apply gap_nodes_sound in H5; [|intros e Hin; now apply IHe].
    apply gap_slots_opt_sound in H6; auto. destruct H6 as (slots & scalls & H6 & H7 & ->).
    eapply gap_slot_intro; eauto.
Qed.

Lemma gap_expand_total E e : env_ok E ->
  (forall at_ ts, gap_element e ts -> exists ts', expand_element E at_ false e returns ts') /\
  (forall at_ ts, gap_slot e ts -> exists ts', expand_element E at_ true e returns ts').
Proof.
  intros HE. induction e as [t sels attrs args ch IHe IHs] using element_children_ind. split; intros at_ ts H;
    rewrite expand_element_eq; unfold element_tokens.
  - inversion H as [t' ? ? ? ? head kvs dirs codes Hh H1 H2 H3|p ? ? ? ? path props entries clones codes slots scalls H1 H2 H3 H4 H5 H6 H7]; subst.
    + destruct (gap_nodes_total E at_ _ _ (fun e Hin at_ ts => proj1 (IHe e Hin) at_ ts) H3 0) as (codes' & Hc).
      destruct (xml_to_tokens t sels attrs (option_map (expand_nodes E at_ 0) ch)) as [x|] eqn:Hx.
      * eexists. apply (xml_ret _ _ _ _ _ _ Hx). exists head, kvs, dirs, codes'. rewrite nodes_opt. eauto.
      * apply xml_none in Hx. destruct Hx as (p & ->). inversion Hh.
    + destruct (gap_nodes_total E at_ _ _ (fun e Hin at_ ts => proj1 (IHe e Hin) at_ ts) H5 0) as (codes' & Hc).
      destruct (gap_slots_opt_total E at_ ch _ _ HE (fun e Hin at_ ts => proj2 (IHs e Hin) at_ ts) H6 H7) as (sl & Hsl).
      cbn [xml_to_tokens xml_tag_path]. eexists. apply component_ret.
      exists path, props, entries, clones, codes', sl. rewrite nodes_opt.
      repeat split; eauto.
  - inversion H as [p ? ? ? ? path props clones codes slots scalls H1 H2 H4 H5 H6 H7]; subst.
    destruct (gap_nodes_total E at_ _ _ (fun e Hin at_ ts => proj1 (IHe e Hin) at_ ts) H5 0) as (codes' & Hc).
    destruct (gap_slots_opt_total E at_ ch _ _ HE (fun e Hin at_ ts => proj2 (IHs e Hin) at_ ts) H6 H7) as (sl & Hsl).
    eexists. apply component_ret.
    exists path, props, [], clones, codes', sl. rewrite nodes_opt.
    repeat split; eauto.
Qed.

(** ** The root *)

Lemma root_tokens_many E cs : List.length cs <> 1 -> root_tokens E cs =
  if existsb is_slot cs then xabort DRootSlot
  else
    l <- xseq (expand_nodes E [] 0 cs) ;;
    xret [TGroup Brace
            ([pu "#"; TGroup Bracket [kw "allow"; par [kw "unused_braces"]]]
             ++ children_fragment_tokens l)].
Proof. destruct cs as [|c [|c' cs]]; auto. cbn. congruence. Qed.
Lemma no_slots cs : existsb is_slot cs = false <-> forall e, ~ In (CSlot e) cs.
Proof.
  split.
  - intros H e Hin. assert (existsb is_slot cs = true) by (apply is_slot_iff; eauto). congruence.
  - intros H. destruct (existsb is_slot cs) eqn:Hx; auto. apply is_slot_iff in Hx. destruct Hx as (e & He). now destruct (H e).
Qed.

Lemma gap_root_sound E cs ts : env_ok E -> root_tokens E cs returns ts -> gap_root cs ts.
Proof.
  intros HE H.
  assert (Hn : forall at_ n codes, Forall2 (fun m a => m returns a) (expand_nodes E at_ n cs) codes -> gap_nodes cs codes).
  { intros at_ n codes. apply gap_nodes_sound. intros e _. apply (gap_expand_sound E e HE). }
  destruct (Nat.eq_dec (List.length cs) 1) as [Hl|Hl].
  - destruct cs as [|c [|c' cs]]; try discriminate. clear Hl.
    destruct c as [v|e|e]; cbn [root_tokens] in H; [| |discriminate].
    all: apply bind_ret in H as (x & Hx & H); rewrite ret_ret in H; subst ts;
      apply (gr_one _ x); [discriminate|]; apply (Hn [] 0); cbn [expand_nodes]; repeat constructor; exact Hx.
  - rewrite root_tokens_many in H by auto. destruct (existsb is_slot cs) eqn:Hs; [discriminate|].
    apply bind_ret in H as (x & Hx & H). rewrite ret_ret in H. subst ts. apply seq_ret, Hn in Hx.
    rewrite fragment_eq. apply gr_many; auto. now apply no_slots.
Qed.
Lemma gap_root_total E cs ts : env_ok E -> gap_root cs ts -> exists ts', root_tokens E cs returns ts'.
Proof.
  intros HE H. inversion H as [c code Hc Hn|? codes Hl Hs Hn]; subst.
  - apply (gap_nodes_total E []) with (n := 0) in Hn; [|intros e _; apply (gap_expand_total E e HE)].
    destruct Hn as (codes' & Hn). destruct c as [v|e|e]; [| |exfalso; now apply (Hc e)].
    all: inversion Hn as [|m a ? ? Hm _]; subst; eexists; cbn [root_tokens]; apply bind_ret; eexists;
      (split; [exact Hm|reflexivity]).
  - apply (gap_nodes_total E []) with (n := 0) in Hn; [|intros e _; apply (gap_expand_total E e HE)].
    destruct Hn as (codes' & Hn). exists (root_frame (fragment codes')).
    rewrite root_tokens_many by auto. apply no_slots in Hs. rewrite Hs.
    apply bind_ret. exists codes'. rewrite seq_ret. split; auto. rewrite fragment_eq. reflexivity.
Qed.

