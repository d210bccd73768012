(** The expander panics exactly at what [SpecStop] describes. *)
From Verif Require Import SpecStop.
From Verif Require Export Report.
From Coq Require Import Permutation.
Open Scope list_scope.
Open Scope expand_scope.

(** [m] does not abort; it panics if there is a [w] with [P w], and only with one. *)
Definition pan {A} (m : X A) (P : panic -> Prop) : Prop :=
  noabort m /\ (forall w, x_out m = XPanic w -> P w) /\ ((exists w, P w) -> exists w, x_out m = XPanic w).
Notation never := (fun _ : panic => False).

Lemma pan_weaken {A} (m : X A) (P Q : panic -> Prop) : pan m P -> (forall w, P w -> Q w) ->
  ((exists w, Q w) -> exists w, P w) -> pan m Q.
Proof. intros (H1 & H2 & H3) H H'. split; [exact H1|]. split; auto. Qed.
Lemma pan_iff {A} (m : X A) (P Q : panic -> Prop) : pan m P -> (forall w, P w <-> Q w) -> pan m Q.
Proof.
  intros (H1 & H2 & H3) H. split; [exact H1|]. split; [intros w Hw; now apply H, H2|].
  intros (w & Hw). apply H3. exists w. now apply H.
Qed.
Lemma pan_ret {A} (a : A) : pan (xret a) never.
Proof. split; [discriminate|]. cbn. split; [intros w H; discriminate|]. intros [w []]. Qed.
Lemma pan_emit d : pan (xemit d) never.
Proof. split; [discriminate|]. cbn. split; [intros w H; discriminate|]. intros [w []]. Qed.
Lemma pan_panic {A} w (P : panic -> Prop) : P w -> pan (@xpanic A w) P.
Proof. intros H. split; [discriminate|]. cbn. split; [intros w' Hw; now injection Hw as <-|]. eauto. Qed.
Lemma pan_bind {A B} (m : X A) (f : A -> X B) (P Q : panic -> Prop) :
  pan m P -> (forall a, x_out m = XRet a -> pan (f a) Q) -> pan (xbind m f) (fun w => P w \/ Q w).
Proof.
  destruct m as [[a| |w] d]; intros (H1 & H2 & H3) Hf.
  - destruct (Hf a eq_refl) as (H4 & H5 & H6). split; [exact H4|]. cbn in *. split; [auto|].
    intros (w & [H|H]); eauto. destruct H3 as (w' & H'); eauto. discriminate.
  - now destruct H1.
  - split; [discriminate|]. cbn in *. split; [intros w' H; left; apply H2; congruence|]. eauto.
Qed.
Lemma pan_first {A B} (m : X A) (f : A -> X B) P :
  pan m P -> (forall a, x_out m = XRet a -> pan (f a) never) -> pan (xbind m f) P.
Proof. intros H1 H2. eapply pan_iff; [eapply pan_bind; eassumption|]. cbn. tauto. Qed.
Lemma pan_then {A B} (m : X A) (f : A -> X B) P :
  pan m never -> (forall a, x_out m = XRet a -> pan (f a) P) -> pan (xbind m f) P.
Proof. intros H1 H2. eapply pan_iff; [eapply pan_bind; eassumption|]. cbn. tauto. Qed.
Lemma pan_map {A B} (f : B -> X A) (P : B -> panic -> Prop) l : (forall b, In b l -> pan (f b) (P b)) ->
  pan (xseq (map f l)) (fun w => exists b, In b l /\ P b w).
Proof.
  induction l as [|b l IH]; intros H; cbn [map xseq].
  - eapply pan_iff; [apply pan_ret|]. intros w. split; [tauto|]. intros (b & [] & _).
  - eapply pan_iff; [apply pan_bind; [apply H; now left|intros; apply pan_first; [apply IH; intros; apply H; now right|intros; apply pan_ret]]|].
    intros w. split.
    + intros [HP|(b' & Hb & HP)]; [exists b|exists b']; cbn; auto.
    + intros (b' & [->|Hb] & HP); eauto.
Qed.
Lemma pan_no {A} (m : X A) (P : panic -> Prop) : pan m never -> (forall w, ~ P w) -> pan m P.
Proof. intros H Hn. eapply pan_iff; [exact H|]. intros w. specialize (Hn w). tauto. Qed.

Ltac pn := repeat match goal with
  | |- pan (xret _) _ => apply pan_ret
  | |- pan (xemit _) _ => apply pan_emit
  | |- pan (if ?b then _ else _) _ => destruct b eqn:?
  | |- pan (match ?o with Some _ => _ | None => _ end) _ => destruct o eqn:?
  end.
(** Nothing in it panics. *)
Ltac pn0 := pn; repeat (match goal with
  | |- pan (xbind _ _) never => apply pan_first; [|intros]
  end; pn).

(** ** Names and values *)

Lemma pan_snake k : pan (xsnake k) (no_identifier k).
Proof.
  unfold xsnake. destruct (to_snake_ident k) as [i|] eqn:Hk.
  - apply pan_no; [apply pan_ret|]. intros w [_ Hn]. apply to_snake_iff in Hk. now destruct Hk.
  - apply pan_panic. split; [f_equal; apply dashes_snake|].
    destruct (word_dec (snake_name (k_repr k))) as [|Hn]; auto.
    exfalso. assert (Hs : to_snake_ident k = Some (Id true (snake_name (k_repr k)))); [|congruence].
    apply to_snake_iff. split; auto.
Qed.
Definition key_no_identifier (k : kebab_or_str) (w : panic) : Prop := exists k', k = KKebab k' /\ no_identifier k' w.
Lemma pan_ident k : pan (to_ident_or_emit k) (key_no_identifier k).
Proof.
  unfold key_no_identifier. destruct k as [k|s]; cbn [to_ident_or_emit].
  - eapply pan_iff; [apply pan_snake|]. intros w. split; eauto. intros (k' & H & Hk). now injection H as ->.
  - apply pan_no; [pn0|]. intros w (k' & H & _). discriminate.
Qed.
Lemma pan_value v : pan (value_tokens v) never.
Proof. destruct v as [l|ts|[p|] ts]; cbn [value_tokens]; pn0. Qed.
Lemma pan_opt_value v : pan (opt_value_tokens v) never.
Proof. destruct v; cbn [opt_value_tokens]; [apply pan_value|pn0]. Qed.
Lemma pan_modifier m : pan (emit_error_if_modifier m) never.
Proof. destruct m; cbn [emit_error_if_modifier]; pn0. Qed.
Lemma pan_event d : d_dir d = Id false "on" -> pan (event_listener_event_path d) (key_no_identifier (d_key d)).
Proof.
  intros Hd. unfold event_listener_event_path. rewrite Hd. apply pan_then; [cbn; pn0|intros _ _].
  apply pan_first; [|intros; cbn zeta; pn0]. unfold key_no_identifier. destruct (d_key d) as [k|s].
  - eapply pan_iff; [apply pan_snake|]. intros w. split; eauto. intros (k' & H & Hk). now injection H as ->.
  - apply pan_no; [pn0|]. intros w (k' & H & _). discriminate.
Qed.
Lemma pan_use d : d_dir d = Id false "use" -> pan (use_directive_fn_value d) (key_no_identifier (d_key d)).
Proof.
  intros Hd. unfold use_directive_fn_value. rewrite Hd. apply pan_then; [cbn; pn0|intros _ _].
  apply pan_first; [apply pan_ident|intros]. apply pan_then; [apply pan_modifier|intros]. pn0. apply pan_value.
Qed.

(** ** Elements *)

Ltac nores := let H := fresh in intros H; vm_compute in H; repeat (destruct H as [H|H]; [discriminate H|]); destruct H.
Lemma pan_html_attr a k : pan (xml_kv_attribute_tokens a k) (fun w => html_attr_stops k w (AKv a)).
Proof.
  unfold xml_kv_attribute_tokens. cbn zeta. destruct a as [key v]. cbn [kv_key kv_value].
  assert (Hs : forall s, k_repr key = s -> ~ In (snake_name s) (""%string :: reserved_words) ->
    forall w, ~ html_attr_stops k w (AKv (KvAttr key v))).
  { intros s Hw Hn w H. inversion H as [k0 v0 _ _ _ [_ Hb]|]; subst. now apply Hn. }
  destruct (String.eqb (k_repr key) "ref") eqn:Href.
  { apply String.eqb_eq in Href. apply pan_no; [pn0; apply pan_value|]. apply (Hs _ Href). nores. }
  destruct (attribute_kind_view (k_repr key)) as [Hk|Hk|H1 H2 Hk|H1 H2 Hk]; cbn [negb].
  1,2: rewrite andb_false_r; eapply pan_iff; [apply pan_first; [apply pan_snake|intros; pn0; apply pan_value]|];
    intros w; split; intros H; exfalso; [destruct H as [_ H]; revert H; rewrite Hk|revert H; apply (Hs _ Hk)]; nores.
  - rewrite orb_true_r. cbn [andb]. apply pan_no; [pn0; apply pan_value|].
    intros w H. inversion H; subst. contradiction.
  - rewrite orb_false_r, andb_true_r. destruct k;
      first [apply pan_no; [pn0; apply pan_value|]
        |eapply pan_iff; [apply pan_first; [apply pan_snake|intros; pn0; apply pan_value]|]].
    all: try (intros w; split; intros H; [constructor; auto; discriminate|now inversion H]).
    all: intros w H; inversion H; subst; congruence.
Qed.
Lemma dir_is (d : directive) s : (forall r, s <> ("r#" ++ r)%string) -> String.eqb (ident_to_string (d_dir d)) s = true -> d_dir d = Id false s.
Proof. intros Hs H. now apply ident_string_is. Qed.
Lemma dir_is_not (d : directive) s : (forall r, s <> ("r#" ++ r)%string) -> String.eqb (ident_to_string (d_dir d)) s = false -> d_dir d <> Id false s.
Proof. intros Hs H. now apply ident_string_is_f. Qed.
Ltac dirs := repeat match goal with
  | H : (_ || _)%bool = true |- _ => apply orb_true_iff in H; destruct H as [H|H]
  | H : (_ || _)%bool = false |- _ => apply orb_false_iff in H; destruct H
  | H : String.eqb (ident_to_string (d_dir _)) _ = true |- _ => apply dir_is in H; [|no_raw]
  | H : String.eqb (ident_to_string (d_dir _)) _ = false |- _ => apply dir_is_not in H; [|no_raw]
  end.
Lemma html_dir_stops_iff k w d : html_attr_stops k w (ADir d) <->
  (d_dir d = Id false "on" \/ d_dir d = Id false "use") /\ key_no_identifier (d_key d) w.
Proof.
  split.
  - intros H. inversion H as [|name d' Hin [Hd Hk]]; subst. split; [|exact Hk]. destruct Hin as [<-|[<-|[]]]; auto.
  - intros [[Hd|Hd] Hk]; [apply (hs_dir k w "on")|apply (hs_dir k w "use")]; cbn; auto; split; auto.
Qed.
Lemma pan_html_dir d k : pan (xml_directive_tokens d) (fun w => html_attr_stops k w (ADir d)).
Proof.
  eapply pan_iff; [|intros w; symmetry; apply html_dir_stops_iff]. unfold xml_directive_tokens. cbn zeta.
  repeat match goal with |- pan (if ?b then _ else _) _ => destruct b eqn:? end; dirs.
  all: try (apply pan_no; [pn0; first [apply pan_modifier|apply pan_opt_value]|];
    intros w [[Hd|Hd] _]; congruence).
  - eapply pan_iff; [apply pan_first; [apply pan_event; auto|intros; pn0; apply pan_opt_value]|]. tauto.
  - eapply pan_iff; [apply pan_first; [apply pan_use; auto|intros; pn0; apply pan_opt_value]|]. tauto.
Qed.
Lemma ex_cons {A} (P : A -> Prop) a l : (exists x, In x (a :: l) /\ P x) <-> P a \/ (exists x, In x l /\ P x).
Proof. split; [intros (x & [->|H] & Hx); eauto|intros [H|(x & H & Hx)]; [exists a|exists x]; cbn; auto]. Qed.
Lemma ex_nil {A} (P : A -> Prop) : ~ (exists x, In x [] /\ P x).
Proof. intros (x & [] & _). Qed.
Lemma pan_html_loop k l : forall acc, pan (xml_attr_loop k l acc) (fun w => exists a, In a l /\ html_attr_stops k w a).
Proof.
  induction l as [|a l IH]; intros [[kvs ds] sps]; cbn [xml_attr_loop].
  - apply pan_no; [apply pan_ret|]. intros w. apply ex_nil.
  - eapply pan_iff; [|intros w; symmetry; apply ex_cons]. destruct a as [kv|d|s].
    + apply pan_bind; [apply pan_html_attr|auto].
    + apply pan_bind; [apply pan_html_dir|auto].
    + eapply pan_iff; [apply IH|]. intros w. split; [tauto|]. intros [H|H]; auto. inversion H.
Qed.

(** ** Components *)

Lemma pan_path d m : d_dir d <> Id false "clone" -> directive_to_any_attr_path d = Some m ->
  pan m (fun w => comp_attr_stops false w (ADir d)).
Proof.
  intros Hc Hm.
  assert (Hiff : forall w, comp_attr_stops false w (ADir d) <-> key_no_identifier (d_key d) w /\
    (d_dir d = Id false "on" \/ d_dir d = Id false "use" \/ d_dir d = Id false "prop" \/
     d_dir d = Id false "attr" /\ ~ custom_name (key_string (d_key d)))).
  { intros w. split.
    - intros H. inversion H as [|d' [Hd _]|name d' _ Hin [Hd Hk]|d' k _ Hd Hk Hn Hu]; subst; [contradiction|..].
      + split; [exact Hk|]. destruct Hin as [<-|[<-|[<-|[]]]]; auto.
      + split; [exists k; auto|]. right; right; right. rewrite Hk. auto.
    - intros [Hk [Hd|[Hd|[Hd|[Hd Hu]]]]].
      + apply (cs_dir false w "on"); cbn; auto. now split.
      + apply (cs_dir false w "use"); cbn; auto. now split.
      + apply (cs_dir false w "prop"); cbn; auto. now split.
      + destruct Hk as (k & Hk & Hn). rewrite Hk in Hu. eapply cs_attr; eauto. }
  eapply pan_iff; [|intros w; symmetry; apply Hiff]. clear Hiff.
  unfold directive_to_any_attr_path in Hm. cbn zeta in Hm.
  repeat match type of Hm with (if ?b then _ else _) = _ => destruct b eqn:? end; try discriminate; injection Hm as <-; dirs.
  1,2: apply pan_no; [pn0; apply pan_value|]; intros w [_ [Hd|[Hd|[Hd|[Hd _]]]]]; congruence.
  - destruct (attribute_kind_view (key_string (d_key d))) as [Hk|Hk|H1 H2 Hk|H1 H2 Hk].
    1,2: eapply pan_iff; [apply pan_first; [apply pan_ident|intros; pn0; apply pan_value]|];
      intros w; split; [|tauto]; intros (k & Hkk & _ & Hn); rewrite Hkk in Hk; cbn in Hk; rewrite Hk in Hn;
      exfalso; revert Hn; nores.
    + apply pan_no; [pn0; apply pan_value|]. intros w [_ [Hd|[Hd|[Hd|[Hd Hu]]]]]; congruence || tauto.
    + eapply pan_iff; [apply pan_first; [apply pan_ident|intros; pn0; apply pan_value]|]. tauto.
  - eapply pan_iff; [apply pan_first; [apply pan_ident|intros; pn0; apply pan_value]|]. tauto.
  - eapply pan_iff; [apply pan_first; [apply pan_event; auto|intros; pn0; apply pan_opt_value]|]. tauto.
  - eapply pan_iff; [apply pan_first; [apply pan_use; auto|intros; pn0; apply pan_opt_value]|]. tauto.
Qed.
Lemma no_path d w : directive_to_any_attr_path d = None -> d_dir d <> Id false "clone" -> ~ comp_attr_stops false w (ADir d).
Proof.
  unfold directive_to_any_attr_path. cbn zeta.
  repeat match goal with |- (if ?b then _ else _) = _ -> _ => destruct b eqn:? end; try discriminate. dirs. intros _ Hc Hs.
  inversion Hs as [|d' [Hd _]|name d' _ Hin [Hd Hk]|d' k _ Hd Hk Hn Hu]; subst; try contradiction.
  destruct Hin as [<-|[<-|[<-|[]]]]; contradiction.
Qed.
Lemma clone_stops_iff slot d w : d_dir d = Id false "clone" -> comp_attr_stops slot w (ADir d) <-> key_no_identifier (d_key d) w.
Proof.
  intros Hd. split.
  - intros H. inversion H as [|d' [_ Hk]|name d' _ Hin [Hd' Hk]|d' k _ Hd' Hk Hn Hu]; subst; [exact Hk| |congruence].
    rewrite Hd in Hd'. injection Hd' as <-. exact Hk.
  - intros Hk. apply cs_clone. now split.
Qed.
Lemma pan_comp_loop slot l : forall acc, pan (component_attr_loop slot l acc) (fun w => exists a, In a l /\ comp_attr_stops slot w a).
Proof.
  induction l as [|a l IH]; intros [[props ds] clones]; cbn [component_attr_loop].
  - apply pan_no; [apply pan_ret|]. intros w. apply ex_nil.
  - eapply pan_iff; [|intros w; symmetry; apply ex_cons]. destruct a as [kv|d|s].
    + apply pan_bind; [|auto]. unfold component_kv_attribute_tokens. destruct kv as [k v]. cbn [kv_key kv_value].
      eapply pan_iff; [apply pan_first; [apply pan_snake|intros; pn0; apply pan_value]|].
      intros w. split; [apply cs_kv|]. intros H. now inversion H.
    + destruct (String.eqb (ident_to_string (d_dir d)) "clone") eqn:Hc; dirs.
      * apply pan_then; [apply pan_modifier|intros _ _]. apply pan_bind; [|auto].
        eapply pan_iff; [|intros w; symmetry; now apply clone_stops_iff].
        unfold component_clone_tokens. apply pan_first; [apply pan_ident|intros]. pn0. apply pan_modifier.
      * destruct slot.
        -- apply pan_then; [apply pan_emit|intros _ _]. eapply pan_iff; [apply IH|]. intros w. split; [tauto|]. intros [H|H]; auto.
           exfalso. inversion H as [|d' [Hd _]| |]; subst; congruence || contradiction.
        -- destruct (directive_to_any_attr_path d) as [m|] eqn:Hm.
           ++ apply pan_bind; [eapply pan_path; eassumption|auto].
           ++ apply pan_then; [apply pan_emit|intros _ _]. eapply pan_iff; [apply IH|]. intros w. split; [tauto|]. intros [H|H]; auto.
              exfalso. revert H. now apply no_path.
    + destruct slot.
      * apply pan_then; [apply pan_emit|intros _ _]. eapply pan_iff; [apply IH|]. intros w. split; [tauto|]. intros [H|H]; auto. inversion H.
      * eapply pan_iff; [apply IH|]. intros w. split; [tauto|]. intros [H|H]; auto. inversion H.
Qed.
Lemma pan_never {A} (m : X A) : noabort m -> xfine False m -> pan m never.
Proof. intros Hn Hf. split; [exact Hn|]. split; [exact (xfine_panic False _ Hf)|]. intros [w []]. Qed.
Lemma pan_selectors sels : pan (component_selectors sels) never.
Proof. apply pan_never; [apply na_selectors|apply xfine_selectors]. Qed.
Lemma pan_turbofish p : Forall seg_no_fn (segs p) -> pan (turbofishify p) never.
Proof. intros Hp. apply pan_never; [now apply na_turbofish|apply xfine_turbofish]. Qed.

(** ** Slots *)

Definition bad_slot_name (i : ident) (w : panic) : Prop :=
  exists m, camel_snake (i_name i) m /\ In m (""%string :: reserved_words) /\ w = PNewRaw m.
Lemma pan_slot_method k slots : pan (slot_method k slots) (bad_slot_name k).
Proof.
  unfold slot_method. cbn zeta.
  set (name := upper_camel_to_snake_case (i_name (unraw k))).
  assert (Hn : forall m, camel_snake (i_name k) m <-> m = name) by (intros m; apply camel_iff).
  destruct (new_raw name) as [m|] eqn:Hm.
  - apply pan_no; [apply pan_ret|]. intros w (m' & Hm' & Hin & _). apply Hn in Hm'. subst m'.
    apply new_raw_iff in Hm. now destruct Hm.
  - apply pan_panic. exists name. split; [now apply Hn|]. split; auto.
    destruct (word_dec name) as [|Hno]; auto. exfalso.
    assert (new_raw name = Some (Id true name)) by (apply new_raw_iff; auto). congruence.
Qed.
Lemma slot_insert_in m k t i : In i (map fst (slot_insert m k t)) <-> i = k \/ In i (map fst m).
Proof.
  induction m as [|[k' l] m IH]; cbn [slot_insert map fst In]; [intuition congruence|].
  destruct (ident_eqb k k') eqn:Hk; cbn [map fst In].
  - assert (k = k') by (destruct k as [r n], k' as [r' n']; unfold ident_eqb in Hk; cbn in Hk; apply andb_true_iff in Hk;
      destruct Hk as [H1 H2]; apply Bool.eqb_prop in H1; apply String.eqb_eq in H2; congruence). subst.
    intuition congruence.
  - rewrite IH. intuition congruence.
Qed.
Lemma collect_keys_iff l : forall m0 m, x_out (collect_slots l m0) = XRet m -> forall i,
  In i (map fst m) <-> In i (map fst m0) \/ exists x, In (one_name i, x) l.
Proof.
  induction l as [|[t x] l IH]; intros m0 m H i; cbn [collect_slots] in H.
  - inversion H; subst. cbn. split; [auto|]. intros [|(x & [])]; auto.
  - destruct t as [j|p|j|j|k]; try discriminate. destruct (get_ident p) as [j|] eqn:Hp.
    + apply get_ident_iff in Hp. subst p. destruct x as [[ts| |w] d]; cbn in H; try discriminate.
      rewrite (IH _ _ H i), slot_insert_in. split.
      * intros [[->|Hk]|(y & Hy)]; auto; right; eexists; [left; reflexivity|right; eauto].
      * intros [Hk|(y & [Hy|Hy])]; eauto. injection Hy as ->. auto.
    + cbn in H. rewrite (IH _ _ H i). split.
      * intros [Hk|(y & Hy)]; auto; right; eexists; right; eauto.
      * intros [Hk|(y & [Hy|Hy])]; eauto. injection Hy as -> _. discriminate Hp.
Qed.
(** Slots with their tags and what makes them panic. *)
Definition entry_stops (P : X (list tt) -> panic -> Prop) (w : panic) (q : tag * X (list tt)) : Prop :=
  (forall p, fst q <> TagComponent p) /\ w = PSlotTag \/ exists i, fst q = one_name i /\ P (snd q) w.
Lemma pan_collect (P : X (list tt) -> panic -> Prop) l :
  (forall i x, In (one_name i, x) l -> pan x (P x)) ->
  forall m0, pan (collect_slots l m0) (fun w => exists q, In q l /\ entry_stops P w q).
Proof.
  induction l as [|[t x] l IH]; intros Hx m0; cbn [collect_slots].
  { apply pan_no; [apply pan_ret|]. intros w. apply ex_nil. }
  assert (IH' := IH (fun i x Hin => Hx i x (or_intror Hin))).
  eapply pan_iff; [|intros w; symmetry; apply ex_cons]. unfold entry_stops at 1. cbn [fst snd].
  destruct t as [j|p|j|j|k]; try (apply pan_panic; left; left; split; [discriminate|reflexivity]).
  destruct (get_ident p) as [j|] eqn:Hp.
  - apply get_ident_iff in Hp. subst p. eapply pan_iff; [apply pan_bind; [apply (Hx j); now left|intros; apply IH']|].
    intros w. split; (intros [H|H]; [|auto]).
    + left. right. exists j. split; auto.
    + destruct H as [[H _]|(i & _ & H)]; [|auto]. now destruct (H (Path false [PSeg j PNone])).
  - apply pan_then; [apply pan_emit|intros _ _]. eapply pan_iff; [apply IH'|]. intros w. split; [auto|].
    intros [[[H _]|(i & Hi & _)]|H]; auto.
    + now destruct (H p).
    + injection Hi as ->. discriminate Hp.
Qed.
Lemma pan_slots E at_ (P : X (list tt) -> panic -> Prop) l : env_ok E -> (forall i x, In (one_name i, x) l -> pan x (P x)) ->
  pan (slots_to_tokens E at_ l)
    (fun w => (exists q, In q l /\ entry_stops P w q) \/ exists i x, In (one_name i, x) l /\ bad_slot_name i w).
Proof.
  intros (_ & _ & HP) Hx. unfold slots_to_tokens.
  apply pan_bind; [now apply pan_collect|]. intros m Hm.
  apply pan_first; [|intros; apply pan_ret].
  eapply pan_iff; [apply pan_map; intros k _; apply pan_slot_method|].
  assert (Hk := collect_keys_iff _ _ _ Hm). intros w. split.
  - intros (i & Hi & Hb). apply (Permutation_in i (Permutation_sym (HP at_ (map fst m)))) in Hi.
    apply Hk in Hi. destruct Hi as [[]|(x & Hi)]. eauto.
  - intros (i & x & Hi & Hb). exists i. split; auto. apply (Permutation_in i (HP at_ (map fst m))).
    apply Hk. right. eauto.
Qed.

(** ** The recursion *)

Lemma pan_nodes E l : (forall e at_, In (CElement e) l -> pan (expand_element E at_ false e) (fun w => elem_stops w false e)) ->
  forall at_ n, pan (xseq (expand_nodes E at_ n l)) (fun w => exists e, In (CElement e) l /\ elem_stops w false e).
Proof.
  induction l as [|c l IH]; intros He at_ n; cbn [expand_nodes].
  - apply pan_no; [apply pan_ret|]. intros w (e & [] & _).
  - assert (IH' := IH (fun e a Hin => He e a (or_intror Hin)) at_ (S n)).
    destruct c as [v|e|e]; cbn [xseq expand_node].
    + apply pan_then; [pn0; apply pan_value|intros ? _]. apply pan_first; [|intros; apply pan_ret].
      eapply pan_iff; [exact IH'|]. intros w. split; intros (e & H & H'); exists e; split; auto; [now right|].
      destruct H as [H|H]; [discriminate|auto].
    + eapply pan_iff; [apply pan_bind; [apply pan_first; [apply He; now left|intros; apply pan_ret]|intros ? _;
        apply pan_first; [exact IH'|intros; apply pan_ret]]|].
      intros w. split.
      * intros [H|(e' & H & H')]; [exists e|exists e']; cbn; auto.
      * intros (e' & [H|H] & H'); eauto. injection H as ->. auto.
    + eapply pan_iff; [exact IH'|]. intros w. split; intros (e' & H & H'); exists e'; split; auto; [now right|].
      destruct H as [H|H]; [discriminate|auto].
Qed.
Lemma pan_element E e : env_ok E -> plain_elem e -> forall at_ slot, (slot = true -> exists p, el_tag e = TagComponent p) ->
  pan (expand_element E at_ slot e) (fun w => elem_stops w slot e).
Proof.
  intros HE. induction e as [t sels attrs args ch IHe IHs] using element_children_ind. intros Hp at_ slot Hslot.
  inversion Hp as [? ? ? ? ? Ht _ _ _ Hc]; subst.
  assert (He : forall e at_, In (CElement e) (child_list ch) -> pan (expand_element E at_ false e) (fun w => elem_stops w false e)).
  { intros e at' Hin. apply IHe; auto; [|discriminate]. apply Hc in Hin. inversion Hin; auto. }
  assert (Hs : forall e at_ i, In (CSlot e) (child_list ch) -> el_tag e = one_name i -> pan (expand_element E at_ true e) (fun w => elem_stops w true e)).
  { intros e at' i Hin Hi. apply IHs; auto; [|intros _; rewrite Hi; eexists; reflexivity]. apply Hc in Hin. inversion Hin; auto. }
  rewrite expand_element_eq. unfold element_tokens.
  set (nodes := option_map (expand_nodes E at_ 0) ch). set (slots := option_map (expand_slots E at_ 0) ch).
  set (e0 := Element t sels attrs args ch) in *.
  set (Pn := fun w => exists e, In (CElement e) (child_list ch) /\ elem_stops w false e).
  assert (Hcomp : forall p, t = TagComponent p ->
    pan (expect_path (component_to_tokens E at_ slot t sels attrs args nodes slots)) (fun w => elem_stops w slot e0)).
  { intros p ->. unfold component_to_tokens. cbn [expect_path].
    set (Ps := fun w => (exists c, In (CSlot c) (child_list ch) /\ (forall q, el_tag c <> TagComponent q) /\ w = PSlotTag) \/
      (exists c i, In (CSlot c) (child_list ch) /\ el_tag c = one_name i /\ bad_slot_name i w) \/
      (exists c i, In (CSlot c) (child_list ch) /\ el_tag c = one_name i /\ elem_stops w true c)).
    apply pan_iff with (fun w => (exists a, In a attrs /\ comp_attr_stops slot w a) \/ Pn w \/ Ps w).
    - apply pan_then; [apply pan_turbofish; now apply Ht|intros p' _].
      apply pan_then; [destruct slot; [destruct sels; pn0|apply pan_selectors]|intros dirs0 _].
      apply pan_bind; [apply pan_comp_loop|intros [[props ds] clones] _].
      apply pan_bind.
      { unfold Pn, nodes. destruct ch as [l|]; cbn [option_map child_list].
        - destruct (expand_nodes E at_ 0 l) as [|x xs] eqn:Hx.
          + assert (H := pan_nodes E l He at_ 0). rewrite Hx in H. cbn [xseq] in H.
            apply pan_no; [apply pan_ret|]. intros w Hw. destruct H as (_ & _ & H). destruct H as (w' & H); [eauto|discriminate].
          + unfold component_children_tokens. apply pan_first; [|intros; cbn zeta; apply pan_ret]. rewrite <- Hx. now apply pan_nodes.
        - apply pan_no; [apply pan_ret|]. intros w (e & [] & _). }
      intros chs _. apply pan_first; [|intros; destruct slot; apply pan_ret].
      unfold Ps, slots. destruct ch as [l|]; cbn [option_map child_list].
      + eapply pan_weaken.
        * apply (pan_slots E at_ (fun x w => x_out x = XPanic w) _ HE).
          intros i x Hin. apply expand_slots_in in Hin. destruct Hin as (e & at' & Hin & Hi & ->).
          destruct (Hs e at' i Hin (eq_sym Hi)) as [H1 _]. split; [exact H1|]. auto.
        * intros w [([t' x] & Hin & [[Hq ->]|(i & Hi & Hw)])|(i & x & Hin & Hb)]; cbn [fst snd] in *;
            apply expand_slots_in in Hin; destruct Hin as (e & at' & Hin & He' & ->); subst.
          -- left. eauto.
          -- right. right. exists e, i. repeat split; auto. destruct (Hs e at' i Hin Hi) as (_ & H & _). auto.
          -- right. left. exists e, i. auto.
        * intros [w [(c & Hin & Hq & ->)|[(c & i & Hin & Hi & Hb)|(c & i & Hin & Hi & Hb)]]];
            destruct (expand_slots_in' E l c Hin at_ 0) as (at' & Hx).
          -- exists PSlotTag. left. eexists. split; [exact Hx|]. left. auto.
          -- exists w. right. rewrite Hi in Hx. eauto.
          -- destruct (Hs c at' i Hin Hi) as (_ & _ & H). destruct H as (w' & Hw'); [eauto|].
             exists w'. left. eexists. split; [exact Hx|]. right. exists i. auto.
      + apply pan_no; [apply pan_ret|]. intros w [(c & [] & _)|[(c & i & [] & _)|(c & i & [] & _)]].
    - unfold Pn, Ps. intros w. split.
      + intros [(a & Hin & Ha)|[(e & Hin & Ha)|[(c & Hin & Hq & ->)|[(c & i & Hin & Hi & m & Hm & Hb & ->)|(c & i & Hin & Hi & Hb)]]]].
        * eapply es_comp_attr; eauto; reflexivity.
        * eapply es_child; eauto.
        * eapply es_slot_tag; eauto; reflexivity.
        * eapply es_slot_name; eauto; reflexivity.
        * eapply es_slot; eauto; reflexivity.
      + intros H. inversion H; subst; cbn [el_tag el_attrs el_children e0] in *; try (match goal with H : kind_of_tag _ _ |- _ => now destruct H end);
          unfold bad_slot_name; eauto 10.
        right; right; right; left. exists c, i. repeat split; eauto. }
  destruct slot.
  - destruct (Hslot eq_refl) as (p & Hp'). eapply Hcomp; eauto.
  - destruct (xml_to_tokens t sels attrs nodes) as [x|] eqn:Hx.
    2: { apply xml_none in Hx. destruct Hx as (p & Hp'). eapply Hcomp; eauto. }
    assert (Hnc : not_component t) by (apply (xml_some_iff t sels attrs nodes); congruence).
    assert (Hk : kind_of_tag t (kind_of t)) by (destruct t; cbn; auto; now destruct (Hnc p)).
    unfold xml_to_tokens in Hx. destruct (xml_tag_path t) as [tp|]; [|discriminate]. injection Hx as <-.
    apply pan_iff with (fun w => (exists a, In a attrs /\ html_attr_stops (kind_of t) w a) \/ Pn w).
    + apply pan_bind; [apply pan_html_loop|intros [[kvs ds] sps] _]. apply pan_first; [|intros; apply pan_ret].
      unfold Pn, nodes. destruct ch as [l|]; cbn [option_map child_list].
      * unfold xml_child_methods_tokens. apply pan_first; [|intros; apply pan_ret]. now apply pan_nodes.
      * apply pan_no; [apply pan_ret|]. intros w (e & [] & _).
    + intros w. split.
      * intros [(a & Hin & Ha)|(e & Hin & Ha)]; [eapply es_html_attr; eauto|eapply es_child; eauto].
      * intros H. inversion H; subst; cbn [el_tag el_attrs el_children e0] in *; try (now destruct (Hnc p)); [|right; unfold Pn; eauto].
        left. exists a. split; auto. assert (kind = kind_of t) by (clear -H0 Hk; destruct t; cbn in H0; try exact H0; destruct H0). now subst kind.
Qed.

(** The root panics iff some [w] is described, and only with one. *)
Lemma pan_root E cs : env_ok E -> Forall plain_child cs ->
  (forall w, x_out (root_tokens E cs) = XPanic w -> view_stops cs w) /\
  ((exists w, view_stops cs w) -> exists w, x_out (root_tokens E cs) = XPanic w).
Proof.
  intros HE Hp. unfold view_stops.
  assert (He : forall e at_, In (CElement e) cs -> pan (expand_element E at_ false e) (fun w => elem_stops w false e)).
  { intros e at_ Hin. apply pan_element; auto; [|discriminate]. rewrite Forall_forall in Hp. apply Hp in Hin. now inversion Hin. }
  assert (Hall : forall at_ n, pan (xseq (expand_nodes E at_ n cs)) (fun w => exists e, In (CElement e) cs /\ elem_stops w false e)).
  { intros. now apply pan_nodes. }
  destruct (existsb is_slot cs) eqn:Hb.
  - assert (Hs : ~ forall e, ~ In (CSlot e) cs).
    { apply existsb_exists in Hb. destruct Hb as ([v|e|e] & Hin & Hx); try discriminate. intros H. now apply (H e). }
    split; [|intros [w [H _]]; contradiction]. intros w H. exfalso. unfold root_tokens in H.
    destruct cs as [|c [|c' cs]]; [discriminate Hb|destruct c; try discriminate Hb; discriminate H|].
    rewrite Hb in H. discriminate H.
  - assert (Hs : forall e, ~ In (CSlot e) cs).
    { intros e Hin. assert (existsb is_slot cs = true); [|congruence]. apply existsb_exists. eauto. }
    assert (Hpan : pan (root_tokens E cs) (fun w => exists e, In (CElement e) cs /\ elem_stops w false e)).
    { assert (H0 := Hall [] 0). unfold root_tokens. destruct cs as [|c [|c' cs]].
      - rewrite Hb. apply pan_first; [exact H0|intros; apply pan_ret].
      - destruct c as [v|e|e]; [..|discriminate Hb]; cbn [expand_node].
        + apply pan_no; [pn0; apply pan_value|]. intros w (e & [H|[]] & _). discriminate H.
        + apply pan_first; [|intros; pn0]. eapply pan_iff; [apply pan_first; [apply He; now left|intros; apply pan_ret]|].
          intros w. split; [intros H; exists e; cbn; auto|]. intros (e' & [H|[]] & H'). now injection H as ->.
      - rewrite Hb. apply pan_first; [exact H0|intros; apply pan_ret]. }
    destruct Hpan as (_ & H1 & H2). split; [auto|]. intros (w & _ & H). apply H2. eauto.
Qed.
