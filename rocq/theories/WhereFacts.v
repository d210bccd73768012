(** Every token of an expansion is placed as [SpecWhere.v] says. *)
From Verif Require Export PlacedFacts.
From Verif Require Import ExpandFacts2 ReportsFacts SpecStr SpecGrammar SpecOut SpecSpan SpecSpell SpecWhere SParse SExpand STokens.
Open Scope list_scope.
Close Scope sparse_scope.
Close Scope expand_scope.
Open Scope sexpand_scope.

(** What an expansion gives if it succeeds. *)
Definition yields {A} (m : SX A) (R : A -> Prop) : Prop := forall a, sx_out m = XRet a -> R a.
Lemma yields_ret {A} (a : A) (R : A -> Prop) : R a -> yields (sxret a) R.
Proof. intros H ? [= <-]. exact H. Qed.
Lemma yields_panic {A} w (R : A -> Prop) : yields (sxpanic w) R.
Proof. intros ? H. discriminate H. Qed.
Lemma yields_abort {A} d s (R : A -> Prop) : yields (sxabort d s) R.
Proof. intros ? H. discriminate H. Qed.
Lemma yields_bind {A B} (m : SX A) (f : A -> SX B) (R : A -> Prop) (R' : B -> Prop) :
  yields m R -> (forall a, R a -> yields (f a) R') -> yields (sxbind m f) R'.
Proof. intros Hm Hf b. destruct m as [[a| |w] d]; cbn; try discriminate. intros H. exact (Hf a (Hm a eq_refl) b H). Qed.
Lemma yields_any {A} (m : SX A) : yields m (fun _ => True).
Proof. intros a _. exact I. Qed.
Lemma yields_then {A B} (m : SX A) (f : A -> SX B) (R' : B -> Prop) :
  (forall a, yields (f a) R') -> yields (sxbind m f) R'.
Proof. intros H. eapply yields_bind; [apply yields_any|]. auto. Qed.
Lemma yields_seq {A} (R : A -> Prop) l : Forall (fun m => yields m R) l -> yields (sxseq l) (Forall R).
Proof.
  intros H. induction H as [|m l Hm Hl IH]; cbn [sxseq]; [apply yields_ret; constructor|].
  eapply yields_bind; [exact Hm|]. intros a Ha. eapply yields_bind; [exact IH|]. intros x Hx. apply yields_ret. now constructor.
Qed.

Fixpoint dot_after (d : bool) (ts : list stt) : bool := match ts with [] => d | t :: r => dot_after (is_dot t) r end.
Lemma dot_after_app a : forall d b, dot_after d (a ++ b) = dot_after (dot_after d a) b.
Proof. induction a as [|t a IH]; intros d b; cbn; auto. Qed.
Lemma atoms_app a : forall d b, atoms_from d (a ++ b) = atoms_from d a ++ atoms_from (dot_after d a) b.
Proof. induction a as [|t a IH]; intros d b; cbn; auto. now rewrite IH, app_assoc. Qed.
Lemma atoms_group dot b d ts : atoms_of dot (SGroup b d ts) =
  (d_open b, LDelim d) :: (d_close b, LDelim d) :: (d_whole b, LDelim d) :: atoms ts.
Proof. reflexivity. Qed.

Lemma partition_filters {A} (f : A -> bool) l : partition f l = (filter f l, filter (fun x => negb (f x)) l).
Proof. induction l as [|a l IH]; cbn; [reflexivity|]. rewrite IH. now destruct (f a). Qed.

Section Facts.
Variable E : senv.
Hypothesis HE : senv_ok E.
Variable cs : list schild.
Notation P := (placed E cs).
Definition okd (d : bool) (ts : list stt) : Prop := Forall P (atoms_from d ts).
Definition nice (ts : list stt) : Prop := okd false ts /\ dot_after false ts = false.
Lemma okd_nil d : okd d []. Proof. constructor. Qed.
Lemma okd_word s i r : P (s, LWord i) -> okd false r -> okd false (SIdent s i :: r).
Proof. intros. now constructor. Qed.
Lemma okd_method s i r : P (s, LMethod i) -> okd false r -> okd true (SIdent s i :: r).
Proof. intros. now constructor. Qed.
Lemma okd_punct d s c sp r : P (s, LPunct c) -> okd (Ascii.eqb c ".") r -> okd d (SPunct s c sp :: r).
Proof. intros. now constructor. Qed.
Lemma okd_lit d s k v r : P (s, LLit k v) -> okd false r -> okd d (SLit s k v :: r).
Proof. intros. now constructor. Qed.
Lemma okd_group d s dl ts r : P (s, LDelim dl) -> okd false ts -> okd false r -> okd d (sgroup s dl ts :: r).
Proof.
  intros. unfold okd. cbn [atoms_from]. unfold sgroup. rewrite atoms_group. cbn [app d_open d_close d_whole same_span].
  repeat (constructor; auto). apply Forall_app. auto.
Qed.
Lemma okd_app d a b : okd d a -> okd (dot_after d a) b -> okd d (a ++ b).
Proof. intros Ha Hb. unfold okd. rewrite atoms_app. apply Forall_app. auto. Qed.
Lemma nice_app a b : nice a -> okd false b -> okd false (a ++ b).
Proof. intros [Ha Hd] Hb. apply okd_app; auto. now rewrite Hd. Qed.
Lemma nice_okd a : nice a -> okd false a.
Proof. now intros [H _]. Qed.
Lemma nice_nil : nice []. Proof. split; [constructor|reflexivity]. Qed.
Lemma nice_cat a b : nice a -> nice b -> nice (a ++ b).
Proof. intros Ha [Hb Hd]. split; [now apply nice_app|]. destruct Ha as [_ Ha]. now rewrite dot_after_app, Ha. Qed.
Lemma okd_code ts : code cs ts -> okd false ts.
Proof. intros H. apply Forall_forall. intros [s a] Hin. left. now apply u_code with ts. Qed.

Lemma call_word w : In w call_words -> P (Call, LWord (Id false w)). Proof. right. now constructor. Qed.
Lemma call_punct c : P (Call, LPunct c). Proof. right. constructor. Qed.
Lemma call_delim c : P (Call, LDelim c). Proof. right. constructor. Qed.

Ltac one_of := repeat first [left; reflexivity | right].
Ltac sh := unfold smethod, sgpath, scolon2, soror, swd, stoken, spar, sstr, skw, spu; cbn [flat_map app si_span si_ident].
Ltac ok := repeat match goal with
  | |- nice (_ ++ _) => apply nice_cat
  | |- nice [] => apply nice_nil
  | |- nice (_ :: _) => split; [|cbn [dot_after is_dot]; reflexivity]
  | H : nice ?a |- nice ?a => exact H
  | |- okd _ [] => apply okd_nil
  | |- okd _ (SPunct _ _ _ :: _) => apply okd_punct; cbn [Ascii.eqb Bool.eqb]
  | |- okd true (SIdent _ _ :: _) => apply okd_method
  | |- okd false (SIdent _ _ :: _) => apply okd_word
  | |- okd _ (SLit _ _ _ :: _) => apply okd_lit
  | |- okd _ (sgroup _ _ _ :: _) => apply okd_group
  | H : nice ?a |- okd false (?a ++ _) => apply nice_app; [exact H|]
  | H : nice ?a |- okd false ?a => apply nice_okd; exact H
  | |- P (Call, LPunct _) => apply call_punct
  | |- P (Call, LDelim _) => apply call_delim
  | |- P (Call, LWord (Id false (String _ _))) => apply call_word; one_of; fail
  end.

Lemma run_place_eq ts : stream_span E ts = run_place E ts.
Proof. destruct ts as [|t [|t' r]]; cbn; auto. symmetry. now apply join_self. Qed.

(** ** Values *)
Lemma nice_value v : value_of cs v -> yields (svalue_tokens E v) nice.
Proof.
  intros Hv. destruct v as [[s k v|s b]|b ts|[p|] b ts]; cbn [svalue_tokens].
  - apply yields_ret. cbn. ok. left. now constructor.
  - apply yields_ret. cbn. destruct b; cbn; sh; ok; left; [apply (u_bool _ _ s true Hv)|apply (u_bool _ _ s false Hv)].
  - apply yields_ret. ok; [|now apply okd_code, code_block with b]. right. unfold block_span. rewrite run_place_eq.
    now apply (g_block E cs b ts).
  - destruct (ident_is (si_ident p) "f"); [|apply yields_then; intros _; apply yields_ret; ok]. cbn zeta. apply yields_ret. sh.
    ok; try (now eapply okd_code, code_bracket; eauto); right;
      first [eapply (g_closure E cs); [exact Hv|one_of]; fail|eapply (g_format E cs); [exact Hv|one_of]; fail|eapply (g_format_name E cs); [exact Hv|one_of]; fail].
  - cbn zeta. apply yields_ret. sh. ok; try (now eapply okd_code, code_bracket; eauto); right;
      first [eapply (g_closure E cs); [exact Hv|one_of]; fail|eapply (g_closure_body E cs); exact Hv].
Qed.
Lemma nice_opt v : (forall x, v = Some x -> value_of cs x) -> yields (sopt_value_tokens E v) nice.
Proof. destruct v; intros H; cbn; [apply nice_value; auto|apply yields_ret, nice_nil]. Qed.
Lemma nice_or_true v : (forall x, v = Some x -> value_of cs x) -> yields (svalue_tokens E (svalue_or_true v)) nice.
Proof. destruct v; intros H; cbn [svalue_or_true]; [apply nice_value; auto|]. cbn. apply yields_ret. cbn. sh. ok. Qed.

(** ** Directives *)
Lemma dir_value e d x : dir_of cs e d -> sd_value d = Some x -> value_of cs x.
Proof. intros H Hx. now apply vo_dir with e d. Qed.
Lemma word_name i s : (forall n, String.eqb (String "r" (String "#" n)) s = false) ->
  String.eqb (ident_to_string i) s = true -> i = Id false s.
Proof.
  intros Hs H. assert (Hw := is_word_eq i s Hs). unfold ident_is in Hw. rewrite H in Hw. unfold SpecReports.is_word in Hw.
  now destruct (ident_dec i (Id false s)).
Qed.
Lemma word_is i s : (forall n, String.eqb (String "r" (String "#" n)) s = false) -> ident_is i s = true -> i = Id false s.
Proof. apply word_name. Qed.
Lemma snake_yields k : yields (sxsnake E k) (fun i => sp_ident E k i).
Proof. unfold sxsnake. destruct (sto_snake_ident E k) eqn:Hk; [apply yields_ret; now apply snake_iff|apply yields_panic]. Qed.
Lemma key_yields e d : dir_of cs e d -> yields (sto_ident_or_emit E (sd_key d))
  (fun i => si_span i = key_place E (sd_key d) /\ P (si_span i, LWord (si_ident i)) /\
     match sd_key d with SKKebab k => sp_ident E k i | SKStr _ _ => si_ident i = Id false "__invalid_identifier_found_str" end).
Proof.
  intros Hd. destruct (sd_key d) as [k|s v] eqn:Hk; cbn [sto_ident_or_emit key_place].
  - intros i Hi. assert (H := snake_yields k i Hi). split; [apply H|]. split; auto. left. eapply u_key; eauto.
  - apply yields_then. intros _. apply yields_ret. cbn. split; [reflexivity|]. split; auto. right. eapply g_invalid; eauto. one_of.
Qed.
Lemma use_yields e d : dir_of cs e d -> yields (suse_directive_fn_value E d)
  (fun fv => P (si_span (fst fv), LWord (si_ident (fst fv))) /\ nice (snd fv)).
Proof.
  intros Hd. unfold suse_directive_fn_value. destruct (ident_is (si_ident (sd_dir d)) "use") eqn:Hu;
    [|intros ? H; discriminate H]. apply word_is in Hu; [|reflexivity].
  apply yields_then; intros _. eapply yields_bind; [now apply key_yields with e|]. intros f (Hf1 & Hf2 & _).
  apply yields_then; intros _. destruct (sd_value d) as [v|] eqn:Hv.
  - eapply yields_bind; [eapply nice_value, dir_value; eauto|]. intros ts Hts. apply yields_ret. cbn [fst snd]. split; auto. sh. ok.
  - cbn zeta. apply yields_ret. cbn [fst snd]. split; auto. sh. rewrite Hf1.
    ok; right; (eapply g_use_value; [exact Hd|now rewrite Hu|exact Hv|one_of]).
Qed.
Lemma event_yields e d : dir_of cs e d -> yields (sevent_listener_event_path E d) nice.
Proof.
  intros Hd. unfold sevent_listener_event_path. destruct (ident_is (si_ident (sd_dir d)) "on") eqn:Hu;
    [|intros ? H; discriminate H]. apply word_is in Hu; [|reflexivity]. apply yields_then; intros _.
  eapply (yields_bind _ _ (fun i => P (si_span i, LWord (si_ident i)))).
  { destruct (sd_key d) as [k|s v] eqn:Hk.
    - intros i Hi. assert (H := snake_yields k i Hi). left. eapply u_key; eauto.
    - apply yields_then; intros _. apply yields_ret. cbn. right. eapply g_invalid; eauto. one_of. }
  intros ev Hev. cbn zeta. destruct (sd_modifier d) as [m|] eqn:Hm.
  - destruct (ident_is (si_ident m) "undelegated") eqn:Hw.
    + apply yields_ret. sh. ok; auto. left. eapply u_modifier; eauto; [now rewrite Hu|].
      apply word_is in Hw; [|reflexivity]. now rewrite Hw.
    + apply yields_then; intros _. apply yields_ret. sh. ok; auto.
  - apply yields_ret. sh. ok; auto.
Qed.

(** ** HTML *)
Lemma html_attr_yields e a k : attr_of cs e a -> on_component e = false -> yields (sxml_kv_attribute_tokens E a k) nice.
Proof.
  intros Ha Hc. assert (Hv : value_of cs (skv_value a)) by now apply vo_attr with e.
  unfold sxml_kv_attribute_tokens. cbn zeta. destruct (String.eqb_spec (sk_repr (skv_key a)) "ref") as [Hr|_].
  - eapply yields_bind; [now apply nice_value|]. intros v Hvs. apply yields_ret. sh. ok.
    right. eapply g_node_ref; eauto.
  - destruct (_ && _).
    + eapply yields_bind; [now apply nice_value|]. intros v Hvs. apply yields_ret. sh. ok; right.
      * apply g_method. one_of.
      * eapply g_attr_text; eauto.
    + eapply yields_bind; [apply snake_yields|]. intros i Hi. eapply yields_bind; [now apply nice_value|]. intros v Hvs.
      apply yields_ret. sh. ok. left. eapply u_attr; eauto.
Qed.
Lemma key_lit_ok e d : dir_of cs e d -> on_component e = false -> In (i_name (si_ident (sd_dir d))) ["class"; "style"; "prop"] ->
  exists s v, key_lit E (sd_key d) = SLit s LkStr v /\ P (s, LLit LkStr v).
Proof.
  intros Hd Hc Hn. assert (H : P (key_place E (sd_key d), LLit LkStr (key_text (sd_key d)))) by (left; eapply u_key_text; eauto).
  destruct (sd_key d); cbn in *; eexists; eexists; (split; [reflexivity|exact H]).
Qed.
Lemma html_dir_yields e d : dir_of cs e d -> on_component e = false -> yields (sxml_directive_tokens E d) nice.
Proof.
  intros Hd Hc. assert (Hv : forall x, sd_value d = Some x -> value_of cs x) by (intros; eapply dir_value; eauto).
  unfold sxml_directive_tokens. cbn zeta.
  destruct (String.eqb (ident_to_string (si_ident (sd_dir d))) "class" || String.eqb (ident_to_string (si_ident (sd_dir d))) "style") eqn:H1.
  { assert (Hn : In (i_name (si_ident (sd_dir d))) ["class"; "style"]).
    { apply Bool.orb_prop in H1 as [H1|H1]; apply word_name in H1; try reflexivity; rewrite H1; cbn; auto. }
    apply yields_then; intros _. eapply yields_bind; [now apply nice_opt|]. intros v Hvs. apply yields_ret.
    destruct (key_lit_ok e d Hd Hc) as (s & t & -> & Ht). { cbn in Hn. cbn. tauto. }
    sh. ok; auto. left. apply (u_dir_method E cs e); auto. cbn in Hn. cbn. tauto. }
  destruct (String.eqb (ident_to_string (si_ident (sd_dir d))) "prop") eqn:H2.
  { apply word_name in H2; [|reflexivity]. 
    apply yields_then; intros _. eapply yields_bind; [now apply nice_opt|]. intros v Hvs. apply yields_ret.
    destruct (key_lit_ok e d Hd Hc) as (s & t & -> & Ht). { rewrite H2. one_of. }
    sh. ok; auto. left. apply (u_dir_method E cs e); auto. rewrite H2. one_of. }
  destruct (String.eqb (ident_to_string (si_ident (sd_dir d))) "on") eqn:H3.
  { apply word_name in H3; [|reflexivity]. eapply yields_bind; [now apply event_yields with e|]. intros p Hp.
    eapply yields_bind; [now apply nice_opt|]. intros v Hvs. apply yields_ret. sh. ok.
    left. apply (u_dir_method E cs e); auto. rewrite H3. one_of. }
  destruct (String.eqb (ident_to_string (si_ident (sd_dir d))) "use") eqn:H4.
  { apply word_name in H4; [|reflexivity]. eapply yields_bind; [now apply use_yields with e|]. intros fv [Hf Hn].
    apply yields_ret. sh. ok; auto. right. assert (Hg := g_use E cs e d Hd). rewrite H4, Hc in Hg. now apply Hg. }
  match goal with |- yields (if ?b then _ else _) _ => destruct b end; apply yields_then; intros _; apply yields_ret, nice_nil.
Qed.
Lemma html_loop_yields e k l : elem cs e -> on_component e = false -> incl l (sel_attrs e) ->
  (forall b dd ts, In (SASpread b dd ts) l -> exists s s', dd = [s; s']) ->
  forall acc, let '(x, y, z) := acc in nice x -> nice y -> nice z ->
  yields (sxml_attr_loop E k l acc) (fun r => let '(x, y, z) := r in nice x /\ nice y /\ nice z).
Proof.
  intros He Hc. induction l as [|a l IH]; intros Hi Hs [[x y] z] Hx Hy Hz; cbn [sxml_attr_loop]; [now apply yields_ret|].
  assert (Hin : In a (sel_attrs e)) by (apply Hi; now left). assert (Hi' : incl l (sel_attrs e)) by (intros u Hu; apply Hi; now right).
  assert (Hs' : forall b dd ts, In (SASpread b dd ts) l -> exists s s', dd = [s; s']) by (intros; eapply Hs; right; eauto).
  destruct a as [kv|d|b dd rest].
  - eapply yields_bind; [apply html_attr_yields with e; [split|]; auto|]. intros t Ht. apply (IH Hi' Hs' (_, _, _)); auto. ok.
  - eapply yields_bind; [apply html_dir_yields with e; [split|]; auto|]. intros t Ht. apply (IH Hi' Hs' (_, _, _)); auto. ok.
  - apply (IH Hi' Hs' (_, _, _)); auto. ok. destruct (Hs b dd rest (or_introl eq_refl)) as (s & s' & ->).
    unfold sxml_spread_tokens. sh. ok; [right; eapply g_spread; eauto|]. now apply okd_code, code_spread with e b [s; s'].
Qed.
Lemma selectors_nice e : elem cs e -> on_component e = false -> nice (sxml_selectors_tokens (sel_sels e)).
Proof.
  intros He Hc. unfold sxml_selectors_tokens. rewrite partition_filters.
  assert (Hcol : forall x, In x (sel_sels e) -> nice [sto_str_colored (ssel_kebab x)]).
  { intros x Hx. unfold sto_str_colored. ok. apply nice_app; [|sh; ok].
    - assert (Hs : forall s, In s (sk_spans (ssel_kebab x)) -> P (s, LWord (Id false "__x"))).
      { intros s Hs. right. apply g_section with e x; auto. }
      clear - Hs. induction (sk_spans (ssel_kebab x)) as [|s l IH]; [apply nice_nil|]. cbn [flat_map]. apply nice_cat.
      + sh. ok. apply Hs. now left.
      + apply IH. intros. apply Hs. now right.
    - right. apply g_selector_text with e; auto. }
  assert (Hm : forall (f : sselector -> list stt) l, (forall x, In x l -> nice (f x)) -> nice (flat_map f l)).
  { clear. intros f l H. induction l as [|x l IH]; [apply nice_nil|]. cbn. apply nice_cat; [apply H; now left|apply IH; intros; apply H; now right]. }
  apply nice_cat; apply Hm; intros x Hx; apply filter_In in Hx as [Hx Hk]; assert (Hn := Hcol x Hx);
    destruct Hn as [Hn Hd]; destruct x as [s k|s k]; try discriminate; sh; cbn [prefix_span].
  - ok; [right; assert (Hg := g_class E cs e s k He Hx); rewrite Hc in Hg; exact Hg|].
    match goal with |- okd false (?t :: ?r) => change (t :: r) with ([t] ++ r) end.
    apply nice_app; [split; assumption|]. ok.
  - ok; [right; now apply g_id with e k|]. exact Hn.
Qed.

(** ** Nodes *)
Lemma run_yields (nodes : list snode) : Forall (fun n => yields (snd n) nice) nodes ->
  yields (srun nodes) (fun l => map fst l = map fst nodes /\ Forall (fun c => nice (snd c)) l).
Proof.
  intros H. unfold srun. induction H as [|[s m] l Hm Hl IH]; cbn [map sxseq]; [apply yields_ret; now split|].
  eapply (yields_bind _ _ (fun c => fst c = s /\ nice (snd c))).
  { cbn [fst snd] in *. eapply yields_bind; [exact Hm|]. intros ts Hts. apply yields_ret. auto. }
  intros c [Hc1 Hc2]. eapply yields_bind; [exact IH|]. intros x [Hx1 Hx2]. apply yields_ret. cbn. rewrite Hc1, Hx1. auto.
Qed.
Lemma nice_flat {A} (f : A -> list stt) l : (forall x, In x l -> nice (f x)) -> nice (flat_map f l).
Proof. intros H. induction l as [|x l IH]; [apply nice_nil|]. cbn. apply nice_cat; [apply H; now left|apply IH; intros; apply H; now right]. Qed.
Lemma child_methods_yields e (nodes : list snode) : elem cs e -> on_component e = false ->
  Forall (fun n => yields (snd n) nice) nodes -> incl (map fst nodes) (map (node_place E) (plain_children e)) ->
  yields (sxml_child_methods_tokens nodes) nice.
Proof.
  intros He Hc Hn Hs. unfold sxml_child_methods_tokens. eapply yields_bind; [now apply run_yields|]. intros l [Hl1 Hl2]. apply yields_ret.
  apply nice_flat. intros [s ts] Hin. rewrite Forall_forall in Hl2. assert (Hts := Hl2 _ Hin). cbn [fst snd] in *. sh. ok.
  right. assert (Hsp : In s (map fst nodes)) by (rewrite <- Hl1; apply in_map_iff; exists (s, ts); auto).
  apply Hs, in_map_iff in Hsp as (c & <- & Hin'). now apply g_child with e.
Qed.

(** ** Components *)
Lemma comp_attr_yields e a : attr_of cs e a -> on_component e = true -> yields (scomponent_kv_attribute_tokens E a) nice.
Proof.
  intros Ha Hc. unfold scomponent_kv_attribute_tokens. eapply yields_bind; [apply snake_yields|]. intros i Hi.
  eapply yields_bind; [apply nice_value; now apply vo_attr with e|]. intros v Hv. cbn zeta. apply yields_ret.
  assert (Hs : kv_span E a = joinx E (name_place E (skv_key a)) (value_place (skv_value a))).
  { reflexivity. }
  rewrite Hs. sh. ok.
  - right. eapply g_prop; eauto. one_of.
  - left. eapply u_attr; eauto.
  - right. eapply g_prop; eauto. one_of.
Qed.
Lemma clone_yields e d : dir_of cs e d -> yields (scomponent_clone_tokens E d) nice.
Proof.
  intros Hd. unfold scomponent_clone_tokens. eapply yields_bind; [now apply key_yields with e|]. intros i (_ & Hi & _).
  apply yields_then; intros _. apply yields_then; intros _. apply yields_ret. sh. ok; auto. right. apply g_method. one_of.
Qed.
Lemma fragment_nice nodes s : Forall nice nodes ->
  (forall a, In a [LWord (Id false "move"); LPunct ":"; LPunct ","; LDelim Paren; LWord (Id false "leptos");
          LWord (Id false "prelude"); LWord (Id false "View"); LWord (Id false "new")] -> a <> LWord (Id false "move") -> P (s, a)) ->
  nice (schildren_fragment_tokens nodes s) /\ forall d, okd d (schildren_fragment_tokens nodes s).
Proof.
  intros Hn Ha. assert (Hf : nice (flat_map (fun c => c ++ [spu s ","]) nodes)).
  { apply nice_flat. intros c Hc. rewrite Forall_forall in Hn. assert (H := Hn c Hc). apply nice_cat; auto. sh. ok.
    apply Ha; [one_of|discriminate]. }
  split; [|intros d]; unfold schildren_fragment_tokens; sh; ok; try (apply Ha; [one_of|discriminate]).
Qed.
Lemma children_yields e (nodes : list snode) clones : elem cs e -> on_component e = true -> nice clones ->
  Forall (fun n => yields (snd n) nice) nodes -> map fst nodes = map (node_place E) (plain_children e) -> nodes <> [] ->
  yields (scomponent_children_tokens E nodes (sel_args e) clones) nice.
Proof.
  intros He Hc Hcl Hn Hs Hne. unfold scomponent_children_tokens. cbn zeta. eapply yields_bind; [now apply run_yields|].
  intros l [_ Hl]. apply yields_ret. destruct nodes as [|[s m] nodes]; [easy|]. cbn [fst].
  destruct (plain_children e) as [|c r] eqn:Hp; [discriminate|]. injection Hs as -> _.
  assert (Hl' : Forall nice (map snd l)). { clear - Hl. induction Hl; cbn; constructor; auto. }
  destruct (sel_args e) as [args|] eqn:Ha.
  - rewrite run_place_eq. destruct (fragment_nice (map snd l) (run_place E args) Hl') as [Hf Hd].
    { intros a Hin Hne'. right. now apply g_args with e. }
    sh. ok; [right; eapply g_children; eauto|right; apply g_args with e; auto; one_of|].
    apply okd_app; [now apply okd_code, code_args with e|apply Hd].
  - destruct (fragment_nice (map snd l) Call Hl') as [Hf Hd].
    { intros a Hin Hne'. cbn in Hin. repeat destruct Hin as [<-|Hin]; try (now destruct Hne'); try now destruct Hin.
      all: first [apply call_punct | apply call_delim | apply call_word; one_of]. }
    sh. ok; try (right; eapply g_no_args; eauto; one_of; fail). right; eapply g_children; eauto.
Qed.

Definition path_yields (o : option (SX (list stt))) : Prop := match o with Some m => yields m nice | None => True end.
Lemma any_attr_yields e d : dir_of cs e d -> on_component e = true -> path_yields (sdirective_to_any_attr_path E d).
Proof.
  intros Hd Hc. assert (Hv : forall x, sd_value d = Some x -> value_of cs x) by (intros; eapply dir_value; eauto).
  assert (Ht : P (Call, LLit LkStr (skey_string (sd_key d)))).
  { right. change (skey_string (sd_key d)) with (key_text (sd_key d)). now apply g_dir_text with e. }
  unfold sdirective_to_any_attr_path. cbn zeta.
  destruct (String.eqb (ident_to_string (si_ident (sd_dir d))) "class" || String.eqb (ident_to_string (si_ident (sd_dir d))) "style") eqn:H1.
  { assert (Hn : si_ident (sd_dir d) = Id false "class" \/ si_ident (sd_dir d) = Id false "style").
    { apply Bool.orb_prop in H1 as [H1|H1]; apply word_name in H1; try reflexivity; auto. }
    cbn [path_yields]. eapply yields_bind; [now apply nice_or_true|]. intros v Hvs. apply yields_ret. sh. ok; auto.
    - destruct Hn as [-> | ->]; apply call_word; one_of.
    - left. apply (u_dir_word E cs e); auto. destruct Hn as [-> | ->]; one_of. }
  destruct (String.eqb (ident_to_string (si_ident (sd_dir d))) "attr").
  { cbn [path_yields]. assert (Hcl : forall w, attribute_kind_from (skey_string (sd_key d)) = w -> w = AkClass \/ w = AkStyle ->
      yields (i <- sto_ident_or_emit E (sd_key d) ;;
          v <- svalue_tokens E (svalue_or_true (sd_value d)) ;;
          sxret (sgpath Call ["leptos"; "tachys"; "html"] ++ scolon2 Call ++ [SIdent Call (unraw (si_ident i))] ++ scolon2 Call
                 ++ [stoken i] ++ [spar Call v])) nice).
    { intros w Hw Hk. eapply yields_bind; [now apply key_yields with e|]. intros i (_ & Hi & Hi').
      eapply yields_bind; [now apply nice_or_true|]. intros v Hvs. apply yields_ret. sh. ok; auto.
      destruct (sd_key d) as [k|s x] eqn:Hkey.
      - destruct Hi' as [[_ Hi'] _]. rewrite Hi'. unfold unraw. cbn [i_name k_repr].
        cbn [skey_string] in Hw. unfold attribute_kind_from in Hw.
        destruct (String.eqb_spec (sk_repr k) "class") as [->|_]; [apply call_word; one_of|].
        destruct (String.eqb_spec (sk_repr k) "style") as [->|_]; [apply call_word; one_of|].
        destruct (_ && _); subst w; destruct Hk; discriminate.
      - rewrite Hi'. right. eapply g_invalid_call; eauto. }
    destruct (attribute_kind_from (skey_string (sd_key d))) eqn:Hk; [apply (Hcl AkClass); auto|apply (Hcl AkStyle); auto| |].
    - eapply yields_bind; [now apply nice_or_true|]. intros v Hvs. apply yields_ret. sh. ok; auto.
    - eapply yields_bind; [now apply key_yields with e|]. intros i (_ & Hi & Hi').
      eapply yields_bind; [now apply nice_or_true|]. intros v Hvs. apply yields_ret. sh. ok; auto. }
  destruct (String.eqb (ident_to_string (si_ident (sd_dir d))) "prop").
  { eapply yields_bind; [now apply key_yields with e|]. intros i (_ & Hi & Hi').
    eapply yields_bind; [now apply nice_or_true|]. intros v Hvs. apply yields_ret. sh. ok; auto. }
  destruct (String.eqb (ident_to_string (si_ident (sd_dir d))) "on").
  { eapply yields_bind; [now apply event_yields with e|]. intros p Hp.
    eapply yields_bind; [now apply nice_opt|]. intros v Hvs. apply yields_ret. sh. ok; auto. }
  destruct (String.eqb (ident_to_string (si_ident (sd_dir d))) "use") eqn:H4; [|exact I].
  apply word_name in H4; [|reflexivity]. eapply yields_bind; [now apply use_yields with e|]. intros fv [Hf Hn].
  apply yields_ret. sh. ok; auto. right. assert (Hg := g_use E cs e d Hd). rewrite H4, Hc in Hg. now apply Hg.
Qed.
Lemma comp_selectors_yields e : elem cs e -> on_component e = true ->
  yields (scomponent_selectors E (sel_sels e)) (Forall nice).
Proof.
  intros He Hc. unfold scomponent_selectors. rewrite partition_filters.
  eapply (yields_bind _ _ (Forall nice)).
  { apply yields_seq. apply Forall_forall. intros m Hm. apply in_map_iff in Hm as (x & <- & Hx).
    apply filter_In in Hx as [Hx Hk]. destruct x as [s k|s k]; [discriminate|].
    cbn [sexpect_path sdirective_to_any_attr_path sclass_directive sd_dir si_ident swd]. cbn -[sgpath scolon2].
    apply yields_ret. sh. ok.
    - right. assert (Hg := g_class E cs e s k He Hx). now rewrite Hc in Hg.
    - right. exact (g_selector_text E cs e (SSelClass s k) He Hx). }
  intros cl Hcl. destruct (filter _ (sel_sels e)) as [|x r] eqn:Hf; [now apply yields_ret|].
  eapply (yields_bind _ _ nice).
  - assert (Hx : exists s k, x = SSelId s k /\ find (fun x => match x with SSelId _ _ => true | _ => false end) (sel_sels e) = Some (SSelId s k)).
    { clear - Hf. induction (sel_sels e) as [|[s k|s k] l IH]; cbn in *; try discriminate; eauto. injection Hf as <- _. eauto. }
    destruct Hx as (s & k & -> & Hx).
    assert (Hids : map (fun s => sk_repr (ssel_kebab s)) (SSelId s k :: r) =
      flat_map (fun x => match x with SSelId _ k => [sk_repr k] | _ => [] end) (sel_sels e)).
    { rewrite <- Hf. clear. induction (sel_sels e) as [|[s k|s k] l IH]; cbn; auto. now rewrite IH. }
    rewrite Hids. cbn [prefix_span]. unfold sdirective_to_any_attr_path, sid_directive. cbn [sd_dir swd si_ident sd_key sd_value].
    cbn -[sgpath scolon2 join_space kspan]. apply yields_ret. sh. ok.
    + assert (Hks : kspan E (SKebab "id" [s]) = s) by (unfold kspan; cbn; now apply join_self).
      rewrite Hks. right. eapply g_first_id; eauto.
    + right. rewrite ExpandFacts.join_spaced. now apply g_ids.
  - intros i Hi. apply yields_ret. apply Forall_app. auto.
Qed.
Lemma comp_loop_yields e slot l : elem cs e -> on_component e = true -> incl l (sel_attrs e) ->
  forall acc, let '(x, y, z) := acc in nice x -> Forall (okd false) y -> nice z ->
  yields (scomponent_attr_loop E slot l acc) (fun r => let '(x, y, z) := r in nice x /\ Forall (okd false) y /\ nice z).
Proof.
  intros He Hc. induction l as [|a l IH]; intros Hi [[x y] z] Hx Hy Hz; cbn [scomponent_attr_loop]; [now apply yields_ret|].
  assert (Hin : In a (sel_attrs e)) by (apply Hi; now left). assert (Hi' : incl l (sel_attrs e)) by (intros u Hu; apply Hi; now right).
  destruct a as [kv|d|b dd rest].
  - eapply yields_bind; [apply comp_attr_yields with e; [split|]; auto|]. intros t Ht. apply (IH Hi' (_, _, _)); auto. ok.
  - destruct (String.eqb _ "clone").
    { apply yields_then; intros _. eapply yields_bind; [apply clone_yields with e; split; auto|]. intros t Ht. apply (IH Hi' (_, _, _)); auto. ok. }
    destruct slot. { apply yields_then; intros _. apply (IH Hi' (_, _, _)); auto. }
    assert (Hp := any_attr_yields e d (conj He Hin) Hc). destruct (sdirective_to_any_attr_path E d) as [m|].
    + eapply yields_bind; [exact Hp|]. intros t Ht. apply (IH Hi' (_, _, _)); auto. apply Forall_app. split; auto. constructor; auto. apply Ht.
    + apply yields_then; intros _. apply (IH Hi' (_, _, _)); auto.
  - destruct slot. { apply yields_then; intros _. apply (IH Hi' (_, _, _)); auto. }
    apply (IH Hi' (_, _, _)); auto. apply Forall_app. split; auto. constructor; auto. now apply okd_code, code_spread with e b dd.
Qed.

(** ** Paths *)
Definition same_end (g g' : spath_seg) : Prop :=
  sseg_ident g' = sseg_ident g /\ segment_end g' = segment_end g /\ (exists ts, sp_segment ts g') /\
  match sseg_args g, sseg_args g' with
  | SPNone, SPNone => True
  | SPAngle tf ts, SPAngle tf' ts' => ts' = ts /\ (tf' = tf \/ tf' = Some [Call; Call])
  | _, _ => False
  end.
Lemma turbofish_yields g ts : sp_segment ts g -> yields (sturbofish_seg E g) (same_end g).
Proof.
  intros H. destruct H as [s i|s i g Hg|s i c l g Hg Hc]; cbn; apply yields_ret; repeat split; auto; cbn.
  - eexists. now constructor.
  - exists (SIdent s i :: [SPunct Call ":" Joint; SPunct Call ":" Alone] ++ g). constructor; auto. constructor.
  - eexists. constructor; eauto.
Qed.
Lemma turbofishes_yields l ts : sp_list sp_next_segment ts l ->
  yields (sxseq (map (fun x => s <- sturbofish_seg E (snd x) ;; sxret (fst x, s)) l))
    (fun l' => Forall2 (fun x x' => fst x' = fst x /\ same_end (snd x) (snd x')) l l' /\ exists ts, sp_list sp_next_segment ts l').
Proof.
  intros H. induction H as [|u [c g] u' l Hx _ IH]; cbn [map sxseq].
  - apply yields_ret. split; [constructor|]. eexists. constructor.
  - inversion Hx as [c0 l0 us g0 Hc Hg]; subst.
    eapply (yields_bind _ _ (fun x => fst x = c /\ same_end g (snd x))).
    { cbn [fst snd]. eapply yields_bind; [now apply turbofish_yields with us|]. intros g' Hg'. apply yields_ret. now split. }
    intros x Hx'. eapply yields_bind; [exact IH|]. intros r [Hr1 (ws & Hr2)]. apply yields_ret. split; [now constructor|].
    destruct x as [c' g']. cbn in Hx'. destruct Hx' as (-> & Hx'). assert (Hx'' := Hx'). destruct Hx' as (_ & _ & (vs & Hv) & _).
    eexists. constructor; [now constructor; eauto|exact Hr2].
Qed.
Lemma path_turbofish p ts : sp_path ts p -> path_of cs p ->
  yields (sturbofishify E p) (fun p' => okd false (spath_tokens p') /\ spath_span E p' = path_place E p).
Proof.
  intros H Hp.
  assert (Hseg : forall g g', In g (segments p) -> same_end g g' -> okd false (sseg_tokens g')).
  { intros g g' Hg (Hi & _ & _ & Ha). unfold sseg_tokens. rewrite Hi. sh. apply okd_word; [left; eapply u_segment; eauto|].
    destruct g as [i a], g' as [i' a']. cbn [sseg_args sseg_ident] in *. destruct a as [|tf u|u], a' as [|tf' u'|u']; try easy; [apply okd_nil|].
    destruct Ha as [-> Htf]. apply okd_app.
    - destruct Htf as [-> | ->]; [|cbn; ok]. destruct tf as [l|]; cbn [opt_colons]; [|apply okd_nil].
      destruct l as [|s1 [|s2 [|]]]; cbn [colons]; sh; ok; left; eapply u_turbofish; eauto; cbn; auto.
    - assert (Hd : dot_after false (opt_colons tf') = false).
      { destruct tf' as [[|s1 [|s2 [|]]]|]; reflexivity. }
      rewrite Hd. apply okd_code. now apply code_generics with p i tf. }
  assert (Hcol : forall l d, (forall s, In s l -> P (s, LPunct ":")) -> okd d (colons l)).
  { intros [|s1 [|s2 [|]]] d Hl; cbn [colons]; sh; ok; apply Hl; cbn; auto. }
  assert (Hcd : forall d l, dot_after d (colons l) = false) by (intros d [|s1 [|s2 [|]]]; reflexivity).
  assert (Hfirst : exists us, sp_segment us (s_first p)) by (destruct H; eauto).
  assert (Hmore : exists us, sp_list sp_next_segment us (s_more p)) by (destruct H; eauto).
  destruct Hfirst as (us & Hus), Hmore as (ws & Hws). unfold sturbofishify.
  eapply yields_bind; [now apply turbofish_yields with us|]. intros f Hf.
  eapply yields_bind; [now apply turbofishes_yields with ws|]. intros l [Hl (vs & Hvs)]. apply yields_ret.
  assert (Hf' := Hf). destruct Hf' as (Hfi & Hfe & (fs & Hfs) & _). split.
  - unfold spath_tokens. cbn [s_leading s_first s_more].
    assert (Hlead : okd false (opt_colons (s_leading p)) /\ dot_after false (opt_colons (s_leading p)) = false).
    { destruct (s_leading p) as [ll|] eqn:Hll; [|split; [apply okd_nil|reflexivity]]. split; [|apply Hcd].
      apply Hcol. intros s Hs. left. eapply u_leading; eauto. }
    apply nice_app; [exact Hlead|]. apply okd_app; [eapply Hseg; eauto; now left|].
    assert (Hl' : forall l more, Forall2 (fun x x' => fst x' = fst x /\ same_end (snd x) (snd x')) more l -> incl more (s_more p) ->
      forall d, okd d (flat_map (fun x => colons (fst x) ++ sseg_tokens (snd x)) l)).
    { intros l' more Hm. induction Hm as [|[c g] [c' g'] m m' [Hc Hg] _ IH]; intros Hi d; cbn [flat_map fst snd] in *; [apply okd_nil|].
      subst c'. assert (Hin : In (c, g) (s_more p)) by (apply Hi; now left).
      rewrite <- app_assoc. apply okd_app.
      { apply Hcol. intros s Hs. left. eapply u_colons; eauto. }
      rewrite Hcd. apply okd_app; [eapply Hseg; [|exact Hg]; right; now apply (in_map snd) in Hin|].
      apply IH. intros y Hy. apply Hi. now right. }
    apply Hl' with (s_more p); [exact Hl|apply incl_refl].
  - assert (Hp' : exists ts', sp_path ts' (SPath (s_leading p) f l)).
    { destruct H as [? ? ? ? ? ?|c cl ? ? ? ? Hc]; cbn; eexists; [apply spp_rel; eauto|apply spp_abs; eauto]. }
    destruct Hp' as (ts' & Hp'). rewrite (path_span_eq E HE _ _ Hp'). unfold path_place. cbn [s_leading s_first s_more]. rewrite Hfi. f_equal.
    clear - Hl Hfe. revert Hfe. generalize f, (s_first p). induction Hl as [|x x' m m' [_ (_ & Hx & _)] _ IH]; intros g g' Hg; cbn [map]; [exact Hg|].
    rewrite !last_cons. now apply IH.
Qed.

(** ** Slots *)
Definition slot_entry (x : sident * list (list stt)) : Prop :=
  Forall nice (snd x) /\ exists s e, node cs (SCSlot s e) /\ sel_tag e = STagComponent (SPath None (SPSeg (fst x) SPNone) []).
Lemma insert_entry m k t : Forall slot_entry m -> slot_entry (k, [t]) -> Forall slot_entry (sslot_insert m k t).
Proof.
  intros Hm [Ht Hk]. inversion Ht as [|? ? Ht' _]; subst. induction Hm as [|[k' l] m [Hl Hk'] Hm IH]; cbn [sslot_insert].
  - constructor; [split; auto|constructor].
  - destruct (ident_eqb _ _); constructor; auto; split; cbn [fst snd] in *; auto. apply Forall_app. auto.
Qed.
Definition slot_part (x : stag * SX (list stt)) : Prop :=
  yields (snd x) nice /\ exists s e, node cs (SCSlot s e) /\ sel_tag e = fst x.
Lemma collect_yields l : Forall slot_part l -> forall m, Forall slot_entry m -> yields (scollect_slots E l m) (Forall slot_entry).
Proof.
  induction 1 as [|[t x] l [Hx (s & e & Hn & Ht)] _ IH]; intros m Hm; cbn [scollect_slots]; [now apply yields_ret|].
  cbn [fst snd] in *. destruct t as [| p| | |]; try apply yields_panic.
  destruct (sget_ident p) as [i|] eqn:Hi.
  - eapply yields_bind; [exact Hx|]. intros ts Hts. apply IH. apply insert_entry; auto. split; [repeat constructor; apply Hts|].
    exists s, e. split; auto. cbn [fst]. rewrite Ht. destruct p as [[?|] [i' [| |]] [|]]; try discriminate. now injection Hi as ->.
  - apply yields_then. intros _. now apply IH.
Qed.
Lemma get_entry m k : Forall slot_entry m -> In k (map (fun x => si_ident (fst x)) m) ->
  exists i, si_ident i = k /\ si_span i = fst (sslot_get m k) /\ slot_entry (i, snd (sslot_get m k)).
Proof.
  intros Hm. induction Hm as [|[k' l] m Hx Hm IH]; cbn [map sslot_get In]; [easy|]. intros [Hk|Hk].
  - cbn [fst] in Hk. subst k. assert (He : ident_eqb (si_ident k') (si_ident k') = true) by now apply ident_eqb_iff. rewrite He. eauto.
  - destruct (ident_eqb k (si_ident k')) eqn:He; [|auto]. apply ident_eqb_iff in He. subst k. eauto.
Qed.
Lemma slot_method_yields i l : slot_entry (i, l) -> yields (sslot_method (si_ident i) (si_span i, l)) nice.
Proof.
  intros [Hl (s & e & Hn & Ht)]. cbn [fst snd] in *. unfold sslot_method. cbn zeta.
  replace (i_name (unraw (si_ident i))) with (i_name (si_ident i)) by (now destruct (si_ident i)).
  destruct (new_raw _) as [m|] eqn:Hr; [|apply yields_panic]. apply new_raw_iff in Hr as [_ ->].
  assert (Hp : P (si_span i, LMethod (Id true (upper_camel_to_snake_case (i_name (si_ident i)))))).
  { left. eapply u_slot; eauto. now apply camel_iff. }
  apply yields_ret. cbn [fst snd].
  assert (Hc : nice ((fix commas (l : list (list stt)) : list stt :=
      match l with [] => [] | [s] => s | s :: r => s ++ [spu Call ","] ++ commas r end) l)).
  { clear - Hl. induction Hl as [|x l Hx Hl IH]; [apply nice_nil|]. destruct l as [|y l]; [exact Hx|].
    apply nice_cat; [exact Hx|]. apply nice_cat; [sh; ok|exact IH]. }
  assert (Hs : forall x, l = [x] -> nice x) by (intros x ->; now inversion Hl).
  destruct l as [|x [|y l]]; [| |]; try (assert (Hx := Hs x eq_refl)); sh; ok; auto.
Qed.
Lemma slots_yields at_ l : Forall slot_part l -> yields (sslots_to_tokens E at_ l) nice.
Proof.
  intros Hl. unfold sslots_to_tokens. eapply yields_bind; [apply collect_yields; [exact Hl|constructor]|]. intros m Hm.
  eapply (yields_bind _ _ (Forall nice)).
  - apply yields_seq. apply Forall_forall. intros x Hx. apply in_map_iff in Hx as (k & <- & Hk).
    destruct HE as ((_ & _ & Ho) & _). eapply Permutation.Permutation_in in Hk; [|apply Permutation.Permutation_sym, Ho].
    destruct (get_entry m k Hm Hk) as (i & <- & Hs & He). destruct (sslot_get m (si_ident i)) as [s' l']. cbn [fst snd] in *. subst s'.
    now apply slot_method_yields.
  - intros r Hr. apply yields_ret. clear - Hr. induction Hr; cbn; [apply nice_nil|now apply nice_cat].
Qed.

(** ** Elements *)
Definition good (e : selement) : Prop :=
  (exists ts, sp_tag E ts (sel_tag e)) /\ (forall b dd ts, In (SASpread b dd ts) (sel_attrs e) -> exists s s', dd = [s; s']).
Hypothesis Hgood : forall e, elem cs e -> good e.

Lemma elem_path e p : elem cs e -> sel_tag e = STagComponent p -> path_of cs p /\ exists ts, sp_path ts p.
Proof.
  intros He Ht. split; [now exists e|]. destruct (Hgood e He) as [(ts & Hs) _]. rewrite Ht in Hs. inversion Hs; subst; [eauto|].
  eexists. eapply spp_rel; constructor.
Qed.
Lemma component_yields at_ slot t sels attrs args ch nodes slots :
  let e := SElement t sels attrs args ch in
  elem cs e ->
  match nodes with Some ns => Forall (fun n => yields (snd n) nice) ns /\ map fst ns = map (node_place E) (plain_children e) | None => True end ->
  match slots with Some l => Forall slot_part l | None => True end ->
  yields (sexpect_path (scomponent_to_tokens E at_ slot t sels attrs args nodes slots)) nice.
Proof.
  intros e He Hn Hsl. destruct t as [i|p|i|i|k] eqn:Ht; cbn [scomponent_to_tokens sexpect_path]; try apply yields_panic.
  destruct (elem_path e p He eq_refl) as [Hp (us & Hus)].
  assert (Hc : on_component e = true) by reflexivity.
  eapply yields_bind; [now apply path_turbofish with us|]. intros p' [Hp' Hsp].
  eapply (yields_bind _ _ (Forall (okd false))).
  { assert (Hn0 : forall l, Forall nice l -> Forall (okd false) l) by (intros l; apply Forall_impl; intros x Hx; apply Hx).
    destruct slot.
    - destruct sels; [apply yields_ret; constructor|]. apply yields_then; intros _. apply yields_ret. constructor.
    - intros a Ha. apply Hn0. exact (comp_selectors_yields e He Hc a Ha). }
  intros dirs0 Hd0. eapply yields_bind; [apply (comp_loop_yields e slot attrs He Hc (incl_refl _) (_, _, _)); auto using nice_nil|].
  intros [[props dirs] clones] (Hpr & Hdi & Hcl).
  eapply (yields_bind _ _ nice).
  { destruct nodes as [[|n ns]|]; try (apply yields_ret, nice_nil). destruct Hn as [Hn1 Hn2].
    apply (children_yields e); auto. discriminate. }
  intros chm Hch. eapply (yields_bind _ _ nice).
  { destruct slots; [now apply slots_yields|apply yields_ret, nice_nil]. }
  intros sl Hslt. cbn zeta. rewrite Hsp.
  assert (Hb : forall a, In a [LPunct "."; LMethod (Id false "build"); LDelim Paren; LPunct ":"; LPunct "&"; LWord (Id false "leptos");
          LWord (Id false "component"); LWord (Id false "component_props_builder")] -> P (path_place E p, a)).
  { intros a Ha. right. now apply g_build. }
  assert (Hdd : okd false (flat_map (fun d => d ++ [spu Call ","]) dirs)).
  { clear - Hdi. apply nice_okd, nice_flat. intros d Hd. rewrite Forall_forall in Hdi. split.
    - apply okd_app; [now apply Hdi|]. sh. ok.
    - now rewrite dot_after_app. }
  assert (Hpp : forall r, (forall d, okd d r) -> okd false (spath_tokens p' ++ r)) by (intros r Hr; now apply okd_app).
  destruct slot; apply yields_ret; sh; ok; try (apply Hb; one_of; fail).
  - apply Hpp. intros d. ok; apply Hb; one_of.
  - apply Hpp. intros d. ok; try (apply Hb; one_of; fail). exact Hp'.
  - right. apply g_method. one_of.
  - exact Hdd.
Qed.
Lemma html_yields e : elem cs e -> forall nodes t sels attrs args ch, e = SElement t sels attrs args ch ->
  match nodes with Some ns => Forall (fun n => yields (snd n) nice) ns /\ map fst ns = map (node_place E) (plain_children e) | None => True end ->
  match sxml_to_tokens E t sels attrs nodes with Some m => yields m nice | None => True end.
Proof.
  intros He nodes t sels attrs args ch Hee Hn. unfold sxml_to_tokens.
  assert (Htag : match sxml_tag_path E t with Some ts => nice ts /\ on_component e = false | None => True end).
  { assert (Hs : sel_tag e = t) by now subst e.
    unfold on_component. rewrite Hs. destruct t as [i|p|i|i|k]; cbn -[sgpath scolon2]; auto; (split; [|reflexivity]); unfold kebab_lit; sh; ok.
    all: try (left; eapply u_tag; eauto; fail).
    - right. eapply g_custom; eauto.
    - left. eapply u_web; eauto. }
  destruct (sxml_tag_path E t) as [tp|]; [|exact I]. destruct Htag as [Htp Hc].
  eapply yields_bind.
  { assert (Hi : incl attrs (sel_attrs e)) by (subst e; apply incl_refl).
    assert (Hsp : forall b dd ts, In (SASpread b dd ts) attrs -> exists s s', dd = [s; s']).
    { intros b dd ts Hin. destruct (Hgood e He) as [_ Hg]. eapply Hg. apply Hi. exact Hin. }
    exact (html_loop_yields e _ attrs He Hc Hi Hsp ([], [], []) nice_nil nice_nil nice_nil). }
  intros [[kvs dirs] sps] (H1 & H2 & H3). eapply (yields_bind _ _ nice).
  { destruct nodes as [ns|]; [|apply yields_ret, nice_nil]. destruct Hn as [Hn1 Hn2]. apply child_methods_yields with e; auto.
    rewrite Hn2. apply incl_refl. }
  intros chm Hch. apply yields_ret. assert (Hsel := selectors_nice e He Hc). subst e. cbn [sel_sels] in Hsel. ok.
Qed.

Lemma render_nice ts : nice ts -> nice (sinto_render ts).
Proof. intros H. unfold sinto_render. sh. ok. Qed.
Lemma nodes_yield e l : (forall c, In c l -> node cs c) ->
  (forall x, In (SCElement x) l -> forall at_ slot, yields (sexpand_element E at_ slot x) nice) ->
  sel_children e = l -> forall at_ n, Forall (fun n => yields (snd n) nice) (sexpand_nodes E at_ n l) /\
    map fst (sexpand_nodes E at_ n l) = map (node_place E) (filter (fun c => match c with SCSlot _ _ => false | _ => true end) l).
Proof.
  intros Hn Hx _. induction l as [|c l IH]; intros at_ n; cbn [sexpand_nodes map filter]; [split; [constructor|reflexivity]|].
  assert (IH' := IH (fun c Hc => Hn c (or_intror Hc)) (fun x Hc => Hx x (or_intror Hc)) at_ (S n)). destruct IH' as [I1 I2].
  destruct c as [v|x|s x]; auto; cbn [map fst node_place]; (split; [constructor; auto|f_equal; auto]); cbn [snd sexpand_node node_span].
  - eapply yields_bind; [apply nice_value; apply vo_child; apply Hn; now left|]. intros ts Hts. now apply yields_ret, render_nice.
  - eapply yields_bind; [apply Hx; now left|]. intros ts Hts. now apply yields_ret, render_nice.
  - assert (He : elem cs x) by (exists (SCElement x); split; [apply Hn; now left|reflexivity]).
    destruct (Hgood x He) as [(ts & Hts) _]. now apply (tag_span_eq E HE ts).
Qed.
Lemma slots_part l : (forall c, In c l -> node cs c) ->
  (forall s x, In (SCSlot s x) l -> forall at_ slot, yields (sexpand_element E at_ slot x) nice) ->
  forall at_ n, Forall slot_part (sexpand_slots E at_ n l).
Proof.
  intros Hn Hx. induction l as [|c l IH]; intros at_ n; cbn [sexpand_slots]; [constructor|].
  assert (IH' := IH (fun c Hc => Hn c (or_intror Hc)) (fun s x Hc => Hx s x (or_intror Hc)) at_ (S n)).
  destruct c as [v|x|s x]; auto. constructor; auto. split; cbn [fst snd]; [eapply Hx; now left|]. exists s, x. split; auto. apply Hn. now left.
Qed.
Lemma element_yields e : elem cs e -> forall at_ slot, yields (sexpand_element E at_ slot e) nice.
Proof.
  induction e as [t sels attrs args ch IHe IHs] using selement_ind2. intros He at_ slot. rewrite sexpand_element_eq.
  assert (Hch : forall c, In c (schild_list ch) -> node cs c).
  { intros c Hc. destruct He as (c0 & Hc0 & He). eapply node_below; eauto. }
  assert (H1 : forall x, In (SCElement x) (schild_list ch) -> forall at_ slot, yields (sexpand_element E at_ slot x) nice).
  { intros x Hx. apply IHe; auto. exists (SCElement x). auto. }
  assert (H2 : forall s x, In (SCSlot s x) (schild_list ch) -> forall at_ slot, yields (sexpand_element E at_ slot x) nice).
  { intros s x Hx. eapply IHs; eauto. exists (SCSlot s x). auto. }
  set (e := SElement t sels attrs args ch) in *.
  assert (Hn : match option_map (sexpand_nodes E at_ 0) ch with
    Some ns => Forall (fun n => yields (snd n) nice) ns /\ map fst ns = map (node_place E) (plain_children e) | None => True end).
  { destruct ch as [l|]; [|exact I]. cbn [option_map]. now apply (nodes_yield e l). }
  assert (Hs : match option_map (sexpand_slots E at_ 0) ch with Some l => Forall slot_part l | None => True end).
  { destruct ch as [l|]; [|exact I]. cbn [option_map]. now apply slots_part. }
  unfold selement_tokens. destruct slot; [now apply (component_yields at_ true t sels attrs args ch)|].
  assert (Hh := html_yields e He _ t sels attrs args ch eq_refl Hn).
  destruct (sxml_to_tokens E t sels attrs _); [exact Hh|]. now apply (component_yields at_ false t sels attrs args ch).
Qed.
Lemma root_yields : yields (sroot_tokens E cs) (okd false).
Proof.
  assert (Hnode : forall c at_, In c cs -> yields (sexpand_node E at_ c) nice).
  { intros c at_ Hc. assert (Hn : node cs c) by now constructor. destruct c as [v|x|s x]; cbn [sexpand_node].
    - eapply yields_bind; [apply nice_value; now apply vo_child|]. intros ts Hts. now apply yields_ret, render_nice.
    - eapply yields_bind; [apply element_yields; now exists (SCElement x)|]. intros ts Hts. now apply yields_ret, render_nice.
    - apply yields_ret, nice_nil. }
  unfold sroot_tokens. cbn zeta.
  assert (Hmany : yields (l <- srun (sexpand_nodes E [] 0 cs) ;;
    sxret [sgroup Call Brace ([spu Call "#"; sgroup Call Bracket [skw Call "allow"; spar Call [skw Call "unused_braces"]]]
                               ++ schildren_fragment_tokens (map snd l) Call)]) (okd false)).
  { eapply yields_bind; [apply run_yields|].
    - assert (Hi : incl cs cs) by apply incl_refl. revert Hi. generalize cs at 1 3 as l. intros l. generalize 0.
      induction l as [|c l IH]; intros n Hi; cbn [sexpand_nodes]; [constructor|].
      assert (IH' := IH (S n) (fun c Hc => Hi c (or_intror Hc))). assert (Hc := Hnode c (n :: []) (Hi c (or_introl eq_refl))).
      destruct c; auto.
    - intros l [_ Hl]. apply yields_ret. 
      assert (Hl' : Forall nice (map snd l)) by (clear - Hl; induction Hl; cbn; constructor; auto).
      destruct (fragment_nice (map snd l) Call Hl') as [Hf _].
      { intros a Hin Hne'. cbn in Hin. repeat destruct Hin as [<-|Hin]; try (now destruct Hne'); try now destruct Hin.
        all: first [apply call_punct | apply call_delim | apply call_word; one_of]. }
      sh. ok. }
  destruct cs as [|c [|c' r]] eqn:Hcs; [exact Hmany| |].
  - assert (Hc := Hnode c [0] (or_introl eq_refl)).
    destruct c as [v|x|s x]; [| |apply yields_abort]; (eapply yields_bind; [exact Hc|]; intros ts Hts; apply yields_ret; sh; ok).
  - destruct (find sis_slot _); [apply yields_abort|exact Hmany].
Qed.
End Facts.

(** Every part of a tree is spelled by some tokens. *)
Lemma spelled_in E u l : sp_children E u l -> forall c, In c l -> exists ts, sp_child E ts c.
Proof. induction 1 as [|? ? ? ? Hc Hl IH]; intros x Hx; [easy|]. destruct Hx as [<-|Hx]; eauto. Qed.
Lemma spelled_node E u cs : sp_children E u cs -> forall c, node cs c -> exists ts, sp_child E ts c.
Proof.
  intros Hs c Hc. induction Hc as [c Hc|c e c' Hc [ts IH] He Hin]; [eapply spelled_in; eauto|].
  assert (Hel : exists us, sp_element E us e) by (inversion IH; subst; cbn in He; try discriminate; injection He as <-; eauto).
  destruct Hel as (us & Hel). inversion Hel as [? t ? sels ? attrs ? args ch Ht Hse Ha Hend]; subst.
  cbn [sel_children] in Hin. destruct ch as [l|]; [|destruct Hin].
  inversion Hend; subst; eapply spelled_in; eauto.
Qed.
Lemma spelled_good E u cs : sp_children E u cs -> forall e, elem cs e -> good E e.
Proof.
  intros Hs e (c & Hc & He). destruct (spelled_node E u cs Hs c Hc) as (ts & Hsp).
  assert (Hel : exists us, sp_element E us e) by (inversion Hsp; subst; cbn in He; try discriminate; injection He as <-; eauto).
  destruct Hel as (us & Hel). inversion Hel as [? t ? sels ? attrs ? args ch Ht Hse Ha Hend]; subst. split; [eauto|].
  cbn [sel_attrs]. clear - Ha. intros b dd rest Hin. induction Ha as [|? a ? l Hx _ IH]; [easy|]. destruct Hin as [->|Hin]; [|auto].
  inversion Hx; subst. eauto.
Qed.
