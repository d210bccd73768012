(** How many reports can be made about a view. *)
From Verif Require Export SizeFacts SpecBroken.
From Verif Require Import SpecStr SpecGrammar SpecReports SpecSpan SpecSpell Erase BrokenFacts STokens.
From Coq Require Import Lia Arith.
Open Scope list_scope.
Close Scope sparse_scope.
Close Scope sexpand_scope.
Close Scope expand_scope.

Notation W ts := (T (erases ts)).
Notation len := List.length.

Lemma W_nil : W [] = 0. Proof. reflexivity. Qed.
Lemma W_app a b : W (a ++ b) = W a + W b.
Proof. rewrite erases_app. apply T_app. Qed.
Lemma W_ident s i ts : W (SIdent s i :: ts) = 1 + W ts. Proof. reflexivity. Qed.
Lemma W_punct s c sp ts : W (SPunct s c sp :: ts) = 1 + W ts. Proof. reflexivity. Qed.
Lemma W_lit s k v ts : W (SLit s k v :: ts) = 1 + W ts. Proof. reflexivity. Qed.
Lemma W_group b d inner ts : W (SGroup b d inner :: ts) = 1 + W inner + W ts. Proof. reflexivity. Qed.
Lemma W_cons t ts : 1 + W ts <= W (t :: ts).
Proof. change (erases (t :: ts)) with (erase t :: erases ts). rewrite T_cons. assert (H := t_pos (erase t)). lia. Qed.
Ltac count := repeat first [rewrite W_app in * | rewrite W_ident in * | rewrite W_punct in * | rewrite W_lit in *
  | rewrite W_group in * | rewrite W_nil in * | rewrite app_length in * ]; cbn [List.length] in *.

(** ** The raw identifiers reported in a name at the start of a stream *)

Fixpoint raws (after : bool) (ts : list tt) : nat :=
  match ts with
  | TPunct c _ :: r => if Ascii.eqb c "-" then raws true r else 0
  | TIdent i :: r => if after then (if i_raw i then 1 else 0) + raws false r else 0
  | TLit LkInt _ :: r => if after then raws false r else 0
  | _ => 0
  end.
Definition lead (ts : list tt) : nat :=
  match ts with
  | TIdent _ :: r => raws false r
  | TPunct c _ :: r => if Ascii.eqb c "-" then raws true r else 0
  | _ => 0
  end.

Lemma raws_le ts : forall b, 2 * raws b ts <= T ts + (if b then 1 else 0).
Proof.
  induction ts as [|t ts IH]; intros b; [cbn; lia|]. rewrite T_cons. assert (Hp := t_pos t).
  destruct t as [i|c sp|[] s|d inner]; cbn [raws]; try lia.
  - destruct b; [|lia]. specialize (IH false). cbn iota in IH. rewrite t_ident. destruct (i_raw i); lia.
  - destruct (Ascii.eqb c "-"); [|lia]. specialize (IH true). cbn iota in IH. rewrite t_punct. destruct b; lia.
  - destruct b; [|lia]. specialize (IH false). cbn iota in IH. rewrite t_lit. lia.
Qed.
Lemma lead_le ts : 2 * lead ts <= T ts.
Proof.
  destruct ts as [|[i|c sp|k s|d inner] ts]; cbn [lead]; try lia.
  - assert (H := raws_le ts false). cbn iota in H. rewrite T_cons, t_ident. lia.
  - destruct (Ascii.eqb c "-"); [|lia]. assert (H := raws_le ts true). cbn iota in H. rewrite T_cons, t_punct. lia.
Qed.
Lemma lead_ident ts : next_ident ts -> 2 * lead ts + 1 <= T ts.
Proof.
  destruct ts as [|[i|c sp|k s|d inner] ts]; cbn [next_ident]; try tauto. intros _. cbn [lead].
  assert (H := raws_le ts false). cbn iota in H. rewrite T_cons, t_ident. lia.
Qed.

Fixpoint raw_count (ts : list tt) : nat :=
  match ts with
  | TIdent i :: r => (if i_raw i then 1 else 0) + raw_count r
  | _ :: r => raw_count r
  | [] => 0
  end.
Lemma raw_reports_len ts : len (raw_reports ts) = raw_count (erases ts).
Proof.
  induction ts as [|[s [[] n]|s c sp|s k v|b d inner] ts IH]; auto; cbn [raw_reports flat_map] in *;
    change (erases (?t :: ts)) with (erase t :: erases ts); cbn [erase raw_count i_raw app List.length]; unfold raw_reports in IH; lia.
Qed.

Lemma run_raws b u e : run b u e -> forall f,
  (forall t r, f = t :: r -> ~ exists e', run e [t] e') -> raws b (u ++ f) = raw_count u.
Proof.
  induction 1 as [b|b sp ts e H IH|i ts e H IH|s ts e H IH]; intros f Hf; cbn [app raws raw_count].
  - destruct f as [|t f]; auto. specialize (Hf _ _ eq_refl).
    destruct t as [i|c sp|[] s|d inner]; cbn [raws]; auto.
    + destruct b; auto. destruct Hf. eexists. apply run_ident. constructor.
    + destruct (Ascii.eqb_spec c "-"); auto. subst. destruct Hf. eexists. apply run_dash. constructor.
    + destruct b; auto. destruct Hf. eexists. apply run_int. constructor.
  - change (Ascii.eqb "-" "-") with true. cbn iota. auto.
  - rewrite IH; auto.
  - auto.
Qed.
Lemma run_app b u e v e' : run b u e -> run e v e' -> run b (u ++ v) e'.
Proof. induction 1; cbn; intros; auto; constructor; auto. Qed.
Lemma name_lead E u k ds f : rd_name E u k ds f -> lead (erases (u ++ f)) = len ds /\ 2 * len ds <= W u /\
  (next_ident (erases u) -> 2 * len ds + 1 <= W u).
Proof.
  intros (Hn & He & ->). inversion Hn as [t r Hp]; subst. cbn [tl] in *. rewrite raw_reports_len.
  change (erases (t :: r)) with (erase t :: erases r) in *. rewrite erases_app.
  change (erases (t :: r)) with (erase t :: erases r) in *. clear Hn. generalize dependent (erases f). generalize dependent (erases r).
  generalize dependent (erase t). clear t r f. intros t r Hp f He.
  assert (Hl : lead ((t :: r) ++ f) = raw_count r).
  { inversion Hp as [i ts e Hr|sp ts e Hr]; subst; cbn [app lead]; try (change (Ascii.eqb "-" "-") with true; cbn iota);
      (eapply run_raws; [exact Hr|]; intros t' r' -> [e' Hr']; apply He; cbn [app]; econstructor; eapply run_app; eauto). }
  assert (Hx : lead (t :: r) = raw_count r).
  { inversion Hp as [i ts e Hr|sp ts e Hr]; subst; cbn [app lead]; try (change (Ascii.eqb "-" "-") with true; cbn iota);
      (rewrite <- (app_nil_r r) at 1; eapply run_raws; [exact Hr|]; discriminate). }
  split; [exact Hl|]. rewrite <- Hx. split; [apply lead_le|apply lead_ident].
Qed.

Lemma lead_punct s c sp ts : c <> "-"%char -> lead (erases (SPunct s c sp :: ts)) = 0.
Proof. intros H. change (erases (SPunct s c sp :: ts)) with (TPunct c sp :: erases ts). cbn [lead]. destruct (Ascii.eqb_spec c "-"); congruence. Qed.
Lemma lead_word_punct s i s' c sp ts : c <> "-"%char -> lead (erases (SIdent s i :: SPunct s' c sp :: ts)) = 0.
Proof.
  intros H. change (erases (SIdent s i :: SPunct s' c sp :: ts)) with (TIdent i :: TPunct c sp :: erases ts). cbn [lead raws].
  destruct (Ascii.eqb_spec c "-"); congruence.
Qed.
Lemma raws_lead ts : raws false ts <= lead ts.
Proof. destruct ts as [|[i|c sp|[] s|d inner] ts]; cbn [raws lead]; lia. Qed.

(** ** Reports about a tree *)

Definition opt_cost (v : option svalue) : nat := match v with Some _ => 1 | None => 0 end.
Definition mod_cost (m : option sident) : nat := match m with Some _ => 2 | None => 0 end.
Definition attr_cost (a : sattr) : nat :=
  match a with
  | SAKv kv => len (p_value (skv_value kv))
  | SASpread _ _ _ => 1
  | SADir d => 1 + mod_cost (sd_modifier d) + opt_cost (sd_value d)
  end.
Definition cost (E : senv) (c : schild) : nat :=
  match c with
  | SCValue v => len (p_value v)
  | SCElement e => len (p_element E false e)
  | SCSlot _ e => S (len (p_element E true e))
  end.
Definition costs (E : senv) (l : list schild) : nat := total (cost E) l.
Definition end_costs (E : senv) (o : option (list schild)) : nat := match o with Some l => costs E l | None => 0 end.

Lemma p_value_len v : len (p_value v) <= 1.
Proof. destruct v as [l|b ts|[i|] b ts]; cbn; try lia. destruct (is_word (si_ident i) "f"); cbn; lia. Qed.
Lemma p_opt_len v : len (p_opt v) <= opt_cost v.
Proof. destruct v as [v|]; cbn [p_opt opt_cost]; [apply p_value_len|cbn; lia]. Qed.
Lemma p_key_len k : len (p_key k) <= 1. Proof. destruct k; cbn; lia. Qed.
Lemma p_modifier_len m : 2 * len (p_modifier m) <= mod_cost m. Proof. destruct m; cbn; lia. Qed.
Lemma p_on_len d : len (p_on d) <= 1 + mod_cost (sd_modifier d) + opt_cost (sd_value d).
Proof.
  unfold p_on, p_event. rewrite !app_length. assert (H := p_opt_len (sd_value d)).
  destruct (sd_key d); destruct (sd_modifier d) as [m|]; cbn [mod_cost List.length]; try lia;
    destruct (is_word (si_ident m) "undelegated"); cbn [List.length]; lia.
Qed.
Lemma p_use_len d : len (p_use d) <= 1 + mod_cost (sd_modifier d) + opt_cost (sd_value d).
Proof.
  unfold p_use. rewrite !app_length. assert (H := p_opt_len (sd_value d)). assert (H1 := p_key_len (sd_key d)).
  assert (H2 := p_modifier_len (sd_modifier d)). lia.
Qed.
Lemma p_clone_len d : len (p_clone d) <= 1 + mod_cost (sd_modifier d) + opt_cost (sd_value d).
Proof.
  unfold p_clone. rewrite !app_length. assert (H1 := p_key_len (sd_key d)).
  assert (H2 := p_modifier_len (sd_modifier d)). destruct (sd_value d); cbn [opt_cost List.length]; lia.
Qed.
Lemma p_attr_len r a : len (p_attr r a) <= attr_cost a.
Proof.
  destruct a as [kv|d|b l ts]; cbn [p_attr attr_cost]; auto.
  - assert (H := p_on_len d). assert (H1 := p_use_len d). assert (H2 := p_clone_len d).
    assert (H3 := p_opt_len (sd_value d)). assert (H4 := p_key_len (sd_key d)). assert (H5 := p_modifier_len (sd_modifier d)).
    destruct r; [unfold p_html_dir|unfold p_component_dir|unfold p_slot_dir];
      repeat match goal with |- context [if ?c then _ else _] => destruct c end; rewrite ?app_length; cbn [List.length]; lia.
  - destruct r; cbn; lia.
Qed.
Lemma p_attrs_len r l : len (flat_map (p_attr r) l) <= total attr_cost l.
Proof. induction l as [|a l IH]; cbn [flat_map total]; auto. rewrite app_length. assert (H := p_attr_len r a). lia. Qed.
Lemma p_selectors_len r l : len (p_selectors r l) <= len l.
Proof. destruct r, l; cbn; lia. Qed.

Lemma p_element_len E slot t sels attrs args cs :
  len (p_element E slot (SElement t sels attrs args cs)) <= len sels + total attr_cost attrs + end_costs E cs.
Proof.
  cbn [p_element]. rewrite !app_length.
  assert (H1 := p_selectors_len (srole slot t) sels). assert (H2 := p_attrs_len (srole slot t) attrs).
  destruct cs as [l|]; cbn [end_costs List.length]; [|destruct (srole slot t); cbn [List.length]; lia].
  destruct (srole slot t).
  - match goal with |- context [len (?f l) + _] => assert (H : len (f l) <= costs E l) end.
    { clear. unfold costs. induction l as [|c l IH]; cbn [total List.length]; auto.
      destruct c as [v|e|s e]; cbn [cost] in *; rewrite ?app_length; lia. }
    cbn [List.length]. lia.
  - match goal with |- context [len (?f l) + len (?g l)] => assert (H : len (f l) + len (g l) <= costs E l) end.
    { clear. unfold costs. induction l as [|c l IH]; cbn [total List.length]; auto.
      destruct c as [v|e|s e]; cbn [cost] in *; rewrite ?app_length; try lia.
      destruct (ssingle_name (sel_tag e)); cbn [List.length]; lia. }
    lia.
  - match goal with |- context [len (?f l) + len (?g l)] => assert (H : len (f l) + len (g l) <= costs E l) end.
    { clear. unfold costs. induction l as [|c l IH]; cbn [total List.length]; auto.
      destruct c as [v|e|s e]; cbn [cost] in *; rewrite ?app_length; try lia.
      destruct (ssingle_name (sel_tag e)); cbn [List.length]; lia. }
    lia.
Qed.
Lemma placed_len E cs : len (placed_reports E cs) <= costs E cs.
Proof.
  unfold placed_reports.
  assert (H : len match filter (fun c => match c with SCSlot _ _ => true | _ => false end) cs with
      | SCSlot _ e :: _ => [(DRootSlot, tag_place E (sel_tag e))] | _ => flat_map (p_child E) cs end <= costs E cs).
  { assert (Hf : forall l, len (flat_map (p_child E) l) <= costs E l).
    { induction l as [|c l IH]; cbn [flat_map]; auto. unfold costs in *. rewrite app_length. cbn [total].
      destruct c; cbn [p_child cost List.length]; lia. }
    destruct (filter _ cs) as [|c l] eqn:Hl; [apply Hf|].
    assert (Hin : In c (c :: l)) by now left. rewrite <- Hl in Hin. apply filter_In in Hin as [Hin _].
    destruct c as [v|e|s e]; try apply Hf. cbn [List.length]. clear - Hin. unfold costs.
    induction cs as [|c cs IH]; [destruct Hin|]. cbn [total]. destruct Hin as [->|Hin]; [cbn [cost]; lia|]. specialize (IH Hin). lia. }
  destruct cs as [|[v|e|s e] [|c cs]]; exact H.
Qed.

(** ** Reports about the syntax of the parts of an element *)

Lemma value_cost E ts v f : rd_value E ts v f -> 1 <= W ts.
Proof. intros [H _]. inversion H; subst; count; lia. Qed.
Lemma opt_bound E ts v ds f : rd_opt E ts v ds f -> 2 * (len ds + opt_cost v) <= 3 * W ts + 1.
Proof.
  intros H. inversion H as [|s sp ts' v' ? Hv|]; subst; cbn [opt_cost]; count; try lia.
Qed.

Lemma modifier_bound ts m f : rd_modifier ts m f -> 2 * mod_cost m <= 3 * W ts.
Proof. intros [H _]. inversion H; subst; cbn [mod_cost]; count; lia. Qed.
Lemma name_bound E u k ds f : rd_name E u k ds f -> 2 * len ds <= W u /\ 1 <= W u.
Proof.
  intros H. split; [now apply name_lead in H as (_ & H & _)|]. destruct H as (H & _). inversion H as [t r]; subst.
  assert (Hx := W_cons t r). lia.
Qed.
Lemma key_bound E ts k ds f : rd_key E ts k ds f -> 2 * len ds <= W ts /\ 1 <= W ts.
Proof. intros H. inversion H; subst; [count; lia|]. eapply name_bound; eassumption. Qed.
Lemma short_bound E ts k v ds : rd_short E ts k v ds -> 2 * len ds + 1 <= W ts /\ p_value v = [].
Proof. intros H. inversion H as [b inner k' i ds' Hn]; subst. apply name_bound in Hn. split; [count; lia|reflexivity]. Qed.
Lemma attr_bound E ts a ds f : rd_attr E ts a ds f -> 2 * (len ds + attr_cost a) <= 3 * W ts.
Proof.
  intros H. inversion H as [ts1 k ds1 ts' v ds' ? Hn Ho|ts1 k v ds1 ? Hs|b s s' sp ts1|s i s' sp ks k ds1 ms m vs v ds' ? Hk Hm Hv|s i s' sp ks k v ds1 ms m ? Hs Hm];
    subst; cbn [attr_cost skv_value sd_modifier sd_value opt_cost]; count.
  - apply name_bound in Hn as [H1 H2]. apply opt_bound in Ho.
    assert (Hx : len (p_value match v with Some v => v | None => SVLit (SLitBool Call true) end) <= opt_cost v).
    { destruct v as [v|]; [apply p_value_len|cbn; lia]. }
    lia.
  - apply short_bound in Hs as [H1 ->]. cbn [List.length]. lia.
  - lia.
  - apply key_bound in Hk as [H1 H2]. apply modifier_bound in Hm. apply opt_bound in Hv. lia.
  - apply short_bound in Hs as [H1 _]. apply modifier_bound in Hm. lia.
Qed.

(** What trying a block as [{key}] reports. *)
Definition tr (ts : list stt) : nat :=
  match ts with SGroup _ Brace inner :: _ => lead (erases inner) | _ => 0 end.
Lemma stop_bound E f ds : stop_attrs E f ds -> len ds <= tr f.
Proof.
  destruct f as [|[s i|s c sp|s k v|b [] inner] f]; cbn [stop_attrs tr]; try tauto;
    try (intros ->; cbn; lia); try (intros [_ ->]; cbn; lia).
  intros [_ H]. inversion H as [? _|u k ds' v Hn _]; subst; [cbn; lia|].
  apply name_lead in Hn as (-> & _). auto.
Qed.
Lemma attrs_bound E ts l ds f : rd_attrs E ts l ds f -> 2 * (len ds + total attr_cost l) <= 3 * W ts + 2 * tr f.
Proof.
  induction 1 as [ds f H|ts a ds ts' l ds' f H _ IH]; cbn [total]; count.
  - apply stop_bound in H. lia.
  - apply attr_bound in H. lia.
Qed.
Lemma attrs_stop E ts l ds f : rd_attrs E ts l ds f -> exists ds', stop_attrs E f ds'.
Proof. induction 1; eauto. Qed.
Lemma selectors_bound E ts l ds f : rd_selectors E ts l ds f -> 2 * (len ds + len l) <= 3 * W ts.
Proof.
  induction 1 as [ds f [_ ->]|ts a ds ts' l ds' f H _ IH]; count; [lia|].
  inversion H as [s sp u k ds1 ? Hn|s sp u k ds1 ? Hn]; subst; apply name_bound in Hn; count; lia.
Qed.

Definition spare (ts : list tt) : nat := match ts with TIdent _ :: _ => 3 | _ => 0 end.

Lemma path_lead ts : path_follows ts -> lead ts = 0.
Proof.
  assert (Hc : forall c sp r, c <> "-"%char -> forall b, raws b (TPunct c sp :: r) = 0).
  { intros c sp r Hc b. cbn [raws]. destruct (Ascii.eqb_spec c "-"); congruence. }
  intros [(sp & r & ->)|[(sp & r & H)|H]].
  - reflexivity.
  - destruct ts as [|t ts]; [discriminate|]. cbn [tl] in H. subst.
    destruct t as [i|c sp'|k s|d inner]; cbn [lead]; rewrite ?Hc by discriminate; try reflexivity; destruct (Ascii.eqb c "-"); reflexivity.
  - destruct ts as [|t [|t' ts]]; [destruct H|destruct H|]. cbn [tl next_punct] in H. destruct H as [sp ->].
    destruct t as [i|c sp'|k s|d inner]; cbn [lead]; rewrite ?Hc by discriminate; try reflexivity; destruct (Ascii.eqb c "-"); reflexivity.
Qed.
Lemma tag_bound E ts t ds f : rd_tag E ts t ds f ->
  2 * len ds + 2 * lead (erases (ts ++ f)) + spare (erases ts) <= 3 * W ts.
Proof.
  intros H. inversion H as [ts' p ? Hf [Hp _]|ts' k ? ds' ? Hf Hn _]; subst.
  - rewrite (path_lead _ Hf). cbn [List.length].
    assert (Hw : 1 <= W ts).
    { inversion Hp as [u s u' l Hs _|c cl u s u' l _ Hs _]; subst; inversion Hs; subst; count; lia. }
    assert (spare (erases ts) <= 3) by (unfold spare; destruct (erases ts) as [|[] ?]; lia). lia.
  - apply name_lead in Hn as (-> & H1 & H2).
    destruct (erases ts) as [|[i|c sp|x y|d inner] r] eqn:He; cbn [spare]; try lia. specialize (H2 I). lia.
Qed.
Lemma tag_starts E ts t ds f : rd_tag E ts t ds f -> exists x r, ts = x :: r.
Proof.
  intros H. inversion H as [ts' p ? Hf [Hp _]|ts' k ? ds' ? Hf (Hn & _) _]; subst.
  - inversion Hp as [u s u' l Hs _|c cl u s u' l Hc Hs _]; subst; [inversion Hs; subst; cbn [app]; eauto|inversion Hc; subst; cbn [app]; eauto].
  - inversion Hn; subst. eauto.
Qed.
Lemma head_bound E ts t sels attrs ds f : rd_head E ts t sels attrs ds f ->
  2 * (len ds + len sels + total attr_cost attrs) + 2 * lead (erases (ts ++ f)) + spare (erases ts) <= 3 * W ts + 2 * tr f.
Proof.
  intros H. inversion H as [ts1 t' ds1 ts2 sels' ds2 ts3 attrs' ds3 ? H1 H2 H3]; subst.
  assert (Hx := tag_starts _ _ _ _ _ H1). apply tag_bound in H1. apply selectors_bound in H2. apply attrs_bound in H3. rewrite <- !app_assoc. count.
  assert (Hs : spare (erases (ts1 ++ ts2 ++ ts3)) <= spare (erases ts1)).
  { destruct Hx as (x & r & ->). destruct x; cbn; lia. }
  lia.
Qed.

(** ** Children *)

(** What cannot follow an attribute, but can start a child or be a stray
    token: one report less is made about it than about other tokens. *)
Definition owes (ts : list stt) : nat :=
  match ts with
  | SLit _ _ _ :: _ | SGroup _ Bracket _ :: _ => 1
  | SPunct _ c _ :: _ => if Ascii.eqb c "-" then 0 else 1
  | _ => 0
  end.
Lemma owes_lead ts : owes ts = 0 \/ owes ts = 1 /\ lead (erases ts) = 0 /\ 1 <= W ts.
Proof.
  destruct ts as [|[s i|s c sp|s k v|b [] inner] ts]; cbn [owes]; auto; try (destruct (Ascii.eqb c "-") eqn:Hc; [now left|]); right.
  - split; [reflexivity|]. split; [cbn; now rewrite Hc|]. count. lia.
  - split; [reflexivity|]. split; [reflexivity|]. count. lia.
  - split; [reflexivity|]. split; [reflexivity|]. count. lia.
Qed.
Lemma ident_owes ts : next_ident (erases ts) -> owes ts = 0.
Proof. destruct ts as [|[s i|s c sp|s k v|b [] inner] ts]; cbn; tauto. Qed.
Lemma ident_spare ts : next_ident ts -> spare ts = 3.
Proof. destruct ts as [|[] ts]; cbn; tauto. Qed.
Lemma spare_le ts : spare ts <= 3.
Proof. destruct ts as [|[] ts]; cbn; lia. Qed.

Lemma bad_segments_rest E sc ts e p rest : senv_ok E -> bad_segments E sc ts e p rest -> exists u, ts = u ++ rest.
Proof.
  intros HE H.
  assert (Hg : forall ts r p, s_generic E sc ts = inr (r, p) -> exists u, ts = u ++ r) by (intros; eapply HE; eassumption).
  induction H as [ts e p rest H|ts s c l ts' e p rest _ _ _ _ _ [u ->]]; [|exists (ts ++ c ++ u); now rewrite !app_assoc].
  inversion H as [|s i r ? ? _ _ _ _ Hr|s i c l r ? ? _ _ _ _ Hr]; subst; [now exists []| |]; apply Hg in Hr as [u ->].
  - now exists (SIdent s i :: u).
  - exists (SIdent s i :: c ++ u). cbn. now rewrite app_assoc.
Qed.
Lemma bad_tag_rest E sc ts e p rest : senv_ok E -> bad_tag E sc ts e p rest -> lead (erases ts) = 0 /\ exists u, ts = u ++ rest.
Proof.
  intros HE H. inversion H as [? ? ? ? Hp _ Hs|c l ts' ? ? ? Hc Hs|? Hp Hn]; subst.
  - split; [|eapply bad_segments_rest; eassumption]. revert Hp. unfold path_next.
    destruct (erases ts) as [|[i|c []|k s|d inner] [|[i'|c' sp'|k' s'|d' inner'] r]]; try apply path_lead.
    destruct (ascii_dec c "'") as [->|]; [reflexivity|apply path_lead].
  - inversion Hc; subst. split; [reflexivity|]. apply bad_segments_rest in Hs as [u ->]; auto. cbn [app].
    match goal with |- exists u', ?x :: ?y :: u ++ rest = _ => exists (x :: y :: u); reflexivity end.
  - split; [|now exists []]. unfold starts_name_here in Hn. destruct (erases rest) as [|[i|c sp|k s|d inner] r]; cbn in Hn |- *; auto.
    + destruct Hn. auto.
    + destruct (Ascii.eqb_spec c "-"); auto. subst. destruct Hn. right. now exists sp.
Qed.
Lemma bad_child_bound E sc ts ds e p rest : senv_ok E -> bad_child E sc ts ds e p rest ->
  2 * len ds + 2 * lead (erases ts) + owes ts + 2 <= 3 * W ts /\
  (forall s sp r, rest = SPunct s ";" sp :: r ->
     2 * len ds + 2 * lead (erases ts) + owes ts + 2 + 3 * W r <= 3 * W ts).
Proof.
  intros HE H.
  assert (He : forall ts ds, bad_element E sc ts ds e p rest ->
    2 * len ds + 2 * lead (erases ts) <= 3 * W ts /\
    (next_ident (erases ts) -> 2 * len ds + 2 * lead (erases ts) + 2 <= 3 * W ts) /\
    (forall s sp r, rest = SPunct s ";" sp :: r -> len ds = 0 /\ lead (erases ts) = 0 /\ 1 + W r <= W ts)).
  { clear H ts ds. intros ts ds H. inversion H as [ts' e' p' rest' Ht|ts' t sels attrs ds' s sp args Hh Ha]; subst.
    - apply bad_tag_rest in Ht as [Hl (u & Hu)]; auto. rewrite Hl. cbn [List.length].
      split; [lia|]. split.
      + intros Hi. destruct (erases ts) as [|[] r]; cbn [next_ident] in Hi; try tauto. rewrite T_cons, t_ident. lia.
      + intros s sp r ->. rewrite Hu. count. lia.
    - apply head_bound in Hh. cbn [tr] in Hh. count. split; [lia|]. split; [lia|]. discriminate. }
  inversion H as [? Hne Hv Hi|? ? ? ? ? Hv Hi Hs Hb|s s' sp ts' ? ? ? ? Hs Hb]; subst.
  - clear He H. rename rest into ts. cbn [List.length]. split.
    + assert (Hl := lead_le (erases ts)). destruct ts as [|t r]; [now destruct Hne|]. assert (Hw := W_cons t r).
      destruct (owes_lead (t :: r)) as [->|(-> & -> & _)]; lia.
    + intros s sp r ->. rewrite lead_punct by discriminate. cbn [owes]. change (Ascii.eqb ";" "-") with false. cbn iota. count. lia.
  - apply He in Hb as (_ & Hb & Hr). rewrite (ident_owes _ Hi). split; [specialize (Hb Hi); lia|].
    intros s sp r Heq. destruct (Hr _ _ _ Heq) as (-> & -> & Hw). lia.
  - apply He in Hb as (Hb & _ & Hr). rewrite lead_word_punct by discriminate. cbn [owes]. count. split.
    + lia.
    + intros s0 sp0 r Heq. destruct (Hr _ _ _ Heq) as (-> & _ & Hw). lia.
Qed.

Lemma value_bound E ts v f : rd_value E ts v f ->
  2 * len (p_value v) + 2 * lead (erases (ts ++ f)) + owes (ts ++ f) <= 3 * W ts + 2 * lead (erases f) /\
  (forall l, v = SVLit l -> 2 + 2 * lead (erases (ts ++ f)) + owes (ts ++ f) <= 3 * W ts + 2 * lead (erases f)).
Proof.
  intros [H _]. assert (Hr := raws_lead (erases f)).
  inversion H as [s k v'|s sp s' k v'|s|s|b u|b u|s i b u]; subst; cbn [app]; count.
  - change (lead (erases (SLit s k v' :: f))) with 0. cbn [p_value List.length owes]. split; intros; lia.
  - assert (Hl : lead (erases (SPunct s "-" sp :: SLit s' k v' :: f)) <= lead (erases f)).
    { change (erases (SPunct s "-" sp :: SLit s' k v' :: f)) with (TPunct "-" sp :: TLit k v' :: erases f). cbn [lead].
      change (Ascii.eqb "-" "-") with true. cbn iota. destruct k; cbn [raws]; lia. }
    cbn [p_value List.length owes]. change (Ascii.eqb "-" "-") with true. split; intros; cbn iota; lia.
  - assert (Hl : lead (erases (SIdent s (Id false "true") :: f)) <= lead (erases f)) by exact Hr.
    cbn [p_value List.length owes]. split; intros; lia.
  - assert (Hl : lead (erases (SIdent s (Id false "false") :: f)) <= lead (erases f)) by exact Hr.
    cbn [p_value List.length owes]. split; intros; lia.
  - change (lead (erases (SGroup b Brace u :: f))) with 0. cbn [p_value List.length owes]. split; intros; [lia|discriminate].
  - change (lead (erases (SGroup b Bracket u :: f))) with 0. cbn [p_value List.length owes]. split; intros; [lia|discriminate].
  - split; [|discriminate]. assert (Hp := p_value_len (SVBracket (Some (SId s i)) b u)).
    change (lead (erases (SIdent s i :: SGroup b Bracket u :: f))) with 0. cbn [owes]. lia.
Qed.

Scheme rd_children_min := Minimality for rd_children Sort Prop
  with rd_child_min := Minimality for rd_child Sort Prop
  with rd_element_min := Minimality for rd_element Sort Prop
  with rd_end_min := Minimality for rd_end Sort Prop.
Combined Scheme rd_all from rd_children_min, rd_child_min, rd_element_min, rd_end_min.

Lemma rd_bounds E : senv_ok E -> forall sc,
  (forall ts cs ds, rd_children E sc ts cs ds -> 2 * (len ds + costs E cs) + 2 * lead (erases ts) + owes ts <= 3 * W ts) /\
  (forall ts c ds f, rd_child E sc ts c ds f ->
     2 * (len ds + cost E c) + 2 * lead (erases (ts ++ f)) + owes (ts ++ f) <= 3 * W ts + 2 * lead (erases f) + owes f) /\
  (forall ts e ds f, rd_element E sc ts e ds f -> forall b,
     2 * (len ds + len (p_element E b e)) + 2 * lead (erases (ts ++ f)) + spare (erases ts) <= 3 * W ts + 3 + owes f) /\
  (forall t ts args cs ds f, rd_end E sc t ts args cs ds f -> (exists d, stop_attrs E (ts ++ f) d) ->
     2 * (len ds + end_costs E cs) + 2 * tr (ts ++ f) <= 3 * W ts + 3 + owes f).
Proof.
  intros HE.
  apply (rd_all E
    (fun sc ts cs ds => 2 * (len ds + costs E cs) + 2 * lead (erases ts) + owes ts <= 3 * W ts)
    (fun sc ts c ds f => 2 * (len ds + cost E c) + 2 * lead (erases (ts ++ f)) + owes (ts ++ f) <= 3 * W ts + 2 * lead (erases f) + owes f)
    (fun sc ts e ds f => forall b,
     2 * (len ds + len (p_element E b e)) + 2 * lead (erases (ts ++ f)) + spare (erases ts) <= 3 * W ts + 3 + owes f)
    (fun sc t ts args cs ds f => (exists d, stop_attrs E (ts ++ f) d) ->
     2 * (len ds + end_costs E cs) + 2 * tr (ts ++ f) <= 3 * W ts + 3 + owes f)).
  - intros sc. cbn. lia.
  - intros sc ts c ds ts' cs ds' _ H1 _ H2. unfold costs in *. cbn [total]. count. lia.
  - intros sc ts ds e p s sp r cs ds' Hb _ IH. apply bad_child_bound in Hb as [_ Hb]; auto. specialize (Hb _ _ _ eq_refl). count. lia.
  - intros sc ts ds e p rest Hb _. apply bad_child_bound in Hb as [Hb _]; auto. cbn [costs total]. count. cbn. lia.
  - intros sc ts v f Hv _. apply value_bound in Hv as [Hv _]. cbn [cost List.length]. lia.
  - intros sc ts l f Hv _. apply value_bound in Hv as [_ Hv]. specialize (Hv _ eq_refl). cbn [cost List.length p_value]. lia.
  - intros sc ts e ds f _ IH Hi _ _. cbn [cost]. specialize (IH false). rewrite (ident_spare _ Hi) in IH.
    assert (Hi' : next_ident (erases (ts ++ f))) by (rewrite erases_app; destruct (erases ts); cbn in *; tauto).
    rewrite (ident_owes _ Hi'). lia.
  - intros sc s s' sp ts e ds f _ _ IH. cbn [cost app]. specialize (IH true). rewrite lead_word_punct by discriminate. cbn [owes]. count. lia.
  - intros sc ts t sels attrs ds ts' args cs ds' f Hh _ IH b.
    assert (Hst : exists d, stop_attrs E (ts' ++ f) d) by (inversion Hh; subst; eapply attrs_stop; eassumption). specialize (IH Hst).
    assert (Hx : exists x r, ts = x :: r) by (inversion Hh as [? ? ? ? ? ? ? ? ? ? Ht]; subst; apply tag_starts in Ht as (x & r & ->); cbn; eauto).
    apply head_bound in Hh. assert (Hp := p_element_len E b t sels attrs args cs). rewrite <- app_assoc. count.
    assert (Hs : spare (erases (ts ++ ts')) = spare (erases ts)) by (destruct Hx as (x & r & ->); destruct x; reflexivity).
    rewrite Hs. lia.
  - intros sc t s sp f _. cbn. lia.
  - intros sc t b d inner cs ds f Hd _ IH _. cbn [end_costs app].
    assert (Ht : tr (SGroup b d inner :: f) <= lead (erases inner)) by (destruct d; cbn; lia). count. lia.
  - intros sc t s sp args s' sp' b d inner cs ds f _ _ _ IH _. cbn [end_costs app tr]. count. lia.
  - intros sc t _. cbn. lia.
  - intros sc t s sp args s' sp' f _ _ _. cbn [end_costs app tr]. count. lia.
  - intros sc t f p Hn _ [d Hd]. cbn [app end_costs] in *. count.
    assert (Ho : tr f = 0 /\ owes f = 1).
    { destruct f as [|[s i|s c sp|s k v|b [] inner] f]; cbn [ends_element stop_attrs tr owes] in *; try tauto; auto.
      destruct (Ascii.eqb_spec c "-"); [tauto|auto]. }
    lia.
Qed.

(** ** Views that are not read to the end *)

Lemma ab_attr_bound E sc ts o ds : ab_attr E sc ts o ds -> 2 * len ds <= 3 * W ts.
Proof.
  intros H. inversion H; subst; count;
    repeat match goal with
    | H : rd_name _ _ _ _ _ |- _ => apply name_bound in H
    | H : rd_key _ _ _ _ _ |- _ => apply key_bound in H
    | H : rd_short _ _ _ _ _ |- _ => apply short_bound in H
    end; lia.
Qed.
Lemma ab_attrs_bound E sc ts o ds : ab_attrs E sc ts o ds -> 2 * len ds <= 3 * W ts.
Proof.
  induction 1 as [ts o ds H|u a ds ts' o ds' H _ IH]; [eapply ab_attr_bound; eassumption|]. apply attr_bound in H. count. lia.
Qed.

Scheme ab_children_min := Minimality for ab_children Sort Prop
  with ab_child_min := Minimality for ab_child Sort Prop
  with ab_element_min := Minimality for ab_element Sort Prop.
Combined Scheme ab_all from ab_children_min, ab_child_min, ab_element_min.

Lemma ab_bounds E : senv_ok E -> forall sc,
  (forall ts o ds, ab_children E sc ts o ds -> 2 * len ds + 2 * lead (erases ts) + owes ts <= 3 * W ts) /\
  (forall ts o ds, ab_child E sc ts o ds -> 2 * len ds + 2 * lead (erases ts) + owes ts <= 3 * W ts) /\
  (forall ts o ds, ab_element E sc ts o ds -> 2 * len ds + 2 * lead (erases ts) <= 3 * W ts).
Proof.
  intros HE. assert (Hc := fun sc => proj1 (proj2 (rd_bounds E HE sc))).
  apply (ab_all E
    (fun sc ts o ds => 2 * len ds + 2 * lead (erases ts) + owes ts <= 3 * W ts)
    (fun sc ts o ds => 2 * len ds + 2 * lead (erases ts) + owes ts <= 3 * W ts)
    (fun sc ts o ds => 2 * len ds + 2 * lead (erases ts) <= 3 * W ts)).
  - auto.
  - intros sc ts c ds ts' o ds' H _ IH. apply Hc in H. count. lia.
  - intros sc ts ds e p s sp r o ds' Hb _ IH. apply bad_child_bound in Hb as [_ Hb]; auto. specialize (Hb _ _ _ eq_refl). count. lia.
  - intros sc ts o ds _ Hi _ _ IH. rewrite (ident_owes _ Hi). lia.
  - intros sc s s' sp ts o ds _ _ IH. rewrite lead_word_punct by discriminate. cbn [owes]. count. lia.
  - intros sc ts k ds r _ Hn _ _. apply name_lead in Hn as (-> & Hn & _). count. lia.
  - intros sc ts1 t ds1 ts2 sels ds2 ts3 o ds3 H1 H2 H3. apply tag_bound in H1. apply selectors_bound in H2. apply ab_attrs_bound in H3. count. lia.
  - intros sc ts t sels attrs ds b d inner o ds' r Hh Hd _ IH. apply head_bound in Hh.
    assert (Ht : tr (SGroup b d inner :: r) <= lead (erases inner)) by (destruct d; cbn; lia). count. lia.
  - intros sc ts t sels attrs ds s sp args s' sp' b d inner o ds' r Hh _ _ _ IH. apply head_bound in Hh. cbn [tr] in Hh. count. lia.
Qed.
