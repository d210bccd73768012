(** The expander against the specification: slots, elements and the whole macro. *)
From Verif Require Export ExpandFacts Fuel.
From Coq Require Import Permutation.
Open Scope list_scope.
Open Scope expand_scope.

(** ** Slot names *)

Lemma lower_iff c d : lower c d <-> d = to_lower c.
Proof.
  unfold lower, to_lower. rewrite <- is_upper_iff. destruct (is_upper c) eqn:H.
  - assert (Hlt : nat_of_ascii c + 32 < 256).
    { unfold is_upper in H. apply andb_true_iff in H. destruct H as [_ H]. apply Nat.leb_le in H. lia. }
    split.
    + intros [[_ Hd]|[H' _]]; [|congruence]. rewrite <- Hd. symmetry. apply ascii_nat_embedding.
    + intros ->. left. split; auto. now apply nat_ascii_embedding.
  - split; [intros [[H' _]|[_ ->]]; congruence|]. intros ->. right. split; [congruence|reflexivity].
Qed.
Lemma unchars_chars s : unchars (chars s) = s.
Proof. apply string_of_list_ascii_of_string. Qed.
Lemma chars_unchars l : chars (unchars l) = l.
Proof. apply list_ascii_of_string_of_list_ascii. Qed.
Lemma camel_rest r s : camel_snake_rest r s <-> s = chars (camel_loop false (unchars r)).
Proof.
  split.
  - induction 1 as [|c d r s Hu Hl Hr IH|c r s Hu Hr IH]; cbn; auto.
    + apply is_upper_iff in Hu. rewrite Hu. apply lower_iff in Hl. cbn. now subst.
    + assert (is_upper c = false) as -> by (destruct (is_upper c) eqn:H; auto; apply is_upper_iff in H; contradiction).
      cbn. assert (to_lower c = c) as ->; [|now subst].
      unfold to_lower. destruct (is_upper c) eqn:H; auto. apply is_upper_iff in H; contradiction.
  - intros ->. induction r as [|c r IH]; cbn; [constructor|]. destruct (is_upper c) eqn:H; cbn.
    + constructor; auto; [now apply is_upper_iff|now apply lower_iff].
    + assert (to_lower c = c) as -> by (unfold to_lower; now rewrite H).
      constructor; auto. intros H'. apply is_upper_iff in H'. congruence.
Qed.
Lemma camel_iff s m : camel_snake s m <-> m = upper_camel_to_snake_case s.
Proof.
  unfold upper_camel_to_snake_case. split.
  - intros [|c d r s' Hl Hr]; [reflexivity|]. cbn. rewrite andb_false_r. apply lower_iff in Hl.
    apply camel_rest in Hr. subst. now rewrite unchars_chars.
  - intros ->. destruct s as [|c s]; cbn; [constructor|]. rewrite andb_false_r.
    rewrite <- (unchars_chars s), <- (unchars_chars (camel_loop _ _)).
    apply (camel_cons c (to_lower c) (chars s)); [now apply lower_iff|now apply camel_rest].
Qed.

Lemma slot_method_ok k l ts : slot_method k l gives ts <->
  exists m, camel_snake (i_name k) m /\ ~ In m ("" :: reserved_words) /\
    ts = call_tokens (Call (Id true m) (slot_arg l)).
Proof.
  unfold slot_method. set (name := upper_camel_to_snake_case _).
  assert (Hn : forall m, camel_snake (i_name k) m <-> m = name) by (intros; apply camel_iff).
  destruct (new_raw name) as [m|] eqn:Hr.
  - apply new_raw_iff in Hr. destruct Hr as [Hr ->].
    rewrite xret_ok. split.
    + intros <-. exists name. split; [now apply Hn|]. split; auto.
      destruct l as [|s [|s' l]]; reflexivity.
    + intros (m & Hm & _ & ->). apply Hn in Hm. subst m. destruct l as [|s [|s' l]]; reflexivity.
  - split; [discriminate|]. intros (m & Hm & Hm2 & ->). apply Hn in Hm. subst m. exfalso.
    assert (new_raw name = Some (Id true name)) by (apply new_raw_iff; auto). congruence.
Qed.

(** ** The hash map of slots *)

Lemma ident_eqb_iff a b : ident_eqb a b = true <-> a = b.
Proof.
  destruct a, b. unfold ident_eqb. cbn. rewrite andb_true_iff, Bool.eqb_true_iff, String.eqb_eq. split.
  - now intros [-> ->].
  - intros H; inversion H; auto.
Qed.
Lemma ident_eqb_dec a b : ident_eqb a b = if ident_dec a b then true else false.
Proof.
  destruct (ident_dec a b) as [->|H]; [now apply ident_eqb_iff|].
  destruct (ident_eqb a b) eqn:He; auto. apply ident_eqb_iff in He. contradiction.
Qed.
Definition slot_map (slots : list (ident * list tt)) m0 :=
  fold_left (fun m p => slot_insert m (fst p) (snd p)) slots m0.

Lemma insert_keys m k t i : In i (map fst (slot_insert m k t)) <-> i = k \/ In i (map fst m).
Proof.
  induction m as [|[k' l] m IH]; cbn; [intuition congruence|].
  rewrite ident_eqb_dec. destruct (ident_dec k k'); cbn; [subst|rewrite IH]; intuition congruence.
Qed.
Lemma insert_nodup m k t : NoDup (map fst m) -> NoDup (map fst (slot_insert m k t)).
Proof.
  induction m as [|[k' l] m IH]; cbn; intros H.
  - repeat constructor. auto.
  - inversion H; subst. rewrite ident_eqb_dec. destruct (ident_dec k k'); cbn; constructor; auto.
    rewrite insert_keys. intuition congruence.
Qed.
Lemma insert_get m k t i : slot_get (slot_insert m k t) i = slot_get m i ++ (if ident_dec k i then [t] else []).
Proof.
  induction m as [|[k' l] m IH]; cbn.
  - rewrite ident_eqb_dec. destruct (ident_dec i k), (ident_dec k i); congruence.
  - rewrite !ident_eqb_dec. destruct (ident_dec k k') as [->|Hk]; cbn.
    + rewrite ident_eqb_dec. destruct (ident_dec i k'), (ident_dec k' i); try congruence. now rewrite app_nil_r.
    + rewrite ident_eqb_dec. destruct (ident_dec i k') as [->|]; auto. destruct (ident_dec k k'); [congruence|].
      now rewrite app_nil_r.
Qed.
Lemma slot_map_ok slots : forall m0, NoDup (map fst m0) ->
  NoDup (map fst (slot_map slots m0)) /\
  (forall i, In i (map fst (slot_map slots m0)) <-> In i (map fst m0) \/ In i (map fst slots)) /\
  (forall i, slot_get (slot_map slots m0) i = slot_get m0 i ++ slots_named slots i).
Proof.
  induction slots as [|[k t] slots IH]; intros m0 H; cbn.
  - repeat split; auto; try tauto. intros i. now rewrite app_nil_r.
  - destruct (IH (slot_insert m0 k t) (insert_nodup _ _ _ H)) as (H1 & H2 & H3). unfold slot_map in *.
    split; auto. split.
    + intros i. rewrite H2, insert_keys. intuition congruence.
    + intros i. rewrite H3, insert_get, <- app_assoc. f_equal. unfold slots_named. cbn.
      destruct (ident_dec k i); reflexivity.
Qed.

Definition slot_item (p : tag * X (list tt)) (s : ident * list tt) : Prop :=
  fst p = TagComponent (Path false [PSeg (fst s) PNone]) /\ snd p gives (snd s).
Lemma get_ident_iff p i : get_ident p = Some i <-> p = Path false [PSeg i PNone].
Proof.
  split; [|intros ->; reflexivity].
  destruct p as [[] [|[j []] [|]]]; cbn; try discriminate. intros H; inversion H; reflexivity.
Qed.
Lemma collect_ok l : forall m0 m, collect_slots l m0 gives m <->
  exists slots, Forall2 slot_item l slots /\ m = slot_map slots m0.
Proof.
  induction l as [|[t x] l IH]; intros m0 m; cbn [collect_slots].
  - rewrite xret_ok. split.
    + intros <-. exists []. split; constructor.
    + intros (slots & H & ->). inversion H. reflexivity.
  - destruct t as [i|p|i|i|k].
    1,3-5: split; [discriminate|]; intros (slots & H & _); inversion H as [|a b ? ? Hi]; subst; destruct Hi; discriminate.
    destruct (get_ident p) as [i|] eqn:Hp.
    + apply get_ident_iff in Hp. subst p. rewrite xbind_ok. split.
      * intros (ts & Hx & H). apply IH in H. destruct H as (slots & H & ->). exists ((i, ts) :: slots).
        split; [constructor; auto; now split|reflexivity].
      * intros (slots & H & ->). inversion H as [|a [j ts] ? ? [H1 H2]]; subst. cbn in H1, H2. inversion H1; subst.
        exists ts. split; auto. apply IH. eauto.
    + split; [intros H; xinv|]. intros (slots & H & _). inversion H as [|a [j ts] ? ? [H1 H2]]; subst.
      cbn in H1. inversion H1; subst. discriminate.
Qed.

Lemma slots_sound E at_ l ts : env_ok E -> slots_to_tokens E at_ l gives ts ->
  exists slots scalls, Forall2 slot_item l slots /\ slot_calls slots scalls /\ ts = chain scalls.
Proof.
  intros (_ & _ & HP) H. unfold slots_to_tokens in H. apply xbind_ok in H. destruct H as (m & Hm & H).
  apply xbind_ok in H. destruct H as (r & Hr & H). rewrite xret_ok in H. subst ts.
  apply collect_ok in Hm. destruct Hm as (slots & Hs & ->).
  destruct (slot_map_ok slots [] (NoDup_nil _)) as (H1 & H2 & H3). cbn in H2, H3.
  apply xseq_map_ok in Hr. pose proof (HP at_ (map fst (slot_map slots []))) as Hp.
  remember (slot_order E at_ (map fst (slot_map slots []))) as order eqn:Ho.
  assert (Hc : exists calls, Forall2 (slot_call slots) order calls /\ r = map call_tokens calls).
  { clear -Hr H3. induction Hr as [|k t order r Hk Hr IH].
    - exists []. split; auto.
    - destruct IH as (calls & Hc & ->). apply slot_method_ok in Hk. destruct Hk as (m & Hm1 & Hm2 & ->).
      rewrite H3. eexists (_ :: calls). split; [constructor; [econstructor; eauto|auto]|reflexivity]. }
  destruct Hc as (calls & Hc & ->). exists slots, calls. split; auto. split; [|reflexivity].
  apply slot_calls_intro with order; auto.
  - eapply Permutation_NoDup; eauto.
  - intros i. split; intros Hi.
    + assert (In i (map fst (slot_map slots []))) as Hj by (eapply Permutation_in; [apply Permutation_sym; exact Hp|auto]).
      apply H2 in Hj. tauto.
    + eapply Permutation_in; [exact Hp|]. apply H2. auto.
Qed.
Lemma slots_total E at_ l slots scalls : env_ok E -> Forall2 slot_item l slots -> slot_calls slots scalls ->
  exists ts, slots_to_tokens E at_ l gives ts.
Proof.
  intros (_ & _ & HP) Hl Hs. unfold slots_to_tokens.
  destruct (slot_map_ok slots [] (NoDup_nil _)) as (H1 & H2 & H3). cbn in H2, H3.
  inversion Hs as [order calls Ho1 Ho2 Ho3]; subst.
  pose proof (HP at_ (map fst (slot_map slots []))) as Hp.
  assert (Hin : forall i, In i (slot_order E at_ (map fst (slot_map slots []))) -> exists m,
    camel_snake (i_name i) m /\ ~ In m ("" :: reserved_words)).
  { intros i Hi. apply (Permutation_in i (Permutation_sym Hp)) in Hi. apply H2 in Hi. destruct Hi as [[]|Hi]. apply Ho2 in Hi.
    clear -Hi Ho3. induction Ho3 as [|k c order calls Hk Hr IH]; [destruct Hi|]. destruct Hi as [->|Hi]; auto.
    inversion Hk; subst. eauto. }
  assert (exists r, Forall2 (fun k a => slot_method k (slot_get (slot_map slots []) k) gives a)
     (slot_order E at_ (map fst (slot_map slots []))) r) as (r & Hr).
  { clear -Hin. induction (slot_order E at_ (map fst (slot_map slots []))) as [|k order IH].
    - exists []. constructor.
    - destruct IH as (r & Hr); [intros; apply Hin; now right|]. destruct (Hin k (or_introl eq_refl)) as (m & Hm1 & Hm2).
      eexists (_ :: r). constructor; auto. apply slot_method_ok. eauto. }
  eexists. apply xbind_ok. eexists. split; [apply collect_ok; eauto|]. apply xbind_ok. exists r.
  split; [now apply xseq_map_ok|reflexivity].
Qed.

(** ** The recursion *)

Lemma element_children_ind (P : element -> Prop) :
  (forall t sels attrs args ch,
     (forall e, In (CElement e) (child_list ch) -> P e) ->
     (forall e, In (CSlot e) (child_list ch) -> P e) ->
     P (Element t sels attrs args ch)) -> forall e, P e.
Proof.
  intros H. fix rec 1. intros [t sels attrs args ch]. apply H.
  - destruct ch as [l|]; cbn; [|tauto].
    induction l as [|c l IH]; intros e Hin; [destruct Hin|]. destruct Hin as [Hin|Hin]; [|now apply IH].
    destruct c as [v|e'|e']; try discriminate. injection Hin as <-. apply rec.
  - destruct ch as [l|]; cbn; [|tauto].
    induction l as [|c l IH]; intros e Hin; [destruct Hin|]. destruct Hin as [Hin|Hin]; [|now apply IH].
    destruct c as [v|e'|e']; try discriminate. injection Hin as <-. apply rec.
Qed.

Lemma expand_element_eq E at_ slot t sels attrs args ch :
  expand_element E at_ slot (Element t sels attrs args ch) =
  element_tokens E at_ slot t sels attrs args
    (option_map (expand_nodes E at_ 0) ch) (option_map (expand_slots E at_ 0) ch).
Proof.
  cbn [expand_element]. f_equal.
  - destruct ch as [l|]; cbn [option_map]; auto. f_equal. generalize 0 as n.
    induction l as [|[v|e|e] l IH]; intros n; cbn [expand_nodes expand_node]; auto; f_equal; apply IH.
  - destruct ch as [l|]; cbn [option_map]; auto. f_equal. generalize 0 as n.
    induction l as [|[v|e|e] l IH]; intros n; cbn [expand_slots]; auto; f_equal; apply IH.
Qed.

Lemma into_render_eq ts : into_render ts = rendered ts.
Proof. reflexivity. Qed.

Lemma nodes_sound E at_ l :
  (forall e, In (CElement e) l -> forall at_ ts, expand_element E at_ false e gives ts -> element_code e ts) ->
  forall n codes, Forall2 (fun m a => m gives a) (expand_nodes E at_ n l) codes -> nodes_code l codes.
Proof.
  induction l as [|c l IH]; intros He n codes H; cbn [expand_nodes] in H.
  - inversion H. constructor.
  - assert (IH' := IH (fun e Hin => He e (or_intror Hin))). destruct c as [v|e|e].
    + inversion H as [|m a ? ? Hm Hr]; subst. cbn [expand_node] in Hm. xinv. vok. constructor; eauto.
    + inversion H as [|m a ? ? Hm Hr]; subst. cbn [expand_node] in Hm. xinv. constructor; eauto.
      eapply He; eauto. now left.
    + constructor. eauto.
Qed.
Lemma nodes_total E at_ l codes :
  (forall e, In (CElement e) l -> forall at_ ts, element_code e ts -> exists ts', expand_element E at_ false e gives ts') ->
  nodes_code l codes -> forall n, exists codes', Forall2 (fun m a => m gives a) (expand_nodes E at_ n l) codes'.
Proof.
  intros He Hn. induction l as [|c l IH] in codes, He, Hn |- *; intros n; cbn [expand_nodes].
  - exists []. constructor.
  - assert (IH' := fun codes => IH codes (fun e Hin => He e (or_intror Hin))).
    inversion Hn as [|v ts l' codes' Hv Hr|e ts l' codes' Hv Hr|e l' codes' Hr]; subst;
      destruct (IH' _ Hr (S n)) as (cs & Hcs).
    + eexists (_ :: cs). constructor; auto. cbn [expand_node]. xgo.
    + destruct (He e (or_introl eq_refl) (n :: at_) ts Hv) as (ts' & Hts).
      eexists (_ :: cs). constructor; auto. cbn [expand_node]. apply xbind_ok. eexists. split; [exact Hts|reflexivity].
    + exists cs. auto.
Qed.
Lemma slots_list_sound E at_ l :
  (forall e, In (CSlot e) l -> forall at_ ts, expand_element E at_ true e gives ts -> slot_code e ts) ->
  forall n slots, Forall2 slot_item (expand_slots E at_ n l) slots -> slots_code l slots.
Proof.
  induction l as [|c l IH]; intros He n slots H; cbn [expand_slots] in H.
  - inversion H. constructor.
  - assert (IH' := IH (fun e Hin => He e (or_intror Hin))). destruct c as [v|e|e].
    + constructor. eauto.
    + constructor. eauto.
    + inversion H as [|m [i ts] ? ? [Hm1 Hm2] Hr]; subst. cbn [fst snd] in *. constructor; eauto.
      eapply He; eauto. now left.
Qed.
Lemma slots_list_total E at_ l slots :
  (forall e, In (CSlot e) l -> forall at_ ts, slot_code e ts -> exists ts', expand_element E at_ true e gives ts') ->
  slots_code l slots -> forall n, exists slots', Forall2 slot_item (expand_slots E at_ n l) slots' /\ map fst slots' = map fst slots.
Proof.
  intros He Hn. induction l as [|c l IH] in slots, He, Hn |- *; intros n; cbn [expand_slots].
  - inversion Hn. exists []. split; constructor.
  - assert (IH' := fun codes => IH codes (fun e Hin => He e (or_intror Hin))).
    inversion Hn as [|v l' slots' Hr|e l' slots' Hr|e i ts l' slots' Ht Hv Hr]; subst;
      destruct (IH' _ Hr (S n)) as (cs & Hcs & Hf).
    + exists cs; auto.
    + exists cs; auto.
    + destruct (He e (or_introl eq_refl) (n :: at_) ts Hv) as (ts' & Hts).
      exists ((i, ts') :: cs). split; [constructor; auto; split; auto|]. cbn. congruence.
Qed.
(** Which calls exist depends only on the slot names. *)
Lemma slot_calls_names slots slots' scalls : map fst slots' = map fst slots -> slot_calls slots scalls ->
  exists scalls', slot_calls slots' scalls'.
Proof.
  intros Hf [order calls H1 H2 H3].
  assert (exists calls', Forall2 (slot_call slots') order calls') as (calls' & Hc).
  { clear -H3. induction H3 as [|k c order calls Hk Hr [calls' IH]]; [exists []; constructor|].
    inversion Hk; subst. eexists (_ :: calls'). constructor; auto. econstructor; eauto. }
  exists calls'. apply slot_calls_intro with order; auto. intros i. now rewrite Hf.
Qed.

Lemma nodes_empty E at_ l codes n : nodes_code l codes -> (codes = [] <-> expand_nodes E at_ n l = []).
Proof.
  intros H. revert n. induction H as [|v ts l codes Hv Hr IH|e ts l codes He Hr IH|e l codes Hr IH]; intros n; cbn [expand_nodes].
  - tauto.
  - split; discriminate.
  - split; discriminate.
  - apply IH.
Qed.

(** The children call, given the expanded nodes. *)
Lemma children_call_ok args clones (nodes : option (list (X (list tt)))) r :
  match nodes with Some ((_ :: _) as ns) => component_children_tokens ns args (List.concat clones) | _ => xret [] end gives r <->
  exists codes, Forall2 (fun m a => m gives a) (match nodes with Some l => l | None => [] end) codes /\
    r = chain (children_calls args clones codes).
Proof.
  destruct nodes as [[|m nodes]|].
  1,3: rewrite xret_ok; split;
    [intros <-; exists []; split; auto|intros (codes & H & ->); inversion H; reflexivity].
  rewrite comp_children_ok. split; intros (codes & H & ->); exists codes; (split; [auto|]);
      inversion H; subst; unfold children_calls; rewrite chain_one; reflexivity.
Qed.

Definition sound_at E e := (forall at_ ts, expand_element E at_ false e gives ts -> element_code e ts) /\
  (forall at_ ts, expand_element E at_ true e gives ts -> slot_code e ts).

(** [component_to_tokens], given what the children expand to. *)
Lemma component_ok E at_ (slot : bool) p sels attrs args nodes slots ts :
  expect_path (component_to_tokens E at_ slot (TagComponent p) sels attrs args nodes slots) gives ts <->
  exists path props entries clones codes sl,
    path_code p path /\ (slot = true -> sels = []) /\
    Forall2 prop_call (kvs_of attrs) props /\
    Forall2 entry_code (entries_of attrs) entries /\ (slot = true -> entries_of attrs = []) /\
    Forall2 clone_code (clones_of attrs) clones /\
    Forall2 (fun m a => m gives a) (match nodes with Some l => l | None => [] end) codes /\
    match slots with Some l => slots_to_tokens E at_ l | None => xret [] end gives sl /\
    ts = if slot then slot_frame path (props ++ children_calls args clones codes)
         else [sym "#"; brackets [word "allow"; parens [word "unreachable_code"]]] ++
              abs_path ["leptos"; "prelude"; "View"; "new"] ++
              [parens (abs_path ["leptos"; "component"; "component_view"] ++
                 [parens (sym "&" :: path ++ sym "," ::
                          abs_path ["leptos"; "component"; "component_props_builder"] ++
                          [parens (sym "&" :: path)] ++
                          chain props ++ chain (children_calls args clones codes) ++ sl ++ chain [plain_call "build" []])] ++
                 chain [plain_call "add_any_attr" [parens (comma_ended (selector_entries sels ++ entries))]])].
Proof.
  cbn [component_to_tokens expect_path].
  split.
  - intros H. apply xbind_ok in H. destruct H as (p' & Hp & H).
    apply xbind_ok in H. destruct H as (d0 & Hd & H).
    apply xbind_ok in H. destruct H as ([[props0 dirs] clones0] & Hl & H).
    apply comp_loop_ok in Hl. destruct Hl as (props & entries & clones & H1 & H2 & H3 & H4 & E1 & E2 & E3).
    cbn [app] in E1, E3. subst props0 clones0 dirs.
    apply xbind_ok in H. destruct H as (ch & Hc & H).
    apply children_call_ok in Hc. destruct Hc as (codes & Hcodes & ->).
    apply xbind_ok in H. destruct H as (sl & Hsl & H).
    exists (path_tokens p'), props, entries, clones, codes, sl.
    split; [now apply (turbofish_ok _ _ Hp)|].
    assert (Hsel : if slot then sels = [] /\ d0 = [] else d0 = selector_entries sels).
    { destruct slot; [|now apply sels_ok]. destruct sels; [|xinv]. rewrite xret_ok in Hd. auto. }
    split; [destruct slot; [tauto|discriminate]|].
    do 6 (split; [assumption|]).
    destruct slot; rewrite xret_ok in H; subst ts.
    + unfold slot_frame. rewrite !chain_app, <- !app_assoc. reflexivity.
    + subst d0. unfold comma_ended. rewrite <- flat_map_concat_map. reflexivity.
  - intros (path & props & entries & clones & codes & sl & Hp & Hsel & H1 & H2 & H3 & H4 & Hcodes & Hsl & ->).
    destruct (turbofish_total _ _ Hp) as (p' & Hp'). apply xbind_ok. exists p'. split; auto.
    apply (turbofish_ok _ _ Hp') in Hp.
    apply xbind_ok. exists (if slot then [] else selector_entries sels). split.
    { destruct slot; [now rewrite Hsel|now apply sels_ok]. }
    apply xbind_ok. exists (chain props, (if slot then [] else selector_entries sels) ++ entries, List.concat clones).
    split; [apply comp_loop_ok; exists props, entries, clones; repeat split; auto|].
    apply xbind_ok. eexists. split; [apply children_call_ok; eauto|].
    apply xbind_ok. exists sl. split; auto.
    destruct slot; rewrite xret_ok; rewrite Hp.
    + unfold slot_frame. rewrite !chain_app, <- !app_assoc. reflexivity.
    + unfold comma_ended. rewrite <- flat_map_concat_map. reflexivity.
Qed.

Lemma nodes_opt E at_ ch : match option_map (expand_nodes E at_ 0) ch with Some l => l | None => [] end =
  expand_nodes E at_ 0 (child_list ch).
Proof. destruct ch; reflexivity. Qed.

Lemma component_frame_eq path props ch sl entries :
  component_frame path (props ++ ch ++ sl) entries =
  [sym "#"; brackets [word "allow"; parens [word "unreachable_code"]]] ++
  abs_path ["leptos"; "prelude"; "View"; "new"] ++
  [parens (abs_path ["leptos"; "component"; "component_view"] ++
     [parens (sym "&" :: path ++ sym "," ::
              abs_path ["leptos"; "component"; "component_props_builder"] ++
              [parens (sym "&" :: path)] ++
              chain props ++ chain ch ++ chain sl ++ chain [plain_call "build" []])] ++
     chain [plain_call "add_any_attr" [parens (comma_ended entries)]])].
Proof. unfold component_frame. rewrite !chain_app, <- !app_assoc. reflexivity. Qed.

(** The slots of a component, [None] without a block. *)
Lemma slots_opt_sound E at_ ch sl : env_ok E ->
  (forall e, In (CSlot e) (child_list ch) -> sound_at E e) ->
  match option_map (expand_slots E at_ 0) ch with Some l => slots_to_tokens E at_ l | None => xret [] end gives sl ->
  exists slots scalls, slots_code (child_list ch) slots /\ slot_calls slots scalls /\ sl = chain scalls.
Proof.
  intros HE He H. destruct ch as [l|]; cbn [option_map child_list] in *.
  - apply slots_sound in H; auto. destruct H as (slots & scalls & H1 & H2 & ->). exists slots, scalls.
    split; auto. eapply slots_list_sound; eauto. intros e Hin. apply He. auto.
  - rewrite xret_ok in H. subst. exists [], []. split; [constructor|]. split; [|reflexivity].
    apply slot_calls_intro with []; constructor. intros []. auto.
Qed.
Lemma slots_opt_total E at_ ch slots scalls : env_ok E ->
  (forall e, In (CSlot e) (child_list ch) -> forall at_ ts, slot_code e ts -> exists ts', expand_element E at_ true e gives ts') ->
  slots_code (child_list ch) slots -> slot_calls slots scalls ->
  exists sl, match option_map (expand_slots E at_ 0) ch with Some l => slots_to_tokens E at_ l | None => xret [] end gives sl.
Proof.
  intros HE He H1 H2. destruct ch as [l|]; cbn [option_map child_list] in *; [|eexists; reflexivity].
  destruct (slots_list_total E at_ l slots He H1 0) as (slots' & H3 & H4).
  destruct (slot_calls_names _ _ _ H4 H2) as (scalls' & H5). eapply slots_total; eauto.
Qed.

Lemma xml_none t sels attrs nodes : xml_to_tokens t sels attrs nodes = None -> exists p, t = TagComponent p.
Proof. unfold xml_to_tokens. destruct t; cbn; intros H; try discriminate; eauto. Qed.

Theorem expand_sound E e : env_ok E -> sound_at E e.
Proof.
  intros HE. induction e as [t sels attrs args ch IHe IHs] using element_children_ind. split; intros at_ ts H;
    rewrite expand_element_eq in H; unfold element_tokens in H.
  - destruct (xml_to_tokens t sels attrs (option_map (expand_nodes E at_ 0) ch)) as [x|] eqn:Hx.
    + apply (xml_ok _ _ _ _ _ _ Hx) in H. destruct H as (head & kvs & dirs & codes & Hh & H1 & H2 & H3 & ->).
      rewrite nodes_opt in H3. apply nodes_sound in H3; [|intros e Hin; now apply IHe].
      now apply ec_html.
    + apply xml_none in Hx. destruct Hx as (p & ->). apply component_ok in H.
      destruct H as (path & props & entries & clones & codes & sl & H1 & _ & H2 & H3 & _ & H4 & H5 & H6 & ->).
      rewrite nodes_opt in H5. apply nodes_sound in H5; [|intros e Hin; now apply IHe].
      apply slots_opt_sound in H6; auto. destruct H6 as (slots & scalls & H6 & H7 & ->).
      rewrite <- component_frame_eq. eapply ec_component; eauto.
  - destruct t as [i|p|i|i|k]; try discriminate H. apply component_ok in H.
    destruct H as (path & props & entries & clones & codes & sl & H1 & Hs & H2 & _ & H3 & H4 & H5 & H6 & ->).
    rewrite (Hs eq_refl). rewrite nodes_opt in H5. apply nodes_sound in H5; [|intros e Hin; now apply IHe].
    apply slots_opt_sound in H6; auto. destruct H6 as (slots & scalls & H6 & H7 & ->).
    eapply sc_slot; eauto.
Qed.

Theorem expand_total E e : env_ok E ->
  (forall at_ ts, element_code e ts -> exists ts', expand_element E at_ false e gives ts') /\
  (forall at_ ts, slot_code e ts -> exists ts', expand_element E at_ true e gives ts').
Proof.
  intros HE. induction e as [t sels attrs args ch IHe IHs] using element_children_ind. split; intros at_ ts H;
    rewrite expand_element_eq; unfold element_tokens.
  - inversion H as [t' ? ? ? ? head kvs dirs codes Hh H1 H2 H3|p ? ? ? ? path props entries clones codes slots scalls H1 H2 H3 H4 H5 H6 H7]; subst.
    + destruct (nodes_total E at_ _ _ (fun e Hin at_ ts => proj1 (IHe e Hin) at_ ts) H3 0) as (codes' & Hc).
      destruct (xml_to_tokens t sels attrs (option_map (expand_nodes E at_ 0) ch)) as [x|] eqn:Hx.
      * eexists. apply (xml_ok _ _ _ _ _ _ Hx). exists head, kvs, dirs, codes'. rewrite nodes_opt. eauto.
      * apply xml_none in Hx. destruct Hx as (p & ->). inversion Hh.
    + destruct (nodes_total E at_ _ _ (fun e Hin at_ ts => proj1 (IHe e Hin) at_ ts) H5 0) as (codes' & Hc).
      destruct (slots_opt_total E at_ ch _ _ HE (fun e Hin at_ ts => proj2 (IHs e Hin) at_ ts) H6 H7) as (sl & Hsl).
      cbn [xml_to_tokens xml_tag_path]. eexists. apply component_ok.
      exists path, props, entries, clones, codes', sl. rewrite nodes_opt.
      repeat split; eauto; discriminate.
  - inversion H as [p ? ? ? path props clones codes slots scalls H1 H2 H3 H4 H5 H6 H7]; subst.
    destruct (nodes_total E at_ _ _ (fun e Hin at_ ts => proj1 (IHe e Hin) at_ ts) H5 0) as (codes' & Hc).
    destruct (slots_opt_total E at_ ch _ _ HE (fun e Hin at_ ts => proj2 (IHs e Hin) at_ ts) H6 H7) as (sl & Hsl).
    eexists. apply component_ok.
    exists path, props, [], clones, codes', sl. rewrite nodes_opt. rewrite H3.
    repeat split; eauto.
Qed.

(** ** The whole macro *)

Lemma is_slot_iff cs : existsb is_slot cs = true <-> exists e, In (CSlot e) cs.
Proof.
  rewrite existsb_exists. split.
  - intros (c & Hin & Hc). destruct c; try discriminate. eauto.
  - intros (e & Hin). exists (CSlot e). auto.
Qed.

Theorem root_sound E cs ts : env_ok E -> root_tokens E cs gives ts -> root_code cs ts.
Proof.
  intros HE H.
  assert (Hn : forall at_ n codes, Forall2 (fun m a => m gives a) (expand_nodes E at_ n cs) codes -> nodes_code cs codes).
  { intros at_ n codes. apply nodes_sound. intros e _. apply (expand_sound E e HE). }
  assert (Hmany : List.length cs <> 1 ->
     (if existsb is_slot cs then xabort DRootSlot
      else
        l <- xseq (expand_nodes E [] 0 cs) ;;
        xret [TGroup Brace
                ([pu "#"; TGroup Bracket [kw "allow"; par [kw "unused_braces"]]]
                 ++ children_fragment_tokens l)]) gives ts -> root_code cs ts).
  { intros Hl Hr. destruct (existsb is_slot cs) eqn:Hs; [discriminate|]. xinv. apply xseq_ok in H0. apply Hn in H0.
    rewrite fragment_eq. apply rc_many; auto. intros e Hin.
    assert (existsb is_slot cs = true) by (apply is_slot_iff; eauto). congruence. }
  destruct cs as [|c [|c' cs]]; [apply Hmany; [discriminate|exact H]|clear Hmany|apply Hmany; [cbn; lia|exact H]].
  assert (Hc : (forall e, c <> CSlot e) /\ expand_nodes E [] 0 [c] = [expand_node E [0] c]).
  { destruct c; try discriminate H; split; auto; discriminate. }
  destruct Hc as [Hc He]. cbn [root_tokens] in H.
  assert (H' : (ts <- expand_node E [0] c ;;
          xret [TGroup Brace
                  ([pu "#"; TGroup Bracket [kw "allow"; par [kw "unused_braces"]]] ++ ts)]) gives ts).
  { destruct c; try discriminate H; exact H. }
  xinv. apply (rc_one c x Hc). apply (Hn [] 0). rewrite He. auto.
Qed.

Theorem root_total E cs ts : env_ok E -> root_code cs ts -> exists ts', root_tokens E cs gives ts'.
Proof.
  intros HE H. inversion H as [c code Hc Hn|? codes Hl Hs Hn]; subst.
  - apply (nodes_total E []) with (n := 0) in Hn; [|intros e _; apply (expand_total E e HE)].
    destruct Hn as (codes' & Hn). destruct c as [v|e|e]; [| |exfalso; now apply (Hc e)].
    all: inversion Hn as [|m a ? ? Hm _]; subst; eexists; cbn [root_tokens]; apply xbind_ok; eexists;
      (split; [exact Hm|reflexivity]).
  - apply (nodes_total E []) with (n := 0) in Hn; [|intros e _; apply (expand_total E e HE)].
    destruct Hn as (codes' & Hn). exists (root_frame (fragment codes')).
    assert (Hx : existsb is_slot cs = false).
    { destruct (existsb is_slot cs) eqn:Hx; auto. apply is_slot_iff in Hx. destruct Hx as (e & He). exfalso. eapply Hs; eauto. }
    assert (Hr : root_tokens E cs = if existsb is_slot cs then xabort DRootSlot
      else
        l <- xseq (expand_nodes E [] 0 cs) ;;
        xret [TGroup Brace
                ([pu "#"; TGroup Bracket [kw "allow"; par [kw "unused_braces"]]]
                 ++ children_fragment_tokens l)]).
    { destruct cs as [|c [|c' cs]]; auto. now exfalso. }
    rewrite Hr, Hx. apply xbind_ok. exists codes'. rewrite xseq_ok. split; auto. rewrite fragment_eq. reflexivity.
Qed.

Theorem mview_sound E input out : env_ok E -> wf input -> mview E input = Expanded out -> mview_spec E input out.
Proof.
  intros HE Hwf H. unfold mview in H.
  destruct (parse_children E (S (size input)) input) as [o r d] eqn:Hp.
  destruct o as [cs|e| |w|]; try discriminate.
  destruct (root_tokens E cs) as [[ts| |w] d'] eqn:Hr; try discriminate.
  destruct (d ++ d') eqn:Hd; try discriminate. apply app_nil_inv in Hd. destruct Hd; subst. inversion H; subst.
  exists cs. apply parse_children_ok in Hp; auto. split; [tauto|]. eapply root_sound; eauto.
Qed.

Theorem mview_total E input out : env_ok E -> wf input -> mview_spec E input out -> exists out', mview E input = Expanded out'.
Proof.
  intros HE Hwf (cs & Hc & Hr). destruct (root_total E cs out HE Hr) as (ts & Hts). exists ts.
  unfold mview. assert (Hp : parse_children E (S (size input)) on input >> cs, []).
  { apply parse_children_ok; auto. }
  rewrite Hp, Hts. reflexivity.
Qed.
