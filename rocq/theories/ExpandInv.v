(** Invariants of the expander: an abort has reported something, and a panic
    comes from one of the known causes in the tree. *)
From Verif Require Export ExpandFacts2.
From Coq Require Import Permutation.
Open Scope list_scope.

(** [B] is what a panic proves. *)
Record xfine {A} (B : Prop) (x : X A) : Prop := XFine {
  xfine_abort : x_out x = XAbort -> x_diags x <> [];
  xfine_panic : forall w, x_out x = XPanic w -> B
}.

Ltac xf0 := split; cbn [x_out x_diags]; [congruence || discriminate | intros; (discriminate || tauto || eauto)].
Lemma xfine_ret {A} B (a : A) : xfine B (xret a).
Proof. xf0. Qed.
Lemma xfine_emit B d : xfine B (xemit d).
Proof. xf0. Qed.
Lemma xfine_xabort {A} B d : xfine B (@xabort A d).
Proof. xf0. Qed.
Lemma xfine_xpanic {A} (B : Prop) w : B -> xfine B (@xpanic A w).
Proof. intros. xf0. Qed.
Lemma xfine_bind {A C} B (m : X A) (f : A -> X C) :
  xfine B m -> (forall a, x_out m = XRet a -> xfine B (f a)) -> xfine B (xbind m f).
Proof.
  intros [H1 H2] Hf. destruct m as [[a| |w] d]; cbn in *.
  - destruct (Hf a eq_refl) as [H3 H4]. split; cbn; auto. intros H H'. apply app_nil_inv in H'. now apply H3.
  - split; cbn; [auto|discriminate].
  - split; cbn; [discriminate|]. intros w' _. now apply (H2 w).
Qed.
Lemma xfine_seq {A} B (l : list (X A)) : Forall (xfine B) l -> xfine B (xseq l).
Proof.
  induction 1; cbn [xseq]; [apply xfine_ret|]. apply xfine_bind; auto. intros a _.
  apply xfine_bind; auto. intros. apply xfine_ret.
Qed.
Lemma xfine_imp {A} (B B' : Prop) (x : X A) : (B -> B') -> xfine B x -> xfine B' x.
Proof. intros H [H1 H2]. split; eauto. Qed.

Ltac xf := repeat match goal with
  | |- xfine _ (xret _) => apply xfine_ret
  | |- xfine _ (xemit _) => apply xfine_emit
  | |- xfine _ (xabort _) => apply xfine_xabort
  | |- xfine _ (xbind _ _) => apply xfine_bind; [|intros]
  | |- xfine _ (if ?b then _ else _) => destruct b eqn:?
  | |- xfine _ (match ?o with Some _ => _ | None => _ end) => destruct o eqn:?
  end.

(** ** Panics in a tree *)

Definition kebab_bad (k : kebab) : Prop := In (snake_name (k_repr k)) ("" :: reserved_words).
Definition key_bad (k : kebab_or_str) : Prop := exists k', k = KKebab k' /\ kebab_bad k'.
Definition attr_bad (a : attr) : Prop :=
  match a with
  | AKv kv => kebab_bad (kv_key kv)
  | ADir d => key_bad (d_key d)
  | ASpread _ => False
  end.
Definition slot_bad (e : element) : Prop :=
  (forall p, el_tag e <> TagComponent p) \/
  exists i m, el_tag e = TagComponent (Path false [PSeg i PNone]) /\ camel_snake (i_name i) m /\
              In m ("" :: reserved_words).

Inductive element_bad : element -> Prop :=
| eb_attr e : Exists attr_bad (el_attrs e) -> element_bad e
| eb_child e e' : In (CElement e') (child_list (el_children e)) -> element_bad e' -> element_bad e
| eb_slot e e' : In (CSlot e') (child_list (el_children e)) -> element_bad e' -> element_bad e
| eb_slot_name e e' : In (CSlot e') (child_list (el_children e)) -> slot_bad e' -> element_bad e.

Lemma word_dec s : {In s ("" :: reserved_words)} + {~ In s ("" :: reserved_words)}.
Proof. apply in_dec, string_dec. Qed.
Lemma xfine_snake (B : Prop) k : (kebab_bad k -> B) -> xfine B (xsnake k).
Proof.
  intros H. unfold xsnake. destruct (to_snake_ident k) as [i|] eqn:Hk; [xf|].
  apply xfine_xpanic, H. destruct (word_dec (snake_name (k_repr k))) as [|Hn]; auto.
  exfalso. assert (Hs : to_snake_ident k = Some (Id true (snake_name (k_repr k)))); [|congruence].
  apply to_snake_iff. split; auto.
Qed.
Lemma xfine_to_ident (B : Prop) k : (key_bad k -> B) -> xfine B (to_ident_or_emit k).
Proof.
  intros H. destruct k as [k|s]; cbn [to_ident_or_emit]; [|xf]. apply xfine_snake. intros Hk. apply H. red; eauto.
Qed.
Lemma xfine_value B v : xfine B (value_tokens v).
Proof. destruct v as [l|ts|[p|] ts]; cbn [value_tokens]; xf. Qed.
Lemma xfine_opt_value B v : xfine B (opt_value_tokens v).
Proof. destruct v; cbn [opt_value_tokens]; xf. apply xfine_value. Qed.
Lemma xfine_modifier B m : xfine B (emit_error_if_modifier m).
Proof. destruct m; cbn [emit_error_if_modifier]; xf. Qed.
Lemma xfine_event (B : Prop) d : String.eqb (ident_to_string (d_dir d)) "on" = true ->
  (key_bad (d_key d) -> B) -> xfine B (event_listener_event_path d).
Proof.
  intros Hd H. unfold event_listener_event_path.
  change (String.eqb (ident_to_string (d_dir d)) "on") with (ident_is (d_dir d) "on") in Hd. rewrite Hd. xf.
  destruct (d_key d) as [k|s] eqn:Hk; xf. apply xfine_snake. intros Hb. apply H. red; eauto.
Qed.
Lemma xfine_use (B : Prop) d : String.eqb (ident_to_string (d_dir d)) "use" = true ->
  (key_bad (d_key d) -> B) -> xfine B (use_directive_fn_value d).
Proof.
  intros Hd H. unfold use_directive_fn_value.
  change (String.eqb (ident_to_string (d_dir d)) "use") with (ident_is (d_dir d) "use") in Hd. rewrite Hd. xf.
  - now apply xfine_to_ident.
  - apply xfine_modifier.
  - apply xfine_value.
Qed.
Lemma xfine_html_attr (B : Prop) a k : (kebab_bad (kv_key a) -> B) -> xfine B (xml_kv_attribute_tokens a k).
Proof.
  intros H. unfold xml_kv_attribute_tokens. cbn zeta. xf; try apply xfine_value. now apply xfine_snake.
Qed.
Lemma xfine_html_dir (B : Prop) d : (key_bad (d_key d) -> B) -> xfine B (xml_directive_tokens d).
Proof.
  intros H. unfold xml_directive_tokens. cbn zeta. xf;
    try apply xfine_modifier; try apply xfine_opt_value; [now apply xfine_event|now apply xfine_use].
Qed.
Lemma xfine_html_loop (B : Prop) k l : (Exists attr_bad l -> B) -> forall acc, xfine B (xml_attr_loop k l acc).
Proof.
  induction l as [|a l IH]; intros H [[kvs dirs] sps]; cbn [xml_attr_loop]; [xf|].
  assert (IH' := IH (fun h => H (Exists_cons_tl a h))).
  destruct a; xf; auto.
  - apply xfine_html_attr. intros Hb. apply H. now left.
  - apply xfine_html_dir. intros Hb. apply H. now left.
Qed.
Lemma xfine_path (B : Prop) d m : (key_bad (d_key d) -> B) -> directive_to_any_attr_path d = Some m -> xfine B m.
Proof.
  intros H Hm. unfold directive_to_any_attr_path in Hm. cbn zeta in Hm.
  repeat match type of Hm with (if ?b then _ else _) = _ => destruct b eqn:? end; inversion Hm; subst; clear Hm;
    try destruct (attribute_kind_from _); xf; try apply xfine_value; try apply xfine_opt_value;
    try (now apply xfine_to_ident); [now apply xfine_event|now apply xfine_use].
Qed.
Lemma xfine_selectors (B : Prop) sels : xfine B (component_selectors sels).
Proof.
  unfold component_selectors. destruct (partition sel_is_class sels) as [cl ids]. xf.
  - apply xfine_seq. apply Forall_forall. intros x Hx. apply in_map_iff in Hx. destruct Hx as (s & <- & _).
    unfold directive_to_any_attr_path, class_directive. cbn. apply xfine_ret.
  - unfold directive_to_any_attr_path, id_directive. cbn. apply xfine_ret.
Qed.
Lemma xfine_comp_loop (B : Prop) slot l : (Exists attr_bad l -> B) -> forall acc, xfine B (component_attr_loop slot l acc).
Proof.
  induction l as [|a l IH]; intros H [[props dirs] clones]; cbn [component_attr_loop]; [xf|].
  assert (IH' := IH (fun h => H (Exists_cons_tl a h))).
  destruct a; xf; auto; try apply xfine_modifier; try apply xfine_value.
  - unfold component_kv_attribute_tokens. xf; [|apply xfine_value]. apply xfine_snake. intros Hb. apply H. now left.
  - unfold component_clone_tokens. xf; [|apply xfine_modifier]. apply xfine_to_ident. intros Hb. apply H. now left.
  - eapply xfine_path; [|eassumption]. intros Hb. apply H. now left.
Qed.
Lemma xfine_nodes (B : Prop) E at_ l :
  (forall e at_, In (CElement e) l -> xfine B (expand_element E at_ false e)) ->
  forall n, Forall (xfine B) (expand_nodes E at_ n l).
Proof.
  induction l as [|c l IH]; intros He n; cbn [expand_nodes]; [constructor|].
  assert (IH' := IH (fun e a Hin => He e a (or_intror Hin)) (S n)).
  destruct c as [v|e|e]; auto; constructor; auto; cbn [expand_node]; xf.
  - apply xfine_value.
  - apply He. now left.
Qed.
Lemma xfine_slot_method (B : Prop) k slots :
  (forall m, camel_snake (i_name k) m -> In m ("" :: reserved_words) -> B) -> xfine B (slot_method k slots).
Proof.
  intros H. unfold slot_method. cbn zeta.
  set (name := upper_camel_to_snake_case (i_name (unraw k))).
  assert (Hn : camel_snake (i_name k) name) by (now apply camel_iff).
  destruct (new_raw name) as [m|] eqn:Hm; [xf|]. apply xfine_xpanic. apply (H name Hn).
  destruct (word_dec name) as [|Hno]; auto. exfalso.
  assert (new_raw name = Some (Id true name)) by (apply new_raw_iff; auto). congruence.
Qed.
Lemma collect_keys l : forall m0 m, x_out (collect_slots l m0) = XRet m -> forall i, In i (map fst m) ->
  In i (map fst m0) \/ exists x, In (TagComponent (Path false [PSeg i PNone]), x) l.
Proof.
  induction l as [|[t x] l IH]; intros m0 m H i Hi; cbn [collect_slots] in H.
  - inversion H; subst. auto.
  - destruct t as [j|p|j|j|k]; try discriminate. destruct (get_ident p) as [j|] eqn:Hp.
    + apply get_ident_iff in Hp. subst p. destruct x as [[ts| |w] d]; cbn in H; try discriminate.
      destruct (IH _ _ H i Hi) as [Hk|(x & Hx)].
      * apply insert_keys in Hk. destruct Hk as [->|Hk]; auto. right. eexists. now left.
      * right. eexists. right. eauto.
    + cbn in H. destruct (IH _ _ H i Hi) as [Hk|(y & Hx)]; auto. right. eexists. right. eauto.
Qed.
Lemma xfine_collect (B : Prop) l : (forall t x, In (t, x) l -> xfine B x) ->
  (forall t x, In (t, x) l -> (forall p, t <> TagComponent p) -> B) ->
  forall m0, xfine B (collect_slots l m0).
Proof.
  intros Hx Ht. induction l as [|[t x] l IH]; intros m0; cbn [collect_slots]; [xf|].
  assert (IH' := IH (fun t x Hin => Hx t x (or_intror Hin)) (fun t x Hin => Ht t x (or_intror Hin))).
  destruct t as [j|p|j|j|k]; try (apply xfine_xpanic; eapply Ht; [now left|discriminate]).
  xf; auto. eapply Hx. now left.
Qed.
Lemma xfine_slots (B : Prop) E at_ l : env_ok E -> (forall t x, In (t, x) l -> xfine B x) ->
  (forall t x, In (t, x) l -> (forall p, t <> TagComponent p) -> B) ->
  (forall i x m, In (TagComponent (Path false [PSeg i PNone]), x) l -> camel_snake (i_name i) m ->
     In m ("" :: reserved_words) -> B) ->
  xfine B (slots_to_tokens E at_ l).
Proof.
  intros (_ & _ & HP) Hx Ht Hn. unfold slots_to_tokens.
  apply xfine_bind; [now apply xfine_collect|]. intros m Hm. xf.
  apply xfine_seq, Forall_forall. intros y Hy. apply in_map_iff in Hy. destruct Hy as (k & <- & Hk).
  apply (Permutation_in k (Permutation_sym (HP at_ (map fst m)))) in Hk.
  apply (collect_keys _ _ _ Hm) in Hk. destruct Hk as [[]|(x & Hk)].
  apply xfine_slot_method. intros m' Hm' Hb. eapply Hn; eauto.
Qed.
Lemma expand_slots_in E at_ l : forall n t x, In (t, x) (expand_slots E at_ n l) ->
  exists e at', In (CSlot e) l /\ t = el_tag e /\ x = expand_element E at' true e.
Proof.
  induction l as [|c l IH]; intros n t x H; cbn [expand_slots] in H; [destruct H|].
  destruct c as [v|e|e]; try (apply IH in H; destruct H as (e' & at' & H & H'); exists e', at'; split; [now right|auto]).
  destruct H as [H|H].
  - inversion H; subst. eexists _, _. split; [now left|auto].
  - apply IH in H; destruct H as (e' & at' & H & H'); exists e', at'; split; [now right|auto].
Qed.
Lemma xfine_turbofish (B : Prop) p : xfine B (turbofishify p).
Proof.
  unfold turbofishify. xf. apply xfine_seq, Forall_forall. intros x Hx. apply in_map_iff in Hx.
  destruct Hx as (s & <- & _). unfold turbofish_seg. destruct (seg_args s); xf.
Qed.

Theorem expand_fine E e : env_ok E -> forall slot at_, (slot = true -> exists p, el_tag e = TagComponent p) ->
  xfine (element_bad e) (expand_element E at_ slot e).
Proof.
  intros HE. induction e as [t sels attrs args ch IHe IHs] using element_children_ind. intros slot at_ Hslot.
  rewrite expand_element_eq. set (B := element_bad (Element t sels attrs args ch)).
  assert (Hattrs : Exists attr_bad attrs -> B) by (intros; now apply eb_attr).
  assert (Hnodes : Forall (xfine B) (expand_nodes E at_ 0 (child_list ch))).
  { apply xfine_nodes. intros e at' Hin. apply xfine_imp with (element_bad e).
    - intros. eapply eb_child; eauto.
    - apply IHe; auto. discriminate. }
  assert (Hcomp : forall p, t = TagComponent p -> xfine B (expect_path
    (component_to_tokens E at_ slot t sels attrs args (option_map (expand_nodes E at_ 0) ch) (option_map (expand_slots E at_ 0) ch)))).
  { intros p ->. cbn [component_to_tokens expect_path].
    apply xfine_bind; [apply xfine_turbofish|intros p' _].
    apply xfine_bind; [destruct slot; [destruct sels; xf|apply xfine_selectors]|intros dirs0 _].
    apply xfine_bind; [now apply xfine_comp_loop|intros [[props dirs] clones] _].
    apply xfine_bind.
    { destruct ch as [l|]; cbn [option_map child_list] in *; [|xf].
      destruct (expand_nodes E at_ 0 l); [xf|]. unfold component_children_tokens. xf. now apply xfine_seq. }
    intros chs _. apply xfine_bind.
    { destruct ch as [l|]; cbn [option_map child_list] in *; [|xf]. apply xfine_slots; auto.
      - intros t x Hin. apply expand_slots_in in Hin. destruct Hin as (e & at' & Hin & -> & ->).
        destruct (el_tag e) as [i|q|i|i|k] eqn:Ht.
        2: { apply xfine_imp with (element_bad e); [intros; eapply eb_slot; eauto|apply IHs; auto; eauto]. }
        all: split; [|intros; eapply eb_slot_name; eauto; left; rewrite Ht; discriminate].
        all: destruct e as [t' ? ? ? ?]; cbn in Ht; subst t'; rewrite expand_element_eq; cbn; discriminate.
      - intros t x Hin Ht. apply expand_slots_in in Hin. destruct Hin as (e & at' & Hin & -> & ->).
        eapply eb_slot_name; [exact Hin|]. now left.
      - intros i x m Hin Hm Hb. apply expand_slots_in in Hin. destruct Hin as (e & at' & Hin & He & ->).
        eapply eb_slot_name; [exact Hin|]. right. eauto 10. }
    intros sl _. destruct slot; xf. }
  unfold element_tokens. destruct slot.
  - destruct (Hslot eq_refl) as (p & Hp). eapply Hcomp; eauto.
  - destruct (xml_to_tokens t sels attrs (option_map (expand_nodes E at_ 0) ch)) as [x|] eqn:Hx.
    + unfold xml_to_tokens in Hx. destruct (xml_tag_path t) as [tp|]; [|discriminate]. inversion Hx; subst x.
      apply xfine_bind; [now apply xfine_html_loop|intros [[kvs dirs] sps] _]. xf.
      destruct ch as [l'|]; cbn [option_map child_list] in *; [|discriminate].
      match goal with H : Some _ = Some ?l |- xfine _ (_ ?l) => inversion H; subst l end.
      unfold xml_child_methods_tokens. xf. now apply xfine_seq.
    + apply xml_none in Hx. destruct Hx as (p & Hp). eapply Hcomp; eauto.
Qed.

Definition children_bad (cs : list child) : Prop := exists e, In (CElement e) cs /\ element_bad e.

Theorem root_fine E cs : env_ok E -> xfine (children_bad cs) (root_tokens E cs).
Proof.
  intros HE.
  assert (Hn : forall n at_, Forall (xfine (children_bad cs)) (expand_nodes E at_ n cs)).
  { intros n at_. apply xfine_nodes. intros e at' Hin. apply xfine_imp with (element_bad e); [red; eauto|].
    apply expand_fine; auto. discriminate. }
  destruct cs as [|c [|c' cs]]; cbn [root_tokens].
  - xf. now apply xfine_seq.
  - specialize (Hn 0 []). destruct c; cbn [expand_nodes] in Hn; inversion Hn; subst; xf; auto.
  - xf. now apply xfine_seq.
Qed.
