(** The reports of the expansion, and trees without rejected attributes. *)
From Verif Require Export ExpandFacts2 Report.
From Verif Require Import SpecOut SpecReports.
Open Scope list_scope.
Open Scope expand_scope.

(** ** Words *)

Lemma is_word_eq i s : (forall n, String.eqb (String "r" (String "#" n)) s = false) ->
  is_word i s = ident_is i s.
Proof.
  intros Hs. unfold is_word, ident_is. destruct i as [[] n]; unfold ident_to_string; cbn [i_raw i_name append]; destruct (ident_dec _ _) as [H|H].
  - discriminate H.
  - symmetry. apply Hs.
  - inversion H; subst. symmetry. apply String.eqb_refl.
  - symmetry. apply String.eqb_neq. congruence.
Qed.
Lemma is_custom_eq s : is_custom s = contains_dash s && negb (starts_with "aria-" s).
Proof.
  unfold is_custom. f_equal.
  - induction s as [|c s IH]; auto. cbn [chars list_ascii_of_string existsb contains_dash]. rewrite <- IH. now rewrite Ascii.eqb_sym.
  - f_equal. generalize "aria-" as p. intros p. revert s. induction p as [|a p IH]; intros [|b s]; cbn [prefix starts_with]; auto.
    rewrite <- IH. destruct (ascii_dec a b) as [->|Hn]; [now rewrite Ascii.eqb_refl|].
    apply Ascii.eqb_neq in Hn. now rewrite Hn.
Qed.

(** ** Reports *)

(** If the expansion succeeds, it has reported [ds]. *)
Definition says {A} (m : X A) (ds : list diag) : Prop :=
  forall a, x_out m = XRet a -> x_diags m = ds.
Lemma says_ret {A} (a : A) : says (xret a) [].
Proof. intros ? _. reflexivity. Qed.
Lemma says_emit d : says (xemit d) [d].
Proof. intros ? _. reflexivity. Qed.
Lemma says_panic {A} w ds : says (@xpanic A w) ds.
Proof. intros ? H. discriminate H. Qed.
Lemma says_abort {A} d ds : says (@xabort A d) ds.
Proof. intros ? H. discriminate H. Qed.
Lemma says_bind {A B} (m : X A) (f : A -> X B) d1 d2 :
  says m d1 -> (forall a, says (f a) d2) -> says (xbind m f) (d1 ++ d2).
Proof.
  intros Hm Hf b. destruct m as [[a| |w] d]; cbn; try discriminate. intros H.
  specialize (Hm a eq_refl). cbn in Hm. subst d. f_equal. eapply Hf; eauto.
Qed.
Lemma says_bind_ret {A B} (m : X A) (f : A -> B) d : says m d -> says (xbind m (fun a => xret (f a))) d.
Proof. intros H. rewrite <- (app_nil_r d). apply says_bind; auto. intros. apply says_ret. Qed.
Lemma says_bind_quiet {A B} (m : X A) (f : A -> X B) d : says m [] -> (forall a, says (f a) d) -> says (xbind m f) d.
Proof. intros H Hf. change d with ([] ++ d). now apply says_bind. Qed.
Lemma says_seq {A} (l : list (X A)) ds : Forall2 says l ds -> says (xseq l) (List.concat ds).
Proof.
  induction 1; cbn [xseq List.concat]; [apply says_ret|]. apply says_bind; auto. intros a. now apply says_bind_ret.
Qed.
Ltac sy := repeat match goal with
  | |- says (xret _) [] => apply says_ret
  | |- says (xemit _) [_] => apply says_emit
  | |- says (xpanic _) _ => apply says_panic
  | |- says (xabort _) _ => apply says_abort
  | |- says (if ?b then _ else _) (if ?b then _ else _) => destruct b
  | |- says (xbind _ (fun _ => xret _)) _ => apply says_bind_ret
  end.

Lemma says_value v : says (value_tokens v) (value_reports v).
Proof.
  destruct v as [| |[p|] ts]; cbn [value_tokens value_reports]; sy.
  rewrite is_word_eq by reflexivity. sy.
Qed.
Lemma says_opt v : says (opt_value_tokens v) (opt_reports v).
Proof. destruct v; cbn; [apply says_value|sy]. Qed.
Lemma says_or_true v : says (value_tokens (value_or_true v)) (opt_reports v).
Proof. destruct v; cbn [value_or_true opt_reports]; [apply says_value|]. apply (says_value new_true). Qed.
Lemma says_snake k : says (xsnake k) [].
Proof. unfold xsnake. destruct (to_snake_ident k); sy. Qed.
Lemma says_ident k : says (to_ident_or_emit k) (key_reports k).
Proof. destruct k; cbn [to_ident_or_emit key_reports]; sy. apply says_snake. Qed.
Lemma says_modifier m : says (emit_error_if_modifier m) (modifier_reports m).
Proof. destruct m; cbn; sy. Qed.
#[local] Hint Resolve says_value says_opt says_or_true says_snake says_ident says_modifier : says.
Lemma says_use d : says (use_directive_fn_value d) (use_reports d).
Proof.
  unfold use_directive_fn_value, use_reports. apply says_bind_quiet; [destruct (ident_is _ _); sy|intros _].
  apply says_bind; auto with says. intros f. apply says_bind; auto with says. intros _.
  destruct (d_value d); cbn [opt_reports]; sy; auto with says.
Qed.
Lemma says_event d : says (event_listener_event_path d) (event_reports d).
Proof.
  unfold event_listener_event_path, event_reports. apply says_bind_quiet; [destruct (ident_is _ _); sy|intros _].
  apply says_bind; [destruct (d_key d); sy; auto with says|]. intros f. destruct (d_modifier d); sy.
  rewrite is_word_eq by reflexivity. sy.
Qed.
#[local] Hint Resolve says_use says_event : says.
Lemma says_html_attr a k : says (xml_kv_attribute_tokens a k) (value_reports (kv_value a)).
Proof.
  unfold xml_kv_attribute_tokens. destruct (String.eqb _ _); sy; auto with says.
  cbn zeta. destruct (_ && _); sy; auto with says. apply says_bind_quiet; auto with says. intros i. sy. auto with says.
Qed.
Lemma named_eq d s : (forall n, String.eqb (String "r" (String "#" n)) s = false) ->
  named d s = String.eqb (ident_to_string (d_dir d)) s.
Proof. apply is_word_eq. Qed.
Ltac names := rewrite ?named_eq by reflexivity.
Lemma says_html_dir d : says (xml_directive_tokens d) (html_dir_reports d).
Proof.
  unfold xml_directive_tokens, html_dir_reports. cbn zeta. names.
  set (name := ident_to_string (d_dir d)).
  destruct (String.eqb name "class" || String.eqb name "style"); cbn [orb].
  { apply says_bind; auto with says. intros _. sy. auto with says. }
  destruct (String.eqb name "prop").
  { apply says_bind; auto with says. intros _. sy. auto with says. }
  destruct (String.eqb name "on"). { apply says_bind; auto with says. intros p. sy. auto with says. }
  destruct (String.eqb name "use"). { sy. auto with says. }
  destruct (_ || _); sy.
Qed.
Lemma says_html_loop k l : forall acc, says (xml_attr_loop k l acc) (flat_map (attr_reports OnHtml) l).
Proof.
  induction l as [|a l IH]; intros [[x y] z]; cbn [xml_attr_loop flat_map]; sy.
  destruct a; cbn [attr_reports].
  - apply says_bind; auto using says_html_attr.
  - apply says_bind; auto using says_html_dir.
  - apply IH.
Qed.
Lemma says_path d : match directive_to_any_attr_path d with
  | Some m => String.eqb (ident_to_string (d_dir d)) "clone" = false -> says m (component_dir_reports d)
  | None => String.eqb (ident_to_string (d_dir d)) "clone" = false -> component_dir_reports d = [DUnknownDirective]
  end.
Proof.
  unfold directive_to_any_attr_path, component_dir_reports. cbn zeta. names. set (name := ident_to_string (d_dir d)).
  destruct (String.eqb name "class" || String.eqb name "style"). { intros ->. sy. auto with says. }
  destruct (String.eqb name "attr").
  { intros ->. rewrite is_custom_eq. unfold attribute_kind_from. change (key_text (d_key d)) with (key_string (d_key d)).
    destruct (String.eqb_spec (key_string (d_key d)) "class") as [->|_].
    { apply says_bind; [apply says_ident|]. intros i. sy. auto with says. }
    destruct (String.eqb_spec (key_string (d_key d)) "style") as [->|_].
    { apply says_bind; [apply says_ident|]. intros i. sy. auto with says. }
    destruct (_ && _). { sy. cbn [app]. auto with says. }
    apply says_bind; auto with says. intros i. sy. auto with says. }
  destruct (String.eqb name "prop"). { intros ->. apply says_bind; auto with says. intros i. sy. auto with says. }
  destruct (String.eqb name "on"). { intros ->. apply says_bind; auto with says. intros i. sy. auto with says. }
  destruct (String.eqb name "use"). { intros ->. sy. auto with says. }
  now intros ->.
Qed.
Lemma says_selectors s : says (component_selectors s) [].
Proof.
  unfold component_selectors. destruct (partition sel_is_class s) as [cl ids]. apply says_bind_quiet.
  - assert (H : forall l : list selector, says (xseq (map (fun s => expect_path (directive_to_any_attr_path (class_directive (sel_kebab s)))) l)) []).
    { induction l; cbn [map xseq]; sy. apply says_bind_quiet; [intros ? _; reflexivity|]. intros b. sy. auto. }
    apply H.
  - intros a. destruct ids; sy. intros ? _; reflexivity.
Qed.
Lemma says_clone d : says (emit_error_if_modifier (d_modifier d) ;;; component_clone_tokens d) (clone_reports d).
Proof.
  unfold component_clone_tokens, clone_reports. apply says_bind; auto with says. intros _.
  apply says_bind; auto with says. intros i. apply says_bind; auto with says. intros _. sy.
Qed.
Lemma bind_assoc {A B C} (m : X A) (f : A -> X B) (g : B -> X C) :
  xbind (xbind m f) g = xbind m (fun a => xbind (f a) g).
Proof.
  destruct m as [[a| |w] d]; cbn; auto. destruct (f a) as [[b| |w] d']; cbn; auto. now rewrite app_assoc.
Qed.
Definition comp_role (slot : bool) : role := if slot then OnSlot else OnComponent.
Lemma says_comp_loop slot l : forall acc, says (component_attr_loop slot l acc) (flat_map (attr_reports (comp_role slot)) l).
Proof.
  induction l as [|a l IH]; intros [[x y] z]; cbn [component_attr_loop flat_map]; sy.
  destruct a as [kv|d|s]; cbn [attr_reports].
  - apply says_bind; auto. unfold component_kv_attribute_tokens. apply says_bind_quiet; auto with says. intros i. sy. auto with says.
  - destruct (String.eqb (ident_to_string (d_dir d)) "clone") eqn:Hc.
    + replace (match comp_role slot with OnHtml => html_dir_reports d | OnComponent => component_dir_reports d | OnSlot => slot_dir_reports d end)
        with (clone_reports d).
      * rewrite <- bind_assoc. apply says_bind; auto. apply says_clone.
      * destruct slot; cbn [comp_role]; unfold slot_dir_reports, component_dir_reports; names; now rewrite Hc.
    + destruct slot; cbn [comp_role].
      * unfold slot_dir_reports. names. rewrite Hc. apply says_bind; auto. sy.
      * assert (Hp := says_path d). destruct (directive_to_any_attr_path d) as [m|].
        -- apply says_bind; auto.
        -- rewrite Hp by auto. apply says_bind; auto. sy.
  - destruct slot; cbn [comp_role]; [apply says_bind; auto; sy|apply IH].
Qed.
Lemma says_slot_method k s : says (slot_method k s) [].
Proof. unfold slot_method. cbn zeta. destruct (new_raw _); sy. Qed.
Definition slot_item_reports (e : element) : list diag :=
  if single_name (el_tag e) then element_reports true e else [DSlotPath].
Lemma says_collect E at_ l : (forall e at_, In (CSlot e) l -> says (expand_element E at_ true e) (element_reports true e)) ->
  forall n m, says (collect_slots (expand_slots E at_ n l) m)
    (flat_map (fun c => match c with CSlot e => slot_item_reports e | _ => [] end) l).
Proof.
  induction l as [|c l IH]; intros H n m; cbn [expand_slots collect_slots flat_map]; sy.
  assert (IH' := IH (fun e at_ Hin => H e at_ (or_intror Hin))).
  destruct c as [v|e|e]; cbn [app]; auto. cbn [collect_slots]. unfold slot_item_reports, single_name.
  destruct (el_tag e) as [i|p|i|i|k]; sy. unfold get_ident. destruct p as [[] [|[i []] [|]]];
    try (apply says_bind; [apply says_emit|intros _; apply IH']).
  apply says_bind; auto. apply H. now left.
Qed.
Lemma says_slots E at_ l ds : (forall m, says (collect_slots l m) ds) -> says (slots_to_tokens E at_ l) ds.
Proof.
  intros H. unfold slots_to_tokens. rewrite <- (app_nil_r ds). apply says_bind; auto. intros m. sy.
  generalize (slot_order E at_ (map fst m)) as ks. induction ks as [|k ks IH]; cbn [map xseq]; sy.
  apply says_bind_quiet; [apply says_slot_method|]. intros a. now sy.
Qed.
Lemma says_nodes E l : (forall e at_, In (CElement e) l -> says (expand_element E at_ false e) (element_reports false e)) ->
  forall at_ n, says (xseq (expand_nodes E at_ n l)) (flat_map child_reports l).
Proof.
  induction l as [|c l IH]; intros H at_ n; cbn [expand_nodes flat_map xseq]; sy.
  assert (IH' := IH (fun e at_ Hin => H e at_ (or_intror Hin))).
  destruct c as [v|e|e]; cbn [child_reports app]; auto; cbn [xseq expand_node]; apply says_bind; sy; auto with says; intros a; sy; auto.
  apply H. now left.
Qed.
Lemma says_turbofish p : says (turbofishify p) [].
Proof.
  unfold turbofishify. sy. induction (segs p) as [|s l IH]; cbn [map xseq]; sy.
  apply says_bind_quiet; [|intros a; now sy]. unfold turbofish_seg. destruct (seg_args s); sy.
Qed.
Lemma element_reports_eq slot t sels attrs args ch :
  element_reports slot (Element t sels attrs args ch) =
  selector_reports (role_of slot t) sels ++ flat_map (attr_reports (role_of slot t)) attrs ++
  flat_map child_reports (child_list ch) ++
  match role_of slot t with
  | OnHtml => []
  | _ => flat_map (fun c => match c with CSlot e => slot_item_reports e | _ => [] end) (child_list ch)
  end.
Proof.
  cbn [element_reports]. f_equal. f_equal. destruct ch as [l|]; cbn [child_list].
  2: { cbn [flat_map app]. now destruct (role_of slot t). }
  f_equal.
  - induction l as [|[v|e|e] l IH]; cbn [flat_map child_reports app]; auto; now rewrite IH.
  - destruct (role_of slot t); auto;
    (induction l as [|[v|e|e] l IH]; cbn [flat_map child_reports app]; auto; rewrite IH; reflexivity).
Qed.
Lemma says_element E e : forall at_ slot, says (expand_element E at_ slot e) (element_reports slot e).
Proof.
  induction e as [t sels attrs args ch IHe IHs] using element_children_ind. intros at_ slot.
  assert (Hn := says_nodes E (child_list ch) (fun e at_ Hin => IHe e Hin at_ false)).
  assert (Hs := fun at_ => says_collect E at_ (child_list ch) (fun e at_ Hin => IHs e Hin at_ true)).
  rewrite expand_element_eq, element_reports_eq. unfold element_tokens.
  assert (Hcomp : forall p, t = TagComponent p -> says (expect_path (component_to_tokens E at_ slot t sels attrs args
    (option_map (expand_nodes E at_ 0) ch) (option_map (expand_slots E at_ 0) ch)))
    (selector_reports (comp_role slot) sels ++ flat_map (attr_reports (comp_role slot)) attrs ++
     flat_map child_reports (child_list ch) ++
     flat_map (fun c => match c with CSlot e => slot_item_reports e | _ => [] end) (child_list ch))).
  { intros p ->. cbn [component_to_tokens expect_path]. apply says_bind_quiet; [apply says_turbofish|intros p'].
    apply says_bind.
    { destruct slot; cbn [comp_role selector_reports]; [destruct sels; sy|]. apply says_selectors. }
    intros dirs0. apply says_bind; [apply says_comp_loop|]. intros [[props dirs] clones].
    apply says_bind.
    { specialize (Hn at_ 0). destruct ch as [l|]; cbn [option_map child_list flat_map] in *; [|sy].
      destruct (expand_nodes E at_ 0 l) as [|x ns]; [intros ? _; exact (Hn [] eq_refl)|]. unfold component_children_tokens. sy. exact Hn. }
    intros c. rewrite <- (app_nil_r (flat_map _ (child_list ch))). apply says_bind.
    { destruct ch as [l|]; cbn [option_map child_list flat_map] in *; [|sy]. apply says_slots. apply Hs. }
    intros sl. destruct slot; sy. }
  unfold role_of. destruct slot.
  - destruct t as [i|p|i|i|k]; try (apply says_panic). exact (Hcomp p eq_refl).
  - assert (Hx : forall tp, xml_tag_path t = Some tp -> says (match xml_to_tokens t sels attrs (option_map (expand_nodes E at_ 0) ch) with
      | Some x => x | None => expect_path (component_to_tokens E at_ false t sels attrs args (option_map (expand_nodes E at_ 0) ch) (option_map (expand_slots E at_ 0) ch)) end)
      (flat_map (attr_reports OnHtml) attrs ++ flat_map child_reports (child_list ch) ++ [])).
    { intros tp Htp. unfold xml_to_tokens. rewrite Htp. apply says_bind; [apply says_html_loop|]. intros [[kvs dirs] sps].
      apply says_bind; [|intros; sy]. specialize (Hn at_ 0). destruct ch as [l|]; cbn [option_map child_list flat_map] in *; [|sy].
      unfold xml_child_methods_tokens. sy. exact Hn. }
    destruct t as [i|p|i|i|k]; cbn [selector_reports app]; try (eapply Hx; reflexivity). exact (Hcomp p eq_refl).
Qed.
Lemma no_slot_same cs : existsb (fun c => match c with CSlot _ => true | _ => false end) cs = existsb is_slot cs.
Proof. reflexivity. Qed.
Lemma says_root E cs : says (root_tokens E cs) (view_reports cs).
Proof.
  unfold root_tokens, view_reports. change (existsb (fun c => match c with CSlot _ => true | _ => false end) cs) with (existsb is_slot cs).
  assert (Hn : forall at_ n, says (xseq (expand_nodes E at_ n cs)) (flat_map child_reports cs)).
  { apply says_nodes. intros. apply says_element. }
  destruct cs as [|c [|c' cs]].
  - cbn [existsb]. sy. exact (Hn [] 0).
  - destruct c as [v|e|e]; cbn [existsb is_slot orb flat_map child_reports expand_node]; rewrite ?app_nil_r; sy.
    + apply says_value.
    + apply says_element.
  - destruct (existsb is_slot (c :: c' :: cs)); sy. exact (Hn [] 0).
Qed.

(** ** Trees without rejected attributes *)

(** The same outcome, without the reports of rejections. *)
Definition cleaner {A} (m m' : X A) : Prop := x_out m' = x_out m /\ x_diags m' = others (x_diags m).
Lemma others_app a b : others (a ++ b) = others a ++ others b.
Proof. apply filter_app. Qed.
Lemma cleaner_ret {A} (a : A) : cleaner (xret a) (xret a).
Proof. split; reflexivity. Qed.
Lemma cleaner_panic {A} w : cleaner (@xpanic A w) (xpanic w).
Proof. split; reflexivity. Qed.
Lemma cleaner_emit d : rejection d = false -> cleaner (xemit d) (xemit d).
Proof. intros H. split; cbn; auto. unfold others; cbn. now rewrite H. Qed.
Lemma cleaner_abort {A} d : rejection d = false -> cleaner (@xabort A d) (xabort d).
Proof. intros H. split; cbn; auto. unfold others; cbn. now rewrite H. Qed.
Lemma cleaner_bind {A B} (m m' : X A) (f f' : A -> X B) :
  cleaner m m' -> (forall a, cleaner (f a) (f' a)) -> cleaner (xbind m f) (xbind m' f').
Proof.
  intros [H1 H2] Hf. destruct m as [[a| |w] d], m' as [o' d']; cbn in H1, H2; subst; cbn; try (split; reflexivity).
  destruct (Hf a) as [H3 H4]. split; cbn; auto. now rewrite H4, others_app.
Qed.
(** A rejected piece. *)
Lemma cleaner_drop {B} d (f : unit -> X B) m' : rejection d = true -> cleaner (f Datatypes.tt) m' -> cleaner (xbind (xemit d) f) m'.
Proof. intros Hd [H1 H2]. split; cbn; auto. rewrite H2. unfold others. cbn. now rewrite Hd. Qed.
Lemma cleaner_seq {A} (l l' : list (X A)) : Forall2 cleaner l l' -> cleaner (xseq l) (xseq l').
Proof.
  induction 1; cbn [xseq]; [apply cleaner_ret|]. apply cleaner_bind; auto. intros a.
  apply cleaner_bind; auto. intros. apply cleaner_ret.
Qed.
Ltac cl := repeat match goal with
  | |- cleaner (xret _) (xret _) => apply cleaner_ret
  | |- cleaner (xpanic _) (xpanic _) => apply cleaner_panic
  | |- cleaner (xemit _) (xemit _) => apply cleaner_emit; reflexivity
  | |- cleaner (xabort _) (xabort _) => apply cleaner_abort; reflexivity
  | |- cleaner (if ?b then _ else _) (if ?b then _ else _) => destruct b
  | |- cleaner (xbind _ _) (xbind _ _) => apply cleaner_bind; [|intros]
  end.
Lemma cleaner_value v : cleaner (value_tokens v) (value_tokens v).
Proof. destruct v as [| |[p|] ts]; cbn [value_tokens]; cl. Qed.
Lemma cleaner_opt v : cleaner (opt_value_tokens v) (opt_value_tokens v).
Proof. destruct v; cbn [opt_value_tokens]; [apply cleaner_value|cl]. Qed.
Lemma cleaner_snake k : cleaner (xsnake k) (xsnake k).
Proof. unfold xsnake. destruct (to_snake_ident k); cl. Qed.
Lemma cleaner_ident k : cleaner (to_ident_or_emit k) (to_ident_or_emit k).
Proof. destruct k; cbn [to_ident_or_emit]; cl. apply cleaner_snake. Qed.
Lemma cleaner_modifier m : cleaner (emit_error_if_modifier m) (emit_error_if_modifier None).
Proof. destruct m; cbn; split; reflexivity. Qed.
#[local] Hint Resolve cleaner_value cleaner_opt cleaner_snake cleaner_ident cleaner_modifier : cleaner.
Lemma cleaner_use d : cleaner (use_directive_fn_value d) (use_directive_fn_value (no_modifier d)).
Proof.
  unfold use_directive_fn_value. cbn [no_modifier d_dir d_key d_modifier d_value]. cl; auto with cleaner.
  destruct (d_value d); cl; auto with cleaner.
Qed.
Lemma known_dir d : d_dir (known_modifier d) = d_dir d.
Proof. unfold known_modifier. destruct (d_modifier d); auto. now destruct (is_word _ _). Qed.
Lemma known_key d : d_key (known_modifier d) = d_key d.
Proof. unfold known_modifier. destruct (d_modifier d); auto. now destruct (is_word _ _). Qed.
Lemma known_value d : d_value (known_modifier d) = d_value d.
Proof. unfold known_modifier. destruct (d_modifier d); auto. now destruct (is_word _ _). Qed.
Lemma cleaner_event d : cleaner (event_listener_event_path d) (event_listener_event_path (known_modifier d)).
Proof.
  unfold event_listener_event_path. rewrite known_dir, known_key. cl. { destruct (d_key d); cl; auto with cleaner. }
  unfold known_modifier. destruct (d_modifier d) as [m|] eqn:Hm; [|rewrite Hm; cl].
  rewrite is_word_eq by reflexivity. destruct (ident_is m "undelegated") eqn:Hi; [rewrite Hm, Hi; cl|].
  cbn [no_modifier d_modifier]. apply cleaner_drop; [reflexivity|cl].
Qed.
#[local] Hint Resolve cleaner_use cleaner_event : cleaner.
Lemma cleaner_html_attr a k : cleaner (xml_kv_attribute_tokens a k) (xml_kv_attribute_tokens a k).
Proof. unfold xml_kv_attribute_tokens. cbn zeta. cl; auto with cleaner. Qed.
(** A kept directive has the name of the original. *)
Lemma tidy_dir_name r d d' : tidy_dir r d = Some d' -> d_dir d' = d_dir d.
Proof.
  unfold tidy_dir. destruct r; repeat (match goal with |- (if ?b then _ else _) = _ -> _ => destruct b end);
    intros H; inversion H; subst; try reflexivity; apply known_dir.
Qed.
Lemma cleaner_html_dir d : match tidy_dir OnHtml d with
  | Some d' => cleaner (xml_directive_tokens d) (xml_directive_tokens d')
  | None => exists x, rejection x = true /\ xml_directive_tokens d = (xemit x ;;; xret [])
  end.
Proof.
  destruct (tidy_dir OnHtml d) as [d'|] eqn:Ht.
  - assert (Hn := tidy_dir_name _ _ _ Ht). unfold xml_directive_tokens. cbn zeta. rewrite Hn.
    unfold tidy_dir in Ht. rewrite ?named_eq in Ht by reflexivity. set (name := ident_to_string (d_dir d)) in *.
    destruct (String.eqb name "class") eqn:H1; cbn [orb] in Ht |- *.
    { inversion Ht; subst. cbn [no_modifier d_dir d_key d_modifier d_value]. cl; auto with cleaner. }
    destruct (String.eqb name "style") eqn:H2; cbn [orb] in Ht |- *.
    { inversion Ht; subst. cbn [no_modifier d_dir d_key d_modifier d_value]. cl; auto with cleaner. }
    destruct (String.eqb name "prop") eqn:H3; cbn [orb] in Ht |- *.
    { inversion Ht; subst. cbn [no_modifier d_dir d_key d_modifier d_value]. cl; auto with cleaner. }
    destruct (String.eqb name "on") eqn:H4.
    { apply String.eqb_eq in H4. rewrite H4 in Ht. cbn in Ht. inversion Ht; subst. rewrite known_value. cl; auto with cleaner. }
    destruct (String.eqb name "use") eqn:H5; [|discriminate].
    inversion Ht; subst. cl; auto with cleaner.
  - unfold tidy_dir in Ht. rewrite ?named_eq in Ht by reflexivity. unfold xml_directive_tokens. cbn zeta.
    set (name := ident_to_string (d_dir d)) in *.
    destruct (String.eqb name "class" || String.eqb name "style"); cbn [orb] in *; [discriminate|].
    destruct (String.eqb name "prop"); cbn [orb] in *; [discriminate|].
    destruct (String.eqb name "use"); cbn [orb] in *; [discriminate|].
    destruct (String.eqb name "on"); cbn [orb] in *; [discriminate|].
    destruct (_ || _); [exists (DNotOnElements name)|exists DUnknownDirective]; auto.
Qed.
Lemma cleaner_html_loop k l : forall acc, cleaner (xml_attr_loop k l acc) (xml_attr_loop k (flat_map (tidy_attr OnHtml) l) acc).
Proof.
  induction l as [|a l IH]; intros [[x y] z]; cbn [xml_attr_loop flat_map]; [cl|].
  destruct a as [kv|d|s]; cbn [tidy_attr].
  - cbn [app xml_attr_loop]. cl; auto using cleaner_html_attr.
  - assert (Hd := cleaner_html_dir d). destruct (tidy_dir OnHtml d) as [d'|].
    + cbn [app xml_attr_loop]. cl; auto.
    + destruct Hd as (q & Hq & ->). cbn [app]. rewrite bind_assoc. apply cleaner_drop; auto. cbn [xbind xret x_out x_diags app].
      rewrite app_nil_r. specialize (IH (x, y, z)). destruct (xml_attr_loop k l (x, y, z)); exact IH.
  - cbn [app xml_attr_loop]. apply IH.
Qed.

(** On a component or slot. *)
Lemma cleaner_path d d' : tidy_dir OnComponent d = Some d' ->
  String.eqb (ident_to_string (d_dir d)) "clone" = false ->
  exists m m', directive_to_any_attr_path d = Some m /\ directive_to_any_attr_path d' = Some m' /\ cleaner m m'.
Proof.
  intros Ht Hc. assert (Hn := tidy_dir_name _ _ _ Ht). unfold directive_to_any_attr_path. cbn zeta. rewrite Hn.
  unfold tidy_dir in Ht. rewrite ?named_eq in Ht by reflexivity. set (name := ident_to_string (d_dir d)) in *.
  rewrite Hc in Ht.
  destruct (String.eqb name "class" || String.eqb name "style"); cbn [orb] in Ht.
  { inversion Ht; subst. do 2 eexists. split; [reflexivity|]. split; [reflexivity|]. cl. auto with cleaner. }
  destruct (String.eqb name "attr"); cbn [orb] in Ht.
  { inversion Ht; subst. do 2 eexists. split; [reflexivity|]. split; [reflexivity|].
    destruct (attribute_kind_from _); cl; auto with cleaner. }
  destruct (String.eqb name "prop"); cbn [orb] in Ht.
  { inversion Ht; subst. do 2 eexists. split; [reflexivity|]. split; [reflexivity|]. cl; auto with cleaner. }
  destruct (String.eqb name "on").
  { inversion Ht; subst. do 2 eexists. split; [reflexivity|]. split; [reflexivity|]. rewrite known_value. cl; auto with cleaner. }
  destruct (String.eqb name "use"); [|discriminate].
  inversion Ht; subst. do 2 eexists. split; [reflexivity|]. split; [reflexivity|]. cl; auto with cleaner.
Qed.
Lemma cleaner_no_path d : tidy_dir OnComponent d = None ->
  String.eqb (ident_to_string (d_dir d)) "clone" = false /\ directive_to_any_attr_path d = None.
Proof.
  intros Ht. unfold tidy_dir in Ht. rewrite ?named_eq in Ht by reflexivity. unfold directive_to_any_attr_path. cbn zeta.
  set (name := ident_to_string (d_dir d)) in *. destruct (String.eqb name "clone"); [discriminate|]. split; auto.
  destruct (String.eqb name "class" || String.eqb name "style"); cbn [orb] in *; [discriminate|].
  destruct (String.eqb name "attr"); cbn [orb] in *; [discriminate|].
  destruct (String.eqb name "prop"); cbn [orb] in *; [discriminate|].
  destruct (String.eqb name "on"); cbn [orb] in *; [discriminate|].
  destruct (String.eqb name "use"); cbn [orb] in *; [discriminate|]. reflexivity.
Qed.
Lemma cleaner_clone d : cleaner (component_clone_tokens d) (component_clone_tokens (only_key d)).
Proof.
  unfold component_clone_tokens. cbn [only_key d_dir d_key d_modifier d_value]. cl; auto with cleaner.
  destruct (d_value d); split; reflexivity.
Qed.
Lemma cleaner_comp_loop slot l : forall acc,
  cleaner (component_attr_loop slot l acc) (component_attr_loop slot (flat_map (tidy_attr (comp_role slot)) l) acc).
Proof.
  induction l as [|a l IH]; intros [[x y] z]; cbn [component_attr_loop flat_map]; [cl|].
  destruct a as [kv|d|s]; cbn [tidy_attr].
  - cbn [app component_attr_loop]. unfold component_kv_attribute_tokens. cl; auto with cleaner.
  - destruct (String.eqb (ident_to_string (d_dir d)) "clone") eqn:Hc.
    + assert (tidy_dir (comp_role slot) d = Some (only_key d)) as ->.
      { destruct slot; cbn [comp_role tidy_dir]; rewrite named_eq by reflexivity; now rewrite Hc. }
      cbn [app component_attr_loop]. change (d_dir (only_key d)) with (d_dir d). rewrite Hc. cl; auto using cleaner_clone.
      apply cleaner_modifier.
    + destruct slot; cbn [comp_role].
      * assert (tidy_dir OnSlot d = None) as ->. { cbn [tidy_dir]. rewrite named_eq by reflexivity. now rewrite Hc. }
        cbn [app]. apply cleaner_drop; [reflexivity|apply IH].
      * destruct (tidy_dir OnComponent d) as [d'|] eqn:Ht.
        -- cbn [app component_attr_loop]. rewrite (tidy_dir_name _ _ _ Ht), Hc.
           destruct (cleaner_path _ _ Ht Hc) as (m & m' & -> & -> & Hm). cl; auto.
        -- cbn [app]. destruct (cleaner_no_path d Ht) as [_ ->]. apply cleaner_drop; [reflexivity|apply IH].
  - destruct slot; cbn [comp_role app component_attr_loop]; [apply cleaner_drop; [reflexivity|apply IH]|apply IH].
Qed.
Lemma cleaner_refl_quiet {A} (m : X A) : others (x_diags m) = x_diags m -> cleaner m m.
Proof. intros H. split; auto. Qed.
Lemma cleaner_selectors s : cleaner (component_selectors s) (component_selectors s).
Proof.
  unfold component_selectors. destruct (partition sel_is_class s) as [cls ids]. apply cleaner_bind; [|intros a].
  - apply cleaner_seq. induction cls; cbn [map]; constructor; auto. split; reflexivity.
  - destruct ids; [cl|]. apply cleaner_bind; [split; reflexivity|intros; cl].
Qed.
Lemma cleaner_turbofish p : cleaner (turbofishify p) (turbofishify p).
Proof.
  unfold turbofishify. cl. apply cleaner_seq. induction (segs p) as [|s l IH]; cbn [map]; constructor; auto.
  unfold turbofish_seg. destruct (seg_args s); cl.
Qed.
Lemma cleaner_slot_method k s : cleaner (slot_method k s) (slot_method k s).
Proof. unfold slot_method. cbn zeta. destruct (new_raw _); cl. Qed.
Lemma cleaner_collect l l' : Forall2 (fun p q => fst p = fst q /\ cleaner (snd p) (snd q)) l l' ->
  forall m, cleaner (collect_slots l m) (collect_slots l' m).
Proof.
  induction 1 as [|[t x] [t' x'] l l' [Ht Hx] _ IH]; intros m; cbn [collect_slots]; [cl|]. cbn in Ht, Hx. subst t'.
  destruct t; cl. destruct (get_ident p); cl; auto.
Qed.
Lemma cleaner_slots E at_ l l' : Forall2 (fun p q => fst p = fst q /\ cleaner (snd p) (snd q)) l l' ->
  cleaner (slots_to_tokens E at_ l) (slots_to_tokens E at_ l').
Proof.
  intros H. unfold slots_to_tokens. cl; [now apply cleaner_collect|]. apply cleaner_seq.
  generalize (slot_order E at_ (map fst a)) as ks. induction ks; cbn [map]; constructor; auto using cleaner_slot_method.
Qed.
Lemma tidy_element_eq slot t sels attrs args ch :
  tidy_element slot (Element t sels attrs args ch) =
  Element t (tidy_selectors (role_of slot t) sels) (flat_map (tidy_attr (role_of slot t)) attrs) args (option_map tidy ch).
Proof.
  cbn [tidy_element]. f_equal. destruct ch as [l|]; cbn [option_map]; auto. f_equal.
  induction l as [|[v|e|e] l IH]; cbn [tidy map tidy_child]; auto; f_equal; exact IH.
Qed.
Lemma tidy_tag slot e : el_tag (tidy_element slot e) = el_tag e.
Proof. destruct e. now rewrite tidy_element_eq. Qed.
Lemma cleaner_nodes E l : (forall e at_, In (CElement e) l -> cleaner (expand_element E at_ false e) (expand_element E at_ false (tidy_element false e))) ->
  forall at_ n, Forall2 cleaner (expand_nodes E at_ n l) (expand_nodes E at_ n (tidy l)).
Proof.
  induction l as [|c l IH]; intros H at_ n; cbn [tidy map tidy_child expand_nodes]; [constructor|].
  assert (IH' := IH (fun e at_ Hin => H e at_ (or_intror Hin))).
  destruct c as [v|e|e]; cbn [tidy_child]; auto; constructor; auto; cbn [expand_node]; cl; auto with cleaner.
  apply H. now left.
Qed.
Lemma cleaner_slot_list E l : (forall e at_, In (CSlot e) l -> cleaner (expand_element E at_ true e) (expand_element E at_ true (tidy_element true e))) ->
  forall at_ n, Forall2 (fun p q => fst p = fst q /\ cleaner (snd p) (snd q)) (expand_slots E at_ n l) (expand_slots E at_ n (tidy l)).
Proof.
  induction l as [|c l IH]; intros H at_ n; cbn [tidy map tidy_child expand_slots]; [constructor|].
  assert (IH' := IH (fun e at_ Hin => H e at_ (or_intror Hin))).
  destruct c as [v|e|e]; cbn [tidy_child]; auto. constructor; auto. cbn [fst snd]. split; [now rewrite tidy_tag|]. apply H. now left.
Qed.
Lemma cleaner_element E e : forall at_ slot, cleaner (expand_element E at_ slot e) (expand_element E at_ slot (tidy_element slot e)).
Proof.
  induction e as [t sels attrs args ch IHe IHs] using element_children_ind. intros at_ slot.
  assert (Hn := cleaner_nodes E (child_list ch) (fun e at_ Hin => IHe e Hin at_ false)).
  assert (Hs := cleaner_slot_list E (child_list ch) (fun e at_ Hin => IHs e Hin at_ true)).
  rewrite tidy_element_eq, !expand_element_eq. unfold element_tokens.
  assert (Hcomp : forall p, t = TagComponent p -> cleaner (expect_path (component_to_tokens E at_ slot t sels attrs args
    (option_map (expand_nodes E at_ 0) ch) (option_map (expand_slots E at_ 0) ch)))
    (expect_path (component_to_tokens E at_ slot t (tidy_selectors (comp_role slot) sels) (flat_map (tidy_attr (comp_role slot)) attrs) args
    (option_map (expand_nodes E at_ 0) (option_map tidy ch)) (option_map (expand_slots E at_ 0) (option_map tidy ch))))).
  { intros p ->. cbn [component_to_tokens expect_path]. apply cleaner_bind; [apply cleaner_turbofish|intros p'].
    apply cleaner_bind.
    { destruct slot; cbn [comp_role tidy_selectors]; [|apply cleaner_selectors].
      destruct sels; [cl|]. apply cleaner_drop; [reflexivity|cl]. }
    intros dirs0. apply cleaner_bind; [apply cleaner_comp_loop|]. intros [[props dirs] clones].
    apply cleaner_bind.
    { specialize (Hn at_ 0). destruct ch as [l|]; cbn [option_map child_list] in *; [|cl].
      destruct Hn as [|x y l1 l2 Hx Hn]; [cl|]. unfold component_children_tokens. cl. apply cleaner_seq. now constructor. }
    intros c. apply cleaner_bind.
    { destruct ch as [l|]; cbn [option_map child_list] in *; [|cl]. apply cleaner_slots. apply Hs. }
    intros sl. destruct slot; cl. }
  unfold role_of. destruct slot.
  - destruct t as [i|p|i|i|k]; try (apply cleaner_panic). exact (Hcomp p eq_refl).
  - assert (Hx : forall tp, xml_tag_path t = Some tp -> cleaner (match xml_to_tokens t sels attrs (option_map (expand_nodes E at_ 0) ch) with
      | Some x => x | None => expect_path (component_to_tokens E at_ false t sels attrs args (option_map (expand_nodes E at_ 0) ch) (option_map (expand_slots E at_ 0) ch)) end)
      (match xml_to_tokens t sels (flat_map (tidy_attr OnHtml) attrs) (option_map (expand_nodes E at_ 0) (option_map tidy ch)) with
      | Some x => x | None => expect_path (component_to_tokens E at_ false t sels (flat_map (tidy_attr OnHtml) attrs) args (option_map (expand_nodes E at_ 0) (option_map tidy ch)) (option_map (expand_slots E at_ 0) (option_map tidy ch))) end)).
    { intros tp Htp. unfold xml_to_tokens. rewrite Htp. apply cleaner_bind; [apply cleaner_html_loop|]. intros [[kvs dirs] sps].
      apply cleaner_bind; [|intros; cl]. specialize (Hn at_ 0). destruct ch as [l|]; cbn [option_map child_list] in *; [|cl].
      unfold xml_child_methods_tokens. cl. now apply cleaner_seq. }
    destruct t as [i|p|i|i|k]; cbn [tidy_selectors]; try (eapply Hx; reflexivity). exact (Hcomp p eq_refl).
Qed.
Lemma tidy_is_slot cs : existsb is_slot (tidy cs) = existsb is_slot cs.
Proof. induction cs as [|[] cs IH]; cbn; auto. Qed.
Lemma cleaner_root E cs : cleaner (root_tokens E cs) (root_tokens E (tidy cs)).
Proof.
  assert (Hn : forall at_ n, Forall2 cleaner (expand_nodes E at_ n cs) (expand_nodes E at_ n (tidy cs))).
  { apply cleaner_nodes. intros. apply cleaner_element. }
  assert (Hm : cleaner (if existsb is_slot cs then xabort DRootSlot else
        l <- xseq (expand_nodes E [] 0 cs) ;;
        xret [TGroup Brace ([pu "#"; TGroup Bracket [kw "allow"; par [kw "unused_braces"]]] ++ children_fragment_tokens l)])
    (if existsb is_slot (tidy cs) then xabort DRootSlot else
        l <- xseq (expand_nodes E [] 0 (tidy cs)) ;;
        xret [TGroup Brace ([pu "#"; TGroup Bracket [kw "allow"; par [kw "unused_braces"]]] ++ children_fragment_tokens l)])).
  { rewrite tidy_is_slot. destruct (existsb is_slot cs); cl. now apply cleaner_seq. }
  destruct cs as [|c [|c' cs]]; [exact Hm| |exact Hm].
  destruct c as [v|e|e]; cbn [tidy map tidy_child root_tokens expand_node]; cl; auto with cleaner. apply cleaner_element.
Qed.
