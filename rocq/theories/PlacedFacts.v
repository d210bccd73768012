(** Where the reports of an expansion are. *)
From Verif Require Export SpellFacts.
From Verif Require Import ReportsFacts SpecOut SpecReports.
Open Scope list_scope.
Close Scope sparse_scope.
Close Scope expand_scope.
Open Scope sexpand_scope.

(** If the expansion succeeds, it has reported [ds]. *)
Definition tells {A} (m : SX A) (ds : list sdiag) : Prop :=
  forall a, sx_out m = XRet a -> sx_diags m = ds.
Lemma tells_ret {A} (a : A) : tells (sxret a) [].
Proof. intros ? _. reflexivity. Qed.
Lemma tells_emit d s : tells (sxemit d s) [(d, s)].
Proof. intros ? _. reflexivity. Qed.
Lemma tells_panic {A} w ds : tells (@sxpanic A w) ds.
Proof. intros ? H. discriminate H. Qed.
Lemma tells_abort {A} d s ds : tells (@sxabort A d s) ds.
Proof. intros ? H. discriminate H. Qed.
Lemma tells_bind {A B} (m : SX A) (f : A -> SX B) d1 d2 :
  tells m d1 -> (forall a, tells (f a) d2) -> tells (sxbind m f) (d1 ++ d2).
Proof.
  intros Hm Hf b. destruct m as [[a| |w] d]; cbn; try discriminate. intros H.
  specialize (Hm a eq_refl). cbn in Hm. subst d. f_equal. eapply Hf; eauto.
Qed.
Lemma tells_bind_ret {A B} (m : SX A) (f : A -> B) d : tells m d -> tells (sxbind m (fun a => sxret (f a))) d.
Proof. intros H. rewrite <- (app_nil_r d). apply tells_bind; auto. intros. apply tells_ret. Qed.
Lemma tells_bind_quiet {A B} (m : SX A) (f : A -> SX B) d : tells m [] -> (forall a, tells (f a) d) -> tells (sxbind m f) d.
Proof. intros H Hf. change d with ([] ++ d). now apply tells_bind. Qed.
Ltac te := repeat match goal with
  | |- tells (sxret _) [] => apply tells_ret
  | |- tells (sxemit _ _) [_] => apply tells_emit
  | |- tells (sxpanic _) _ => apply tells_panic
  | |- tells (sxabort _ _) _ => apply tells_abort
  | |- tells (if ?b then _ else _) (if ?b then _ else _) => destruct b
  | |- tells (sxbind _ (fun _ => sxret _)) _ => apply tells_bind_ret
  end.

Section Places.
Variable E : senv.

Lemma tells_value v : tells (svalue_tokens E v) (p_value v).
Proof.
  destruct v as [| |[p|] b ts]; cbn [svalue_tokens p_value]; te.
  rewrite is_word_eq by reflexivity. te.
Qed.
Lemma tells_opt v : tells (sopt_value_tokens E v) (p_opt v).
Proof. destruct v; cbn; [apply tells_value|te]. Qed.
Lemma tells_or_true v : tells (svalue_tokens E (svalue_or_true v)) (p_opt v).
Proof. destruct v; cbn [svalue_or_true p_opt]; [apply tells_value|]. apply (tells_value snew_true). Qed.
Lemma tells_snake k : tells (sxsnake E k) [].
Proof. unfold sxsnake. destruct (sto_snake_ident E k); te. Qed.
Lemma tells_ident k : tells (sto_ident_or_emit E k) (p_key k).
Proof. destruct k; cbn [sto_ident_or_emit p_key]; te. apply tells_snake. Qed.
Lemma tells_modifier m : tells (semit_error_if_modifier m) (p_modifier m).
Proof. destruct m; cbn; te. Qed.
#[local] Hint Resolve tells_value tells_opt tells_or_true tells_snake tells_ident tells_modifier : tells.
Lemma tells_use d : tells (suse_directive_fn_value E d) (p_use d).
Proof.
  unfold suse_directive_fn_value, p_use. apply tells_bind_quiet; [destruct (ident_is _ _); te|intros _].
  apply tells_bind; auto with tells. intros f. apply tells_bind; auto with tells. intros _.
  destruct (sd_value d); cbn [p_opt]; te; auto with tells.
Qed.
Lemma tells_event d : tells (sevent_listener_event_path E d) (p_event d).
Proof.
  unfold sevent_listener_event_path, p_event. apply tells_bind_quiet; [destruct (ident_is _ _); te|intros _].
  apply tells_bind; [destruct (sd_key d); te; auto with tells|]. intros f. cbn zeta. destruct (sd_modifier d); te.
  rewrite is_word_eq by reflexivity. te.
Qed.
#[local] Hint Resolve tells_use tells_event : tells.
Lemma tells_html_attr a k : tells (sxml_kv_attribute_tokens E a k) (p_value (skv_value a)).
Proof.
  unfold sxml_kv_attribute_tokens. cbn zeta. destruct (String.eqb _ _); te; auto with tells.
  destruct (_ && _); te; auto with tells. apply tells_bind_quiet; auto with tells. intros i. te. auto with tells.
Qed.
Lemma snamed_eq d s : (forall n, String.eqb (String "r" (String "#" n)) s = false) ->
  snamed d s = String.eqb (ident_to_string (si_ident (sd_dir d))) s.
Proof. apply is_word_eq. Qed.
Ltac snames := rewrite ?snamed_eq by reflexivity.
Lemma tells_html_dir d : tells (sxml_directive_tokens E d) (p_html_dir d).
Proof.
  unfold sxml_directive_tokens, p_html_dir. cbn zeta. snames.
  set (name := ident_to_string (si_ident (sd_dir d))).
  destruct (String.eqb name "class" || String.eqb name "style"); cbn [orb].
  { apply tells_bind; auto with tells. intros _. te. auto with tells. }
  destruct (String.eqb name "prop").
  { apply tells_bind; auto with tells. intros _. te. auto with tells. }
  destruct (String.eqb name "on"). { apply tells_bind; auto with tells. intros p. te. auto with tells. }
  destruct (String.eqb name "use"). { te. auto with tells. }
  destruct (_ || _); te.
Qed.
Lemma tells_html_loop k l : forall acc, tells (sxml_attr_loop E k l acc) (flat_map (p_attr OnHtml) l).
Proof.
  induction l as [|a l IH]; intros [[x y] z]; cbn [sxml_attr_loop flat_map]; te.
  destruct a; cbn [p_attr].
  - apply tells_bind; auto using tells_html_attr.
  - apply tells_bind; auto using tells_html_dir.
  - apply IH.
Qed.
Lemma tells_path d : match sdirective_to_any_attr_path E d with
  | Some m => String.eqb (ident_to_string (si_ident (sd_dir d))) "clone" = false -> tells m (p_component_dir d)
  | None => String.eqb (ident_to_string (si_ident (sd_dir d))) "clone" = false ->
            p_component_dir d = [(DUnknownDirective, si_span (sd_dir d))]
  end.
Proof.
  unfold sdirective_to_any_attr_path, p_component_dir. cbn zeta. snames. set (name := ident_to_string (si_ident (sd_dir d))).
  destruct (String.eqb name "class" || String.eqb name "style"). { intros ->. te. auto with tells. }
  destruct (String.eqb name "attr").
  { intros ->. rewrite is_custom_eq. unfold attribute_kind_from. change (key_chars (sd_key d)) with (skey_string (sd_key d)).
    destruct (String.eqb_spec (skey_string (sd_key d)) "class") as [->|_].
    { apply tells_bind; [apply tells_ident|]. intros i. te. auto with tells. }
    destruct (String.eqb_spec (skey_string (sd_key d)) "style") as [->|_].
    { apply tells_bind; [apply tells_ident|]. intros i. te. auto with tells. }
    destruct (_ && _). { te. cbn [app]. auto with tells. }
    apply tells_bind; auto with tells. intros i. te. auto with tells. }
  destruct (String.eqb name "prop"). { intros ->. apply tells_bind; auto with tells. intros i. te. auto with tells. }
  destruct (String.eqb name "on"). { intros ->. apply tells_bind; auto with tells. intros i. te. auto with tells. }
  destruct (String.eqb name "use"). { intros ->. te. auto with tells. }
  now intros ->.
Qed.
Lemma tells_selectors s : tells (scomponent_selectors E s) [].
Proof.
  unfold scomponent_selectors. destruct (partition ssel_is_class s) as [cl ids]. apply tells_bind_quiet.
  - assert (H : forall l : list sselector, tells (sxseq (map (fun s => sexpect_path (sdirective_to_any_attr_path E
      (sclass_directive (prefix_span s) (ssel_kebab s)))) l)) []).
    { induction l; cbn [map sxseq]; te. apply tells_bind_quiet; [intros ? _; reflexivity|]. intros b. te. auto. }
    apply H.
  - intros a. destruct ids; te. intros ? _; reflexivity.
Qed.
Lemma tells_clone d : tells (semit_error_if_modifier (sd_modifier d) ;;; scomponent_clone_tokens E d) (p_clone d).
Proof.
  unfold scomponent_clone_tokens, p_clone. apply tells_bind; auto with tells. intros _.
  apply tells_bind; auto with tells. intros i. apply tells_bind; auto with tells. intros _. te.
  destruct (sd_value d) as [[[]| |]|]; te.
Qed.
Lemma sbind_assoc {A B C} (m : SX A) (f : A -> SX B) (g : B -> SX C) :
  sxbind (sxbind m f) g = sxbind m (fun a => sxbind (f a) g).
Proof.
  destruct m as [[a| |w] d]; cbn; auto. destruct (f a) as [[b| |w] d']; cbn; auto. now rewrite app_assoc.
Qed.
Lemma tells_comp_loop slot l : forall acc, tells (scomponent_attr_loop E slot l acc) (flat_map (p_attr (comp_role slot)) l).
Proof.
  induction l as [|a l IH]; intros [[x y] z]; cbn [scomponent_attr_loop flat_map]; te.
  destruct a as [kv|d|b dd s]; cbn [p_attr].
  - apply tells_bind; auto. unfold scomponent_kv_attribute_tokens. apply tells_bind_quiet; auto with tells. intros i.
    cbn zeta. te. auto with tells.
  - destruct (String.eqb (ident_to_string (si_ident (sd_dir d))) "clone") eqn:Hc.
    + replace (match comp_role slot with OnHtml => p_html_dir d | OnComponent => p_component_dir d | OnSlot => p_slot_dir d end)
        with (p_clone d).
      * rewrite <- sbind_assoc. apply tells_bind; auto. apply tells_clone.
      * destruct slot; cbn [comp_role]; unfold p_slot_dir, p_component_dir; snames; now rewrite Hc.
    + destruct slot; cbn [comp_role].
      * unfold p_slot_dir. snames. rewrite Hc. apply tells_bind; auto. te.
      * assert (Hp := tells_path d). destruct (sdirective_to_any_attr_path E d) as [m|].
        -- apply tells_bind; auto.
        -- rewrite Hp by auto. apply tells_bind; auto. te.
  - destruct slot; cbn [comp_role]; [apply tells_bind; auto; te|apply IH].
Qed.
Lemma tells_slot_method k s : tells (sslot_method k s) [].
Proof. unfold sslot_method. cbn zeta. destruct (new_raw _); te. Qed.

(** What is known of each child in a tree that was read. *)
Definition child_tells (c : schild) : Prop :=
  match c with
  | SCValue _ => True
  | SCElement e => forall at_ slot, tells (sexpand_element E at_ slot e) (p_element E slot e)
  | SCSlot _ e => tag_span E (sel_tag e) = tag_place E (sel_tag e) /\
                  forall at_ slot, tells (sexpand_element E at_ slot e) (p_element E slot e)
  end.
Definition p_slot_item (e : selement) : list sdiag :=
  if ssingle_name (sel_tag e) then p_element E true e else [(DSlotPath, tag_place E (sel_tag e))].
Lemma tells_collect at_ l : Forall child_tells l ->
  forall n m, tells (scollect_slots E (sexpand_slots E at_ n l) m)
    (flat_map (fun c => match c with SCSlot _ e => p_slot_item e | _ => [] end) l).
Proof.
  induction 1 as [|c l Hc _ IH]; intros n m; cbn [sexpand_slots scollect_slots flat_map]; te.
  destruct c as [v|e|s e]; cbn [app]; auto. cbn [scollect_slots]. destruct Hc as [Ht Hc]. unfold p_slot_item, ssingle_name.
  destruct (sel_tag e) as [i|p|i|i|k]; te. cbn [tag_span] in Ht. rewrite <- Ht.
  unfold sget_ident. destruct p as [[] [i []] [|]];
    try (apply tells_bind; [apply tells_emit|intros _; apply IH]).
  apply tells_bind; auto.
Qed.
Lemma tells_slots at_ l ds : (forall m, tells (scollect_slots E l m) ds) -> tells (sslots_to_tokens E at_ l) ds.
Proof.
  intros H. unfold sslots_to_tokens. rewrite <- (app_nil_r ds). apply tells_bind; auto. intros m. te.
  generalize (slot_order (s_env E) at_ (map (fun x => si_ident (fst x)) m)) as ks. induction ks as [|k ks IH]; cbn [map sxseq]; te.
  apply tells_bind_quiet; [apply tells_slot_method|]. intros a. now te.
Qed.
Lemma tells_nodes l : Forall child_tells l ->
  forall at_ n, tells (srun (sexpand_nodes E at_ n l)) (flat_map (p_child E) l).
Proof.
  induction 1 as [|c l Hc _ IH]; intros at_ n; cbn [sexpand_nodes flat_map]; [apply tells_ret|].
  destruct c as [v|e|s e]; cbn [p_child app]; auto; unfold srun; cbn [map sxseq snd fst sexpand_node];
    (apply tells_bind; [te; auto with tells|]); intros a; te; apply IH.
Qed.
Lemma tells_turbofish p : tells (sturbofishify E p) [].
Proof.
  unfold sturbofishify. apply tells_bind_quiet.
  { unfold sturbofish_seg. destruct (sseg_args _) as [|[|]|]; te. }
  intros f. te. induction (s_more p) as [|s l IH]; cbn [map sxseq]; te.
  apply tells_bind_quiet; [|intros a; now te]. te. unfold sturbofish_seg. destruct (sseg_args _) as [|[|]|]; te.
Qed.
Lemma p_element_eq slot t sels attrs args ch :
  p_element E slot (SElement t sels attrs args ch) =
  p_selectors (srole slot t) sels ++ flat_map (p_attr (srole slot t)) attrs ++
  flat_map (p_child E) (schild_list ch) ++
  match srole slot t with
  | OnHtml => []
  | _ => flat_map (fun c => match c with SCSlot _ e => p_slot_item e | _ => [] end) (schild_list ch)
  end.
Proof.
  cbn [p_element]. f_equal. f_equal. destruct ch as [l|]; cbn [schild_list].
  2: { cbn [flat_map app]. now destruct (srole slot t). }
  f_equal.
  - induction l as [|[v|e|s e] l IH]; cbn [flat_map p_child app]; auto; now rewrite IH.
  - destruct (srole slot t); auto;
    (induction l as [|[v|e|s e] l IH]; cbn [flat_map app]; auto; rewrite IH; reflexivity).
Qed.
Lemma tells_element t sels attrs args ch : Forall child_tells (schild_list ch) ->
  forall at_ slot, tells (sexpand_element E at_ slot (SElement t sels attrs args ch)) (p_element E slot (SElement t sels attrs args ch)).
Proof.
  intros H at_ slot. assert (Hn := tells_nodes _ H). assert (Hs := fun at_ => tells_collect at_ _ H).
  rewrite sexpand_element_eq, p_element_eq. unfold selement_tokens.
  assert (Hcomp : forall p, t = STagComponent p -> tells (sexpect_path (scomponent_to_tokens E at_ slot t sels attrs args
    (option_map (sexpand_nodes E at_ 0) ch) (option_map (sexpand_slots E at_ 0) ch)))
    (p_selectors (comp_role slot) sels ++ flat_map (p_attr (comp_role slot)) attrs ++
     flat_map (p_child E) (schild_list ch) ++
     flat_map (fun c => match c with SCSlot _ e => p_slot_item e | _ => [] end) (schild_list ch))).
  { intros p ->. cbn [scomponent_to_tokens sexpect_path]. apply tells_bind_quiet; [apply tells_turbofish|intros p'].
    apply tells_bind.
    { destruct slot; cbn [comp_role p_selectors]; [destruct sels as [|[] ?]; te|]. apply tells_selectors. }
    intros dirs0. apply tells_bind; [apply tells_comp_loop|]. intros [[props dirs] clones].
    apply tells_bind.
    { specialize (Hn at_ 0). destruct ch as [l|]; cbn [option_map schild_list flat_map] in *; [|te].
      destruct (sexpand_nodes E at_ 0 l) as [|x ns]; [intros ? _; exact (Hn [] eq_refl)|]. unfold scomponent_children_tokens.
      cbn zeta. te. exact Hn. }
    intros c. rewrite <- (app_nil_r (flat_map _ (schild_list ch))). apply tells_bind.
    { destruct ch as [l|]; cbn [option_map schild_list flat_map] in *; [|te]. apply tells_slots. apply Hs. }
    intros sl. cbn zeta. destruct slot; te. }
  unfold srole. destruct slot.
  - destruct t as [i|p|i|i|k]; try (apply tells_panic). exact (Hcomp p eq_refl).
  - assert (Hx : forall tp, sxml_tag_path E t = Some tp -> tells (match sxml_to_tokens E t sels attrs (option_map (sexpand_nodes E at_ 0) ch) with
      | Some x => x | None => sexpect_path (scomponent_to_tokens E at_ false t sels attrs args (option_map (sexpand_nodes E at_ 0) ch) (option_map (sexpand_slots E at_ 0) ch)) end)
      (flat_map (p_attr OnHtml) attrs ++ flat_map (p_child E) (schild_list ch) ++ [])).
    { intros tp Htp. unfold sxml_to_tokens. rewrite Htp. apply tells_bind; [apply tells_html_loop|]. intros [[kvs dirs] sps].
      apply tells_bind; [|intros; te]. specialize (Hn at_ 0). destruct ch as [l|]; cbn [option_map schild_list flat_map] in *; [|te].
      unfold sxml_child_methods_tokens. te. exact Hn. }
    destruct t as [i|p|i|i|k]; cbn [p_selectors app]; try (eapply Hx; reflexivity). exact (Hcomp p eq_refl).
Qed.

(** ** Trees that were read *)

Hypothesis HE : senv_ok E.

Lemma join_self s : joinx E s s = s.
Proof. unfold joinx. destruct HE as (_ & _ & _ & _ & H). destruct (s_join E s s) eqn:Ej; auto. Qed.

Lemma last_app {A} (a b : list A) d : List.last (a ++ b) d = List.last b (List.last a d).
Proof.
  revert d. induction a as [|x a IH]; intros d; [reflexivity|]. change ((x :: a) ++ b) with (x :: (a ++ b)).
  assert (Hc : forall (l : list A) (y e : A), List.last (y :: l) e = List.last l y).
  { clear. induction l as [|z l IH]; intros y e; [reflexivity|]. change (List.last (y :: z :: l) e) with (List.last (z :: l) e).
    rewrite IH. now rewrite (IH z y). }
  now rewrite !Hc.
Qed.
Lemma last_cons {A} (x : A) l d : List.last (x :: l) d = List.last l x.
Proof. exact (last_app [x] l d). Qed.
Lemma stream_span_join t r : stream_span E (t :: r) = joinx E (tspan t) (List.last (map tspan r) (tspan t)).
Proof.
  destruct r as [|t' r]; cbn [stream_span map]; [symmetry; apply join_self|]. f_equal.
  change (tspan t' :: map tspan r) with (map tspan (t' :: r)). generalize (t' :: r). clear. intros l. revert t. induction l as [|x l IH]; intros t; [reflexivity|].
  cbn [map]. now rewrite !last_cons.
Qed.
Lemma segment_end_eq ts s d : sp_segment ts s -> List.last (map tspan (sseg_tokens s)) d = segment_end s.
Proof.
  intros H. inversion H as [s0 i|s0 i g Hg|s0 i c l g Hg Hc]; subst; unfold sseg_tokens, segment_end; cbn [sseg_ident sseg_args stoken si_span map].
  - reflexivity.
  - rewrite last_cons. reflexivity.
  - rewrite last_cons, map_app, last_app. destruct g as [|t g]; [congruence|]. cbn [map]. now rewrite !last_cons.
Qed.
Lemma more_end_eq ts l s : sp_list sp_next_segment ts l ->
  List.last (map tspan (flat_map (fun x => colons (fst x) ++ sseg_tokens (snd x)) l)) (segment_end s) =
  segment_end (List.last (map snd l) s).
Proof.
  intros H. revert s. induction H as [|u [c x] u' l Hx _ IH]; intros s; [reflexivity|].
  cbn [flat_map fst snd map]. rewrite last_cons, !map_app, !last_app. inversion Hx; subst. erewrite segment_end_eq by eassumption. apply IH.
Qed.
Lemma path_span_eq ts p : sp_path ts p -> spath_span E p = path_place E p.
Proof.
  intros H. unfold spath_span, spath_tokens, path_place.
  assert (Hs : forall t r d ts s l ts', sp_segment ts s -> sp_list sp_next_segment ts' l ->
    stream_span E (t :: r ++ sseg_tokens s ++ flat_map (fun x => colons (fst x) ++ sseg_tokens (snd x)) l) =
    joinx E (tspan t) (segment_end (List.last (map snd l) s)) /\ d = d :> nat).
  { intros t r d u s l u' Hs Hl. split; [|reflexivity]. rewrite stream_span_join. f_equal.
    rewrite !map_app, !last_app. erewrite segment_end_eq by eassumption. eapply more_end_eq; eassumption. }
  destruct H as [u s u' l Hs1 Hl|c cl u s u' l Hc Hs1 Hl]; cbn [s_leading s_first s_more opt_colons app].
  - unfold sseg_tokens at 1. cbn [app]. rewrite stream_span_join. cbn [stoken tspan]. f_equal.
    rewrite map_app, last_app. erewrite <- more_end_eq by eassumption. f_equal.
    erewrite <- (segment_end_eq _ s (si_span (sseg_ident s))) by eassumption. unfold sseg_tokens. cbn [map]. now rewrite last_cons.
  - destruct Hc. cbn [colons app hd]. exact (proj1 (Hs (SPunct s0 ":" Joint) [SPunct s' ":" Alone] 0 _ _ _ _ Hs1 Hl)).
Qed.
Lemma tag_span_eq ts t : sp_tag E ts t -> tag_span E t = tag_place E t.
Proof.
  intros H. destruct H; cbn [tag_span tag_place]; try reflexivity; [eapply path_span_eq; eassumption|].
  unfold spath_span, path_place. cbn. symmetry. apply join_self.
Qed.
End Places.

Scheme sp_child_ind2 := Induction for sp_child Sort Prop
  with sp_element_ind2 := Induction for sp_element Sort Prop
  with sp_end_ind2 := Induction for sp_end Sort Prop
  with sp_children_ind2 := Induction for sp_children Sort Prop.

Lemma children_tell E : senv_ok E -> forall ts cs, sp_children E ts cs -> Forall (child_tells E) cs.
Proof.
  intros HE. apply (sp_children_ind2 E (fun _ c _ => child_tells E c)
    (fun _ e _ => tag_span E (sel_tag e) = tag_place E (sel_tag e) /\
       forall at_ slot, tells (sexpand_element E at_ slot e) (p_element E slot e))
    (fun _ _ ch _ => Forall (child_tells E) (schild_list ch))
    (fun _ cs _ => Forall (child_tells E) cs)); cbn [child_tells schild_list].
  - trivial.
  - intros ts e _ [_ H]. exact H.
  - intros _ _ _ ts e _ H. exact H.
  - intros ts1 t ts2 sels ts3 attrs ts4 args cs Ht _ _ _ H. split.
    + exact (tag_span_eq E HE _ _ Ht).
    + intros at_ slot. now apply tells_element.
  - intros. constructor.
  - intros b d inner cs _ H. exact H.
  - intros s sp args s' sp' b d inner cs _ H. exact H.
  - constructor.
  - intros. now constructor.
Qed.
