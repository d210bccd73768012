(** Code with gaps and code agree on trees about which nothing is reported. *)
From Verif Require Export GapFacts CodeFacts.
From Verif Require Import ReportsFacts SpecReports.
From Coq Require Import Lia.
Open Scope list_scope.

Lemma forall2_imp {A B} (R S : A -> B -> Prop) l l' :
  (forall a b, In a l -> R a b -> S a b) -> Forall2 R l l' -> Forall2 S l l'.
Proof.
  intros H F. induction F as [|a b l l' Hab F IH]; constructor.
  - apply H; [now left|assumption].
  - apply IH. intros. apply H; [now right|assumption].
Qed.
Lemma forall2_ones {A B} (R : A -> B -> Prop) (S : A -> list B -> Prop) l l' :
  (forall a b, R a b -> S a [b]) -> Forall2 R l l' -> exists ll, Forall2 S l ll /\ List.concat ll = l'.
Proof.
  intros H F. exists (map (fun b => [b]) l'). split.
  - induction F; constructor; auto.
  - clear. induction l'; cbn; congruence.
Qed.
Lemma forall2_ones_inv {A B} (R : A -> B -> Prop) (S : A -> list B -> Prop) l ll :
  (forall a bs, In a l -> S a bs -> exists b, bs = [b] /\ R a b) -> Forall2 S l ll -> Forall2 R l (List.concat ll).
Proof.
  intros H F. induction F as [|a bs l ll Hab F IH]; [constructor|].
  destruct (H a bs (or_introl eq_refl) Hab) as (b & -> & Hb). cbn. constructor; auto.
  apply IH. intros. apply H; auto. now right.
Qed.

(** ** From code to code with gaps *)

Lemma gap_of_value v ts : value_code v ts -> gap_value v ts.
Proof. apply gv_code. Qed.
Lemma gap_of_opt v ts : opt_value_code v ts -> gap_opt v ts.
Proof. intros []; constructor. now constructor. Qed.
Lemma gap_of_or_true v ts : value_or_true_code v ts -> gap_or_true v ts.
Proof. intros []; constructor. now constructor. Qed.
Lemma gap_of_event k m ts : event_code k m ts -> gap_event k m ts.
Proof. intros []; constructor; try discriminate; now constructor. Qed.
Lemma gap_of_use k v ts : use_code k v ts -> gap_use k v ts.
Proof. intros []; constructor; now constructor. Qed.
Lemma gap_of_attr k a c : html_attr_call k a c -> gap_attr k a c.
Proof.
  intros []; [apply ga_ref|apply ga_unchecked|apply ga_typed]; auto using gap_of_value.
Qed.
Lemma gap_of_dir d c : html_dir_call d c -> gap_dir d [c].
Proof.
  intros [n k v ts Hn Hv|k v ts Hv|k m v ev ts He Hv|k v ts Hu].
  - apply gd_class_style; auto using gap_of_opt.
  - apply gd_prop; auto using gap_of_opt.
  - apply gd_on; auto using gap_of_opt, gap_of_event.
  - apply gd_use; auto using gap_of_use.
Qed.
Lemma gap_of_prop a c : prop_call a c -> gap_prop a c.
Proof. intros []; constructor; auto using gap_of_value. Qed.
Lemma gap_of_clone d c : clone_code d c -> gap_clone d c.
Proof. intros []. constructor. now constructor. Qed.
Lemma gap_of_entry a c : entry_code a c -> gap_entry a [c].
Proof.
  intros [ts|n k m v ts Hn Hv|n c' m v ts Hn Hv|k m v ts Hc Hv|k i m v ts H1 H2 H3 Hk Hv|k i m v ts Hk Hv|k m v ev ts He Hv|k v ts Hu].
  - constructor.
  - apply gn_class_style; auto using gap_of_or_true.
  - apply (gn_attr_class_style (KKebab (Kebab n c')) (Id true n)); auto using gap_of_or_true.
    constructor. destruct Hn as [->| ->]; (split; [cbn; intuition discriminate|reflexivity]).
  - apply gn_attr_custom; auto using gap_of_or_true.
  - apply gn_attr; auto using gap_of_or_true. now constructor.
  - apply gn_prop; auto using gap_of_or_true. now constructor.
  - apply gn_on; auto using gap_of_opt, gap_of_event.
  - apply gn_use; auto using gap_of_use.
Qed.

Lemma gap_of_nodes l : (forall e, In (CElement e) l -> forall ts, element_code e ts -> gap_element e ts) ->
  forall codes, nodes_code l codes -> gap_nodes l codes.
Proof.
  intros He codes H. induction l as [|c l IH] in He, codes, H |- *; inversion H; subst; constructor;
    auto using gap_of_value; first [apply He; auto; now left | apply IH; auto; intros; apply He; auto; now right].
Qed.
Lemma gap_of_slots l : (forall e, In (CSlot e) l -> forall ts, slot_code e ts -> gap_slot e ts) ->
  forall slots, slots_code l slots -> gap_slots l slots.
Proof.
  intros He codes H. induction l as [|c l IH] in He, codes, H |- *; inversion H; subst; constructor;
    auto; first [apply He; auto; now left | apply IH; auto; intros; apply He; auto; now right].
Qed.
Lemma gap_of_element e : (forall ts, element_code e ts -> gap_element e ts) /\ (forall ts, slot_code e ts -> gap_slot e ts).
Proof.
  induction e as [t sels attrs args ch IHe IHs] using element_children_ind. split; intros ts H.
  - inversion H as [t' ? ? ? ? head kvs dirs codes Hh H1 H2 H3|p ? ? ? ? path props entries clones codes slots scalls H1 H2 H3 H4 H5 H6 H7]; subst.
    + destruct (forall2_ones _ gap_dir _ _ gap_of_dir H2) as (ll & Hll & <-). apply gap_html; auto.
      * eapply forall2_imp; [|exact H1]. auto using gap_of_attr.
      * apply gap_of_nodes; auto. intros e Hin. now apply IHe.
    + destruct (forall2_ones _ gap_entry _ _ gap_of_entry H3) as (ll & Hll & <-). apply gap_component with slots; auto.
      * eapply forall2_imp; [|exact H2]. auto using gap_of_prop.
      * eapply forall2_imp; [|exact H4]. auto using gap_of_clone.
      * apply gap_of_nodes; auto. intros e Hin. now apply IHe.
      * apply gap_of_slots; auto. intros e Hin. now apply IHs.
  - inversion H as [p ? ? ? path props clones codes slots scalls H1 H2 H3 H4 H5 H6 H7]; subst.
    apply gap_slot_intro with slots scalls; auto.
    + eapply forall2_imp; [|exact H2]. auto using gap_of_prop.
    + eapply forall2_imp; [|exact H4]. auto using gap_of_clone.
    + apply gap_of_nodes; auto. intros e Hin. now apply IHe.
    + apply gap_of_slots; auto. intros e Hin. now apply IHs.
Qed.
Lemma gap_of_root cs ts : root_code cs ts -> gap_root cs ts.
Proof.
  intros []; constructor; auto; apply gap_of_nodes; auto; intros e' _; apply gap_of_element.
Qed.

(** ** And back, if nothing is reported *)

Lemma code_of_value v ts : value_reports v = [] -> gap_value v ts -> value_code v ts.
Proof.
  intros Hr H; revert Hr; destruct H; intros Hr; auto. cbn in Hr. unfold is_word in Hr. destruct (ident_dec p (Id false "f")); [contradiction|discriminate].
Qed.
Lemma code_of_opt v ts : opt_reports v = [] -> gap_opt v ts -> opt_value_code v ts.
Proof. intros Hr H; revert Hr; destruct H; intros Hr; constructor. now apply code_of_value. Qed.
Lemma code_of_or_true v ts : opt_reports v = [] -> gap_or_true v ts -> value_or_true_code v ts.
Proof. intros Hr H; revert Hr; destruct H; intros Hr; constructor. now apply code_of_value. Qed.
Lemma code_of_attr k a c : value_reports (kv_value a) = [] -> gap_attr k a c -> html_attr_call k a c.
Proof.
  intros Hr H; revert Hr; destruct H; intros Hr; [apply ha_ref|apply ha_unchecked|apply ha_typed]; auto using code_of_value.
Qed.
Lemma code_of_event d ts : event_reports d = [] -> gap_event (d_key d) (d_modifier d) ts ->
  event_code (d_key d) (d_modifier d) ts.
Proof.
  destruct d as [dir k m v]. unfold event_reports. cbn [d_key d_modifier]. intros Hr H. apply app_eq_nil in Hr as [Hk Hm].
  destruct k as [k|s]; [|discriminate Hk]. inversion H as [? ? i Hn Hi|? i Hi]; subst; inversion Hi; subst.
  - destruct m as [m|]; [|now constructor]. unfold is_word in Hm. destruct (ident_dec m _); [congruence|discriminate].
  - now constructor.
Qed.
Lemma code_of_use d ts : use_reports d = [] -> gap_use (d_key d) (d_value d) ts ->
  d_modifier d = None /\ use_code (d_key d) (d_value d) ts.
Proof.
  unfold use_reports. intros Hr H. apply app_eq_nil in Hr as [Hk Hr]. apply app_eq_nil in Hr as [Hm Hv].
  split; [destruct (d_modifier d); [discriminate|reflexivity]|].
  destruct d as [dir [k|s] m v]; [|discriminate Hk]. cbn [d_key d_value] in *.
  inversion H as [? i Hi|? i v' ts' Hi Hv']; subst; inversion Hi; subst; constructor; auto using code_of_value.
Qed.
Lemma named_no d s : named d s = false -> d_dir d <> Id false s.
Proof. unfold named, is_word. destruct (ident_dec _ _); [discriminate|auto]. Qed.
Lemma named_yes d s : named d s = true -> d_dir d = Id false s.
Proof. unfold named, is_word. destruct (ident_dec _ _); [auto|discriminate]. Qed.
Lemma no_modifier_reports m : modifier_reports m = [] -> m = None.
Proof. destruct m; [discriminate|auto]. Qed.

Lemma code_of_dir d l : html_dir_reports d = [] -> gap_dir d l -> exists c, l = [c] /\ html_dir_call d c.
Proof.
  intros Hr H. revert Hr. destruct H as [n k m v ts Hn Hv|k m v ts Hv|k m v ev ts He Hv|k m v ts Hu|d Hno]; intros Hr.
  - assert (Hr' : modifier_reports m ++ opt_reports v = []) by (destruct Hn as [->| ->]; exact Hr).
    apply app_eq_nil in Hr' as [Hm Hv']. apply no_modifier_reports in Hm. subst m.
    eexists. split; [reflexivity|]. apply hd_class_style; auto using code_of_opt.
  - change (modifier_reports m ++ opt_reports v = []) in Hr.
    apply app_eq_nil in Hr as [Hm Hv']. apply no_modifier_reports in Hm. subst m.
    eexists. split; [reflexivity|]. apply hd_prop; auto using code_of_opt.
  - change (on_reports (Directive (Id false "on") k m v) = []) in Hr.
    apply app_eq_nil in Hr as [Hm Hv'].
    eexists. split; [reflexivity|]. apply hd_on; auto using code_of_opt.
    apply (code_of_event (Directive (Id false "on") k m v)); auto.
  - change (use_reports (Directive (Id false "use") k m v) = []) in Hr.
    destruct (code_of_use _ _ Hr Hu) as [Hm Hu']. cbn in Hm, Hu'. subst m.
    eexists. split; [reflexivity|]. now apply hd_use.
  - exfalso. unfold html_dir_reports in Hr.
    destruct (named d "class") eqn:H1; [apply named_yes in H1; now apply (Hno "class"); cbn; auto 10|].
    destruct (named d "style") eqn:H2; [apply named_yes in H2; now apply (Hno "style"); cbn; auto 10|].
    destruct (named d "prop") eqn:H3; [apply named_yes in H3; now apply (Hno "prop"); cbn; auto 10|].
    destruct (named d "on") eqn:H4; [apply named_yes in H4; now apply (Hno "on"); cbn; auto 10|].
    destruct (named d "use") eqn:H5; [apply named_yes in H5; now apply (Hno "use"); cbn; auto 10|].
    cbn [orb] in Hr. destruct (_ || _); discriminate.
Qed.
Lemma code_of_prop a c : value_reports (kv_value a) = [] -> gap_prop a c -> prop_call a c.
Proof. intros Hr H; revert Hr; destruct H; intros Hr; constructor; auto using code_of_value. Qed.
Lemma code_of_clone d c : clone_reports d = [] -> gap_clone d c -> clone_code d c.
Proof.
  intros Hr H. revert Hr. destruct H as [k m v i Hk]. intros Hr. unfold clone_reports in Hr. cbn [d_key d_modifier d_value] in Hr.
  apply app_eq_nil in Hr as [Hm Hr]. apply app_eq_nil in Hr as [Hk' Hr]. apply app_eq_nil in Hr as [_ Hv].
  apply no_modifier_reports in Hm. subst m. destruct v; [discriminate|]. destruct Hk; [now constructor|discriminate].
Qed.
Lemma custom_of s : is_custom s = true <-> custom_name s.
Proof. rewrite is_custom_eq. apply custom_iff. Qed.
Lemma code_of_entry a l : (forall d, a = ADir d -> is_clone d = false) -> attr_reports OnComponent a = [] ->
  gap_entry a l -> exists c, l = [c] /\ entry_code a c.
Proof.
  intros Hcl Hr H. revert Hcl Hr.
  destruct H as [ts|n k m v ts Hn Hv|k i m v ts Hn Hk Hv|k m v ts Hc Hv|k i m v ts H1 H2 H3 Hk Hv|k i m v ts Hk Hv|k m v ev ts He Hv|k m v ts Hu|d Hno];
    intros Hcl Hr; cbn [attr_reports] in Hr.
  - eexists. split; [reflexivity|constructor].
  - assert (Hr' : opt_reports v = []) by (destruct Hn as [->| ->]; exact Hr).
    eexists. split; [reflexivity|]. apply en_class_style; auto using code_of_or_true.
  - change ((if is_custom (key_text k) then [] else key_reports k) ++ opt_reports v = []) in Hr.
    assert (Hc : is_custom (key_text k) = false).
    { destruct (is_custom (key_text k)) eqn:Hc; auto. apply custom_of in Hc. exfalso. eapply custom_not_plain; eauto. }
    rewrite Hc in Hr. apply app_eq_nil in Hr as [Hkr Hvr]. destruct k as [[r c]|s]; [|discriminate].
    inversion Hk as [? ? Hi|]; subst. destruct Hi as [_ ->]. cbn [key_text k_repr] in Hn.
    eexists. split; [reflexivity|]. destruct Hn as [->| ->];
      [apply (en_attr_class_style "class")|apply (en_attr_class_style "style")]; auto using code_of_or_true.
  - change ((if is_custom (key_text k) then [] else key_reports k) ++ opt_reports v = []) in Hr.
    apply app_eq_nil in Hr as [_ Hvr].
    eexists. split; [reflexivity|]. apply en_attr_custom; auto using code_of_or_true.
  - change ((if is_custom (key_text k) then [] else key_reports k) ++ opt_reports v = []) in Hr.
    assert (Hc : is_custom (key_text k) = false).
    { destruct (is_custom (key_text k)) eqn:Hc; auto. apply custom_of in Hc. contradiction. }
    rewrite Hc in Hr. apply app_eq_nil in Hr as [Hkr Hvr]. destruct k as [k|s]; [|discriminate].
    inversion Hk; subst. eexists. split; [reflexivity|]. apply en_attr; auto using code_of_or_true.
  - change (key_reports k ++ opt_reports v = []) in Hr. apply app_eq_nil in Hr as [Hkr Hvr].
    destruct k as [k|s]; [|discriminate].
    inversion Hk; subst. eexists. split; [reflexivity|]. apply en_prop; auto using code_of_or_true.
  - change (on_reports (Directive (Id false "on") k m v) = []) in Hr.
    apply app_eq_nil in Hr as [Hm Hv'].
    eexists. split; [reflexivity|]. apply en_on; auto using code_of_opt.
    apply (code_of_event (Directive (Id false "on") k m v)); auto.
  - change (use_reports (Directive (Id false "use") k m v) = []) in Hr.
    destruct (code_of_use _ _ Hr Hu) as [Hm Hu']. cbn in Hm, Hu'. subst m.
    eexists. split; [reflexivity|]. now apply en_use.
  - exfalso. unfold component_dir_reports in Hr.
    destruct (named d "clone") eqn:H0.
    { apply named_yes in H0. specialize (Hcl d eq_refl). apply is_clone_iff in H0. congruence. }
    destruct (named d "class") eqn:H1; [apply named_yes in H1; now apply (Hno "class"); cbn; auto 10|].
    destruct (named d "style") eqn:H2; [apply named_yes in H2; now apply (Hno "style"); cbn; auto 10|].
    destruct (named d "attr") eqn:H6; [apply named_yes in H6; now apply (Hno "attr"); cbn; auto 10|].
    destruct (named d "prop") eqn:H3; [apply named_yes in H3; now apply (Hno "prop"); cbn; auto 10|].
    destruct (named d "on") eqn:H4; [apply named_yes in H4; now apply (Hno "on"); cbn; auto 10|].
    destruct (named d "use") eqn:H5; [apply named_yes in H5; now apply (Hno "use"); cbn; auto 10|].
    discriminate.
Qed.

Lemma flat_map_nil {A B} (f : A -> list B) l : flat_map f l = [] <-> forall a, In a l -> f a = [].
Proof.
  induction l as [|a l IH]; cbn; [tauto|]. split.
  - intros H. apply app_eq_nil in H as [H1 H2]. intros b [<-|Hb]; auto. now apply IH.
  - intros H. rewrite (H a (or_introl eq_refl)). apply IH. auto.
Qed.
Lemma entries_in a l : In a (entries_of l) -> In a l /\ (forall d, a = ADir d -> is_clone d = false).
Proof.
  induction l as [|[kv|d|s] l IH]; cbn; [tauto|..].
  - intros H. apply IH in H. tauto.
  - destruct (is_clone d) eqn:Hd; [intros H; apply IH in H; tauto|]. intros [<-|H].
    + split; auto. now intros d' [= <-].
    + apply IH in H. tauto.
  - intros [<-|H]; [split; [auto|discriminate]|]. apply IH in H. tauto.
Qed.
Lemma clones_in d l : In d (clones_of l) -> In (ADir d) l /\ d_dir d = Id false "clone".
Proof. unfold clones_of. intros H. apply filter_In in H as [H1 H2]. apply dirs_of_in in H1. apply is_clone_iff in H2. auto. Qed.

Lemma code_of_nodes l : flat_map child_reports l = [] ->
  (forall e, In (CElement e) l -> element_reports false e = [] -> forall ts, gap_element e ts -> element_code e ts) ->
  forall codes, gap_nodes l codes -> nodes_code l codes.
Proof.
  intros Hr He codes H. induction l as [|c l IH] in Hr, He, codes, H |- *; [inversion H; constructor|].
  cbn [flat_map] in Hr. apply app_eq_nil in Hr as [Hr1 Hr2].
  assert (IH' := IH Hr2 (fun e Hin => He e (or_intror Hin))).
  inversion H; subst; constructor; auto.
  - now apply code_of_value.
  - apply He; auto. now left.
Qed.
Lemma code_of_slots l : flat_map (fun c => match c with CSlot e => slot_item_reports e | _ => [] end) l = [] ->
  (forall e, In (CSlot e) l -> element_reports true e = [] -> forall ts, gap_slot e ts -> slot_code e ts) ->
  forall slots, gap_slots l slots -> slots_code l slots.
Proof.
  intros Hr He codes H. induction l as [|c l IH] in Hr, He, codes, H |- *; [inversion H; constructor|].
  cbn [flat_map] in Hr. apply app_eq_nil in Hr as [Hr1 Hr2].
  assert (IH' := IH Hr2 (fun e Hin => He e (or_intror Hin))).
  inversion H as [|v l' slots' Hs|e l' slots' Hs|e i ts l' slots' Ht Hv Hs|e p l' slots' Ht Hp Hs]; subst; try (constructor; auto; fail).
  - constructor; auto. apply He; auto; [now left|]. unfold slot_item_reports in Hr1. rewrite Ht in Hr1. exact Hr1.
  - exfalso. unfold slot_item_reports in Hr1. rewrite Ht in Hr1.
    destruct p as [[] [|[i []] [|]]]; try discriminate Hr1. now apply (Hp i).
Qed.
Lemma code_of_element e :
  (element_reports false e = [] -> forall ts, gap_element e ts -> element_code e ts) /\
  (element_reports true e = [] -> forall ts, gap_slot e ts -> slot_code e ts).
Proof.
  induction e as [t sels attrs args ch IHe IHs] using element_children_ind. split; intros Hr ts H;
    rewrite element_reports_eq in Hr; apply app_eq_nil in Hr as [Hsel Hr]; apply app_eq_nil in Hr as [Hat Hr];
    apply app_eq_nil in Hr as [Hn Hsl]; rewrite flat_map_nil in Hat.
  - inversion H as [t' ? ? ? ? head kvs dirs codes Hh H1 H2 H3|p ? ? ? ? path props entries clones codes slots scalls H1 H2 H3 H4 H5 H6 H7]; subst.
    + assert (Hro : role_of false t = OnHtml) by (destruct Hh; reflexivity). rewrite Hro in *. apply ec_html; auto.
      * eapply forall2_imp; [|exact H1]. intros a b Hin Hab. apply code_of_attr; auto.
        exact (Hat (AKv a) (proj2 (kvs_of_in _ _) Hin)).
      * eapply forall2_ones_inv; [|exact H2]. intros a b Hin Hab. apply code_of_dir; auto.
        exact (Hat (ADir a) (proj2 (dirs_of_in _ _) Hin)).
      * apply code_of_nodes; auto. intros e Hin. now apply IHe.
    + cbn [role_of] in *. apply ec_component with slots; auto.
      * eapply forall2_imp; [|exact H2]. intros a b Hin Hab. apply code_of_prop; auto.
        exact (Hat (AKv a) (proj2 (kvs_of_in _ _) Hin)).
      * eapply forall2_ones_inv; [|exact H3]. intros a b Hin Hab. apply entries_in in Hin as [Hin Hcl].
        apply code_of_entry; auto.
      * eapply forall2_imp; [|exact H4]. intros a b Hin Hab. apply clones_in in Hin as [Hin Hcl]. apply code_of_clone; auto.
        apply Hat in Hin. cbn [attr_reports] in Hin. unfold component_dir_reports in Hin.
        unfold named, is_word in Hin. rewrite Hcl in Hin. exact Hin.
      * apply code_of_nodes; auto. intros e Hin. now apply IHe.
      * apply code_of_slots; auto. intros e Hin. now apply IHs.
  - inversion H as [p ? ? ? ? path props clones codes slots scalls H1 H2 H4 H5 H6 H7]; subst. cbn [role_of] in *.
    assert (sels = []) as -> by (destruct sels; [auto|discriminate]).
    apply sc_slot with slots scalls; auto.
    + eapply forall2_imp; [|exact H2]. intros a b Hin Hab. apply code_of_prop; auto.
      exact (Hat (AKv a) (proj2 (kvs_of_in _ _) Hin)).
    + destruct (entries_of attrs) as [|a r] eqn:He; auto. exfalso.
      assert (Hin : In a (entries_of attrs)) by (rewrite He; now left). apply entries_in in Hin as [Hin Hcl].
      apply Hat in Hin. assert (Hkv : forall kv, a <> AKv kv).
      { intros kv ->. clear -He. induction attrs as [|[kv'|d|s] l IH]; cbn in He; try discriminate; auto.
        destruct (is_clone d); [auto|discriminate]. }
      destruct a as [kv|d|s]; [now apply (Hkv kv)| |discriminate]. cbn in Hin. unfold slot_dir_reports in Hin.
      destruct (named d "clone") eqn:Hc; [|discriminate]. apply named_yes, is_clone_iff in Hc. now rewrite (Hcl d eq_refl) in Hc.
    + eapply forall2_imp; [|exact H4]. intros a b Hin Hab. apply clones_in in Hin as [Hin Hcl]. apply code_of_clone; auto.
      apply Hat in Hin. cbn [attr_reports] in Hin. unfold slot_dir_reports in Hin.
      unfold named, is_word in Hin. rewrite Hcl in Hin. exact Hin.
    + apply code_of_nodes; auto. intros e Hin. now apply IHe.
    + apply code_of_slots; auto. intros e Hin. now apply IHs.
Qed.
Lemma code_of_root cs ts : view_reports cs = [] -> gap_root cs ts -> root_code cs ts.
Proof.
  intros Hr H. unfold view_reports in Hr. destruct (existsb _ cs); [discriminate|].
  revert Hr. destruct H; intros Hr; constructor; auto; apply code_of_nodes; auto; intros e' _; apply code_of_element.
Qed.
