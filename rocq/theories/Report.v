(** What is reported while expanding one element is reported by the macro. *)
From Verif Require Export TreeInv SpecRead CodeFacts Fuel.
From Coq Require Import Permutation.
Open Scope list_scope.
Open Scope expand_scope.

Lemma xbind_inv {A B} (m : X A) (f : A -> X B) b d : xbind m f = XR (XRet b) d ->
  exists a d1 d2, m = XR (XRet a) d1 /\ f a = XR (XRet b) d2 /\ d = d1 ++ d2.
Proof.
  destruct m as [[a| |w] d1]; cbn; try discriminate. destruct (f a) as [o d2] eqn:Hf; cbn. intros H; inversion H; subst.
  exists a, d1, d2. auto.
Qed.
Lemma xseq_inv {A} (l : list (X A)) x b d : xseq l = XR (XRet b) d -> In x l ->
  exists a d', x = XR (XRet a) d' /\ incl d' d.
Proof.
  revert b d. induction l as [|y l IH]; intros b d H Hin; [destruct Hin|]. cbn [xseq] in H.
  apply xbind_inv in H. destruct H as (a & d1 & d2 & -> & H & ->).
  apply xbind_inv in H. destruct H as (a' & d3 & d4 & H3 & H4 & ->).
  destruct Hin as [<-|Hin].
  - exists a, d1. split; auto. apply incl_appl, incl_refl.
  - destruct (IH _ _ H3 Hin) as (z & d' & -> & Hi). exists z, d'. split; auto.
    now apply incl_appr, incl_appl.
Qed.

(** ** No aborts below the root *)

Definition noabort {A} (x : X A) : Prop := x_out x <> XAbort.
Lemma na_ret {A} (a : A) : noabort (xret a).
Proof. discriminate. Qed.
Lemma na_emit d : noabort (xemit d).
Proof. discriminate. Qed.
Lemma na_panic {A} w : noabort (@xpanic A w).
Proof. discriminate. Qed.
Lemma na_bind {A B} (m : X A) (f : A -> X B) : noabort m -> (forall a, noabort (f a)) -> noabort (xbind m f).
Proof. destruct m as [[a| |w] d]; cbn; unfold noabort; cbn; intros H Hf; auto; discriminate. Qed.
Lemma na_seq {A} (l : list (X A)) : Forall noabort l -> noabort (xseq l).
Proof. induction 1; cbn [xseq]; [apply na_ret|]. apply na_bind; auto. intros. apply na_bind; auto. intros; apply na_ret. Qed.
Ltac na := repeat match goal with
  | |- noabort (xret _) => apply na_ret
  | |- noabort (xemit _) => apply na_emit
  | |- noabort (xpanic _) => apply na_panic
  | |- noabort (xbind _ _) => apply na_bind; [|intros]
  | |- noabort (if ?b then _ else _) => destruct b
  | |- noabort (match ?o with Some _ => _ | None => _ end) => destruct o eqn:?
  end.
Lemma na_value v : noabort (value_tokens v).
Proof. destruct v as [| |[p|] ts]; cbn [value_tokens]; na. Qed.
Lemma na_opt v : noabort (opt_value_tokens v).
Proof. destruct v; cbn; [apply na_value|na]. Qed.
Lemma na_snake k : noabort (xsnake k).
Proof. unfold xsnake; na. Qed.
Lemma na_ident k : noabort (to_ident_or_emit k).
Proof. destruct k; cbn [to_ident_or_emit]; [apply na_snake|na]. Qed.
Lemma na_modifier m : noabort (emit_error_if_modifier m).
Proof. destruct m; cbn; na. Qed.
#[local] Hint Resolve na_value na_opt na_snake na_ident na_modifier : na.
Lemma na_use d : noabort (use_directive_fn_value d).
Proof. unfold use_directive_fn_value. na; auto with na. Qed.
Lemma na_event d : noabort (event_listener_event_path d).
Proof. unfold event_listener_event_path. na; auto with na. destruct (d_key d); na; auto with na. Qed.
#[local] Hint Resolve na_use na_event : na.
Lemma na_html_attr a k : noabort (xml_kv_attribute_tokens a k).
Proof. unfold xml_kv_attribute_tokens. na; auto with na. Qed.
Lemma na_html_dir d : noabort (xml_directive_tokens d).
Proof. unfold xml_directive_tokens. cbn zeta. na; auto with na. Qed.
Lemma na_html_loop k l : forall acc, noabort (xml_attr_loop k l acc).
Proof.
  induction l as [|a l IH]; intros [[x y] z]; cbn [xml_attr_loop]; na. destruct a; na; auto using na_html_attr, na_html_dir.
Qed.
Lemma na_path d m : directive_to_any_attr_path d = Some m -> noabort m.
Proof.
  unfold directive_to_any_attr_path. cbn zeta.
  repeat match goal with |- (if ?b then _ else _) = _ -> _ => destruct b end; intros H; inversion H; subst;
    try destruct (attribute_kind_from _); na; auto with na.
Qed.
Lemma na_selectors s : noabort (component_selectors s).
Proof.
  unfold component_selectors. destruct (partition sel_is_class s) as [cl ids]. na.
  - apply na_seq, Forall_forall. intros x Hx. apply in_map_iff in Hx. destruct Hx as (y & <- & _). cbn. discriminate.
  - destruct ids; na; cbn; discriminate.
Qed.
Lemma na_comp_loop slot l : forall acc, noabort (component_attr_loop slot l acc).
Proof.
  induction l as [|a l IH]; intros [[x y] z]; cbn [component_attr_loop]; na. destruct a; na; auto with na.
  - unfold component_kv_attribute_tokens. na; auto with na.
  - unfold component_clone_tokens. na; auto with na.
  - eapply na_path; eauto.
Qed.
Lemma na_slot_method k s : noabort (slot_method k s).
Proof. unfold slot_method. cbn zeta. na. Qed.
Lemma na_collect l : (forall t x, In (t, x) l -> noabort x) -> forall m, noabort (collect_slots l m).
Proof.
  induction l as [|[t x] l IH]; intros H m; cbn [collect_slots]; na.
  assert (IH' : forall m, noabort (collect_slots l m)) by (apply IH; intros; eapply H; right; eauto).
  destruct t; na; auto. apply (H (TagComponent p)). now left.
Qed.
Lemma na_slots E at_ l : (forall t x, In (t, x) l -> noabort x) -> noabort (slots_to_tokens E at_ l).
Proof.
  intros H. unfold slots_to_tokens. na; [now apply na_collect|]. apply na_seq, Forall_forall. intros x Hx.
  apply in_map_iff in Hx. destruct Hx as (y & <- & _). apply na_slot_method.
Qed.
Lemma na_turbofish p : Forall seg_no_fn (segs p) -> noabort (turbofishify p).
Proof.
  intros H. unfold turbofishify. na. apply na_seq, Forall_forall. intros x Hx. apply in_map_iff in Hx.
  destruct Hx as (s & <- & Hin). eapply Forall_forall in H; eauto. unfold turbofish_seg. destruct (seg_args s) eqn:Hs; na. now destruct (H ts).
Qed.
Lemma na_nodes E l : (forall e at_, In (CElement e) l -> noabort (expand_element E at_ false e)) ->
  forall at_ n, Forall noabort (expand_nodes E at_ n l).
Proof.
  induction l as [|c l IH]; intros H at_ n; cbn [expand_nodes]; [constructor|].
  assert (IH' : forall at_ n, Forall noabort (expand_nodes E at_ n l)) by (apply IH; intros; apply H; now right).
  destruct c as [v|e|e]; auto; constructor; auto; cbn [expand_node]; na; auto with na. apply H. now left.
Qed.
Lemma na_element E e : plain_elem e -> forall at_ slot, noabort (expand_element E at_ slot e).
Proof.
  induction e as [t sels attrs args ch IHe IHs] using element_children_ind. intros Hp at_ slot.
  inversion Hp as [? ? ? ? ? Ht _ _ _ Hc]; subst.
  assert (He : forall e at_, In (CElement e) (child_list ch) -> noabort (expand_element E at_ false e)).
  { intros e at' Hin. apply IHe; auto. apply Hc in Hin. inversion Hin; auto. }
  assert (Hs : forall e at_, In (CSlot e) (child_list ch) -> noabort (expand_element E at_ true e)).
  { intros e at' Hin. apply IHs; auto. apply Hc in Hin. inversion Hin; auto. }
  assert (Hnodes : forall ns, option_map (expand_nodes E at_ 0) ch = Some ns -> Forall noabort ns).
  { intros ns H. destruct ch as [l|]; [|discriminate]. inversion H; subst. now apply na_nodes. }
  assert (Hslots : forall ss, option_map (expand_slots E at_ 0) ch = Some ss -> forall t x, In (t, x) ss -> noabort x).
  { intros ss H t' x Hin. destruct ch as [l|]; [|discriminate]. inversion H; subst.
    apply expand_slots_in in Hin. destruct Hin as (e & at' & Hin & _ & ->). now apply Hs. }
  rewrite expand_element_eq. unfold element_tokens.
  set (nodes := option_map (expand_nodes E at_ 0) ch) in *. set (slots := option_map (expand_slots E at_ 0) ch) in *.
  assert (Hcomp : forall b, noabort (expect_path (component_to_tokens E at_ b t sels attrs args nodes slots))).
  { intros b. unfold component_to_tokens. destruct t as [i|p|i|i|k]; cbn [expect_path]; na.
    all: try apply na_selectors; try apply na_comp_loop; try (apply na_turbofish; now apply Ht).
    all: destruct a1 as [[props dirs] clones]; na; try (apply na_slots; now apply Hslots).
    all: unfold component_children_tokens; na; apply na_seq; now apply Hnodes. }
  destruct slot; auto. destruct (xml_to_tokens t sels attrs nodes) as [x|] eqn:Hx; auto.
  unfold xml_to_tokens in Hx. destruct (xml_tag_path t); inversion Hx; subst. na; [apply na_html_loop|].
  destruct a as [[kvs dirs] sps]. na. unfold xml_child_methods_tokens. na. apply na_seq. now apply Hnodes.
Qed.

(** ** Diagnostics propagate *)

Lemma expand_nodes_in E l e : In (CElement e) l -> forall at_ n, exists at',
  In (ts <- expand_element E at' false e ;; xret (into_render ts)) (expand_nodes E at_ n l).
Proof.
  induction l as [|c l IH]; intros Hin at_ n; [destruct Hin|]. destruct Hin as [->|Hin].
  - exists (n :: at_). cbn [expand_nodes]. now left.
  - destruct (IH Hin at_ (S n)) as (at' & H). exists at'. destruct c; cbn [expand_nodes]; auto; now right.
Qed.
Lemma expand_slots_in' E l e : In (CSlot e) l -> forall at_ n, exists at',
  In (el_tag e, expand_element E at' true e) (expand_slots E at_ n l).
Proof.
  induction l as [|c l IH]; intros Hin at_ n; [destruct Hin|]. destruct Hin as [->|Hin].
  - exists (n :: at_). cbn [expand_slots]. now left.
  - destruct (IH Hin at_ (S n)) as (at' & H). exists at'. destruct c; cbn [expand_slots]; auto; now right.
Qed.
Lemma collect_inv l i x : In (TagComponent (Path false [PSeg i PNone]), x) l -> forall m m' d,
  collect_slots l m = XR (XRet m') d -> exists a d', x = XR (XRet a) d' /\ incl d' d.
Proof.
  induction l as [|[t y] l IH]; intros Hin m m' d H; [destruct Hin|]. cbn [collect_slots] in H.
  destruct Hin as [Hin|Hin].
  - inversion Hin; subst. cbn [get_ident] in H. apply xbind_inv in H. destruct H as (a & d1 & d2 & -> & H & ->).
    exists a, d1. split; auto. apply incl_appl, incl_refl.
  - destruct t; try discriminate. destruct (get_ident p).
    + apply xbind_inv in H. destruct H as (a & d1 & d2 & -> & H & ->). destruct (IH Hin _ _ _ H) as (a' & d' & -> & Hi).
      exists a', d'. split; auto. now apply incl_appr.
    + apply xbind_inv in H. destruct H as (a & d1 & d2 & _ & H & ->). destruct (IH Hin _ _ _ H) as (a' & d' & -> & Hi).
      exists a', d'. split; auto. now apply incl_appr.
Qed.

(** The parts of a component that are expanded. *)
Lemma component_inv E at_ slot t sels attrs args nodes slots ts d :
  expect_path (component_to_tokens E at_ slot t sels attrs args nodes slots) = XR (XRet ts) d ->
  (exists p, t = TagComponent p) /\
  (exists a d1 d2, component_attr_loop slot attrs a = XR (XRet d1) d2 /\ incl d2 d) /\
  (forall x, In x (match nodes with Some l => l | None => [] end) -> exists a d', x = XR (XRet a) d' /\ incl d' d) /\
  (forall i x, In (TagComponent (Path false [PSeg i PNone]), x) (match slots with Some l => l | None => [] end) ->
     exists a d', x = XR (XRet a) d' /\ incl d' d) /\
  (slot = true -> sels <> [] -> In DSlotSelectors d).
Proof.
  unfold component_to_tokens. destruct t as [i|p|i|i|k]; try discriminate. cbn [expect_path]. intros H. split; [eauto|].
  apply xbind_inv in H. destruct H as (p' & d1 & d2 & _ & H & ->).
  apply xbind_inv in H. destruct H as (dirs0 & d3 & d4 & Hsel & H & ->).
  apply xbind_inv in H. destruct H as ([[props dirs] clones] & d5 & d6 & Hl & H & ->).
  apply xbind_inv in H. destruct H as (chs & d7 & d8 & Hch & H & ->).
  apply xbind_inv in H. destruct H as (sl & d9 & d10 & Hs & H & ->).
  assert (Hin : forall z, incl z (d1 ++ d3 ++ d5 ++ z ++ d9 ++ d10)) by (intros; do 3 apply incl_appr; apply incl_appl, incl_refl).
  repeat split.
  - eexists _, _, _. split; [exact Hl|]. do 2 apply incl_appr. apply incl_appl, incl_refl.
  - intros x Hx. destruct nodes as [[|n0 ns]|]; try (now destruct Hx). unfold component_children_tokens in Hch.
    apply xbind_inv in Hch. destruct Hch as (l & d11 & d12 & Hq & _ & ->).
    destruct (xseq_inv _ _ _ _ Hq Hx) as (a & d' & -> & Hi). exists a, d'. split; auto.
    do 3 apply incl_appr. now apply incl_appl, incl_appl.
  - intros i x Hx. destruct slots as [l|]; [|now destruct Hx]. unfold slots_to_tokens in Hs.
    apply xbind_inv in Hs. destruct Hs as (m & d11 & d12 & Hq & _ & ->).
    destruct (collect_inv _ _ _ Hx _ _ _ Hq) as (a & d' & -> & Hi). exists a, d'. split; auto.
    do 4 apply incl_appr. now apply incl_appl, incl_appl.
  - intros -> Hne. destruct sels as [|s sels]; [congruence|]. inversion Hsel; subst.
    apply in_or_app. right. cbn. now left.
Qed.
Lemma xml_inv t sels attrs nodes x ts d : xml_to_tokens t sels attrs nodes = Some x -> x = XR (XRet ts) d ->
  (exists a d1 d2, xml_attr_loop (kind_of t) attrs a = XR (XRet d1) d2 /\ incl d2 d) /\
  (forall x, In x (match nodes with Some l => l | None => [] end) -> exists a d', x = XR (XRet a) d' /\ incl d' d).
Proof.
  unfold xml_to_tokens. destruct (xml_tag_path t); [|discriminate]. intros H ->. injection H as Hx. apply xbind_inv in Hx. destruct Hx as ([[kvs dirs] sps] & d1 & d2 & Hl & H & ->).
  apply xbind_inv in H. destruct H as (chs & d3 & d4 & Hch & H & ->). split.
  - eexists _, _, _. split; [exact Hl|]. apply incl_appl, incl_refl.
  - intros x Hx. destruct nodes as [ns|]; [|now destruct Hx]. unfold xml_child_methods_tokens in Hch.
    apply xbind_inv in Hch. destruct Hch as (l' & d11 & d12 & Hq & _ & ->).
    destruct (xseq_inv _ _ _ _ Hq Hx) as (a & d' & -> & Hi). exists a, d'. split; auto.
    apply incl_appr. now apply incl_appl, incl_appl.
Qed.
Lemma xml_some_iff t sels attrs nodes : xml_to_tokens t sels attrs nodes <> None <-> not_component t.
Proof.
  unfold xml_to_tokens, not_component. destruct t; cbn; split; intros H; try discriminate; try congruence.
  now destruct (H p).
Qed.

(** The parts of an element that are expanded. *)
Lemma element_inv E at_ b e ts d : expand_element E at_ b e = XR (XRet ts) d ->
  (forall e', In (CElement e') (child_list (el_children e)) -> exists at' ts' d',
      expand_element E at' false e' = XR (XRet ts') d' /\ incl d' d) /\
  (forall v, In (CValue v) (child_list (el_children e)) -> exists ts' d', value_tokens v = XR (XRet ts') d' /\ incl d' d) /\
  (forall e' p i, el_tag e = TagComponent p -> In (CSlot e') (child_list (el_children e)) ->
      el_tag e' = TagComponent (Path false [PSeg i PNone]) -> exists at' ts' d',
      expand_element E at' true e' = XR (XRet ts') d' /\ incl d' d) /\
  (b = false -> not_component (el_tag e) -> exists a d1 d2,
      xml_attr_loop (kind_of (el_tag e)) (el_attrs e) a = XR (XRet d1) d2 /\ incl d2 d) /\
  (forall p, el_tag e = TagComponent p -> exists a d1 d2,
      component_attr_loop b (el_attrs e) a = XR (XRet d1) d2 /\ incl d2 d) /\
  (b = true -> el_sels e <> [] -> In DSlotSelectors d).
Proof.
  destruct e as [t sels attrs args ch]. cbn [el_children el_tag el_attrs el_sels]. rewrite expand_element_eq. unfold element_tokens.
  set (nodes := option_map (expand_nodes E at_ 0) ch). set (slots := option_map (expand_slots E at_ 0) ch).
  assert (Hn1 : (forall x, In x (match nodes with Some l => l | None => [] end) -> exists a d', x = XR (XRet a) d' /\ incl d' d) ->
    (forall e', In (CElement e') (child_list ch) -> exists at' ts' d', expand_element E at' false e' = XR (XRet ts') d' /\ incl d' d) /\
    (forall v, In (CValue v) (child_list ch) -> exists ts' d', value_tokens v = XR (XRet ts') d' /\ incl d' d)).
  { intros H. destruct ch as [l|]; [|split; cbn; tauto]. cbn [child_list nodes option_map] in *. split.
    - intros e' Hin. destruct (expand_nodes_in E l e' Hin at_ 0) as (at' & Hx). apply H in Hx. destruct Hx as (a & d' & Hx & Hi).
      apply xbind_inv in Hx. destruct Hx as (ts' & d1 & d2 & Hx & _ & ->). exists at', ts', d1. split; auto.
      intros z Hz. apply Hi, in_or_app. now left.
    - intros v Hin. assert (Hv : forall n, In (ts <- value_tokens v ;; xret (into_render ts)) (expand_nodes E at_ n l)).
      { clear -Hin. induction l as [|c l IH]; intros n; [destruct Hin|]. destruct Hin as [->|Hin]; [now left|].
        destruct c; cbn [expand_nodes]; auto; right; auto. }
      specialize (Hv 0). apply H in Hv. destruct Hv as (a & d' & Hx & Hi).
      apply xbind_inv in Hx. destruct Hx as (ts' & d1 & d2 & Hx & _ & ->). exists ts', d1. split; auto.
      intros z Hz. apply Hi, in_or_app. now left. }
  assert (Hc : expect_path (component_to_tokens E at_ b t sels attrs args nodes slots) = XR (XRet ts) d ->
    (exists p, t = TagComponent p) /\
    (forall e' p i, t = TagComponent p -> In (CSlot e') (child_list ch) ->
      el_tag e' = TagComponent (Path false [PSeg i PNone]) -> exists at' ts' d',
      expand_element E at' true e' = XR (XRet ts') d' /\ incl d' d)).
  { intros H. apply component_inv in H. destruct H as (Hp & _ & _ & H & _). split; auto. intros e' p i -> Hin Ht.
    destruct ch as [l|]; [|now destruct Hin]. destruct (expand_slots_in' E l e' Hin at_ 0) as (at' & Hx).
    cbn [slots option_map] in H. rewrite Ht in Hx. apply H in Hx. destruct Hx as (a & d' & Hx & Hi). eauto. }
  intros H.
  assert (Hcase : expect_path (component_to_tokens E at_ b t sels attrs args nodes slots) = XR (XRet ts) d \/
    b = false /\ exists x, xml_to_tokens t sels attrs nodes = Some x /\ x = XR (XRet ts) d).
  { destruct b; auto. destruct (xml_to_tokens t sels attrs nodes) as [x|] eqn:Hx; eauto. }
  destruct Hcase as [Hcase|(-> & x & Hx & Heq)].
  - destruct (Hc Hcase) as ((p & ->) & H1). apply component_inv in Hcase. destruct Hcase as (_ & H2 & H3 & _ & H4).
    destruct (Hn1 H3) as [H5 H6]. repeat split; auto; eauto.
    + intros _ Hn. now destruct (Hn p).
  - assert (Hnc : not_component t) by (apply (xml_some_iff t sels attrs nodes); congruence).
    destruct (xml_inv _ _ _ _ _ _ _ Hx Heq) as [H1 H2]. destruct (Hn1 H2) as [H5 H6].
    repeat split; auto.
    + intros e' p i Hp. now destruct (Hnc p).
    + intros p Hp. now destruct (Hnc p).
    + discriminate.
Qed.
Lemma root_inv E cs ts d : root_tokens E cs = XR (XRet ts) d ->
  (forall e', In (CElement e') cs -> exists at' ts' d', expand_element E at' false e' = XR (XRet ts') d' /\ incl d' d) /\
  (forall v, In (CValue v) cs -> exists ts' d', value_tokens v = XR (XRet ts') d' /\ incl d' d).
Proof.
  intros H.
  assert (Hone : forall at_ c, (exists ts' d', expand_node E at_ c = XR (XRet ts') d' /\ incl d' d) ->
    (forall e', CElement e' = c -> exists at' ts' d', expand_element E at' false e' = XR (XRet ts') d' /\ incl d' d) /\
    (forall v, CValue v = c -> exists ts' d', value_tokens v = XR (XRet ts') d' /\ incl d' d)).
  { intros at_ c (ts' & d' & Hx & Hi). split; intros ? <-; cbn [expand_node] in Hx;
      apply xbind_inv in Hx; destruct Hx as (ts2 & d1 & d2 & Hx & _ & ->); [exists at_|]; exists ts2, d1; (split; [auto|]);
      intros z Hz; apply Hi, in_or_app; now left. }
  assert (Hall : forall c, In c cs -> (forall e, c <> CSlot e) -> exists at_ ts' d', expand_node E at_ c = XR (XRet ts') d' /\ incl d' d).
  { intros c Hin Hs. destruct cs as [|c1 [|c2 cs]]; [destruct Hin|..].
    - destruct Hin as [->|[]]. exists [0]. cbn [root_tokens] in H. destruct c as [v|e|e]; [..|now destruct (Hs e)];
        apply xbind_inv in H; destruct H as (ts2 & d1 & d2 & Hx & _ & ->); exists ts2, d1; split; auto; apply incl_appl, incl_refl.
    - unfold root_tokens in H. set (l := c1 :: c2 :: cs) in *. destruct (existsb is_slot l); [discriminate|].
      apply xbind_inv in H. destruct H as (ts2 & d1 & d2 & Hx & _ & ->).
      assert (Hin' : forall n, exists at_, In (expand_node E at_ c) (expand_nodes E [] n l)).
      { clear -Hin Hs. clearbody l. clear cs. induction l as [|c0 l IH]; intros n; [destruct Hin|]. destruct Hin as [->|Hin].
        - exists [n]. destruct c as [v|e|e]; [now left|now left|now destruct (Hs e)].
        - destruct (IH Hin (S n)) as (at_ & Ha). exists at_. destruct c0; cbn [expand_nodes]; auto; now right. }
      destruct (Hin' 0) as (at_ & Ha). destruct (xseq_inv _ _ _ _ Hx Ha) as (a & d' & Heq & Hi). exists at_, a, d'.
      split; auto. now apply incl_appl. }
  split.
  - intros e' Hin. destruct (Hall _ Hin) as (at_ & Hx); [discriminate|]. apply (Hone at_ (CElement e')); auto.
  - intros v Hin. destruct (Hall _ Hin) as (at_ & Hx); [discriminate|]. apply (Hone at_ (CValue v)); auto.
Qed.
Lemma reached_inv E cs ts d b e : root_tokens E cs = XR (XRet ts) d -> reached cs b e ->
  exists at' ts' d', expand_element E at' b e = XR (XRet ts') d' /\ incl d' d.
Proof.
  intros Hr. induction 1 as [e Hin|b e e' H IH Hin|b e e' p i H IH Hp Hin Ht].
  - apply root_inv in Hr. now apply Hr.
  - destruct IH as (at1 & ts1 & d1 & H1 & Hi). apply element_inv in H1. destruct (proj1 H1 e' Hin) as (at2 & ts2 & d2 & H2 & Hi2).
    exists at2, ts2, d2. split; auto. eapply incl_tran; eauto.
  - destruct IH as (at1 & ts1 & d1 & H1 & Hi). apply element_inv in H1. destruct H1 as (_ & _ & H1 & _).
    destruct (H1 e' p i Hp Hin Ht) as (at2 & ts2 & d2 & H2 & Hi2).
    exists at2, ts2, d2. split; auto. eapply incl_tran; eauto.
Qed.

(** ** The macro *)

(** The macro reports [x], or panics before it can. *)
Definition reports (E : env) (input : list tt) (x : diag) : Prop :=
  match mview E input with
  | Errors ds => In x ds
  | Panicked _ => True
  | _ => False
  end.
(** The tree the parser builds for [input], possibly with errors. *)
Definition built (E : env) (input : list tt) (cs : list child) : Prop :=
  exists r ds, children_of E input = PR (Ret cs) r ds.
Definition no_root_slot (cs : list child) : Prop := forall e, ~ In (CSlot e) cs.

Lemma root_noabort E cs : Forall plain_child cs -> no_root_slot cs -> noabort (root_tokens E cs).
Proof.
  intros Hp Hs. unfold root_tokens. rewrite Forall_forall in Hp.
  assert (Hn : forall at_ n, Forall noabort (expand_nodes E at_ n cs)).
  { apply na_nodes. intros e at_ Hin. apply na_element. apply Hp in Hin. now inversion Hin. }
  assert (Hb : existsb is_slot cs = false).
  { destruct (existsb is_slot cs) eqn:Hb; auto. apply existsb_exists in Hb. destruct Hb as ([v|e|e] & Hin & Hx); try discriminate.
    now destruct (Hs e). }
  rewrite Hb. assert (Hm : noabort (l <- xseq (expand_nodes E [] 0 cs) ;;
        xret [TGroup Brace ([pu "#"; TGroup Bracket [kw "allow"; par [kw "unused_braces"]]] ++ children_fragment_tokens l)])).
  { na. apply na_seq, Hn. }
  destruct cs as [|c [|c' cs]]; auto. destruct c as [v|e|e].
  - cbn [expand_node]. na; apply na_value.
  - cbn [expand_node]. na. apply na_element. assert (Hx := Hp (CElement e) (or_introl eq_refl)). now inversion Hx.
  - destruct (Hs e). now left.
Qed.
Theorem reported E input cs x : env_ok E -> built E input cs -> no_root_slot cs ->
  (forall ts d, root_tokens E cs = XR (XRet ts) d -> In x d) -> reports E input x.
Proof.
  intros HE (r & ds & Hb) Hs Hx. unfold reports, mview. unfold children_of in Hb. rewrite Hb.
  pose proof (root_noabort E cs (parsed_plain _ _ _ _ _ _ HE (Nat.lt_succ_diag_r _) Hb) Hs) as Hna.
  destruct (root_tokens E cs) as [[ts| |w] d] eqn:Hr; [|now destruct Hna|auto].
  specialize (Hx _ _ eq_refl). destruct (ds ++ d) eqn:Hd; [|rewrite <- Hd; apply in_or_app; auto].
  apply app_eq_nil in Hd. destruct Hd; subst. destruct Hx.
Qed.
Theorem reported_below E input cs b e x : env_ok E -> built E input cs -> no_root_slot cs -> reached cs b e ->
  (forall at_ ts d, expand_element E at_ b e = XR (XRet ts) d -> In x d) -> reports E input x.
Proof.
  intros HE Hb Hs Hr Hx. eapply reported; eauto. intros ts d H. destruct (reached_inv _ _ _ _ _ _ H Hr) as (at' & ts' & d' & H' & Hi).
  apply Hi. eauto.
Qed.

(** A tree for which there is no code is not expanded. *)
Theorem not_coded E input cs : env_ok E -> built E input cs -> (forall out, ~ root_code cs out) ->
  forall out, mview E input <> Expanded out.
Proof.
  intros HE (r & ds & Hb) Hn out H. unfold mview in H. unfold children_of in Hb. rewrite Hb in H.
  destruct (root_tokens E cs) as [[ts| |w] d] eqn:Hr; try discriminate.
  destruct (ds ++ d) eqn:Hd; [|discriminate]. apply app_eq_nil in Hd. destruct Hd; subst.
  apply root_sound in Hr; auto. now apply Hn in Hr.
Qed.
Theorem not_coded_below E input cs b e : env_ok E -> built E input cs -> checked cs b e ->
  (forall code, ~ code_of b e code) -> forall out, mview E input <> Expanded out.
Proof.
  intros HE Hb Hc Hn. eapply not_coded; eauto. intros out Hr. destruct (checked_code _ _ _ _ Hr Hc) as (code & H).
  now apply Hn in H.
Qed.

(** ** Attributes *)

Lemma html_loop_inv k l : forall acc x d, xml_attr_loop k l acc = XR (XRet x) d ->
  (forall a, In (AKv a) l -> exists ts d', xml_kv_attribute_tokens a k = XR (XRet ts) d' /\ incl d' d) /\
  (forall a, In (ADir a) l -> exists ts d', xml_directive_tokens a = XR (XRet ts) d' /\ incl d' d).
Proof.
  induction l as [|a l IH]; intros [[kvs dirs] sps] x d H; [split; intros ? []|]. cbn [xml_attr_loop] in H.
  destruct a as [a|a|s].
  - apply xbind_inv in H. destruct H as (t & d1 & d2 & H1 & H & ->). apply IH in H. destruct H as [Ha Hb]. split.
    + intros a' [Heq|Hin]; [inversion Heq; subst; eexists _, _; split; [exact H1|]; apply incl_appl, incl_refl|].
      destruct (Ha _ Hin) as (ts & d' & ? & ?). exists ts, d'. split; auto. now apply incl_appr.
    + intros a' [Heq|Hin]; [inversion Heq|].
      destruct (Hb _ Hin) as (ts & d' & ? & ?). exists ts, d'. split; auto. now apply incl_appr.
  - apply xbind_inv in H. destruct H as (t & d1 & d2 & H1 & H & ->). apply IH in H. destruct H as [Ha Hb]. split.
    + intros a' [Heq|Hin]; [inversion Heq|].
      destruct (Ha _ Hin) as (ts & d' & ? & ?). exists ts, d'. split; auto. now apply incl_appr.
    + intros a' [Heq|Hin]; [inversion Heq; subst; eexists _, _; split; [exact H1|]; apply incl_appl, incl_refl|].
      destruct (Hb _ Hin) as (ts & d' & ? & ?). exists ts, d'. split; auto. now apply incl_appr.
  - apply IH in H. destruct H as [Ha Hb]. split; intros a' [Heq|Hin]; try discriminate; auto.
Qed.
Lemma incl_l {A} (a b c : list A) : incl a b -> incl a (b ++ c).
Proof. apply incl_appl. Qed.
Lemma incl_r {A} (a b c : list A) : incl a c -> incl a (b ++ c).
Proof. apply incl_appr. Qed.
Lemma comp_loop_inv slot l : forall acc x d, component_attr_loop slot l acc = XR (XRet x) d ->
  (forall a, In (AKv a) l -> exists ts d', component_kv_attribute_tokens a = XR (XRet ts) d' /\ incl d' d) /\
  (forall s, In (ASpread s) l -> slot = true -> In DSlotSpread d) /\
  (forall a, In (ADir a) l -> ident_to_string (d_dir a) = "clone" ->
     exists ts d', component_clone_tokens a = XR (XRet ts) d' /\ incl d' d) /\
  (forall a, In (ADir a) l -> ident_to_string (d_dir a) <> "clone" -> slot = true -> In (DSlotDirective (ident_to_string (d_dir a))) d) /\
  (forall a, In (ADir a) l -> ident_to_string (d_dir a) <> "clone" -> slot = false ->
     match directive_to_any_attr_path a with
     | Some m => exists ts d', m = XR (XRet ts) d' /\ incl d' d
     | None => In DUnknownDirective d
     end).
Proof.
  induction l as [|a l IH]; intros [[props dirs] clones] x d H; [repeat split; intros ? []|]. cbn [component_attr_loop] in H.
  assert (Hup : forall d1 d2, (forall z, incl z d2 -> incl z (d1 ++ d2)) /\ (forall z : diag, In z d2 -> In z (d1 ++ d2))).
  { intros. split; intros; [now apply incl_appr|apply in_or_app; auto]. }
  destruct a as [a|a|s].
  - apply xbind_inv in H. destruct H as (t & d1 & d2 & H1 & H & ->). apply IH in H. destruct H as (Ha & Hb & Hc & Hd & He).
    destruct (Hup d1 d2) as [U1 U2]. repeat split.
    + intros a' [Heq|Hin]; [inversion Heq; subst; eexists _, _; split; [exact H1|]; apply incl_appl, incl_refl|].
      destruct (Ha _ Hin) as (ts & d' & ? & ?). eauto.
    + intros s [Heq|Hin]; [discriminate|eauto].
    + intros a' [Heq|Hin] Hn; [discriminate|]. destruct (Hc _ Hin Hn) as (ts & d' & ? & ?). eauto.
    + intros a' [Heq|Hin]; [discriminate|eauto].
    + intros a' [Heq|Hin] Hn Hs; [discriminate|]. specialize (He _ Hin Hn Hs). destruct (directive_to_any_attr_path a'); auto.
      destruct He as (ts & d' & ? & ?). eauto.
  - destruct (String.eqb (ident_to_string (d_dir a)) "clone") eqn:Hcl.
    + apply String.eqb_eq in Hcl. apply xbind_inv in H. destruct H as (t & d1 & d2 & _ & H & ->).
      apply xbind_inv in H. destruct H as (t' & d3 & d4 & H1 & H & ->). apply IH in H. destruct H as (Ha & Hb & Hc & Hd & He).
      rewrite app_assoc. destruct (Hup (d1 ++ d3) d4) as [U1 U2]. repeat split.
      * intros a' [Heq|Hin]; [discriminate|]. destruct (Ha _ Hin) as (ts & d' & ? & ?). eauto.
      * intros s [Heq|Hin]; [discriminate|eauto].
      * intros a' [Heq|Hin] Hn; [inversion Heq; subst; eexists _, _; split; [exact H1|]; now apply incl_appl, incl_appr|].
        destruct (Hc _ Hin Hn) as (ts & d' & ? & ?). eauto.
      * intros a' [Heq|Hin] Hn; [inversion Heq; subst; contradiction|eauto].
      * intros a' [Heq|Hin] Hn Hs; [inversion Heq; subst; contradiction|]. specialize (He _ Hin Hn Hs).
        destruct (directive_to_any_attr_path a'); auto. destruct He as (ts & d' & ? & ?). eauto.
    + apply String.eqb_neq in Hcl. destruct slot.
      * apply xbind_inv in H. destruct H as (t & d1 & d2 & H1 & H & ->). apply IH in H. destruct H as (Ha & Hb & Hc & Hd & He).
        inversion H1; subst d1. destruct (Hup [DSlotDirective (ident_to_string (d_dir a))] d2) as [U1 U2]. repeat split; try discriminate.
        -- intros a' [Heq|Hin]; [discriminate|]. destruct (Ha _ Hin) as (ts & d' & ? & ?). eauto.
        -- intros s [Heq|Hin]; [discriminate|eauto].
        -- intros a' [Heq|Hin] Hn; [inversion Heq; subst; contradiction|]. destruct (Hc _ Hin Hn) as (ts & d' & ? & ?). eauto.
        -- intros a' [Heq|Hin] Hn Hs; [inversion Heq; subst; now left|eauto].
      * destruct (directive_to_any_attr_path a) as [m|] eqn:Hm.
        -- apply xbind_inv in H. destruct H as (t & d1 & d2 & H1 & H & ->). apply IH in H. destruct H as (Ha & Hb & Hc & Hd & He).
           destruct (Hup d1 d2) as [U1 U2]. repeat split; try discriminate.
           ++ intros a' [Heq|Hin]; [discriminate|]. destruct (Ha _ Hin) as (ts & d' & ? & ?). eauto.
           ++ intros a' [Heq|Hin] Hn; [inversion Heq; subst; contradiction|]. destruct (Hc _ Hin Hn) as (ts & d' & ? & ?). eauto.
           ++ intros a' [Heq|Hin] Hn Hs.
              ** inversion Heq; subst a'. rewrite Hm. eexists _, _. split; [exact H1|]. apply incl_appl, incl_refl.
              ** specialize (He _ Hin Hn Hs). destruct (directive_to_any_attr_path a'); auto. destruct He as (ts & d' & ? & ?). eauto.
        -- apply xbind_inv in H. destruct H as (t & d1 & d2 & H1 & H & ->). apply IH in H. destruct H as (Ha & Hb & Hc & Hd & He).
           inversion H1; subst d1. destruct (Hup [DUnknownDirective] d2) as [U1 U2]. repeat split; try discriminate.
           ++ intros a' [Heq|Hin]; [discriminate|]. destruct (Ha _ Hin) as (ts & d' & ? & ?). eauto.
           ++ intros a' [Heq|Hin] Hn; [inversion Heq; subst; contradiction|]. destruct (Hc _ Hin Hn) as (ts & d' & ? & ?). eauto.
           ++ intros a' [Heq|Hin] Hn Hs.
              ** inversion Heq; subst a'. rewrite Hm. now left.
              ** specialize (He _ Hin Hn Hs). destruct (directive_to_any_attr_path a'); auto. destruct He as (ts & d' & ? & ?). eauto.
  - destruct slot.
    + apply xbind_inv in H. destruct H as (t & d1 & d2 & H1 & H & ->). apply IH in H. destruct H as (Ha & Hb & Hc & Hd & He).
      inversion H1; subst d1. destruct (Hup [DSlotSpread] d2) as [U1 U2]. repeat split; try discriminate.
      * intros a' [Heq|Hin]; [discriminate|]. destruct (Ha _ Hin) as (ts & d' & ? & ?). eauto.
      * intros. now left.
      * intros a' [Heq|Hin] Hn; [discriminate|]. destruct (Hc _ Hin Hn) as (ts & d' & ? & ?). eauto.
      * intros a' [Heq|Hin]; [discriminate|eauto].
    + apply IH in H. destruct H as (Ha & Hb & Hc & Hd & He). repeat split; try discriminate;
        intros a' [Heq|Hin]; try discriminate; eauto. exact (He _ Hin).
Qed.
