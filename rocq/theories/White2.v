(** Expansion of trees that differ only in the white space in their code. *)
From Verif Require Export White ExpandFacts2.
Open Scope list_scope.
Close Scope parse_scope.
Open Scope expand_scope.

Inductive rx {A} (R : A -> A -> Prop) : X A -> X A -> Prop :=
| rx_ret a b d : R a b -> rx R (XR (XRet a) d) (XR (XRet b) d)
| rx_abort d : rx R (XR XAbort d) (XR XAbort d)
| rx_panic w d : rx R (XR (XPanic w) d) (XR (XPanic w) d).
Definition tk : list tt -> list tt -> Prop := eqv lcode.
Definition rt : X (list tt) -> X (list tt) -> Prop := rx tk.

Lemma x_refl {A} (R : A -> A -> Prop) m : (forall a, R a a) -> rx R m m.
Proof. intros H. destruct m as [[] d]; now constructor. Qed.
Lemma x_ret {A} (R : A -> A -> Prop) a b : R a b -> rx R (xret a) (xret b).
Proof. now constructor. Qed.
Lemma x_bind {A B} (R : A -> A -> Prop) (S : B -> B -> Prop) m m' f f' : rx R m m' ->
  (forall a b, R a b -> rx S (f a) (f' b)) -> rx S (xbind m f) (xbind m' f').
Proof. intros [a b d Hab|d|w d] Hf; cbn; try now constructor. destruct (Hf _ _ Hab); cbn; now constructor. Qed.
(** The same first step. *)
Lemma x_same {A B} (S : B -> B -> Prop) (m : X A) f f' : (forall a, rx S (f a) (f' a)) -> rx S (xbind m f) (xbind m f').
Proof. intros H. apply (x_bind eq); [now apply x_refl|]. now intros a ? <-. Qed.
Lemma x_seq {A} (R : A -> A -> Prop) l l' : Forall2 (rx R) l l' -> rx (Forall2 R) (xseq l) (xseq l').
Proof.
  induction 1 as [|m m' l l' Hm _ IH]; cbn [xseq]; [now apply x_ret|].
  eapply x_bind; [exact Hm|]. intros a b Hab. eapply x_bind; [exact IH|]. intros x y Hxy. apply x_ret. now constructor.
Qed.

Lemma loose_twice t : loose (loose t) = loose t.
Proof.
  revert t. fix rec 1. intros [i|c s|k v|d ts]; cbn; try reflexivity. f_equal. induction ts as [|t ts IH]; cbn; [reflexivity|]. now rewrite rec, IH.
Qed.
Lemma lcode_twice ts : lcode (lcode ts) = lcode ts.
Proof. unfold lcode. rewrite map_map. apply map_ext, loose_twice. Qed.
Lemma tk_lcode ts : tk ts (lcode ts).
Proof. unfold tk, eqv. now rewrite lcode_twice. Qed.
Lemma tk_refl ts : tk ts ts. Proof. reflexivity. Qed.
Lemma tk_app a a' b b' : tk a a' -> tk b b' -> tk (a ++ b) (a' ++ b').
Proof. unfold tk, eqv, lcode. rewrite !map_app. congruence. Qed.
Lemma tk_cons t a a' : tk a a' -> tk (t :: a) (t :: a').
Proof. unfold tk, eqv, lcode. cbn. congruence. Qed.
Lemma tk_group d g g' a a' : tk g g' -> tk a a' -> tk (TGroup d g :: a) (TGroup d g' :: a').
Proof. unfold tk, eqv, lcode. cbn. congruence. Qed.
Lemma tk_method i a a' : tk a a' -> tk (method i a) (method i a').
Proof. intros H. unfold method. do 2 apply tk_cons. now apply tk_group. Qed.
Lemma tk_flat {A} (R : A -> A -> Prop) (f : A -> list tt) l l' : (forall a b, R a b -> tk (f a) (f b)) -> Forall2 R l l' -> tk (flat_map f l) (flat_map f l').
Proof. intros Hf. induction 1; cbn; [apply tk_refl|]. apply tk_app; auto. Qed.
Lemma tk_concat l l' : Forall2 tk l l' -> tk (List.concat l) (List.concat l').
Proof. induction 1; cbn; [apply tk_refl|]. now apply tk_app. Qed.
Ltac tks := repeat first
  [ assumption | apply tk_refl | apply tk_lcode | apply tk_method | apply tk_app | apply tk_group | apply tk_cons ].

(** ** Values and paths *)
Lemma x_value v : rt (value_tokens v) (value_tokens (lvalue v)).
Proof.
  destruct v as [l|ts|[p|] ts]; cbn [value_tokens lvalue]; try (apply x_ret; tks).
  destruct (ident_is p "f"); [apply x_ret; unfold par; tks|]. now apply x_refl.
Qed.
Lemma x_opt_value v : rt (opt_value_tokens v) (opt_value_tokens (option_map lvalue v)).
Proof. destruct v; cbn; [apply x_value|now apply x_refl]. Qed.
Lemma or_true v : value_or_true (option_map lvalue v) = lvalue (value_or_true v).
Proof. now destruct v. Qed.
Lemma x_value_true v : rt (value_tokens (value_or_true v)) (value_tokens (value_or_true (option_map lvalue v))).
Proof. rewrite or_true. apply x_value. Qed.
Lemma tk_args a : tk (match a with PNone => [] | PAngle tf ts => (if tf : bool then colon2 else []) ++ ts | PParen ts => ts end)
                     (match largs a with PNone => [] | PAngle tf ts => (if tf : bool then colon2 else []) ++ ts | PParen ts => ts end).
Proof. destruct a; cbn [largs]; tks. Qed.
Lemma tk_seg s : tk (seg_tokens s) (seg_tokens (lseg s)).
Proof. unfold seg_tokens. apply tk_cons. apply tk_args. Qed.
Lemma tk_segs l : tk (segs_tokens l) (segs_tokens (map lseg l)).
Proof.
  induction l as [|s l IH]; [apply tk_refl|]. destruct l as [|s' l]; [apply tk_seg|].
  change (segs_tokens (s :: s' :: l)) with (seg_tokens s ++ colon2 ++ segs_tokens (s' :: l)).
  change (segs_tokens (map lseg (s :: s' :: l))) with (seg_tokens (lseg s) ++ colon2 ++ segs_tokens (map lseg (s' :: l))).
  apply tk_app; [apply tk_seg|]. apply tk_app; [apply tk_refl|exact IH].
Qed.
Lemma tk_path p : tk (path_tokens p) (path_tokens (lpath p)).
Proof. unfold path_tokens. cbn [lpath leading segs]. apply tk_app; [apply tk_refl|apply tk_segs]. Qed.
Lemma x_turbofish p : rx (fun q q' => q' = lpath q) (turbofishify p) (turbofishify (lpath p)).
Proof.
  unfold turbofishify. eapply (x_bind (fun l l' => l' = map lseg l)); [|intros l ? ->; now apply x_ret].
  cbn [lpath segs]. rewrite map_map.
  assert (H : Forall2 (rx (fun s s' => s' = lseg s)) (map turbofish_seg (segs p)) (map (fun s => turbofish_seg (lseg s)) (segs p))).
  { induction (segs p) as [|s l IH]; cbn [map]; constructor; auto. destruct s as [i []]; cbn; now constructor. }
  destruct (x_seq _ _ _ H) as [a b d Hab|d|w d]; constructor. clear - Hab. induction Hab; cbn; congruence.
Qed.

(** ** Attributes *)
Lemma x_use d : rx (fun x y => fst x = fst y /\ tk (snd x) (snd y)) (use_directive_fn_value d) (use_directive_fn_value (ldir d)).
Proof.
  unfold use_directive_fn_value. cbn [ldir d_dir d_key d_modifier d_value].
  apply x_same. intros _. apply x_same. intros i. apply x_same. intros _. destruct (d_value d) as [v|]; cbn [option_map].
  - eapply x_bind; [apply x_value|]. intros a b Hab. apply x_ret. cbn. split; [reflexivity|]. unfold par. tks.
  - now apply x_refl.
Qed.
Lemma event_same d : event_listener_event_path (ldir d) = event_listener_event_path d.
Proof. reflexivity. Qed.
Lemma x_kv a k : rt (xml_kv_attribute_tokens a k) (xml_kv_attribute_tokens (lkv a) k).
Proof.
  unfold xml_kv_attribute_tokens. cbn [lkv kv_key kv_value]. destruct (String.eqb _ "ref").
  - eapply x_bind; [apply x_value|]. intros v v' Hv. apply x_ret. tks.
  - destruct (_ && _).
    + eapply x_bind; [apply x_value|]. intros v v' Hv. apply x_ret. unfold par. tks.
    + apply x_same. intros i. eapply x_bind; [apply x_value|]. intros v v' Hv. apply x_ret. tks.
Qed.
Lemma x_dir d : rt (xml_directive_tokens d) (xml_directive_tokens (ldir d)).
Proof.
  unfold xml_directive_tokens. rewrite event_same. cbn [ldir d_dir d_key d_modifier d_value]. destruct (_ || _).
  { apply x_same. intros _. eapply x_bind; [apply x_opt_value|]. intros v v' Hv. apply x_ret. unfold par. tks. }
  destruct (String.eqb _ "prop").
  { apply x_same. intros _. eapply x_bind; [apply x_opt_value|]. intros v v' Hv. apply x_ret. tks. }
  destruct (String.eqb _ "on").
  { apply x_same. intros p. eapply x_bind; [apply x_opt_value|]. intros v v' Hv. apply x_ret. tks. }
  destruct (String.eqb _ "use").
  { eapply x_bind; [apply (x_use d)|]. intros [i v] [i' v'] [Hi Hv]. cbn in Hi, Hv. subst i'. apply x_ret. cbn [fst snd]. tks. }
  now apply x_refl.
Qed.
Definition tk3 {A B C} (R : A -> A -> Prop) (S : B -> B -> Prop) (T : C -> C -> Prop) (x y : A * B * C) : Prop :=
  R (fst (fst x)) (fst (fst y)) /\ S (snd (fst x)) (snd (fst y)) /\ T (snd x) (snd y).
Lemma x_attr_loop k l : forall acc acc', tk3 tk tk tk acc acc' ->
  rx (tk3 tk tk tk) (xml_attr_loop k l acc) (xml_attr_loop k (map lattr l) acc').
Proof.
  induction l as [|a l IH]; intros [[kvs dirs] sps] [[kvs' dirs'] sps'] (H1 & H2 & H3); cbn in H1, H2, H3; cbn [map xml_attr_loop]; [now apply x_ret|].
  destruct a as [kv|d|s]; cbn [lattr].
  - eapply x_bind; [apply x_kv|]. intros t t' Ht. apply IH. split; [|split]; cbn; tks.
  - eapply x_bind; [apply x_dir|]. intros t t' Ht. apply IH. split; [|split]; cbn; tks.
  - apply IH. unfold xml_spread_tokens. split; [|split]; cbn [fst snd]; tks.
Qed.
Lemma x_ckv a : rt (component_kv_attribute_tokens a) (component_kv_attribute_tokens (lkv a)).
Proof.
  unfold component_kv_attribute_tokens. cbn [lkv kv_key kv_value]. apply x_same. intros i.
  eapply x_bind; [apply x_value|]. intros v v' Hv. apply x_ret. tks.
Qed.
Lemma clone_same d : component_clone_tokens (ldir d) = component_clone_tokens d.
Proof. unfold component_clone_tokens. cbn [ldir d_key d_modifier d_value]. now destruct (d_value d). Qed.
Definition rxo (x y : option (X (list tt))) : Prop :=
  match x, y with Some a, Some b => rt a b | None, None => True | _, _ => False end.
Lemma x_any_path d : rxo (directive_to_any_attr_path d) (directive_to_any_attr_path (ldir d)).
Proof.
  unfold directive_to_any_attr_path. rewrite event_same. cbn [ldir d_dir d_key d_modifier d_value]. destruct (_ || _).
  { eapply x_bind; [apply x_value_true|]. intros v v' Hv. apply x_ret. unfold par. tks. }
  destruct (String.eqb _ "attr").
  { cbn [rxo]. destruct (attribute_kind_from _).
    1,2,4: apply x_same; intros i.
    all: eapply x_bind; [apply x_value_true|]; intros v v' Hv; apply x_ret; unfold par; tks. }
  destruct (String.eqb _ "prop").
  { apply x_same. intros p. eapply x_bind; [apply x_value_true|]. intros v v' Hv. apply x_ret. unfold par. tks. }
  destruct (String.eqb _ "on").
  { apply x_same. intros p. eapply x_bind; [apply x_opt_value|]. intros v v' Hv. apply x_ret. unfold par. tks. }
  destruct (String.eqb _ "use"); [|exact I].
  eapply x_bind; [apply (x_use d)|]. intros [i v] [i' v'] [Hi Hv]. cbn in Hi, Hv. subst i'. apply x_ret. cbn [fst snd]. unfold par. tks.
Qed.
Lemma tks_app l l' m m' : Forall2 tk l l' -> Forall2 tk m m' -> Forall2 tk (l ++ m) (l' ++ m').
Proof. intros H1 H2. now apply Forall2_app. Qed.
Lemma x_cattr_loop slot l : forall acc acc', tk3 tk (Forall2 tk) tk acc acc' ->
  rx (tk3 tk (Forall2 tk) tk) (component_attr_loop slot l acc) (component_attr_loop slot (map lattr l) acc').
Proof.
  induction l as [|a l IH]; intros [[props dirs] clones] [[props' dirs'] clones'] (H1 & H2 & H3); cbn in H1, H2, H3;
    cbn [map component_attr_loop]; [now apply x_ret|].
  destruct a as [kv|d|s]; cbn [lattr].
  - eapply x_bind; [apply x_ckv|]. intros t t' Ht. apply IH. split; [|split]; cbn; tks.
  - cbn [ldir d_dir d_modifier]. destruct (String.eqb _ "clone").
    + apply x_same. intros _. change (component_clone_tokens (Directive (d_dir d) (d_key d) (d_modifier d) (option_map lvalue (d_value d))))
        with (component_clone_tokens (ldir d)). rewrite clone_same. apply x_same. intros t. apply IH. split; [|split]; cbn; tks.
    + destruct slot; [apply x_same; intros _; apply IH; now split|].
      pose proof (x_any_path d) as Hd.
      destruct (directive_to_any_attr_path d) as [m|], (directive_to_any_attr_path (ldir d)) as [m'|];
        try (now destruct Hd).
      * eapply x_bind; [exact Hd|]. intros t t' Ht. apply IH. split; [|split]; cbn; tks. apply tks_app; auto.
      * apply x_same. intros _. apply IH. now split.
  - destruct slot; [apply x_same; intros _; apply IH; now split|]. apply IH. split; [|split]; cbn; tks. apply tks_app; auto.
    constructor; [apply tk_lcode|constructor].
Qed.

(** ** Elements *)
Lemma x_render m m' : rt m m' -> rt (ts <- m ;; xret (into_render ts)) (ts <- m' ;; xret (into_render ts)).
Proof. intros H. eapply x_bind; [exact H|]. intros a b Hab. apply x_ret. unfold into_render, par. tks. Qed.
Lemma x_children l l' : Forall2 rt l l' -> rt (xml_child_methods_tokens l) (xml_child_methods_tokens l').
Proof.
  intros H. unfold xml_child_methods_tokens. eapply x_bind; [apply x_seq, H|]. intros a b Hab. apply x_ret.
  eapply tk_flat; [|exact Hab]. intros. now apply tk_method.
Qed.
Lemma tk_fragment l l' : Forall2 tk l l' -> tk (children_fragment_tokens l) (children_fragment_tokens l').
Proof. intros H. unfold children_fragment_tokens, par. tks. eapply tk_flat; [|exact H]. intros a b Hab. tks. Qed.
Lemma x_cchildren l l' args cl cl' : Forall2 rt l l' -> tk cl cl' ->
  rt (component_children_tokens l args cl) (component_children_tokens l' (option_map lcode args) cl').
Proof.
  intros H Hc. unfold component_children_tokens. eapply x_bind; [apply x_seq, H|]. intros a b Hab. apply x_ret.
  apply tk_fragment in Hab. destruct args; cbn [option_map]; unfold par; tks.
Qed.
Lemma tag_same t : xml_tag_path (ltag t) = xml_tag_path t /\ kind_of (ltag t) = kind_of t.
Proof. now destruct t. Qed.
Definition nds (x y : option (list (X (list tt)))) : Prop :=
  match x, y with Some a, Some b => Forall2 rt a b | None, None => True | _, _ => False end.
Lemma x_xml t sels attrs nodes nodes' : nds nodes nodes' ->
  rxo (xml_to_tokens t sels attrs nodes) (xml_to_tokens (ltag t) sels (map lattr attrs) nodes').
Proof.
  intros Hn. unfold xml_to_tokens. destruct (tag_same t) as (-> & ->). destruct (xml_tag_path t) as [tp|]; [|exact I].
  eapply x_bind; [apply x_attr_loop; split; [|split]; apply tk_refl|]. intros [[kvs dirs] sps] [[kvs' dirs'] sps'] (H1 & H2 & H3). cbn in H1, H2, H3.
  eapply (x_bind tk); [destruct nodes, nodes'; try (now destruct Hn); [now apply x_children|now apply x_refl]|].
  intros c c' Hc. apply x_ret. tks.
Qed.
Definition sls (x y : list (tag * X (list tt))) : Prop := Forall2 (fun a b => fst b = ltag (fst a) /\ rt (snd a) (snd b)) x y.
Definition mp (x y : list (ident * list (list tt))) : Prop := Forall2 (fun a b => fst a = fst b /\ Forall2 tk (snd a) (snd b)) x y.
Lemma mp_insert m m' k t t' : mp m m' -> tk t t' -> mp (slot_insert m k t) (slot_insert m' k t').
Proof.
  intros H Ht. induction H as [|[i l] [i' l'] m m' [Hi Hl] Hm IH]; cbn [slot_insert].
  - constructor; [|constructor]. split; [reflexivity|]. constructor; [exact Ht|constructor].
  - cbn in Hi, Hl. subst i'. destruct (ident_eqb k i); constructor; auto. split; [reflexivity|]. apply tks_app; auto.
Qed.
Lemma mp_get m m' k : mp m m' -> Forall2 tk (slot_get m k) (slot_get m' k).
Proof.
  induction 1 as [|[i l] [i' l'] m m' [Hi Hl] Hm IH]; cbn [slot_get]; [constructor|]. cbn in Hi, Hl. subst i'. now destruct (ident_eqb k i).
Qed.
Lemma mp_keys m m' : mp m m' -> map fst m = map fst m'.
Proof. induction 1 as [|[] [] ? ? []]; cbn in *; congruence. Qed.
Lemma get_same p : get_ident (lpath p) = get_ident p.
Proof. destruct p as [[] [|[i []] []]]; reflexivity. Qed.
Lemma x_collect l l' : sls l l' -> forall m m', mp m m' -> rx mp (collect_slots l m) (collect_slots l' m').
Proof.
  induction 1 as [|[t x] [t' x'] l l' [Ht Hx] Hl IH]; intros m m' Hm; cbn [collect_slots]; [now apply x_ret|].
  cbn in Ht, Hx. subst t'. destruct t as [i|p|i|i|k]; cbn [ltag]; try (now constructor).
  rewrite get_same. destruct (get_ident p).
  - eapply x_bind; [exact Hx|]. intros a b Hab. apply IH. now apply mp_insert.
  - apply x_same. intros _. now apply IH.
Qed.
Lemma x_slot_method k s s' : Forall2 tk s s' -> rt (slot_method k s) (slot_method k s').
Proof.
  intros H. unfold slot_method. destruct (new_raw _); [|now constructor]. apply x_ret.
  destruct H as [|a b l l' Hab Hl]; [apply tk_refl|]. destruct Hl as [|c d l l' Hcd Hl]; [now apply tk_method|].
  apply tk_method. unfold par. tks.
  revert a b Hab c d Hcd. induction Hl as [|e f l l' Hef Hl IH]; intros a b Hab c d Hcd.
  - cbn. tks.
  - apply tk_app; [exact Hcd|]. apply tk_cons. exact (IH a b Hab e f Hef).
Qed.
Lemma x_slots E at_ l l' : sls l l' -> rt (slots_to_tokens E at_ l) (slots_to_tokens E at_ l').
Proof.
  intros H. unfold slots_to_tokens. eapply x_bind; [apply x_collect; [exact H|constructor]|]. intros m m' Hm.
  rewrite (mp_keys _ _ Hm). eapply (x_bind (Forall2 tk)).
  - apply x_seq. induction (slot_order E at_ (map fst m')) as [|k ks IH]; cbn [map]; constructor; auto. apply x_slot_method. now apply mp_get.
  - intros a b Hab. apply x_ret. now apply tk_concat.
Qed.
Definition slo (x y : option (list (tag * X (list tt)))) : Prop :=
  match x, y with Some a, Some b => sls a b | None, None => True | _, _ => False end.
Lemma x_component E at_ slot t sels attrs args nodes nodes' slots slots' : nds nodes nodes' -> slo slots slots' ->
  rxo (component_to_tokens E at_ slot t sels attrs args nodes slots)
      (component_to_tokens E at_ slot (ltag t) sels (map lattr attrs) (option_map lcode args) nodes' slots').
Proof.
  intros Hn Hs. unfold component_to_tokens. destruct t as [i|p|i|i|k]; cbn [ltag]; try exact I. cbn [rxo].
  eapply x_bind; [apply x_turbofish|]. intros q ? ->. apply x_same. intros dirs0.
  eapply x_bind; [apply x_cattr_loop; split; [|split]; cbn; try apply tk_refl; clear; induction dirs0; constructor; auto; apply tk_refl|].
  intros [[props dirs] clones] [[props' dirs'] clones'] (H1 & H2 & H3). cbn in H1, H2, H3.
  eapply (x_bind tk).
  { destruct nodes as [ns|], nodes' as [ns'|]; try (now destruct Hn); [|now apply x_refl]. destruct Hn as [|a b ns ns' Hab Hn]; [now apply x_refl|].
    apply x_cchildren; auto. }
  intros ch ch' Hch. eapply (x_bind tk).
  { destruct slots, slots'; try (now destruct Hs); [now apply x_slots|now apply x_refl]. }
  intros sl sl' Hsl. pose proof (tk_path q) as Hq. destruct slot; apply x_ret; unfold par; tks.
  eapply tk_flat; [|exact H2]. intros a b Hab. tks.
Qed.
Lemma x_expect o o' : rxo o o' -> rt (expect_path o) (expect_path o').
Proof. intros H. destruct o, o'; try (now destruct H); [exact H|now constructor]. Qed.
Lemma x_element_tokens E at_ slot t sels attrs args nodes nodes' slots slots' : nds nodes nodes' -> slo slots slots' ->
  rt (element_tokens E at_ slot t sels attrs args nodes slots)
     (element_tokens E at_ slot (ltag t) sels (map lattr attrs) (option_map lcode args) nodes' slots').
Proof.
  intros Hn Hs. unfold element_tokens. destruct slot; [now apply x_expect, x_component|].
  pose proof (x_xml t sels attrs _ _ Hn) as Hx.
  destruct (xml_to_tokens t sels attrs nodes), (xml_to_tokens (ltag t) sels (map lattr attrs) nodes'); try (now destruct Hx); [exact Hx|].
  now apply x_expect, x_component.
Qed.
Lemma x_nodes E at_ l : (forall e, List.In (CElement e) l -> forall at_ slot, rt (expand_element E at_ slot e) (expand_element E at_ slot (lelement e))) ->
  forall n, Forall2 rt (expand_nodes E at_ n l) (expand_nodes E at_ n (map wchild l)).
Proof.
  induction l as [|[v|e|e] l IH]; intros He n; cbn [map wchild expand_nodes expand_node]; [constructor|..].
  - constructor; [apply x_render, x_value|]. apply IH. intros e Hin. apply He. now right.
  - constructor; [apply x_render, He; now left|]. apply IH. intros e' Hin. apply He. now right.
  - apply IH. intros e' Hin. apply He. now right.
Qed.
Lemma el_tag_l e : el_tag (lelement e) = ltag (el_tag e).
Proof. now destruct e. Qed.
Lemma x_slot_list E at_ l : (forall e, List.In (CSlot e) l -> forall at_ slot, rt (expand_element E at_ slot e) (expand_element E at_ slot (lelement e))) ->
  forall n, sls (expand_slots E at_ n l) (expand_slots E at_ n (map wchild l)).
Proof.
  induction l as [|[v|e|e] l IH]; intros He n; cbn [map wchild expand_slots]; [constructor|..].
  - apply IH. intros e Hin. apply He. now right.
  - apply IH. intros e' Hin. apply He. now right.
  - constructor; [cbn; split; [apply el_tag_l|apply He; now left]|]. apply IH. intros e' Hin. apply He. now right.
Qed.
Lemma x_element E e : forall at_ slot, rt (expand_element E at_ slot e) (expand_element E at_ slot (lelement e)).
Proof.
  induction e as [t sels attrs args ch IHe IHs] using element_children_ind. intros at_ slot.
  rewrite lelement_eq, !expand_element_eq. apply x_element_tokens.
  - destruct ch as [l|]; cbn; [|exact I]. apply x_nodes. intros e Hin. now apply IHe.
  - destruct ch as [l|]; cbn; [|exact I]. apply x_slot_list. intros e Hin. now apply IHs.
Qed.
Lemma slot_same c : is_slot (wchild c) = is_slot c.
Proof. now destruct c. Qed.
Lemma x_root E cs : rt (root_tokens E cs) (root_tokens E (map wchild cs)).
Proof.
  destruct cs as [|c [|c' cs]].
  - now apply x_refl.
  - destruct c as [v|e|e]; cbn [map wchild root_tokens expand_node].
    + eapply x_bind; [apply x_render, x_value|]. intros a b Hab. apply x_ret. tks.
    + eapply x_bind; [apply x_render, x_element|]. intros a b Hab. apply x_ret. tks.
    + now apply x_refl.
  - unfold root_tokens. cbn [map].
    assert (Hs : existsb is_slot (wchild c :: wchild c' :: map wchild cs) = existsb is_slot (c :: c' :: cs)).
    { change (wchild c :: wchild c' :: map wchild cs) with (map wchild (c :: c' :: cs)). generalize (c :: c' :: cs). intros l.
      induction l as [|x l IH]; cbn; [reflexivity|]. now rewrite slot_same, IH. }
    rewrite Hs. clear Hs. destruct (existsb is_slot (c :: c' :: cs)); [now constructor|].
    eapply x_bind; [apply x_seq; change (wchild c :: wchild c' :: map wchild cs) with (map wchild (c :: c' :: cs)); apply x_nodes; intros; apply x_element|].
    intros a b Hab. apply x_ret. apply tk_fragment in Hab. tks.
Qed.
Lemma rt_join x y z : rt x z -> rt y z -> rt x y.
Proof.
  intros [a b d Hab|d|w d] H; inversion H; subst; constructor. unfold tk, eqv in *. congruence.
Qed.
Lemma x_trees E cs cs' : map wchild cs = map wchild cs' -> rt (root_tokens E cs) (root_tokens E cs').
Proof. intros H. eapply rt_join; [apply x_root|]. rewrite H. apply x_root. Qed.
