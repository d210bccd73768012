(** The expander that counts is the expander. *)
From Verif Require Export WorkX.
From Verif Require Import ExpandFacts2.
From Coq Require Import Lia Arith.
Open Scope list_scope.

Lemma snd_bind {A B} (m : WX A) (f : A -> WX B) : snd (x_bind m f) = xbind (snd m) (fun a => snd (f a)).
Proof. reflexivity. Qed.
Lemma xbind_ret {A B} (a : A) (f : A -> X B) : xbind (xret a) f = f a.
Proof. unfold xbind, xret. now destruct (f a). Qed.
Lemma xbind_right {A} (m : X A) : xbind m xret = m.
Proof. destruct m as [[a| |w] d]; cbn; auto. now rewrite app_nil_r. Qed.
Lemma xbind_assoc {A B C} (m : X A) (f : A -> X B) (g : B -> X C) : xbind (xbind m f) g = xbind m (fun a => xbind (f a) g).
Proof. destruct m as [[a| |w] d]; cbn; auto. destruct (f a) as [[b| |w] d']; cbn; auto. now rewrite app_assoc. Qed.
Lemma xbind_ext {A B} (m : X A) (f g : A -> X B) : (forall a, f a = g a) -> xbind m f = xbind m g.
Proof. intros H. destruct m as [[a| |w] d]; cbn; auto. now rewrite H. Qed.
Lemma xbind_cong {A B} (m m' : X A) (f g : A -> X B) : m = m' -> (forall a, f a = g a) -> xbind m f = xbind m' g.
Proof. intros <-. apply xbind_ext. Qed.
Lemma snd_pay {B} n (f : unit -> WX B) : snd (x_bind (x_pay n) f) = snd (f Datatypes.tt).
Proof. exact (xbind_ret Datatypes.tt (fun a => snd (f a))). Qed.
Lemma snd_extend {B} ts (f : unit -> WX B) : snd (x_bind (x_extend ts) f) = snd (f Datatypes.tt).
Proof. apply snd_pay. Qed.
Lemma snd_ret {A} (a : A) : snd (x_ret a) = xret a. Proof. reflexivity. Qed.
Lemma snd_quote l : snd (quote l) = xret (quote_tokens l). Proof. reflexivity. Qed.
Lemma snd_seq {A} (l : list (WX A)) : snd (x_seq l) = xseq (map snd l).
Proof.
  induction l as [|m l IH]; [reflexivity|]. cbn [x_seq map xseq]. rewrite snd_bind. apply xbind_ext. intros a.
  rewrite snd_pay, snd_bind, IH. reflexivity.
Qed.

(** ** Templates *)

Lemma quote_app a b : quote_tokens (a ++ b) = quote_tokens a ++ quote_tokens b.
Proof. apply flat_map_app. Qed.
Lemma quote_fixed ts : quote_tokens (fixed ts) = ts.
Proof. induction ts as [|t ts IH]; [reflexivity|]. cbn. f_equal. apply IH. Qed.
Lemma quote_cons p l : quote_tokens (p :: l) = piece_tokens p ++ quote_tokens l. Proof. reflexivity. Qed.
Lemma quote_nil : quote_tokens [] = []. Proof. reflexivity. Qed.
Lemma quote_grp d l : piece_tokens (Grp d l) = [TGroup d (quote_tokens l)]. Proof. reflexivity. Qed.
Lemma quote_tok t : piece_tokens (Tok t) = [t]. Proof. reflexivity. Qed.
Lemma quote_splice ts : piece_tokens (Splice ts) = ts. Proof. reflexivity. Qed.
Lemma quote_splices l : quote_tokens (map Splice l) = List.concat l.
Proof. induction l as [|x l IH]; [reflexivity|]. cbn. f_equal. apply IH. Qed.
Lemma quote_method i l : quote_tokens (q_method i l) = method i (quote_tokens l).
Proof. reflexivity. Qed.
Lemma quote_commas l : quote_tokens (commas l) =
  (fix commas (l : list (list tt)) : list tt :=
     match l with [] => [] | [s] => s | s :: r => s ++ [pu ","] ++ commas r end) l.
Proof.
  induction l as [|s l IH]; [reflexivity|]. destruct l as [|s' l]; [cbn; apply app_nil_r|].
  change (commas (s :: s' :: l)) with ([Splice s; Tok (pu ",")] ++ commas (s' :: l)). rewrite quote_app, IH. cbn. now rewrite <- app_assoc.
Qed.
Lemma quote_each l : quote_tokens (flat_map (fun c => [Splice c; Tok (pu ",")]) l) = flat_map (fun c => c ++ [pu ","]) l.
Proof. induction l as [|s l IH]; [reflexivity|]. cbn [flat_map]. rewrite quote_app, IH. reflexivity. Qed.
Ltac quoted :=
  repeat (rewrite ?quote_app, ?quote_fixed, ?quote_method, ?quote_commas, ?quote_each, ?quote_splices,
    ?quote_cons, ?quote_grp, ?quote_tok, ?quote_splice, ?quote_nil);
  cbn [List.concat]; rewrite ?app_nil_r, <- ?app_assoc; cbn [app].

(** ** Function by function *)

Lemma snd_qbind {B} l (f : list tt -> WX B) : snd (x_bind (quote l) f) = snd (f (quote_tokens l)).
Proof. exact (xbind_ret _ (fun a => snd (f a))). Qed.

Ltac steps :=
  repeat (rewrite ?snd_pay, ?snd_extend, ?snd_ret, ?snd_quote, ?snd_qbind, ?snd_seq, ?xbind_ret, ?xbind_assoc; cbn beta).

Lemma same_value_tokens v : snd (w_value_tokens v) = value_tokens v.
Proof.
  unfold w_value_tokens. rewrite snd_bind.
  transitivity (xbind (value_tokens v) xret); [|apply xbind_right].
  destruct v as [l|ts|[p|] ts]; cbn [value_tokens].
  - steps. quoted. reflexivity.
  - steps. quoted. reflexivity.
  - steps. destruct (ident_is p "f"); [steps; quoted; reflexivity|]. reflexivity.
  - steps. quoted. reflexivity.
Qed.
Lemma same_opt_value v : snd (w_opt_value_tokens v) = opt_value_tokens v.
Proof. destruct v; [apply same_value_tokens|reflexivity]. Qed.
Lemma same_or_true {B} v (f : value -> WX B) : snd (x_bind (w_value_or_true v) f) = snd (f (value_or_true v)).
Proof. unfold w_value_or_true. rewrite snd_bind. steps. reflexivity. Qed.
Lemma same_key {B} k (f : string -> WX B) : snd (x_bind (w_key_string k) f) = snd (f (key_string k)).
Proof. unfold w_key_string. rewrite snd_bind. steps. reflexivity. Qed.
Lemma same_kind {B} k (f : attribute_kind -> WX B) : snd (x_bind (w_attribute_kind_from k) f) = snd (f (attribute_kind_from k)).
Proof. unfold w_attribute_kind_from. rewrite snd_bind. steps. reflexivity. Qed.
Lemma same_colored {B} k (f : list tt -> WX B) : snd (x_bind (w_to_str_colored k) f) = snd (f [to_str_colored k]).
Proof. unfold w_to_str_colored. rewrite snd_bind. steps. reflexivity. Qed.
Lemma same_ident k : snd (w_to_ident_or_emit k) = to_ident_or_emit k.
Proof. destruct k; reflexivity. Qed.
Lemma same_modifier m : snd (w_emit_error_if_modifier m) = emit_error_if_modifier m.
Proof. destruct m; reflexivity. Qed.
Lemma same_turbofish p : snd (w_turbofishify p) = turbofishify p.
Proof. unfold w_turbofishify, turbofishify. rewrite snd_pay, snd_bind, snd_seq, map_map. reflexivity. Qed.

Ltac walk :=
  repeat (rewrite ?snd_pay, ?snd_extend, ?snd_ret, ?snd_quote, ?snd_qbind, ?same_or_true, ?same_key, ?same_kind, ?same_colored, ?xbind_ret, ?xbind_assoc; cbn beta;
    first [ rewrite snd_bind; first [rewrite same_value_tokens|rewrite same_opt_value|rewrite same_ident|rewrite same_modifier|idtac];
            apply xbind_ext; intros ?
          | idtac ]); quoted; try reflexivity.

Lemma same_use d : snd (w_use_directive_fn_value d) = use_directive_fn_value d.
Proof.
  unfold w_use_directive_fn_value, use_directive_fn_value. rewrite snd_pay, snd_bind.
  destruct (ident_is _ _); [|reflexivity]. cbn [snd x_ret]. apply xbind_ext; intros _.
  rewrite snd_bind, same_ident. apply xbind_ext. intros f. rewrite snd_bind, same_modifier. apply xbind_ext. intros _.
  destruct (d_value d) as [v|]; walk.
Qed.
Lemma same_event d : snd (w_event_listener_event_path d) = event_listener_event_path d.
Proof.
  unfold w_event_listener_event_path, event_listener_event_path. rewrite snd_pay, snd_bind.
  destruct (ident_is _ _); [|reflexivity]. cbn [snd x_ret]. apply xbind_ext; intros _.
  rewrite snd_bind. apply xbind_cong; [destruct (d_key d); reflexivity|].
  intros ev. destruct (d_modifier d) as [m|]; [|walk]. rewrite snd_pay. destruct (ident_is m _); walk.
Qed.

Lemma same_class s : snd (w_class_method s) = xret (method (Id false "class") [par [to_str_colored (sel_kebab s); pu ","; kw "true"]]).
Proof. unfold w_class_method. rewrite same_colored. reflexivity. Qed.
Lemma same_id s : snd (w_id_method s) = xret (method (Id false "id") [to_str_colored (sel_kebab s)]).
Proof. unfold w_id_method. rewrite same_colored. reflexivity. Qed.
Lemma xseq_rets {A B} (f : A -> X B) g l : (forall a, f a = xret (g a)) -> xseq (map f l) = xret (map g l).
Proof. intros H. induction l as [|a l IH]; [reflexivity|]. cbn [map xseq]. now rewrite H, xbind_ret, IH, xbind_ret. Qed.
Lemma same_selectors {B} sels (f : list tt -> WX B) :
  snd (x_bind (w_xml_selectors_tokens sels) f) = snd (f (xml_selectors_tokens sels)).
Proof.
  rewrite snd_bind. unfold w_xml_selectors_tokens, xml_selectors_tokens. rewrite snd_pay.
  destruct (partition sel_is_class sels) as [cl il].
  rewrite snd_bind, snd_seq, map_map, (xseq_rets _ _ _ same_class), xbind_ret.
  rewrite snd_bind, snd_seq, map_map, (xseq_rets _ _ _ same_id), xbind_ret, snd_quote, xbind_ret.
  f_equal. f_equal. quoted. now rewrite <- !flat_map_concat_map.
Qed.
Lemma same_xml_kv a k : snd (w_xml_kv_attribute_tokens a k) = xml_kv_attribute_tokens a k.
Proof.
  unfold w_xml_kv_attribute_tokens, xml_kv_attribute_tokens. cbv zeta. rewrite snd_pay.
  destruct (String.eqb _ "ref"); [walk|]. rewrite same_kind. destruct (_ && _); walk.
Qed.
Lemma same_xml_directive d : snd (w_xml_directive_tokens d) = xml_directive_tokens d.
Proof.
  unfold w_xml_directive_tokens, xml_directive_tokens. cbv zeta. rewrite snd_pay.
  destruct (_ || _); [walk|]. destruct (String.eqb _ "prop"); [walk|]. destruct (String.eqb _ "on").
  { rewrite snd_bind, same_event. apply xbind_ext. intros p. walk. }
  destruct (String.eqb _ "use").
  { rewrite snd_bind, same_use. apply xbind_ext. intros p. walk. }
  destruct (_ || _); reflexivity.
Qed.
Lemma same_spread {B} s (f : list tt -> WX B) : snd (x_bind (w_xml_spread_tokens s) f) = snd (f (xml_spread_tokens s)).
Proof. unfold w_xml_spread_tokens, xml_spread_tokens. rewrite snd_qbind. quoted. reflexivity. Qed.
Lemma same_render n m : snd (w_into_render n m) = xbind (snd m) (fun ts => xret (into_render ts)).
Proof. unfold w_into_render. rewrite snd_pay, snd_bind. apply xbind_ext. intros ts. walk. Qed.
Lemma same_children_methods nodes : snd (w_xml_child_methods_tokens nodes) = xml_child_methods_tokens (map snd nodes).
Proof.
  unfold w_xml_child_methods_tokens, xml_child_methods_tokens. rewrite snd_bind, snd_seq, map_map.
  transitivity (xbind (xseq (map (fun m => xbind (snd m) (fun c => xret (method (Id false "child") c))) nodes))
                      (fun l => xret (List.concat l))).
  { f_equal. f_equal. apply map_ext. intros m. unfold w_child_method. rewrite snd_bind. apply xbind_ext. intros c. walk. }
  induction nodes as [|m nodes IH]; [reflexivity|]. cbn [map xseq]. rewrite !xbind_assoc. apply xbind_ext. intros c.
  rewrite xbind_ret, !xbind_assoc.
  transitivity (xbind (xbind (xseq (map (fun m => xbind (snd m) (fun c => xret (method (Id false "child") c))) nodes))
    (fun l => xret (List.concat l))) (fun l => xret (method (Id false "child") c ++ l))).
  { rewrite xbind_assoc. apply xbind_ext. intros l. now rewrite !xbind_ret. }
  rewrite IH, xbind_assoc. apply xbind_ext. intros l. now rewrite !xbind_ret.
Qed.
Lemma same_component_kv a : snd (w_component_kv_attribute_tokens a) = component_kv_attribute_tokens a.
Proof. unfold w_component_kv_attribute_tokens, component_kv_attribute_tokens. walk. Qed.
Lemma same_clone d : snd (w_component_clone_tokens d) = component_clone_tokens d.
Proof.
  unfold w_component_clone_tokens, component_clone_tokens. rewrite snd_bind, same_ident. apply xbind_ext. intros i.
  rewrite snd_bind, same_modifier. apply xbind_ext. intros _. destruct (d_value d); reflexivity.
Qed.
Lemma same_fragment {B} l (f : list tt -> WX B) :
  snd (x_bind (w_children_fragment_tokens l) f) = snd (f (children_fragment_tokens l)).
Proof. unfold w_children_fragment_tokens, children_fragment_tokens. rewrite snd_qbind. quoted. reflexivity. Qed.
Lemma same_component_children nodes args clones :
  snd (w_component_children_tokens nodes args clones) = component_children_tokens (map snd nodes) args clones.
Proof.
  unfold w_component_children_tokens, component_children_tokens. rewrite snd_pay, snd_bind, snd_seq. apply xbind_ext. intros l.
  rewrite same_fragment. destruct args as [args|]; rewrite snd_bind; walk.
Qed.
Lemma same_any_attr d : option_map snd (w_directive_to_any_attr_path d) = directive_to_any_attr_path d.
Proof.
  unfold w_directive_to_any_attr_path, directive_to_any_attr_path. cbv zeta.
  destruct (_ || _); [cbn [option_map]; f_equal; walk|].
  destruct (String.eqb _ "attr").
  { cbn [option_map]. f_equal. rewrite same_key, same_kind. destruct (attribute_kind_from _); walk. }
  destruct (String.eqb _ "prop"); [cbn [option_map]; f_equal; walk|].
  destruct (String.eqb _ "on").
  { cbn [option_map]. f_equal. rewrite snd_bind, same_event. apply xbind_ext. intros p. walk. }
  destruct (String.eqb _ "use"); [|reflexivity].
  cbn [option_map]. f_equal. rewrite snd_bind, same_use. apply xbind_ext. intros p. walk.
Qed.
Lemma same_xml_loop k l : forall acc, snd (w_xml_attr_loop k l acc) = xml_attr_loop k l acc.
Proof.
  induction l as [|a l IH]; intros [[kvs dirs] sps]; [reflexivity|]. cbn [w_xml_attr_loop xml_attr_loop].
  destruct a as [kv|d|s].
  - rewrite snd_bind, same_xml_kv. apply xbind_ext. intros t. now rewrite snd_extend.
  - rewrite snd_bind, same_xml_directive. apply xbind_ext. intros t. now rewrite snd_extend.
  - rewrite same_spread. now rewrite snd_extend.
Qed.
Lemma same_xml t sels attrs nodes :
  option_map snd (w_xml_to_tokens t sels attrs nodes) = xml_to_tokens t sels attrs (option_map (map snd) nodes).
Proof.
  unfold w_xml_to_tokens, xml_to_tokens, w_xml_tag_path. destruct (xml_tag_path t) as [tp|]; [|reflexivity].
  cbn [option_map]. f_equal. rewrite snd_qbind, same_selectors, snd_bind, same_xml_loop. apply xbind_ext. intros [[kvs dirs] sps].
  rewrite snd_bind.
  apply xbind_cong; [destruct nodes; [apply same_children_methods|reflexivity]|]. intros ch. walk.
Qed.
Lemma same_expect o : snd (w_expect_path o) = expect_path (option_map snd o). Proof. now destruct o. Qed.
Lemma same_component_selectors sels : snd (w_component_selectors sels) = component_selectors sels.
Proof.
  unfold w_component_selectors, component_selectors. destruct (partition _ _) as [cl il].
  rewrite snd_bind, snd_seq, map_map.
  assert (H : map (fun s => snd ((x_pay (S (copy_steps (sel_kebab s))) ;;; x_pay (dir_steps (class_directive (sel_kebab s))) ;;;
     w_expect_path (w_directive_to_any_attr_path (class_directive (sel_kebab s))))%xwork)) cl =
    map (fun s => expect_path (directive_to_any_attr_path (class_directive (sel_kebab s)))) cl).
  { apply map_ext. intros s. now rewrite !snd_pay, same_expect, same_any_attr. }
  rewrite H. apply xbind_ext. intros l. destruct il as [|i il]; [reflexivity|].
  cbv zeta. rewrite !snd_pay, snd_bind, same_expect, same_any_attr. reflexivity.
Qed.
Lemma same_component_loop slot l : forall acc, snd (w_component_attr_loop slot l acc) = component_attr_loop slot l acc.
Proof.
  induction l as [|a l IH]; intros [[props dirs] clones]; [reflexivity|]. cbn [w_component_attr_loop component_attr_loop].
  destruct a as [kv|d|s].
  - rewrite snd_bind, same_component_kv. apply xbind_ext. intros t. now rewrite snd_extend.
  - rewrite snd_pay. destruct (String.eqb _ _).
    + rewrite snd_bind, same_modifier. apply xbind_ext. intros _. rewrite snd_bind, same_clone. apply xbind_ext. intros t. now rewrite snd_extend.
    + destruct slot; [rewrite snd_bind; apply xbind_ext; intros _; apply IH|].
      rewrite <- same_any_attr. destruct (w_directive_to_any_attr_path d) as [m|]; cbn [option_map].
      * rewrite snd_bind. apply xbind_ext. intros t. now rewrite snd_pay.
      * rewrite snd_bind. apply xbind_ext. intros t. apply IH.
  - destruct slot; [rewrite snd_bind; apply xbind_ext; intros _; apply IH|]. now rewrite snd_pay.
Qed.
Definition snds (p : tag * WX (list tt)) : tag * X (list tt) := (fst p, snd (snd p)).
Lemma same_collect l : forall m, snd (w_collect_slots l m) = collect_slots (map snds l) m.
Proof.
  induction l as [|[t x] l IH]; intros m; [reflexivity|]. cbn [w_collect_slots map snds fst snd collect_slots].
  destruct t; try reflexivity. destruct (get_ident p).
  - rewrite snd_bind. apply xbind_ext. intros ts. now rewrite snd_pay.
  - rewrite snd_pay, snd_bind. apply xbind_ext. intros _. apply IH.
Qed.
Lemma same_slot_method k slots : snd (w_slot_method k slots) = slot_method k slots.
Proof.
  unfold w_slot_method, slot_method. cbv zeta. rewrite snd_pay. destruct (new_raw _) as [m|]; [|reflexivity].
  rewrite snd_bind. destruct slots as [|s [|s' l]].
  - reflexivity.
  - steps. quoted. reflexivity.
  - steps. rewrite quote_method. f_equal. f_equal. quoted. reflexivity.
Qed.
Lemma same_slots E at_ l : snd (w_slots_to_tokens E at_ l) = slots_to_tokens E at_ (map snds l).
Proof.
  unfold w_slots_to_tokens, slots_to_tokens. rewrite snd_bind, same_collect. apply xbind_ext. intros m.
  rewrite snd_bind, snd_seq, map_map. f_equal. f_equal. apply map_ext. intros k. apply same_slot_method.
Qed.
Lemma same_component E at_ slot t sels attrs args nodes slots :
  option_map snd (w_component_to_tokens E at_ slot t sels attrs args nodes slots) =
  component_to_tokens E at_ slot t sels attrs args (option_map (map snd) nodes) (option_map (map snds) slots).
Proof.
  unfold w_component_to_tokens, component_to_tokens. destruct t as [i|p|i|i|k]; try reflexivity.
  cbn [option_map]. f_equal. rewrite snd_bind, same_turbofish. apply xbind_ext. intros p'.
  rewrite snd_bind.
  apply xbind_cong; [destruct slot; [destruct sels; reflexivity|apply same_component_selectors]|].
  intros dirs0. rewrite snd_bind, same_component_loop. apply xbind_ext. intros [[props dirs] clones].
  rewrite snd_bind. apply xbind_cong; [destruct nodes as [[|n ns]|]; try reflexivity; apply same_component_children|].
  intros ch. rewrite snd_bind. apply xbind_cong; [destruct slots; [apply same_slots|reflexivity]|].
  intros sl. rewrite snd_pay, snd_qbind. cbv zeta. destruct slot.
  - quoted. reflexivity.
  - rewrite snd_pay, snd_qbind, snd_quote. quoted. reflexivity.
Qed.
Lemma same_element_tokens E at_ slot t sels attrs args nodes slots :
  snd (w_element_tokens E at_ slot t sels attrs args nodes slots) =
  element_tokens E at_ slot t sels attrs args (option_map (map snd) nodes) (option_map (map snds) slots).
Proof.
  unfold w_element_tokens, element_tokens. destruct slot; [now rewrite same_expect, same_component|].
  rewrite snd_bind.
  transitivity (xbind (match xml_to_tokens t sels attrs (option_map (map snd) nodes) with Some x => x
     | None => expect_path (component_to_tokens E at_ false t sels attrs args (option_map (map snd) nodes) (option_map (map snds) slots)) end) xret);
    [|apply xbind_right].
  apply xbind_cong; [|intros r; now rewrite snd_extend].
  rewrite <- same_xml. destruct (w_xml_to_tokens _ _ _ _); [reflexivity|]. cbn [option_map]. now rewrite same_expect, same_component.
Qed.

(** ** The recursion *)

Lemma expand_eq E at_ slot t sels attrs args children :
  w_expand_element E at_ slot (Element t sels attrs args children) =
  x_bind (x_pay match children with Some l => 2 * S (List.length l) | None => 2 end) (fun _ =>
    w_element_tokens E at_ slot t sels attrs args
      (option_map (w_expand_nodes E at_ 0) children) (option_map (w_expand_slots E at_ 0) children)).
Proof.
  cbn [w_expand_element]. f_equal.
  destruct children as [l|]; [|reflexivity]. cbn [option_map].
  match goal with |- (fun _ => w_element_tokens _ _ _ _ _ _ _ (Some (?f 0 l)) (Some (?g 0 l))) = _ =>
    assert (H1 : forall l n, f n l = w_expand_nodes E at_ n l); [|assert (H2 : forall l n, g n l = w_expand_slots E at_ n l)] end.
  - clear l. induction l as [|[v|e|e] l IH]; intros n; [reflexivity|..]; cbn [w_expand_nodes w_expand_node]; now rewrite <- IH.
  - clear l H1. induction l as [|[v|e|e] l IH]; intros n; [reflexivity|..]; cbn [w_expand_slots]; now rewrite <- IH.
  - now rewrite H1, H2.
Qed.

Lemma same_nodes E at_ l : (forall e at', In (CElement e) l -> snd (w_expand_element E at' false e) = expand_element E at' false e) ->
  forall n, map snd (w_expand_nodes E at_ n l) = expand_nodes E at_ n l.
Proof.
  induction l as [|[v|e|e] l IH]; intros H n; [reflexivity|..]; cbn [w_expand_nodes w_expand_node expand_nodes expand_node map];
    try (rewrite IH by (intros; apply H; now right)); auto.
  - now rewrite same_render, same_value_tokens.
  - now rewrite same_render, H by now left.
Qed.
Lemma same_slot_list E at_ l : (forall e at', In (CSlot e) l -> snd (w_expand_element E at' true e) = expand_element E at' true e) ->
  forall n, map snds (w_expand_slots E at_ n l) = expand_slots E at_ n l.
Proof.
  induction l as [|[v|e|e] l IH]; intros H n; [reflexivity|..]; cbn [w_expand_slots expand_slots map];
    try (rewrite IH by (intros; apply H; now right)); auto.
  unfold snds. cbn [fst snd]. now rewrite H by now left.
Qed.
Lemma same_element E e : forall at_ slot, snd (w_expand_element E at_ slot e) = expand_element E at_ slot e.
Proof.
  induction e as [t sels attrs args ch IHe IHs] using element_children_ind. intros at_ slot.
  rewrite expand_eq, snd_pay, same_element_tokens, expand_element_eq. f_equal; (destruct ch as [l|]; [|reflexivity]); cbn [option_map]; f_equal.
  - apply same_nodes. intros e at' H. apply IHe, H.
  - apply same_slot_list. intros e at' H. apply IHs, H.
Qed.
Lemma same_root E cs : snd (w_root_tokens E cs) = root_tokens E cs.
Proof.
  unfold w_root_tokens, root_tokens. rewrite snd_pay. cbv zeta.
  assert (Hn : forall c at_, snd (w_expand_node E at_ c) = expand_node E at_ c).
  { intros [v|e|e] at_; cbn [w_expand_node expand_node]; [now rewrite same_render, same_value_tokens|now rewrite same_render, same_element|reflexivity]. }
  assert (Hf : snd (l <- x_seq (w_expand_nodes E [] 0 cs) ;; fragment <- w_children_fragment_tokens l ;;
      quote [Grp Brace (fixed [pu "#"; TGroup Bracket [kw "allow"; par [kw "unused_braces"]]] ++ [Splice fragment])])%xwork =
    (l <- xseq (expand_nodes E [] 0 cs) ;; xret [TGroup Brace ([pu "#"; TGroup Bracket [kw "allow"; par [kw "unused_braces"]]] ++ children_fragment_tokens l)])%expand).
  { rewrite snd_bind, snd_seq, same_nodes by (intros; apply same_element). apply xbind_ext. intros l. rewrite same_fragment. walk. }
  destruct cs as [|c [|c' cs]].
  - cbn [existsb]. exact Hf.
  - destruct c as [v|e|e]; [| |now rewrite snd_pay].
    + rewrite snd_bind, Hn. apply xbind_ext. intros ts. walk.
    + rewrite snd_bind, Hn. apply xbind_ext. intros ts. walk.
  - destruct (existsb is_slot (c :: c' :: cs)) eqn:Hs; [now rewrite snd_pay|exact Hf].
Qed.
