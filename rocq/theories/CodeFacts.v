(** Consequences of the description of emitted code. *)
From Verif Require Export ExpandFacts2 ExpandInv SpecRead.
From Coq Require Import Permutation Lia.
Open Scope list_scope.
Open Scope expand_scope.

(** ** Reading calls back *)

Lemma calls_chain l : forall r, calls_in (chain l ++ r) = l ++ calls_in r.
Proof.
  induction l as [|[n a] l IH]; intros r; [reflexivity|].
  change (chain (Call n a :: l)) with (call_tokens (Call n a) ++ chain l). rewrite <- app_assoc.
  cbn [call_tokens call_name call_args app]. unfold sym, parens. cbn [calls_in]. rewrite IH. reflexivity.
Qed.
Lemma chain_inj l l' : chain l = chain l' -> l = l'.
Proof.
  intros H. apply (f_equal (fun x => calls_in (x ++ []))) in H. rewrite !calls_chain in H. cbn in H.
  now rewrite !app_nil_r in H.
Qed.
Definition dotless (ts : list tt) : Prop := Forall (fun t => ~ punct "." t) ts.
Lemma calls_dotless ts : dotless ts -> forall r, calls_in (ts ++ r) = calls_in r.
Proof.
  induction 1 as [|t ts Ht H IH]; intros r; [reflexivity|]. cbn [app calls_in]. rewrite IH.
  destruct t as [|c sp| |]; auto. destruct c as [[] [] [] [] [] [] [] []]; auto. exfalso. apply Ht. now exists sp.
Qed.
Lemma dotless_path l : dotless (abs_path l).
Proof.
  induction l as [|s l IH]; [constructor|]. cbn [abs_path dcolon app].
  constructor; [intros [? H]; discriminate|]. constructor; [intros [? H]; discriminate|].
  constructor; [intros [? H]; discriminate|]. exact IH.
Qed.
Lemma dotless_app a b : dotless a -> dotless b -> dotless (a ++ b).
Proof. intros. apply Forall_app. auto. Qed.
Lemma dotless_head t head : html_head t head -> dotless head.
Proof.
  intros []; repeat (apply dotless_app; [apply dotless_path || (repeat constructor; intros [? ?]; discriminate)|]);
    repeat constructor; intros [? ?]; discriminate.
Qed.
Lemma calls_html t head l : html_head t head -> calls_in (head ++ chain l) = l.
Proof.
  intros H. apply dotless_head in H. rewrite (calls_dotless _ H), <- (app_nil_r (chain l)), calls_chain. cbn.
  apply app_nil_r.
Qed.

(** ** Children *)

Lemma nodes_each l : forall codes, nodes_code l codes <-> Forall2 node_code (non_slots l) codes.
Proof.
  induction l as [|[v|e|e] l IH]; intros codes; cbn [non_slots].
  - split; intros H; inversion H; constructor.
  - split; intros H.
    + inversion H; subst. constructor; [now constructor|now apply IH].
    + inversion H as [|? ? ? ? Hn Hr]; subst. inversion Hn; subst. constructor; auto. now apply IH.
  - split; intros H.
    + inversion H; subst. constructor; [now constructor|now apply IH].
    + inversion H as [|? ? ? ? Hn Hr]; subst. inversion Hn; subst. constructor; auto. now apply IH.
  - split; intros H.
    + inversion H; subst. now apply IH.
    + constructor. now apply IH.
Qed.

(** ** Inverting the code of an element *)

Definition not_component (t : tag) : Prop := forall p, t <> TagComponent p.

Lemma html_code t sels attrs args ch out : not_component t ->
  element_code (Element t sels attrs args ch) out ->
  exists head kvs dirs codes, html_head t head /\
    Forall2 (html_attr_call (kind_of t)) (kvs_of attrs) kvs /\
    Forall2 html_dir_call (dirs_of attrs) dirs /\
    Forall2 node_code (non_slots (child_list ch)) codes /\
    out = head ++ chain (kvs ++ dirs ++ map class_call (classes_of sels) ++ map id_call (ids_of sels)
                      ++ map spread_call (spreads_of attrs) ++ map child_call codes).
Proof.
  intros Hn H. inversion H as [? ? ? ? ? head kvs dirs codes Hh Hk Hd Hc|]; subst; [|now destruct (Hn p)].
  apply nodes_each in Hc. exists head, kvs, dirs, codes. auto.
Qed.

Lemma component_code p sels attrs args ch out :
  element_code (Element (TagComponent p) sels attrs args ch) out ->
  exists path props entries clones codes slots scalls,
    path_code p path /\
    Forall2 prop_call (kvs_of attrs) props /\
    Forall2 entry_code (entries_of attrs) entries /\
    Forall2 clone_code (clones_of attrs) clones /\
    Forall2 node_code (non_slots (child_list ch)) codes /\
    slots_code (child_list ch) slots /\
    slot_calls slots scalls /\
    out = component_frame path (props ++ children_calls args clones codes ++ scalls)
                       (selector_entries sels ++ entries).
Proof.
  intros H. inversion H as [? ? ? ? ? head kvs dirs codes Hh Hk Hd Hc|
    ? ? ? ? ? path props entries clones codes slots scalls Hp H1 H2 H3 H4 H5 H6]; subst; [inversion Hh|].
  apply nodes_each in H4. exists path, props, entries, clones, codes, slots, scalls. repeat split; auto.
Qed.

Lemma slot_code_inv t sels attrs args ch out :
  slot_code (Element t sels attrs args ch) out ->
  exists p path props clones codes,
    t = TagComponent p /\ sels = [] /\ entries_of attrs = [] /\
    path_code p path /\
    Forall2 prop_call (kvs_of attrs) props /\
    Forall2 clone_code (clones_of attrs) clones /\
    Forall2 node_code (non_slots (child_list ch)) codes /\
    out = slot_frame path (props ++ children_calls args clones codes).
Proof.
  intros H. inversion H as [p ? ? ? path props clones codes slots scalls Hp H1 H2 H3 H4 H5 H6]; subst.
  apply nodes_each in H4. exists p, path, props, clones, codes. repeat split; auto.
Qed.

(** Calls written by the user have raw names. *)
Lemma prop_raw a c s : prop_call a c -> ~ named s c.
Proof. intros H. inversion H as [? i v [_ ->] _]; subst. discriminate. Qed.
Lemma slot_call_raw slots i c s : slot_call slots i c -> ~ named s c.
Proof. intros H. inversion H; subst. discriminate. Qed.
Lemma props_raw l cs s : Forall2 prop_call l cs -> Forall (fun c => ~ named s c) cs.
Proof. induction 1; constructor; auto. eapply prop_raw; eauto. Qed.
Lemma slot_calls_raw slots cs s : slot_calls slots cs -> Forall (fun c => ~ named s c) cs.
Proof. intros [order calls _ _ H]. induction H; constructor; auto. eapply slot_call_raw; eauto. Qed.

(** ** Occurrence of code in code *)

Lemma within_refl x : within x x.
Proof. pose proof (within_here x [] []) as H. cbn in H. now rewrite app_nil_r in H. Qed.
Lemma within_r x a b : within x b -> within x (a ++ b).
Proof.
  intros H. inversion H; subst.
  - rewrite app_assoc. apply within_here.
  - rewrite app_assoc. now apply within_group.
Qed.
Lemma within_l x a b : within x a -> within x (a ++ b).
Proof.
  intros H. inversion H; subst.
  - rewrite <- !app_assoc. apply within_here.
  - rewrite <- app_assoc. cbn. now apply within_group.
Qed.
Lemma within_cons x t b : within x b -> within x (t :: b).
Proof. apply (within_r x [t]). Qed.
Lemma within_in x d inner r : within x inner -> within x (TGroup d inner :: r).
Proof. apply (within_group x []). Qed.
Lemma within_trans x y z : within x y -> within y z -> within x z.
Proof.
  intros H1 H2. induction H2.
  - apply within_r, within_l, H1.
  - apply within_group. auto.
Qed.
Lemma within_concat x a l : within x a -> In a l -> within x (List.concat l).
Proof.
  intros H Hin. induction l as [|b l IH]; [destruct Hin|]. cbn. destruct Hin as [->|Hin].
  - now apply within_l.
  - apply within_r. auto.
Qed.
Lemma within_chain x c l : within x (call_args c) -> In c l -> within x (chain l).
Proof.
  intros H Hin. apply within_concat with (call_tokens c).
  - unfold call_tokens. do 2 apply within_cons. now apply within_in.
  - now apply in_map.
Qed.
Lemma within_comma_ended x a l : within x a -> In a l -> within x (comma_ended l).
Proof.
  intros H Hin. unfold comma_ended. apply within_concat with (a ++ [sym ","]); [now apply within_l|].
  apply in_map_iff. eauto.
Qed.
Lemma within_comma_separated x a l : within x a -> In a l -> within x (comma_separated l).
Proof.
  intros H Hin. induction l as [|b l IH]; [destruct Hin|]. destruct Hin as [->|Hin].
  - destruct l; [exact H|]. cbn. now apply within_l.
  - destruct l as [|c l]; [destruct Hin|]. change (within x (b ++ sym "," :: comma_separated (c :: l))).
    apply within_r, within_cons. auto.
Qed.
Lemma within_rendered x a : within x a -> within x (rendered a).
Proof. intros H. unfold rendered. apply within_r. now apply within_in. Qed.
Lemma within_fragment x a l : within x a -> In a l -> within x (fragment l).
Proof. intros H Hin. unfold fragment. apply within_r. do 2 apply within_in. eapply within_comma_ended; eauto. Qed.
Lemma within_children x a args clones codes : within x a -> In a codes ->
  within x (chain (children_calls args clones codes)).
Proof.
  intros H Hin. destruct codes as [|c codes]; [destruct Hin|].
  assert (Hf := within_fragment x a (c :: codes) H Hin).
  eapply within_chain; [|left; reflexivity]. cbn [call_args plain_call]. apply within_in.
  apply within_r. destruct args.
  - apply within_cons, within_r. exact Hf.
  - apply within_r, within_in, within_cons, within_r. exact Hf.
Qed.
Lemma within_calls_l x a b : within x (chain a) -> within x (chain (a ++ b)).
Proof. intros H. unfold chain. rewrite map_app, concat_app. now apply within_l. Qed.
Lemma within_calls_r x a b : within x (chain b) -> within x (chain (a ++ b)).
Proof. intros H. unfold chain. rewrite map_app, concat_app. now apply within_r. Qed.
Lemma within_component x path calls entries : within x (chain calls) ->
  within x (component_frame path calls entries).
Proof.
  intros H. unfold component_frame. do 2 apply within_r. apply within_in.
  apply within_r, within_l, within_in. apply within_cons, within_r, within_cons, within_r, within_r.
  now apply within_calls_l.
Qed.
Lemma within_slot x path calls : within x (chain calls) -> within x (slot_frame path calls).
Proof.
  intros H. unfold slot_frame. apply within_r, within_in. do 3 apply within_r. now apply within_calls_l.
Qed.
Lemma within_root x a : within x a -> within x (root_frame a).
Proof. intros H. unfold root_frame. apply within_in, within_r. exact H. Qed.

(** ** The parts of a tree that has code have code *)

Definition code_of (slot : bool) (e : element) (code : list tt) : Prop :=
  if slot then slot_code e code else element_code e code.

Lemma in_non_slots e l : In (CElement e) l -> In (CElement e) (non_slots l).
Proof.
  induction l as [|[v|e'|e'] l IH]; cbn; intros H; auto; destruct H as [H|H]; try discriminate; auto.
Qed.
Lemma forall2_in_l {A B} (R : A -> B -> Prop) l l' a : Forall2 R l l' -> In a l -> exists b, In b l' /\ R a b.
Proof.
  induction 1 as [|x y l l' H1 H IH]; intros Hin; [destruct Hin|]. destruct Hin as [->|Hin].
  - exists y. cbn. auto.
  - destruct (IH Hin) as (b & ? & ?). exists b. cbn. auto.
Qed.
Lemma node_in l codes e : Forall2 node_code (non_slots l) codes -> In (CElement e) l ->
  exists c, In (rendered c) codes /\ element_code e c.
Proof.
  intros H Hin. apply in_non_slots in Hin. destruct (forall2_in_l _ _ _ _ H Hin) as (b & Hb & Hc).
  inversion Hc; subst. eauto.
Qed.
Lemma slot_in l slots e : slots_code l slots -> In (CSlot e) l ->
  exists i c, In (i, c) slots /\ slot_code e c.
Proof.
  revert slots. induction l as [|c l IH]; intros slots H Hin; [destruct Hin|].
  inversion H; subst; cbn in Hin; destruct Hin as [Hin|Hin]; try discriminate; eauto.
  - inversion Hin; subst. exists i, ts. cbn. auto.
  - destruct (IH slots0) as (i' & c' & ? & ?); auto. exists i', c'. cbn. auto.
Qed.
Lemma slots_named_in slots i c : In (i, c) slots -> In c (slots_named slots i).
Proof.
  intros H. unfold slots_named. apply in_map_iff. exists (i, c). split; auto. apply filter_In. split; auto.
  cbn. destruct (ident_dec i i); congruence.
Qed.
Lemma within_slot_arg x c l : within x c -> In c l -> within x (slot_arg l).
Proof.
  intros H Hin. assert (Hs := within_comma_separated x c l H Hin). unfold slot_arg.
  destruct l as [|a [|b l]]; [destruct Hin|destruct Hin as [->|[]]; exact H|].
  apply within_r, within_r, within_cons, within_in, within_r, within_in, within_in. exact Hs.
Qed.
Lemma within_slots x slots scalls i c : slot_calls slots scalls -> In (i, c) slots -> within x c ->
  within x (chain scalls).
Proof.
  intros [order calls _ Hs H] Hin Hx.
  assert (Ho : In i order) by (apply Hs; apply in_map_iff; exists (i, c); auto).
  destruct (forall2_in_l _ _ _ _ H Ho) as (call & Hcall & Hc). inversion Hc; subst.
  eapply within_chain; [|exact Hcall]. cbn [call_args]. eapply within_slot_arg; eauto. now apply slots_named_in.
Qed.

Lemma child_within b e e' code : code_of b e code -> In (CElement e') (child_list (el_children e)) ->
  exists code', element_code e' code' /\ within code' code.
Proof.
  destruct e as [t sels attrs args ch]. cbn [el_children]. intros H Hin. destruct b; cbn [code_of] in H.
  - apply slot_code_inv in H. destruct H as (p & path & props & clones & codes & -> & -> & He & Hp & H1 & H2 & H3 & ->).
    destruct (node_in _ _ _ H3 Hin) as (c & Hc & Hcode). exists c. split; auto.
    apply within_slot, within_calls_r. eapply within_children; eauto. apply within_rendered, within_refl.
  - destruct t as [i|p|i|i|k].
    2: { apply component_code in H.
         destruct H as (path & props & entries & clones & codes & slots & scalls & Hp & H1 & H2 & H3 & H4 & H5 & H6 & ->).
         destruct (node_in _ _ _ H4 Hin) as (c & Hc & Hcode). exists c. split; auto.
         apply within_component, within_calls_r, within_calls_l. eapply within_children; eauto.
         apply within_rendered, within_refl. }
    all: apply html_code in H; [|intros p; discriminate];
      destruct H as (head & kvs & dirs & codes & Hh & H1 & H2 & H3 & ->);
      destruct (node_in _ _ _ H3 Hin) as (c & Hc & Hcode); exists c; (split; [exact Hcode|]);
      apply within_r; do 5 apply within_calls_r;
      apply (within_chain _ (child_call (rendered c))); [apply within_rendered, within_refl|now apply in_map].
Qed.
Lemma slot_within p e e' code : element_code e code -> el_tag e = TagComponent p ->
  In (CSlot e') (child_list (el_children e)) -> exists code', slot_code e' code' /\ within code' code.
Proof.
  destruct e as [t sels attrs args ch]. cbn [el_children el_tag]. intros H -> Hin. apply component_code in H.
  destruct H as (path & props & entries & clones & codes & slots & scalls & Hp & H1 & H2 & H3 & H4 & H5 & H6 & ->).
  destruct (slot_in _ _ _ H5 Hin) as (i & c & Hc & Hcode). exists c. split; auto.
  apply within_component. do 2 apply within_calls_r. eapply within_slots; eauto. apply within_refl.
Qed.
Lemma slot_slot_code e e' code : slot_code e code -> In (CSlot e') (child_list (el_children e)) ->
  exists code', slot_code e' code'.
Proof.
  destruct e as [t sels attrs args ch]. cbn [el_children]. intros H Hin.
  inversion H as [p ? ? ? path props clones codes slots scalls Hp H1 H2 H3 H4 H5 H6]; subst.
  destruct (slot_in _ _ _ H5 Hin) as (i & c & Hc & Hcode). eauto.
Qed.
Lemma root_within cs out e : root_code cs out -> In (CElement e) cs ->
  exists code, element_code e code /\ within code out.
Proof.
  intros H Hin. inversion H as [c code Hs Hn|cs' codes Hl Hs Hn]; subst.
  - apply nodes_each in Hn. destruct (node_in _ _ _ Hn Hin) as (x & Hx & Hc). exists x. split; auto.
    destruct Hx as [->|[]]. apply within_root, within_rendered, within_refl.
  - apply nodes_each in Hn. destruct (node_in _ _ _ Hn Hin) as (x & Hx & Hc). exists x. split; auto.
    apply within_root. eapply within_fragment; eauto. apply within_rendered, within_refl.
Qed.

(** Every used element has code, and its code occurs in the output. *)
Lemma used_code cs out b e : root_code cs out -> used cs b e ->
  exists code, code_of b e code /\ within code out.
Proof.
  intros H. induction 1 as [e Hin|b e e' Hu IH Hin|e e' p Hu IH Ht Hin].
  - now apply root_within with (cs := cs).
  - destruct IH as (code & Hc & Hw). destruct (child_within _ _ _ _ Hc Hin) as (c' & H1 & H2).
    exists c'. split; auto. eapply within_trans; eauto.
  - destruct IH as (code & Hc & Hw). destruct (slot_within _ _ _ _ Hc Ht Hin) as (c' & H1 & H2).
    exists c'. split; auto. eapply within_trans; eauto.
Qed.
(** Every checked element has code. *)
Lemma checked_code cs out b e : root_code cs out -> checked cs b e -> exists code, code_of b e code.
Proof.
  intros H. induction 1 as [e Hin|b e e' Hu IH Hin|b e e' p Hu IH Ht Hin].
  - destruct (root_within _ _ _ H Hin) as (c & Hc & _). exists c. exact Hc.
  - destruct IH as (code & Hc). destruct (child_within _ _ _ _ Hc Hin) as (c' & H1 & H2). exists c'. exact H1.
  - destruct IH as (code & Hc). destruct b; cbn in Hc.
    + eapply slot_slot_code; eauto.
    + destruct (slot_within _ _ _ _ Hc Ht Hin) as (c' & H1 & _). exists c'. exact H1.
Qed.
Lemma forall2_in_r {A B} (R : A -> B -> Prop) l l' b : Forall2 R l l' -> In b l' -> exists a, In a l /\ R a b.
Proof.
  induction 1 as [|x y l l' H1 H IH]; intros Hin; [destruct Hin|]. destruct Hin as [->|Hin].
  - exists x. cbn. auto.
  - destruct (IH Hin) as (a & ? & ?). exists a. cbn. auto.
Qed.
Lemma kvs_of_in a l : In (AKv a) l <-> In a (kvs_of l).
Proof.
  induction l as [|[b|b|b] l IH]; cbn; [tauto|..]; rewrite <- IH; intuition (try discriminate; try congruence).
Qed.
Lemma dirs_of_in a l : In (ADir a) l <-> In a (dirs_of l).
Proof.
  induction l as [|[b|b|b] l IH]; cbn; [tauto|..]; rewrite <- IH; intuition (try discriminate; try congruence).
Qed.
Lemma spreads_of_in a l : In (ASpread a) l <-> In a (spreads_of l).
Proof.
  induction l as [|[b|b|b] l IH]; cbn; [tauto|..]; rewrite <- IH; intuition (try discriminate; try congruence).
Qed.
