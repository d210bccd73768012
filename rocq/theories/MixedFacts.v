(** Facts for C72: expansions of trees whose attributes are mixed in another way. *)
From Verif Require Import SpecStr SpecGrammar SpecOut SpecStop SpecOrder SpecMixed ExpandFacts Report StopFacts OrderFacts.
From Verif Require WorkXFacts.
From Verif Require Import Macro.
From Coq Require Import Permutation.
Open Scope list_scope.
Open Scope expand_scope.

Scheme mixed_element_ind2 := Minimality for mixed_element Sort Prop
with mixed_ind2 := Minimality for mixed Sort Prop.
Combined Scheme mixed_mutind from mixed_element_ind2, mixed_ind2.

(** ** The same result, reports in another order, or both panic *)

Inductive xmix {A} : X A -> X A -> Prop :=
| xm_ret a d d' : Permutation d d' -> xmix (XR (XRet a) d) (XR (XRet a) d')
| xm_abort d d' : Permutation d d' -> xmix (XR XAbort d) (XR XAbort d')
| xm_panic w w' d d' : panic_alike w w' -> xmix (XR (XPanic w) d) (XR (XPanic w') d').

Lemma xmix_refl {A} (x : X A) : xmix x x.
Proof. destruct x as [[a| |w] d]; constructor; try apply Permutation_refl. now left. Qed.
Lemma alike_trans a b c : panic_alike a b -> panic_alike b c -> panic_alike a c.
Proof.
  intros [->|(s & s' & -> & ->)] H; [exact H|]. destruct H as [<-|(u & u' & _ & ->)]; right; [now exists s, s'|now exists s, u'].
Qed.
Lemma xmix_trans {A} (x y z : X A) : xmix x y -> xmix y z -> xmix x z.
Proof.
  intros H1 H2. destruct H1; inversion H2; subst; constructor; try (eapply Permutation_trans; eassumption). eapply alike_trans; eassumption.
Qed.
Lemma xmix_bind {A B} (m m' : X A) (f f' : A -> X B) : xmix m m' -> (forall a, xmix (f a) (f' a)) -> xmix (xbind m f) (xbind m' f').
Proof.
  intros [a d d' Hd|d d' Hd|w w' d d' Hw] Hf; cbn [xbind]; [|now constructor|now constructor].
  destruct (Hf a); cbn; constructor; try (now apply Permutation_app); assumption.
Qed.
Lemma xmix_let {A B} (m : X A) (f f' : A -> X B) : (forall a, xmix (f a) (f' a)) -> xmix (xbind m f) (xbind m f').
Proof. intros H. apply xmix_bind; [apply xmix_refl|exact H]. Qed.
Lemma xmix_seq {A} (l l' : list (X A)) : Forall2 xmix l l' -> xmix (xseq l) (xseq l').
Proof.
  induction 1 as [|x x' l l' Hx Hl IH]; cbn [xseq]; [apply xmix_refl|].
  apply xmix_bind; [exact Hx|]. intros a. apply xmix_bind; [exact IH|]. intros. apply xmix_refl.
Qed.

(** Steps that do not abort, and panic only because of a name, can be exchanged. *)
Definition soft {A} (m : X A) : Prop := x_out m <> XAbort /\ forall w, x_out m = XPanic w -> exists s, w = PNewRaw s.
Lemma xmix_swap {A B C} (m : X A) (n : X B) (f : A -> B -> X C) : soft m -> soft n ->
  xmix (a <- m ;; b <- n ;; f a b) (b <- n ;; a <- m ;; f a b).
Proof.
  destruct m as [[a| |w] d], n as [[b| |w'] d']; intros [H1 H2] [H3 H4]; cbn in *; try congruence.
  - destruct (f a b) as [[c| |u] e]; cbn; constructor; try (now left); rewrite !app_assoc; apply Permutation_app_tail, Permutation_app_comm.
  - constructor. now left.
  - constructor. now left.
  - constructor. right. destruct (H2 w eq_refl) as (s & ->). destruct (H4 w' eq_refl) as (s' & ->). now exists s, s'.
Qed.

(** ** Attributes of HTML elements *)

Definition acc3 : Type := list tt * list tt * list tt.
Definition h_run (k : tag_kind) (a : attr) : X (list tt) :=
  match a with
  | AKv kv => xml_kv_attribute_tokens kv k
  | ADir d => xml_directive_tokens d
  | ASpread s => xret (xml_spread_tokens s)
  end.
Definition h_put (a : attr) (t : list tt) (acc : acc3) : acc3 :=
  let '(kvs, dirs, sps) := acc in
  match a with
  | AKv _ => (kvs ++ t, dirs, sps)
  | ADir _ => (kvs, dirs ++ t, sps)
  | ASpread _ => (kvs, dirs, sps ++ t)
  end.
Lemma h_loop k a r acc : xml_attr_loop k (a :: r) acc = (t <- h_run k a ;; xml_attr_loop k r (h_put a t acc)).
Proof.
  destruct acc as [[kvs dirs] sps]. destruct a as [kv|d|s]; cbn [xml_attr_loop h_run h_put]; [reflexivity|reflexivity|].
  now rewrite WorkXFacts.xbind_ret.
Qed.
Lemma soft_of {A B} (m : X A) (g : A -> B) (P : panic -> Prop) : pan (t <- m ;; xret (g t)) P ->
  (forall w, P w -> exists s, w = PNewRaw s) -> soft m.
Proof.
  intros (H1 & H2 & _) H. destruct m as [[a| |w] d]; cbn in *; split; try discriminate; try congruence.
  - intros Q. now destruct H1.
  - intros u Q. injection Q as <-. now apply H, H2.
Qed.
Lemma no_ident_raw k w : no_identifier k w -> exists s, w = PNewRaw s.
Proof. intros [H _]. eauto. Qed.
Lemma h_soft k a : soft (h_run k a).
Proof.
  apply (soft_of (h_run k a) (fun t => h_put a t ([], [], [])) (fun w => exists b, In b [a] /\ html_attr_stops k w b)).
  - change (pan (t <- h_run k a ;; xml_attr_loop k [] (h_put a t ([], [], []))) (fun w => exists b, In b [a] /\ html_attr_stops k w b)).
    rewrite <- h_loop. apply pan_html_loop.
  - intros w (b & _ & H). destruct H as [kk v _ _ _ H|name d _ [_ (kk & _ & H)]]; now apply no_ident_raw in H.
Qed.
Lemma h_swap t k a b r acc : (forall p, t <> TagComponent p) -> other_sort t a b ->
  xmix (xml_attr_loop k (a :: b :: r) acc) (xml_attr_loop k (b :: a :: r) acc).
Proof.
  intros Ht Hs. rewrite !h_loop.
  apply (xmix_trans _ (u <- h_run k a ;; v <- h_run k b ;; xml_attr_loop k r (h_put b v (h_put a u acc)))).
  { apply xmix_let. intros u. rewrite h_loop. apply xmix_refl. }
  eapply xmix_trans; [apply (xmix_swap (h_run k a) (h_run k b) (fun u v => xml_attr_loop k r (h_put b v (h_put a u acc)))); apply h_soft|].
  apply xmix_let. intros v. rewrite h_loop. apply xmix_let. intros u.
  assert (Q : h_put b v (h_put a u acc) = h_put a u (h_put b v acc)); [|rewrite Q; apply xmix_refl].
  destruct acc as [[x y] z]. destruct a, b; try reflexivity; destruct Hs; destruct t; try reflexivity; now destruct (Ht p).
Qed.
Lemma h_mixed t k l l' acc : (forall p, t <> TagComponent p) -> exchanged (other_sort t) l l' ->
  xmix (xml_attr_loop k l acc) (xml_attr_loop k l' acc).
Proof.
  intros Ht. induction 1 as [l|p a b q l Hd H IH]; [apply xmix_refl|]. eapply xmix_trans; [|exact IH]. clear IH H.
  revert acc. induction p as [|x p IHp]; intros acc; cbn [app]; [now apply (h_swap t)|]. rewrite !h_loop. apply xmix_let. auto.
Qed.

(** ** Attributes of components and slots *)

Definition accc : Type := list tt * list (list tt) * list tt.
Definition c_run (slot : bool) (a : attr) : X (list tt) :=
  match a with
  | AKv kv => component_kv_attribute_tokens kv
  | ASpread s => if slot then (xemit DSlotSpread ;;; xret []) else xret s
  | ADir d =>
      if is_clone d then (emit_error_if_modifier (d_modifier d) ;;; component_clone_tokens d)
      else if slot then (xemit (DSlotDirective (ident_to_string (d_dir d))) ;;; xret [])
      else match directive_to_any_attr_path d with
           | Some m => m
           | None => xemit DUnknownDirective ;;; xret []
           end
  end.
Definition c_put (slot : bool) (a : attr) (t : list tt) (acc : accc) : accc :=
  let '(props, dirs, clones) := acc in
  match a with
  | AKv _ => (props ++ t, dirs, clones)
  | ASpread _ => if slot then acc else (props, dirs ++ [t], clones)
  | ADir d =>
      if is_clone d then (props, dirs, clones ++ t)
      else if slot then acc
      else match directive_to_any_attr_path d with
           | Some _ => (props, dirs ++ [t], clones)
           | None => acc
           end
  end.
Lemma c_loop slot a r acc :
  component_attr_loop slot (a :: r) acc = (t <- c_run slot a ;; component_attr_loop slot r (c_put slot a t acc)).
Proof.
  destruct acc as [[props dirs] clones]. destruct a as [kv|d|s]; cbn [component_attr_loop c_run c_put]; [reflexivity| |].
  - rewrite clone_test. destruct (is_clone d); [now rewrite WorkXFacts.xbind_assoc|]. destruct slot.
    + rewrite WorkXFacts.xbind_assoc. apply WorkXFacts.xbind_ext. intros _. now rewrite WorkXFacts.xbind_ret.
    + destruct (directive_to_any_attr_path d); [reflexivity|]. rewrite WorkXFacts.xbind_assoc. apply WorkXFacts.xbind_ext. intros _. now rewrite WorkXFacts.xbind_ret.
  - destruct slot; [|now rewrite WorkXFacts.xbind_ret].
    rewrite WorkXFacts.xbind_assoc. apply WorkXFacts.xbind_ext. intros _. now rewrite WorkXFacts.xbind_ret.
Qed.
Lemma c_soft slot a : soft (c_run slot a).
Proof.
  apply (soft_of (c_run slot a) (fun t => c_put slot a t ([], [], [])) (fun w => exists b, In b [a] /\ comp_attr_stops slot w b)).
  - change (pan (t <- c_run slot a ;; component_attr_loop slot [] (c_put slot a t ([], [], []))) (fun w => exists b, In b [a] /\ comp_attr_stops slot w b)).
    rewrite <- c_loop. apply pan_comp_loop.
  - intros w (b & _ & H). destruct H as [k v H|d [_ (k & _ & H)]|name d _ _ [_ (k & _ & H)]|d k _ _ _ H _]; now apply no_ident_raw in H.
Qed.
Lemma c_swap p slot a b r acc : other_sort (TagComponent p) a b ->
  xmix (component_attr_loop slot (a :: b :: r) acc) (component_attr_loop slot (b :: a :: r) acc).
Proof.
  intros Hs. rewrite !c_loop.
  apply (xmix_trans _ (u <- c_run slot a ;; v <- c_run slot b ;; component_attr_loop slot r (c_put slot b v (c_put slot a u acc)))).
  { apply xmix_let. intros u. rewrite c_loop. apply xmix_refl. }
  eapply xmix_trans; [apply (xmix_swap (c_run slot a) (c_run slot b) (fun u v => component_attr_loop slot r (c_put slot b v (c_put slot a u acc)))); apply c_soft|].
  apply xmix_let. intros v. rewrite c_loop. apply xmix_let. intros u.
  assert (Q : c_put slot b v (c_put slot a u acc) = c_put slot a u (c_put slot b v acc)); [|rewrite Q; apply xmix_refl].
  destruct acc as [[x y] z]. unfold other_sort, sort_on in Hs. unfold c_put.
  destruct a as [ka|da|sa], b as [kb|db|sb]; try congruence;
    try destruct (is_clone da); try destruct (is_clone db); try congruence; destruct slot; try reflexivity;
    try destruct (directive_to_any_attr_path da); try destruct (directive_to_any_attr_path db); reflexivity.
Qed.
Lemma c_mixed p slot l l' acc : exchanged (other_sort (TagComponent p)) l l' ->
  xmix (component_attr_loop slot l acc) (component_attr_loop slot l' acc).
Proof.
  induction 1 as [l|x a b q l Hd H IH]; [apply xmix_refl|]. eapply xmix_trans; [|exact IH]. clear IH H.
  revert acc. induction x as [|y x IHx]; intros acc; cbn [app]; [now apply (c_swap p)|]. rewrite !c_loop. apply xmix_let. auto.
Qed.

(** ** Selectors *)

Lemma sel_mixed l l' : exchanged other_selector l l' -> partition sel_is_class l = partition sel_is_class l'.
Proof.
  induction 1 as [l|p a b q l Hd H IH]; [reflexivity|]. rewrite <- IH. clear IH H. induction p as [|x p IHp]; cbn [app partition].
  - destruct Hd; cbn [sel_is_class]; now destruct (partition sel_is_class q).
  - now rewrite IHp.
Qed.
Lemma exchanged_nil {A} (R : A -> A -> Prop) l l' : exchanged R l l' -> (l = [] <-> l' = []).
Proof. induction 1 as [l|p a b q l Hd H IH]; [reflexivity|]. rewrite <- IH. destruct p; split; discriminate. Qed.
Lemma exchanged_perm {A} (R : A -> A -> Prop) l l' : exchanged R l l' -> Permutation l l'.
Proof.
  induction 1 as [l|p a b q l Hd H IH]; [apply Permutation_refl|]. eapply Permutation_trans; [|exact IH].
  apply Permutation_app_head, perm_swap.
Qed.

(** ** Trees *)

Definition slot_mix (x y : tag * X (list tt)) : Prop := fst x = fst y /\ xmix (snd x) (snd y).
Lemma collect_mix l l' : Forall2 slot_mix l l' -> forall m, xmix (collect_slots l m) (collect_slots l' m).
Proof.
  induction 1 as [|[t x] [t' y] l l' [Ht Hx] Hl IH]; intros m; cbn [collect_slots]; [apply xmix_refl|]. cbn in Ht, Hx. subst t'.
  destruct t; try apply xmix_refl. destruct (get_ident p); [|now apply xmix_let; intros; apply IH]. apply xmix_bind; [exact Hx|]. intros. apply IH.
Qed.
Section Tree.
Variable E : env.
Lemma element_mix : 
  (forall e e', mixed_element e e' -> el_tag e = el_tag e' /\ forall at_ b, xmix (expand_element E at_ b e) (expand_element E at_ b e')) /\
  (forall l l', mixed l l' -> forall at_ n,
     Forall2 xmix (expand_nodes E at_ n l) (expand_nodes E at_ n l') /\ Forall2 slot_mix (expand_slots E at_ n l) (expand_slots E at_ n l')).
Proof.
  assert (K : forall t sels sels' attrs attrs' args nodes nodes' slots slots' at_ b,
    exchanged other_selector sels sels' -> exchanged (other_sort t) attrs attrs' ->
    match nodes, nodes' with Some l, Some l' => Forall2 xmix l l' | None, None => True | _, _ => False end ->
    match slots, slots' with Some l, Some l' => Forall2 slot_mix l l' | None, None => True | _, _ => False end ->
    xmix (element_tokens E at_ b t sels attrs args nodes slots) (element_tokens E at_ b t sels' attrs' args nodes' slots')).
  { intros t sels sels' attrs attrs' args nodes nodes' slots slots' at_ b Hsel Hat Hn Hs.
    assert (Hcomp : forall p b, t = TagComponent p -> xmix
       (expect_path (component_to_tokens E at_ b t sels attrs args nodes slots))
       (expect_path (component_to_tokens E at_ b t sels' attrs' args nodes' slots'))).
    { intros p b' ->. unfold component_to_tokens. cbn [expect_path]. apply xmix_let. intros p'. apply xmix_bind.
      { destruct b'.
        - assert (Q := exchanged_nil _ _ _ Hsel). destruct sels, sels'; try apply xmix_refl; destruct Q as [Q Q']; (discriminate (Q eq_refl) || discriminate (Q' eq_refl)).
        - unfold component_selectors. rewrite (sel_mixed _ _ Hsel). apply xmix_refl. }
      intros dirs0. apply xmix_bind; [now apply (c_mixed p)|]. intros [[props dirs] clones]. apply xmix_bind.
      { destruct nodes as [l|], nodes' as [l'|]; try contradiction; [|apply xmix_refl].
        destruct Hn as [|x y l1 l2 Hxy Hl]; [apply xmix_refl|]. unfold component_children_tokens.
        apply xmix_bind; [apply xmix_seq; now constructor|]. intros. apply xmix_refl. }
      intros c. apply xmix_bind.
      { destruct slots as [l|], slots' as [l'|]; try contradiction; [|apply xmix_refl].
        unfold slots_to_tokens. apply xmix_bind; [now apply collect_mix|]. intros. apply xmix_refl. }
      intros s. apply xmix_refl. }
    unfold element_tokens. destruct b.
    - destruct t; try (cbn; apply xmix_refl). now apply (Hcomp p).
    - destruct t; [|now apply (Hcomp p)|..]; unfold xml_to_tokens; cbn [xml_tag_path];
        (apply xmix_bind; [eapply h_mixed; [|exact Hat]; discriminate|]; intros [[kvs dirs] sps]; apply xmix_bind;
         [destruct nodes as [l|], nodes' as [l'|]; try contradiction; [|apply xmix_refl]; unfold xml_child_methods_tokens;
          apply xmix_bind; [now apply xmix_seq|]; intros; apply xmix_refl
         |intros c; unfold xml_selectors_tokens; rewrite (sel_mixed _ _ Hsel); apply xmix_refl]). }
  apply mixed_mutind.
  - intros t sels sels' attrs attrs' args Hsel Hat. split; [reflexivity|]. intros at_ b. rewrite !expand_element_eq. now apply K.
  - intros t sels sels' attrs attrs' args l l' Hsel Hat Hl IH. split; [reflexivity|]. intros at_ b. rewrite !expand_element_eq.
    destruct (IH at_ 0) as [H1 H2]. now apply K.
  - intros. split; constructor.
  - intros v l l' Hl IH at_ n. destruct (IH at_ (S n)) as [H1 H2]. cbn [expand_nodes expand_slots]. split; [|exact H2]. constructor; [|exact H1]. apply xmix_refl.
  - intros e e' l l' He [_ IHe] Hl IH at_ n. destruct (IH at_ (S n)) as [H1 H2]. cbn [expand_nodes expand_slots expand_node]. split; [|exact H2].
    constructor; [|exact H1]. apply xmix_bind; [apply IHe|]. intros. apply xmix_refl.
  - intros e e' l l' He [Ht IHe] Hl IH at_ n. destruct (IH at_ (S n)) as [H1 H2]. cbn [expand_nodes expand_slots]. split; [exact H1|].
    constructor; [|exact H2]. split; [exact Ht|]. apply IHe.
Qed.
Lemma mixed_slots l l' : mixed l l' -> existsb is_slot l = existsb is_slot l'.
Proof. induction 1; cbn; auto. Qed.
Lemma root_mix cs cs' : mixed cs cs' -> xmix (root_tokens E cs) (root_tokens E cs').
Proof.
  intros H. assert (Hs := mixed_slots _ _ H). destruct element_mix as [HE HN]. assert (Hn := proj1 (HN _ _ H [] 0)).
  assert (Hmany : xmix (if existsb is_slot cs then xabort DRootSlot else
      xbind (xseq (expand_nodes E [] 0 cs)) (fun l => xret [TGroup Brace
                ([pu "#"; TGroup Bracket [kw "allow"; par [kw "unused_braces"]]] ++ children_fragment_tokens l)]))
     (if existsb is_slot cs' then xabort DRootSlot else
      xbind (xseq (expand_nodes E [] 0 cs')) (fun l => xret [TGroup Brace
                ([pu "#"; TGroup Bracket [kw "allow"; par [kw "unused_braces"]]] ++ children_fragment_tokens l)]))).
  { rewrite Hs. destruct (existsb is_slot cs'); [apply xmix_refl|]. apply xmix_bind; [now apply xmix_seq|]. intros. apply xmix_refl. }
  unfold root_tokens. destruct H as [|v l l' Hl|e e' l l' He Hl|e e' l l' He Hl]; [exact Hmany|..]; (destruct Hl as [|? ? ? Hl|? ? ? ? He2 Hl|? ? ? ? He2 Hl]; [|exact Hmany..]).
  - apply xmix_refl.
  - apply xmix_bind; [|intros; apply xmix_refl]. cbn [expand_node]. apply xmix_bind; [now apply HE|intros; apply xmix_refl].
  - apply xmix_refl.
Qed.
End Tree.
