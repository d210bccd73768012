(** Facts for C69: the code of a view of which parts were taken out. *)
From Verif Require Import Ast SpecStr SpecGrammar SpecOut SpecCut EqualFacts3.
From Coq Require Import Lia.
Open Scope list_scope.

(** [constructor] that keeps where it can. *)
Ltac lcon := first [apply less_nil | apply less_keep | apply less_out | apply wi_nil | apply wi_group | apply wi_same
  | apply wi_words | apply wi_out | constructor].

(** ** Lists *)

Lemma less_refl {A} (R : A -> A -> Prop) l : (forall x, R x x) -> less R l l.
Proof. intros H. induction l as [|x l IH]; [apply less_nil|apply less_keep; auto]. Qed.
Lemma less_none {A} (R : A -> A -> Prop) m : less R [] m.
Proof. induction m as [|x l IH]; [apply less_nil|apply less_out; auto]. Qed.
Lemma less_mono {A} (R S : A -> A -> Prop) l m : (forall x y, R x y -> S x y) -> less R l m -> less S l m.
Proof. intros H. induction 1; lcon; auto. Qed.
Lemma less_app {A} (R : A -> A -> Prop) l m l' m' : less R l m -> less R l' m' -> less R (l ++ l') (m ++ m').
Proof. intros H H'. induction H; cbn; auto; lcon; auto. Qed.
Lemma less_map {A B} (R : A -> A -> Prop) (S : B -> B -> Prop) f l m :
  (forall x y, R x y -> S (f x) (f y)) -> less R l m -> less S (map f l) (map f m).
Proof. intros H. induction 1; cbn; lcon; auto. Qed.
Lemma less_length {A} (R : A -> A -> Prop) l m : less R l m -> List.length l <= List.length m.
Proof. induction 1; cbn; lia. Qed.
Lemma less_nil_inv {A} (R : A -> A -> Prop) l : less R l [] -> l = [].
Proof. intros H. now inversion H. Qed.
Lemma less_in {A} (R : A -> A -> Prop) l m x : less R l m -> In x l -> exists y, In y m /\ R x y.
Proof.
  induction 1 as [|y l m H IH|a y l m Ha H IH]; cbn; [tauto| |].
  - intros Hx. destruct (IH Hx) as (z & Hz & Hr). eauto.
  - intros [<-|Hx]; [eauto|]. destruct (IH Hx) as (z & Hz & Hr). eauto.
Qed.
Lemma less_forall2 {A B} (R : A -> A -> Prop) (S : B -> B -> Prop) (P : A -> B -> Prop) m bs :
  (forall x y b, R x y -> P y b -> exists a, P x a /\ S a b) ->
  Forall2 P m bs -> forall l, less R l m -> exists as_, Forall2 P l as_ /\ less S as_ bs.
Proof.
  intros Hs. induction 1 as [|y b m bs Hy Hm IH]; intros l H.
  - apply less_nil_inv in H. subst. exists []. split; lcon.
  - inversion H as [|? ? ? Hl|x ? l' ? Hx Hl]; subst.
    + destruct (IH _ Hl) as (as_ & H1 & H2). exists as_. split; [exact H1|now lcon].
    + destruct (IH _ Hl) as (as_ & H1 & H2). destruct (Hs _ _ _ Hx Hy) as (a & Ha & Hb). exists (a :: as_).
      split; lcon; auto.
Qed.

(** ** Codes *)

Lemma within_refl a : within a a.
Proof. induction a as [|t a IH]; [lcon|now apply wi_same]. Qed.
Lemma within_none b : within [] b.
Proof. induction b as [|t b IH]; [lcon|now apply wi_out]. Qed.
Lemma within_app a b c d : within a b -> within c d -> within (a ++ c) (b ++ d).
Proof.
  intros H H'. induction H; cbn; auto; try (now lcon).
  - apply wi_open. now rewrite app_assoc.
Qed.
Lemma within_after a b p : within a b -> within a (p ++ b).
Proof. intros H. now apply (within_app [] p a b); [apply within_none|]. Qed.
Lemma within_before a b p : within a b -> within a (b ++ p).
Proof. intros H. rewrite <- (app_nil_r a). apply within_app; [auto|apply within_none]. Qed.
Lemma within_both p a b q : within a b -> within (p ++ a ++ q) (p ++ b ++ q).
Proof. intros H. apply within_app; [apply within_refl|]. apply within_app; [auto|apply within_refl]. Qed.
Lemma within_pre p a b : within a b -> within (p ++ a) (p ++ b).
Proof. intros H. apply within_app; [apply within_refl|auto]. Qed.
Lemma within_in d x y : within x y -> within [TGroup d x] [TGroup d y].
Proof. intros H. apply wi_group; [auto|lcon]. Qed.
Lemma within_open d x y : within x y -> within x [TGroup d y].
Proof. intros H. apply wi_open. now rewrite app_nil_r. Qed.

Lemma within_concat l m : less within l m -> within (List.concat l) (List.concat m).
Proof.
  induction 1; cbn; [lcon| |].
  - now apply within_after.
  - now apply within_app.
Qed.
Lemma within_ended l m : less within l m -> within (comma_ended l) (comma_ended m).
Proof.
  intros H. unfold comma_ended. apply within_concat. eapply less_map; [|exact H]. intros x y Hx. apply within_app; [auto|apply within_refl].
Qed.
Lemma within_separated l m : less within l m -> within (comma_separated l) (comma_separated m).
Proof.
  induction 1 as [|y l m H IH|x y l m Hx H IH]; [lcon| |].
  - cbn [comma_separated]. destruct m as [|z m]; [apply less_nil_inv in H; subst; apply within_none|].
    apply within_after. now apply wi_out.
  - destruct l as [|x' l]; cbn [comma_separated].
    + destruct m; [auto|]. now apply within_before.
    + destruct m as [|z m]; [now apply less_nil_inv in H|]. apply within_app; [auto|]. now apply wi_same.
Qed.

Definition call_within (c d : call) : Prop := call_name c = call_name d /\ within (call_args c) (call_args d).
Lemma call_within_refl c : call_within c c.
Proof. split; [reflexivity|apply within_refl]. Qed.
Lemma within_chain l m : less call_within l m -> within (chain l) (chain m).
Proof.
  intros H. unfold chain. apply within_concat. eapply less_map; [|exact H].
  intros [n a] [n' b] [Hn Ha]. cbn in *. subst. unfold call_tokens. cbn. do 2 apply wi_same. now apply within_in.
Qed.

(** ** Parts of a tree *)

Definition cut_dir (d d' : directive) : Prop :=
  d = d' \/ exists i k m v, d = Directive i k None v /\ d' = Directive i k (Some m) v.
Lemma cut_kvs l m : less cut_attr l m -> less eq (kvs_of l) (kvs_of m).
Proof.
  induction 1 as [|y l m H IH|x y l m [a|i k mo v] H IH]; cbn; [lcon| | |assumption].
  - destruct y; auto. now lcon.
  - destruct a; auto. now lcon.
Qed.
Lemma cut_dirs l m : less cut_attr l m -> less cut_dir (dirs_of l) (dirs_of m).
Proof.
  induction 1 as [|y l m H IH|x y l m [a|i k mo v] H IH]; cbn; [lcon| | |].
  - destruct y; auto. now lcon.
  - destruct a; auto. lcon; [now left|auto].
  - lcon; [right; eauto 7|auto].
Qed.
Lemma cut_spreads l m : less cut_attr l m -> less eq (spreads_of l) (spreads_of m).
Proof.
  induction 1 as [|y l m H IH|x y l m [a|i k mo v] H IH]; cbn; [lcon| | |assumption].
  - destruct y; auto. now lcon.
  - destruct a; auto. now lcon.
Qed.
Lemma cut_entries l m : less cut_attr l m -> less cut_attr (entries_of l) (entries_of m).
Proof.
  induction 1 as [|y l m H IH|x y l m [a|i k mo v] H IH]; cbn; [lcon| | |].
  - destruct y as [a|d|s]; auto; [|now lcon]. destruct (is_clone d); [auto|now lcon].
  - destruct a as [a|d|s]; auto; [|lcon; [lcon|auto]]. destruct (is_clone d); [auto|lcon; [lcon|auto]].
  - unfold is_clone. cbn. destruct i as [[|] n]; [lcon; [lcon|auto]|].
    destruct (n =? "clone")%string; [auto|lcon; [lcon|auto]].
Qed.
Lemma cut_clones l m : less cut_attr l m -> less cut_dir (clones_of l) (clones_of m).
Proof.
  intros H. apply cut_dirs in H. unfold clones_of. revert H. generalize (dirs_of l) (dirs_of m). clear l m. intros ds ds' H. induction H as [|y l m H IH|x y l m [->|(i & k & mo & v & -> & ->)] H IH]; cbn; [lcon| | |].
  - destruct (is_clone y); [now lcon|auto].
  - destruct (is_clone y); [lcon; [now left|auto]|auto].
  - unfold is_clone. cbn. destruct i as [[|] n]; [auto|]. destruct (n =? "clone")%string; [lcon; [right; eauto 7|auto]|auto].
Qed.
Lemma cut_classes l m : less eq l m -> less eq (classes_of l) (classes_of m).
Proof.
  induction 1 as [|y l m H IH|x y l m -> H IH]; cbn; [lcon| |].
  - destruct y; [auto|now lcon].
  - destruct y; [auto|now lcon].
Qed.
Lemma cut_ids l m : less eq l m -> less eq (ids_of l) (ids_of m).
Proof.
  induction 1 as [|y l m H IH|x y l m -> H IH]; cbn; [lcon| |].
  - destruct y; [now lcon|auto].
  - destruct y; [now lcon|auto].
Qed.

Lemma less_eq_map {A B} (R : B -> B -> Prop) (f : A -> B) l m : (forall x, R x x) -> less eq l m -> less R (map f l) (map f m).
Proof. intros Hr. apply less_map. intros x y ->. apply Hr. Qed.

Lemma cut_event k m ev : event_code k m ev -> exists ev', event_code k None ev' /\ within ev' ev.
Proof.
  intros H. inversion H as [k' i Hi|k' i Hi]; subst.
  - eexists. split; [exact H|apply within_refl].
  - eexists. split; [lcon; exact Hi|]. apply within_after, within_after. apply wi_out. apply within_open, within_refl.
Qed.
Lemma cut_html_dir x y c : cut_dir x y -> html_dir_call y c -> exists c', html_dir_call x c' /\ call_within c' c.
Proof.
  intros [->|(i & k & m & v & -> & ->)] H; [exists c; split; [exact H|apply call_within_refl]|].
  inversion H as [| |k' m' v' ev ts He Hv|]; subst. destruct (cut_event _ _ _ He) as (ev' & He' & Hw).
  eexists. split; [now lcon; [exact He'|exact Hv]|]. split; [reflexivity|]. cbn. apply within_app; [exact Hw|apply within_refl].
Qed.
Lemma cut_entry x y c : cut_attr x y -> entry_code y c -> exists c', entry_code x c' /\ within c' c.
Proof.
  intros [a|i k m v] H; [exists c; split; [exact H|apply within_refl]|].
  inversion H as [|n k' m' v' ts Hn Hv|n k' m' v' ts Hn Hv|k' m' v' ts Hk Hv|k' i' m' v' ts H1 H2 H3 Hi Hv|k' i' m' v' ts Hi Hv
    |k' m' v' ev ts He Hv|]; subst.
  - eexists. split; [now apply en_class_style; [exact Hn|exact Hv]|apply within_refl].
  - eexists. split; [now apply en_attr_class_style; [exact Hn|exact Hv]|apply within_refl].
  - eexists. split; [now apply en_attr_custom; [exact Hk|exact Hv]|apply within_refl].
  - eexists. split; [now apply en_attr; [exact H1|exact H2|exact H3|exact Hi|exact Hv]|apply within_refl].
  - eexists. split; [now apply en_prop; [exact Hi|exact Hv]|apply within_refl].
  - destruct (cut_event _ _ _ He) as (ev' & He' & Hw).
    eexists. split; [now apply en_on; [exact He'|exact Hv]|]. apply within_pre, within_in.
    apply within_app; [exact Hw|apply within_refl].
Qed.
Lemma cut_clone x y c : cut_dir x y -> clone_code y c -> exists c', clone_code x c' /\ within c' c.
Proof.
  intros [->|(i & k & m & v & -> & ->)] H; [exists c; split; [exact H|apply within_refl]|]. inversion H.
Qed.

Lemma cut_selectors l m : less eq l m -> less within (selector_entries l) (selector_entries m).
Proof.
  intros H. unfold selector_entries. apply less_app.
  - apply less_eq_map; [apply within_refl|]. now apply cut_classes.
  - assert (Hi := cut_ids _ _ H). destruct (ids_of l) as [|i is_]; [apply less_none|].
    destruct (ids_of m) as [|j js]; [apply less_nil_inv in Hi; discriminate|]. cbn [id_entries].
    lcon; [|lcon]. do 2 apply within_pre. apply wi_same. apply within_in.
    apply wi_words; [now apply less_eq_map|discriminate|lcon].
Qed.

Lemma within_fragment l m : less within l m -> within (fragment l) (fragment m).
Proof. intros H. unfold fragment. apply within_pre, within_in, within_in. now apply within_ended. Qed.
Lemma cut_children_calls args args' clones clones' codes codes' :
  less within clones' clones -> less within codes' codes -> args' = args \/ codes' = [] ->
  less call_within (children_calls args' clones' codes') (children_calls args clones codes).
Proof.
  intros Hc H Ha. destruct codes' as [|c' cs']; [apply less_none|]. destruct Ha as [->|Ha]; [|discriminate].
  destruct codes as [|c cs]; [apply less_nil_inv in H; discriminate|]. unfold children_calls.
  lcon; [|lcon]. split; [reflexivity|]. cbn [call_args plain_call]. apply within_in, within_app; [now apply within_concat|].
  apply within_fragment in H. destruct args as [a|].
  - change (within ((word "move" :: a) ++ fragment (c' :: cs')) ((word "move" :: a) ++ fragment (c :: cs))). now apply within_pre.
  - apply within_pre, within_in. apply wi_same. now apply within_pre.
Qed.

(** Slots. *)
Definition slot_within (x y : ident * list tt) : Prop := fst x = fst y /\ within (snd x) (snd y).
Lemma cut_named slots slots' i : less slot_within slots' slots -> less within (slots_named slots' i) (slots_named slots i).
Proof.
  unfold slots_named. induction 1 as [|y l m H IH|x y l m [Hn Hx] H IH]; cbn; [lcon| |].
  - destruct (ident_dec (fst y) i); [now lcon|auto].
  - rewrite Hn. destruct (ident_dec (fst y) i); [now lcon|auto].
Qed.
Lemma cut_slot_arg l m : l <> [] -> less within l m -> within (slot_arg l) (slot_arg m).
Proof.
  intros Hn H. assert (Hl := less_length _ _ _ H).
  assert (Hm : forall x, m = [x] -> exists y, l = [y] /\ within y x).
  { intros x ->. inversion H as [|? ? ? Hx|y ? l' ? Hy Hx]; subst; apply less_nil_inv in Hx; subst; [now destruct Hn|eauto]. }
  destruct m as [|x [|x' m]].
  - apply less_nil_inv in H. now destruct Hn.
  - destruct (Hm x eq_refl) as (y & -> & Hy). exact Hy.
  - clear Hm. assert (Hs : within (comma_separated l) (comma_separated (x :: x' :: m))) by now apply within_separated.
    destruct l as [|y [|y' l]].
    + now destruct Hn.
    + cbn [slot_arg]. cbn [comma_separated] in Hs |- *. do 2 apply within_after. apply wi_out. apply within_open, within_after, within_open, within_open.
      exact Hs.
    + unfold slot_arg. do 2 apply within_pre. apply wi_same. apply within_in, within_pre, within_in, within_in. exact Hs.
Qed.
Lemma named_some (slots : list (ident * list tt)) i : In i (map fst slots) -> slots_named slots i <> [].
Proof.
  unfold slots_named. induction slots as [|[j x] l IH]; cbn; [tauto|]. intros [->|H]; destruct (ident_dec _ _); cbn; try congruence; auto.
Qed.
Lemma cut_slot_calls slots slots' calls : less slot_within slots' slots -> slot_calls slots calls ->
  exists calls', slot_calls slots' calls' /\ less call_within calls' calls.
Proof.
  intros Hs [order calls' Hd Ho Hc].
  set (keep := fun i => if in_dec ident_dec i (map fst slots') then true else false).
  assert (Hk : forall i, keep i = true <-> In i (map fst slots')) by (intros i; unfold keep; destruct (in_dec _ _ _); split; auto; discriminate).
  assert (Hx : exists cs, Forall2 (slot_call slots') (filter keep order) cs /\ less call_within cs calls').
  { clear Ho Hd. induction Hc as [|i c order calls' Hi Hl IH]; cbn [filter]; [exists []; split; lcon|].
    destruct IH as (cs & H1 & H2). destruct (keep i) eqn:K; [|exists cs; split; [exact H1|now lcon]].
    destruct Hi as [i m Hm Hr]. exists (Call (Id true m) (slot_arg (slots_named slots' i)) :: cs).
    split; lcon; auto; [now lcon|]. split; [reflexivity|]. cbn. apply cut_slot_arg; [|now apply cut_named].
    apply named_some. now apply Hk. }
  destruct Hx as (cs & H1 & H2). exists cs. split; [|exact H2]. apply (slot_calls_intro slots' (filter keep order)).
  - now apply NoDup_filter.
  - intros i. rewrite filter_In, Hk. split; [tauto|]. intros H. split; [|exact H]. apply Ho.
    apply in_map_iff in H. destruct H as (x & <- & Hin). destruct (less_in _ _ _ _ Hs Hin) as (y & Hy & -> & _). now apply in_map.
  - exact H1.
Qed.

Lemma within_rendered a b : within a b -> within (rendered a) (rendered b).
Proof. intros H. apply within_pre, within_in, H. Qed.
Lemma within_component path calls calls' entries entries' : less call_within calls' calls -> less within entries' entries ->
  within (component_frame path calls' entries') (component_frame path calls entries).
Proof.
  intros Hc He. unfold component_frame. do 2 apply within_pre. apply within_in, within_pre, within_app.
  - apply within_in. apply wi_same, within_pre, wi_same, within_pre, within_pre. apply within_chain, less_app; [exact Hc|apply less_refl, call_within_refl].
  - apply within_chain. lcon; [|lcon]. split; [reflexivity|]. now apply within_in, within_ended.
Qed.
Lemma within_slot path calls calls' : less call_within calls' calls -> within (slot_frame path calls') (slot_frame path calls).
Proof.
  intros Hc. unfold slot_frame. apply within_pre, within_in. do 3 apply within_pre. apply within_chain, less_app; [exact Hc|apply less_refl, call_within_refl].
Qed.

Lemma eq_transport {A B} (P : A -> B -> Prop) (S : B -> B -> Prop) : (forall b, S b b) ->
  forall x y b, x = y -> P y b -> exists a, P x a /\ S a b.
Proof. intros Hr x y b -> H. eauto. Qed.

(** ** The code of what is left *)
Lemma cut_all :
  (forall e out, element_code e out -> forall e', cut_element e' e -> exists out', element_code e' out' /\ within out' out) /\
  (forall e out, slot_code e out -> forall e', cut_element e' e -> exists out', slot_code e' out' /\ within out' out) /\
  (forall l codes, nodes_code l codes -> forall l', cut_children l' l -> exists codes', nodes_code l' codes' /\ less within codes' codes) /\
  (forall l slots, slots_code l slots -> forall l', cut_children l' l -> exists slots', slots_code l' slots' /\ less slot_within slots' slots).
Proof.
  apply code_mutind.
  - intros t sels attrs args ch head kvs dirs codes Hh Hk Hd Hn IHn e' He.
    inversion He as [? sels' ? attrs' ? args' ? ch' ? Hs Ha Hc Hg]; subst.
    destruct (less_forall2 _ _ _ _ _ (eq_transport _ _ call_within_refl) Hk _ (cut_kvs _ _ Ha)) as (kvs' & Hk' & Lk).
    destruct (less_forall2 _ _ _ _ _ cut_html_dir Hd _ (cut_dirs _ _ Ha)) as (dirs' & Hd' & Ld).
    destruct (IHn _ Hc) as (codes' & Hn' & Ln).
    eexists. split; [exact (ec_html _ _ _ _ _ _ _ _ _ Hh Hk' Hd' Hn')|].
    apply within_pre, within_chain. repeat apply less_app; auto.
    + apply less_eq_map; [apply call_within_refl|]. now apply cut_classes.
    + apply less_eq_map; [apply call_within_refl|]. now apply cut_ids.
    + apply less_eq_map; [apply call_within_refl|]. now apply cut_spreads.
    + eapply less_map; [|exact Ln]. intros x y Hx. now split.
  - intros p sels attrs args ch path props entries clones codes slots scalls Hp Hk He Hcl Hn IHn Hsl IHs Hsc e' He'.
    inversion He' as [? sels' ? attrs' ? args' ? ch' ? Hs Ha Hc Hg]; subst.
    destruct (less_forall2 _ _ _ _ _ (eq_transport _ _ call_within_refl) Hk _ (cut_kvs _ _ Ha)) as (kvs' & Hk' & Lk).
    destruct (less_forall2 _ _ _ _ _ cut_entry He _ (cut_entries _ _ Ha)) as (entries' & He2 & Le).
    destruct (less_forall2 _ _ _ _ _ cut_clone Hcl _ (cut_clones _ _ Ha)) as (clones' & Hcl' & Lc).
    destruct (IHn _ Hc) as (codes' & Hn' & Ln). destruct (IHs _ Hc) as (slots' & Hsl' & Ls).
    destruct (cut_slot_calls _ _ _ Ls Hsc) as (scalls' & Hsc' & Lsc).
    eexists. split; [exact (ec_component _ _ _ _ _ _ _ _ _ _ _ _ Hp Hk' He2 Hcl' Hn' Hsl' Hsc')|].
    apply within_component; [|apply less_app; [now apply cut_selectors|exact Le]].
    apply less_app; [exact Lk|]. apply less_app; [|exact Lsc]. apply cut_children_calls; auto.
    destruct Hg as [[-> _]|[_ Hg]]; [now left|]. right. rewrite Hg in Hn'. now inversion Hn'.
  - intros p attrs args ch path props clones codes slots scalls Hp Hk He Hcl Hn IHn Hsl IHs Hsc e' He'.
    inversion He' as [? sels' ? attrs' ? args' ? ch' ? Hs Ha Hc Hg]; subst. apply less_nil_inv in Hs. subst sels'.
    destruct (less_forall2 _ _ _ _ _ (eq_transport _ _ call_within_refl) Hk _ (cut_kvs _ _ Ha)) as (kvs' & Hk' & Lk).
    assert (He2 := cut_entries _ _ Ha). rewrite He in He2. apply less_nil_inv in He2.
    destruct (less_forall2 _ _ _ _ _ cut_clone Hcl _ (cut_clones _ _ Ha)) as (clones' & Hcl' & Lc).
    destruct (IHn _ Hc) as (codes' & Hn' & Ln). destruct (IHs _ Hc) as (slots' & Hsl' & Ls).
    destruct (cut_slot_calls _ _ _ Ls Hsc) as (scalls' & Hsc' & Lsc).
    eexists. split; [exact (sc_slot _ _ _ _ _ _ _ _ _ _ Hp Hk' He2 Hcl' Hn' Hsl' Hsc')|].
    apply within_slot. apply less_app; [exact Lk|]. apply cut_children_calls; auto.
    destruct Hg as [[-> _]|[_ Hg]]; [now left|]. right. rewrite Hg in Hn'. now inversion Hn'.
  - intros l' H. inversion H; subst. exists []. split; lcon.
  - intros v ts l codes Hv Hl IH l' H. inversion H as [|? ? ? Hx|? ? ? Hx| |]; subst; destruct (IH _ Hx) as (codes' & H1 & H2).
    + exists codes'. split; [exact H1|now lcon].
    + eexists. split; [lcon; [exact Hv|exact H1]|]. lcon; [apply within_refl|exact H2].
  - intros e ts l codes Hv IHe Hl IH l' H. inversion H as [|? ? ? Hx| |? ? ? ? He Hx|]; subst; destruct (IH _ Hx) as (codes' & H1 & H2).
    + exists codes'. split; [exact H1|now lcon].
    + destruct (IHe _ He) as (ts' & H3 & H4). eexists. split; [lcon; [exact H3|exact H1]|]. lcon; [now apply within_rendered|exact H2].
  - intros e l codes Hl IH l' H. inversion H as [|? ? ? Hx| | |? ? ? ? He Hx]; subst; destruct (IH _ Hx) as (codes' & H1 & H2).
    + exists codes'. now split.
    + exists codes'. split; [now lcon|exact H2].
  - intros l' H. inversion H; subst. exists []. split; lcon.
  - intros v l slots Hl IH l' H. inversion H as [|? ? ? Hx|? ? ? Hx| |]; subst; destruct (IH _ Hx) as (s' & H1 & H2);
      (exists s'; split; [|exact H2]); [exact H1|now lcon].
  - intros e l slots Hl IH l' H. inversion H as [|? ? ? Hx| |? ? ? ? He Hx|]; subst; destruct (IH _ Hx) as (s' & H1 & H2);
      (exists s'; split; [|exact H2]); [exact H1|now lcon].
  - intros e i ts l slots Ht He IHe Hl IH l' H. inversion H as [|? ? ? Hx| | |e' ? ? ? He' Hx]; subst; destruct (IH _ Hx) as (s' & H1 & H2).
    + exists s'. split; [exact H1|now lcon].
    + destruct (IHe _ He') as (ts' & H3 & H4). exists ((i, ts') :: s'). split.
      * lcon; [|exact H3|exact H1]. destruct He'. exact Ht.
      * lcon; [now split|exact H2].
Qed.

Lemma cut_length l m : cut_children l m -> List.length l <= List.length m.
Proof. induction 1; cbn; lia. Qed.
Lemma cut_full l m : cut_children l m -> List.length l = List.length m -> forall e, In (CSlot e) m -> exists e', In (CSlot e') l.
Proof.
  induction 1 as [|c l m H IH|v l m H IH|e e' l m He H IH|e e' l m He H IH]; cbn; intros Q x Hx; [tauto| | | |].
  - apply cut_length in H. lia.
  - destruct Hx as [Hx|Hx]; [discriminate|]. destruct (IH ltac:(lia) x Hx). eauto.
  - destruct Hx as [Hx|Hx]; [discriminate|]. destruct (IH ltac:(lia) x Hx). eauto.
  - eauto.
Qed.
Lemma cut_slot_in l m e : cut_children l m -> In (CSlot e) l -> exists e', In (CSlot e') m /\ cut_element e e'.
Proof.
  induction 1 as [|c l m H IH|v l m H IH|a a' l m He H IH|a a' l m He H IH]; cbn; intros Hx; [tauto| | | |].
  - destruct (IH Hx) as (e' & H1 & H2). eauto.
  - destruct Hx as [Hx|Hx]; [discriminate|]. destruct (IH Hx) as (e' & H1 & H2). eauto.
  - destruct Hx as [Hx|Hx]; [discriminate|]. destruct (IH Hx) as (e' & H1 & H2). eauto.
  - destruct Hx as [[= ->]|Hx]; [eauto|]. destruct (IH Hx) as (e' & H1 & H2). eauto.
Qed.
Lemma cut_element_in l m e : cut_children l m -> In (CElement e) l -> exists e', In (CElement e') m /\ cut_element e e'.
Proof.
  induction 1 as [|c l m H IH|v l m H IH|a a' l m He H IH|a a' l m He H IH]; cbn; intros Hx; [tauto| | | |].
  - destruct (IH Hx) as (e' & H1 & H2). eauto.
  - destruct Hx as [Hx|Hx]; [discriminate|]. destruct (IH Hx) as (e' & H1 & H2). eauto.
  - destruct Hx as [[= ->]|Hx]; [eauto|]. destruct (IH Hx) as (e' & H1 & H2). eauto.
  - destruct Hx as [Hx|Hx]; [discriminate|]. destruct (IH Hx) as (e' & H1 & H2). eauto.
Qed.

Lemma nodes_length l codes : nodes_code l codes -> (forall e, ~ In (CSlot e) l) -> List.length codes = List.length l.
Proof.
  induction 1; intros Hs; cbn; auto; try (f_equal; apply IHnodes_code; intros x Hx; apply (Hs x); now right).
  exfalso. apply (Hs e). now left.
Qed.

Lemma cut_root cs cs' out : root_code cs out -> cut_children cs' cs ->
  exists out', root_code cs' out' /\ (cs' = [] -> List.length cs <> 1 -> within out' out) /\ (cs' <> [] -> within out' out).
Proof.
  intros H Hc. destruct cut_all as (_ & _ & Hn & _).
  assert (Hroot : exists codes, nodes_code cs codes /\ (forall e, ~ In (CSlot e) cs) /\
    ((exists c x, cs = [c] /\ codes = [x] /\ out = root_frame x) \/ (List.length cs <> 1 /\ out = root_frame (fragment codes)))).
  { destruct H as [c x Hs Hx|cs codes Hl Hs Hx].
    - exists [x]. split; [exact Hx|]. split; [|left; eauto]. intros e [->|[]]. now apply (Hs e).
    - exists codes. auto. }
  destruct Hroot as (codes & Hco & Hs & Hout). destruct (Hn _ _ Hco _ Hc) as (codes' & Hco' & Hl).
  assert (Hs' : forall e, ~ In (CSlot e) cs').
  { intros e He. destruct (cut_slot_in _ _ _ Hc He) as (e' & Hin & _). now apply (Hs e'). }
  assert (Hlen := nodes_length _ _ Hco' Hs'). assert (Hlen2 := nodes_length _ _ Hco Hs). assert (Hle := less_length _ _ _ Hl).
  assert (F : forall a b, within a b -> within (root_frame a) (root_frame b)).
  { intros a b Hab. unfold root_frame. apply within_in, within_pre, Hab. }
  destruct cs' as [|c' [|c2 r]].
  - exists (root_frame (fragment codes')). split; [now apply rc_many|]. split; [|congruence]. intros _ Hne.
    destruct Hout as [(c & x & -> & -> & ->)|[_ ->]]; [now destruct Hne|]. apply F, within_fragment, Hl.
  - destruct codes' as [|x' [|? ?]]; try discriminate. exists (root_frame x'). split.
    + apply rc_one; [|exact Hco']. intros e ->. apply (Hs' e). now left.
    + split; [discriminate|]. intros _. destruct Hout as [(c & x & -> & -> & ->)|[_ ->]]; apply F.
      * inversion Hl as [|? ? ? Hx|? ? ? ? Hx Hr]; subst; [now apply less_nil_inv in Hx|exact Hx].
      * apply within_after. apply within_open, within_open.
        assert (Hx : within (comma_ended [x']) (comma_ended codes)) by now apply within_ended.
        assert (Hy : forall t a b, within (a ++ [t]) b -> within a b); [|apply (Hy (sym ","))].
        2:{ cbn in Hx. now rewrite app_nil_r in Hx. }
        clear. intros t a b H. remember (a ++ [t]) as z eqn:Ez. revert a Ez.
        induction H as [|u z b H IH|u z b H IH|d x y z b Hx IHx H IH|d x z b H IH|l m z b Hl Hn H IH]; intros a Ez.
        -- now destruct a.
        -- lcon; auto.
        -- destruct a as [|v a]; [apply within_none|]. injection Ez as -> ->. lcon; auto.
        -- destruct a as [|v a]; [apply within_none|]. injection Ez as <- ->. lcon; auto.
        -- apply wi_open. auto.
        -- destruct a as [|v a]; [apply within_none|]. injection Ez as <- ->. lcon; auto.
  - assert (Hl2 : List.length (c' :: c2 :: r) <> 1) by (cbn; lia).
    exists (root_frame (fragment codes')). split; [now apply rc_many|]. split; [discriminate|]. intros _.
    destruct Hout as [(c & x & -> & -> & ->)|[_ ->]]; [cbn in *; lia|]. apply F, within_fragment, Hl.
Qed.
