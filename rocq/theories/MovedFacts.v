(** Facts for C73: expansions of trees whose slots are written elsewhere. *)
From Verif Require Import SpecStr SpecGrammar SpecOut SpecCompose SpecWritable SpecMixed SpecMoved ExpandFacts Report Properties11.
From Verif Require Import Macro ElementFacts MixedFacts2.
Open Scope list_scope.

Scheme slots_moved_in_ind2 := Minimality for slots_moved_in Sort Prop
with slots_moved_ind2 := Minimality for slots_moved Sort Prop.
Combined Scheme slots_moved_mutind from slots_moved_in_ind2, slots_moved_ind2.

Section Steady.
Variable E : env.
Hypothesis HS : steady E.
Lemma node_anywhere c p q : expand_node E p c = expand_node E q c.
Proof. destruct c as [v|e|e]; cbn [expand_node]; [reflexivity| |reflexivity]. now rewrite (steady_element E e HS false p q). Qed.
Lemma nodes_anywhere l p m n : expand_nodes E p m l = expand_nodes E p n l.
Proof. apply steady_nodes. intros e _. now apply steady_element. Qed.
Lemma slots_anywhere l p m n : expand_slots E p m l = expand_slots E p n l.
Proof. apply steady_slots. intros e _. now apply steady_element. Qed.
Lemma moved_expands :
  (forall e e', slots_moved_in e e' -> el_tag e = el_tag e' /\ forall at_ b, expand_element E at_ b e = expand_element E at_ b e') /\
  (forall l l', slots_moved l l' -> forall at_ n,
     expand_nodes E at_ n l = expand_nodes E at_ n l' /\ expand_slots E at_ n l = expand_slots E at_ n l').
Proof.
  apply slots_moved_mutind.
  - intros. split; reflexivity.
  - intros t sels attrs args l l' Hl IH. split; [reflexivity|]. intros at_ b. rewrite !expand_element_eq. cbn [option_map].
    destruct (IH at_ 0) as [-> ->]. reflexivity.
  - intros. split; reflexivity.
  - intros v l l' Hl IH at_ n. destruct (IH at_ (S n)) as [H1 H2]. cbn [expand_nodes expand_slots]. now rewrite H1, H2.
  - intros e e' l l' He [_ IHe] Hl IH at_ n. destruct (IH at_ (S n)) as [H1 H2]. cbn [expand_nodes expand_slots expand_node]. now rewrite H1, H2, IHe.
  - intros e e' l l' He [Ht IHe] Hl IH at_ n. destruct (IH at_ (S n)) as [H1 H2]. cbn [expand_nodes expand_slots]. now rewrite H1, H2, IHe, Ht.
  - intros e c l Hc at_ n. destruct c as [v|x|x]; [| |now destruct (Hc x)]; cbn [expand_nodes expand_slots].
    + split; [reflexivity|]. f_equal. f_equal. now apply steady_element.
    + split; f_equal; [apply node_anywhere|]. f_equal. now apply steady_element.
  - intros e c l Hc at_ n. destruct c as [v|x|x]; [| |now destruct (Hc x)]; cbn [expand_nodes expand_slots].
    + split; [reflexivity|]. f_equal. f_equal. now apply steady_element.
    + split; f_equal; [apply node_anywhere|]. f_equal. now apply steady_element.
  - intros l m n _ IH1 _ IH2 at_ k. destruct (IH1 at_ k) as [-> ->]. apply IH2.
Qed.
End Steady.

Lemma moved_shape :
  (forall e e', slots_moved_in e e' -> True) /\
  (forall l l', slots_moved l l' -> List.length l = List.length l' /\ existsb is_slot l = existsb is_slot l').
Proof.
  apply slots_moved_mutind; auto; cbn.
  - intros v l l' _ [H1 H2]. rewrite H1. auto.
  - intros e e' l l' _ _ _ [H1 H2]. rewrite H1. auto.
  - intros e e' l l' _ _ _ [H1 H2]. rewrite H1. auto.
  - intros e c l H. split; [reflexivity|]. apply Bool.orb_true_r.
  - intros e c l H. split; [reflexivity|]. symmetry. apply Bool.orb_true_r.
  - intros l m n _ [-> ->] _ [-> ->]. auto.
Qed.
Lemma moved_root E cs cs' : steady E -> slots_moved cs cs' -> root_tokens E cs = root_tokens E cs'.
Proof.
  intros HS H. destruct (proj2 moved_shape _ _ H) as [Hl Hs]. destruct (proj2 (moved_expands E HS) _ _ H [] 0) as [Hn _].
  unfold root_tokens. destruct cs as [|c [|c2 cs]], cs' as [|c' [|c2' cs']]; try discriminate Hl; try reflexivity.
  - cbn [existsb] in Hs. destruct c as [v|e|e], c' as [v'|e'|e']; try discriminate Hs; try reflexivity; cbn [expand_nodes] in Hn; apply (f_equal (@List.hd_error _)) in Hn; cbn [hd_error] in Hn; apply (f_equal (fun o => match o with Some x => x | None => xret [] end)) in Hn; cbn beta iota in Hn; rewrite Hn; reflexivity.
  - now rewrite Hs, Hn.
Qed.

(** Such trees can be written as well. *)
Lemma moved_ok E :
  (forall e e', slots_moved_in e e' -> el_tag e = el_tag e' /\ (element_ok E e -> element_ok E e')) /\
  (forall l l', slots_moved l l' -> (forall c, In c l -> child_ok E c) -> forall c, In c l' -> child_ok E c).
Proof.
  apply slots_moved_mutind; auto.
  - intros t sels attrs args l l' Hl IH. split; [reflexivity|]. intros Ho. inversion Ho as [? ? ? ? ? Ht Hsel Hat Haf Har Hch]; subst.
    constructor; auto. destruct args as [ts|]; [|exact I]. destruct Har as [_ Har]. split; [discriminate|exact Har].
  - intros v l m H IH Ho c [<-|Hc]; [apply Ho; now left|]. revert c Hc. apply IH; intros x Hx; apply Ho; now right.
  - intros e e' l m He [Ht IHe] H IH Ho c [<-|Hc].
    + assert (O := Ho _ (or_introl eq_refl)). inversion O as [|x O1 O2|]; subst. apply co_element; [now apply IHe|]. now rewrite <- Ht.
    + revert c Hc. apply IH; intros x Hx; apply Ho; now right.
  - intros e e' l m He [Ht IHe] H IH Ho c [<-|Hc].
    + assert (O := Ho _ (or_introl eq_refl)). inversion O; subst. apply co_slot. now apply IHe.
    + revert c Hc. apply IH; intros x Hx; apply Ho; now right.
  - intros e c l Hc Ho x Hx. apply Ho. destruct Hx as [<-|[<-|Hx]]; cbn; auto.
  - intros e c l Hc Ho x Hx. apply Ho. destruct Hx as [<-|[<-|Hx]]; cbn; auto.
Qed.

(** Lists with the same slots and the same other children, each in the same order. *)
Lemma moved_refl_list l : (forall c e, In c l -> c = CElement e \/ c = CSlot e -> slots_moved_in e e) -> slots_moved l l.
Proof.
  induction l as [|[v|e|e] l IH]; intros H; [apply sm_nil| | |].
  - apply sm_value, IH. intros c x Hc. apply H. now right.
  - apply sm_element; [apply (H (CElement e) e); cbn; auto|]. apply IH. intros c x Hc. apply H. now right.
  - apply sm_slot; [apply (H (CSlot e) e); cbn; auto|]. apply IH. intros c x Hc. apply H. now right.
Qed.
Lemma moved_refl_in e : slots_moved_in e e.
Proof.
  induction e as [t sels attrs args [l|] IHe IHs] using element_children_ind; [|apply smi_none]. apply smi_some, moved_refl_list.
  intros c e Hc [->| ->]; auto.
Qed.
Lemma moved_refl l : slots_moved l l.
Proof. apply moved_refl_list. intros. apply moved_refl_in. Qed.
Lemma moved_cons c l l' : slots_moved l l' -> slots_moved (c :: l) (c :: l').
Proof. intros H. destruct c; [now apply sm_value|apply sm_element; [apply moved_refl_in|exact H]|apply sm_slot; [apply moved_refl_in|exact H]]. Qed.
Lemma exchanged_moved l m : exchanged (fun a b => is_slot a <> is_slot b) l m -> slots_moved l m.
Proof.
  induction 1 as [l|p a b q l Hd H IH]; [apply moved_refl|]. eapply sm_trans; [|exact IH]. clear IH H.
  induction p as [|x p IHp]; cbn [app]; [|now apply moved_cons].
  destruct a as [v|e|e], b as [v'|e'|e']; cbn in Hd; try congruence;
    first [apply sm_forth; discriminate | apply sm_back; discriminate].
Qed.
Lemma same_parts_moved l m : filter is_slot l = filter is_slot m ->
  filter (fun c => negb (is_slot c)) l = filter (fun c => negb (is_slot c)) m -> slots_moved l m.
Proof.
  intros H1 H2. apply exchanged_moved. apply (sorts_exchanged is_slot Bool.bool_dec).
  assert (Q : forall s k, of_sort is_slot Bool.bool_dec s k = if s then filter is_slot k else filter (fun c => negb (is_slot c)) k).
  { intros s k. unfold of_sort. destruct s; apply filter_ext; intros c; destruct (is_slot c); reflexivity. }
  intros s. rewrite !Q. destruct s; assumption.
Qed.
