(** Facts for C69: trees of which parts were taken out can be written. *)
From Verif Require Import Ast SpecStr SpecGrammar SpecOut SpecWritable SpecCut CutFacts CutFacts2.
Open Scope list_scope.

Lemma attrs_after_apart l : Forall apart_attr l -> forall o, (forall s, o = Some s -> ~ ends_dash s) -> attrs_after o l.
Proof.
  induction 1 as [|a l Ha Hl IH]; intros o Ho; cbn [attrs_after]; [exact I|]. split.
  - intros s Hs. specialize (Ho s Hs). destruct a as [[k v]|d|ts]; [now apply aa_kv|now apply aa_dir|apply aa_spread].
  - apply IH. intros s Hs. destruct a as [[k v]|[i [k|x] [m|] [v|]]|ts]; cbn in Hs; try discriminate. injection Hs as <-. exact Ha.
Qed.
Lemma cut_apart_attr x y : cut_attr x y -> apart_attr y -> apart_attr x.
Proof. intros [a|i k m v] H; exact H. Qed.
Lemma cut_attr_ok x y : cut_attr x y -> attr_ok y -> attr_ok x.
Proof. intros [a|i k m v] H; [exact H|]. cbn in *. destruct H as (H1 & H2 & _ & H4). split; [exact H1|]. split; [exact H2|]. split; [discriminate|exact H4]. Qed.
Lemma less_forall {A} (R : A -> A -> Prop) (P : A -> Prop) l m : (forall x y, R x y -> P y -> P x) ->
  less R l m -> Forall P m -> Forall P l.
Proof.
  intros H Hl Hm. apply Forall_forall. intros x Hx. destruct (less_in _ _ _ _ Hl Hx) as (y & Hy & Hr).
  apply (H x y Hr). now apply (proj1 (Forall_forall P m)).
Qed.

Lemma name_before_apart t sels s : (forall s, tag_name t = Some s -> ~ ends_dash s) ->
  Forall (fun s => ~ ends_dash (k_repr (selector_name s))) sels -> name_before t sels = Some s -> ~ ends_dash s.
Proof.
  intros Ht Hs. unfold name_before. destruct (rev sels) as [|x l] eqn:Q; [apply Ht|]. intros [= <-].
  rewrite Forall_forall in Hs. apply Hs. apply in_rev. rewrite Q. now left.
Qed.

Lemma cut_ok E :
  (forall e e', cut_element e e' -> element_ok E e' -> apart_element e' -> element_ok E e) /\
  (forall l l', cut_children l l' -> (forall c, In c l' -> child_ok E c) -> (forall c, In c l' -> apart c) ->
    forall c, In c l -> child_ok E c).
Proof.
  apply cut_mutind.
  - intros t sels' sels attrs' attrs args' args ch' ch Hs Ha Hc IH Hg Ho Hp.
    inversion Ho as [? ? ? ? ? Ht Hsel Hat Haf Har Hch]; subst. inversion Hp as [? ? ? ? ? Pt Ps Pa Pc]; subst.
    assert (Hsel' : Forall (fun s => ~ ends_dash (k_repr (selector_name s))) sels').
    { eapply less_forall; [|exact Hs|exact Ps]. intros x y ->. auto. }
    constructor; [exact Ht| | | | |].
    + eapply less_forall; [|exact Hs|exact Hsel]. intros x y ->. auto.
    + eapply less_forall; [apply cut_attr_ok|exact Ha|exact Hat].
    + apply attrs_after_apart.
      * eapply less_forall; [apply cut_apart_attr|exact Ha|exact Pa].
      * intros s. now apply name_before_apart.
    + destruct Hg as [[-> Hg]|[-> _]]; [|exact I]. destruct args as [ts|]; [|exact I].
      destruct Har as [_ Har]. split; [|exact Har]. intros H. now specialize (Hg H).
    + exact (IH Hch Pc).
  - intros _ _ c [].
  - intros c l m H IH Ho Hp. apply IH; intros x Hx; [apply Ho|apply Hp]; now right.
  - intros v l m H IH Ho Hp c [<-|Hc]; [apply Ho; now left|]. revert c Hc. apply IH; intros x Hx; [apply Ho|apply Hp]; now right.
  - intros e e' l m He IHe H IH Ho Hp c [<-|Hc].
    + assert (O := Ho _ (or_introl eq_refl)). assert (P := Hp _ (or_introl eq_refl)). inversion O as [|x O1 O2|]; subst. inversion P; subst.
      apply co_element; [now apply IHe|]. destruct He. exact O2.
    + revert c Hc. apply IH; intros x Hx; [apply Ho|apply Hp]; now right.
  - intros e e' l m He IHe H IH Ho Hp c [<-|Hc].
    + assert (O := Ho _ (or_introl eq_refl)). assert (P := Hp _ (or_introl eq_refl)). inversion O; subst. inversion P; subst.
      apply co_slot. now apply IHe.
    + revert c Hc. apply IH; intros x Hx; [apply Ho|apply Hp]; now right.
Qed.
