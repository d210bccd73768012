(** More facts for C72: which lists can be made by exchanges, and that mixed trees can
    be written. *)
From Verif Require Import Ast SpecStr SpecGrammar SpecOut SpecWritable SpecCut SpecMixed CutFacts3 MixedFacts.
From Coq Require Import Permutation.
Open Scope list_scope.

Lemma exchanged_trans {A} (R : A -> A -> Prop) l m n : exchanged R l m -> exchanged R m n -> exchanged R l n.
Proof. induction 1 as [l|p a b q l Hd H IH]; intros Hn; [exact Hn|]. apply ex_step; auto. Qed.
Lemma exchanged_cons {A} (R : A -> A -> Prop) x l m : exchanged R l m -> exchanged R (x :: l) (x :: m).
Proof. induction 1 as [l|p a b q l Hd H IH]; [apply ex_same|]. now apply (ex_step R (x :: p)). Qed.
(** Moving an element over others. *)
Lemma exchanged_over {A} (R : A -> A -> Prop) a p q : Forall (R a) p -> exchanged R (a :: p ++ q) (p ++ a :: q).
Proof.
  intros H. induction H as [|x p Hx Hp IH]; cbn [app]; [apply ex_same|]. apply (ex_step R []); [exact Hx|]. cbn [app].
  now apply exchanged_cons.
Qed.

Section Sorts.
Context {A B : Type}.
Variable f : A -> B.
Variable dec : forall x y : B, {x = y} + {x <> y}.
Let R a b := f a <> f b.
Definition of_sort (s : B) (l : list A) : list A := filter (fun a => if dec (f a) s then true else false) l.
Lemma exchanged_sorts l m : exchanged R l m -> forall s, of_sort s l = of_sort s m.
Proof.
  intros H s. induction H as [l|p a b q l Hd H IH]; [reflexivity|]. rewrite <- IH. unfold of_sort. rewrite !filter_app. f_equal. cbn [filter].
  destruct (dec (f a) s) as [Ha|Ha], (dec (f b) s) as [Hb|Hb]; try reflexivity. destruct Hd. congruence.
Qed.
Lemma sorted_split a l m : of_sort (f a) m = a :: l -> exists p q, m = p ++ a :: q /\ Forall (R a) p /\ of_sort (f a) q = l.
Proof.
  unfold of_sort. induction m as [|x m IH]; cbn [filter]; [discriminate|]. destruct (dec (f x) (f a)) as [Hx|Hx].
  - intros [= -> Hm]. exists [], m. auto.
  - intros H. destruct (IH H) as (p & q & -> & Hp & Hq). exists (x :: p), q. split; [reflexivity|]. split; [|exact Hq].
    constructor; [|exact Hp]. unfold R. congruence.
Qed.
Lemma sorts_exchanged l : forall m, (forall s, of_sort s l = of_sort s m) -> exchanged R l m.
Proof.
  induction l as [|a l IH]; intros m H.
  - destruct m as [|x m]; [apply ex_same|]. specialize (H (f x)). unfold of_sort in H. cbn [filter] in H.
    destruct (dec (f x) (f x)); [discriminate|congruence].
  - assert (Ha := H (f a)). unfold of_sort in Ha at 1. cbn [filter] in Ha. destruct (dec (f a) (f a)) as [_|]; [|congruence].
    fold (of_sort (f a) l) in Ha. symmetry in Ha. destruct (sorted_split a _ m Ha) as (p & q & -> & Hp & Hq).
    eapply exchanged_trans; [apply exchanged_cons, (IH (p ++ q))|now apply exchanged_over].
    intros s. specialize (H s). unfold of_sort in *. rewrite filter_app in *. cbn [filter] in H.
    destruct (dec (f a) s) as [Hs|Hs]; [|exact H].
    assert (Q : filter (fun a => if dec (f a) s then true else false) p = []).
    { clear -Hp Hs. induction Hp as [|x p Hx Hp IH]; [reflexivity|]. cbn [filter]. destruct (dec (f x) s); [|exact IH]. destruct Hx. congruence. }
    rewrite Q in *. cbn [app] in *. now injection H.
Qed.
End Sorts.

Lemma perm_forall {A} (P : A -> Prop) l m : Permutation l m -> Forall P l -> Forall P m.
Proof. intros H Hl. apply Forall_forall. intros x Hx. apply (proj1 (Forall_forall P l) Hl). now apply (Permutation_in x (Permutation_sym H)). Qed.

Lemma mixed_ok E :
  (forall e e', mixed_element e e' -> element_ok E e -> apart_element e -> element_ok E e') /\
  (forall l l', mixed l l' -> (forall c, In c l -> child_ok E c) -> (forall c, In c l -> apart c) ->
    forall c, In c l' -> child_ok E c).
Proof.
  assert (K : forall t sels sels' attrs attrs' args ch ch', exchanged other_selector sels sels' -> exchanged (other_sort t) attrs attrs' ->
    element_ok E (Element t sels attrs args ch) -> apart_element (Element t sels attrs args ch) ->
    args_ok args ch' -> (forall c, In c (child_list ch') -> child_ok E c) -> element_ok E (Element t sels' attrs' args ch')).
  { intros t sels sels' attrs attrs' args ch ch' Hs Ha Ho Hp Har' Hch'. apply exchanged_perm in Hs. apply exchanged_perm in Ha.
    inversion Ho as [? ? ? ? ? Ht Hsel Hat Haf Har Hch]; subst. inversion Hp as [? ? ? ? ? Pt Ps Pa Pc]; subst.
    constructor; [exact Ht|eapply perm_forall; eassumption|eapply perm_forall; eassumption| |exact Har'|exact Hch'].
    apply attrs_after_apart; [eapply perm_forall; eassumption|]. intros s. apply name_before_apart; [exact Pt|eapply perm_forall; eassumption]. }
  apply mixed_mutind.
  - intros t sels sels' attrs attrs' args Hs Ha Ho Hp. apply (K t sels sels' attrs attrs' args None); auto.
    + now inversion Ho.
    + intros c [].
  - intros t sels sels' attrs attrs' args l l' Hs Ha Hl IH Ho Hp. apply (K t sels sels' attrs attrs' args (Some l)); auto.
    + inversion Ho as [? ? ? ? ? Ht Hsel Hat Haf Har Hch]; subst. destruct args as [ts|]; [|exact I]. destruct Har as [_ Har]. split; [discriminate|exact Har].
    + inversion Ho; subst. inversion Hp; subst. apply IH; assumption.
  - intros _ _ c [].
  - intros v l m H IH Ho Hp c [<-|Hc]; [apply Ho; now left|]. revert c Hc. apply IH; intros x Hx; [apply Ho|apply Hp]; now right.
  - intros e e' l m He IHe H IH Ho Hp c [<-|Hc].
    + assert (O := Ho _ (or_introl eq_refl)). assert (P := Hp _ (or_introl eq_refl)). inversion O as [|x O1 O2|]; subst. inversion P; subst.
      apply co_element; [now apply IHe|]. destruct He; exact O2.
    + revert c Hc. apply IH; intros x Hx; [apply Ho|apply Hp]; now right.
  - intros e e' l m He IHe H IH Ho Hp c [<-|Hc].
    + assert (O := Ho _ (or_introl eq_refl)). assert (P := Hp _ (or_introl eq_refl)). inversion O; subst. inversion P; subst.
      apply co_slot. now apply IHe.
    + revert c Hc. apply IH; intros x Hx; [apply Ho|apply Hp]; now right.
Qed.
