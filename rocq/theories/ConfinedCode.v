(** Facts for C70: the code of two trees that differ in one block. *)
From Verif Require Import Ast SpecStr SpecGrammar SpecOut SpecContext SpecConfined.
Open Scope list_scope.

Section Around.
(** Any relation that can be carried outwards. *)
Variable R : list tt -> list tt -> Prop.
Hypothesis R_refl : forall a, R a a.
Hypothesis R_both : forall p a b q, R a b -> R (p ++ a ++ q) (p ++ b ++ q).
Hypothesis R_in : forall p d a b q, R a b -> R (p ++ TGroup d a :: q) (p ++ TGroup d b :: q).

Lemma R_pre p a b : R a b -> R (p ++ a) (p ++ b).
Proof. intros H. rewrite <- (app_nil_r a), <- (app_nil_r b). now apply R_both. Qed.
Lemma R_post a b q : R a b -> R (a ++ q) (b ++ q).
Proof. intros H. now apply (R_both [] a b q). Qed.
Lemma R_cons t a b : R a b -> R (t :: a) (t :: b).
Proof. apply (R_pre [t]). Qed.
Lemma R_one d a b : R a b -> R [TGroup d a] [TGroup d b].
Proof. apply (R_in [] d a b []). Qed.

(** Lists that differ in one place. *)
Definition one_diff {A} (S : A -> A -> Prop) (l m : list A) : Prop :=
  l = m \/ exists p a b q, l = p ++ a :: q /\ m = p ++ b :: q /\ S a b.
Lemma od_pre {A} (S : A -> A -> Prop) p l m : one_diff S l m -> one_diff S (p ++ l) (p ++ m).
Proof. intros [->|(p' & a & b & q & -> & -> & H)]; [now left|]. right. exists (p ++ p'), a, b, q. now rewrite <- !app_assoc. Qed.
Lemma od_post {A} (S : A -> A -> Prop) l m q : one_diff S l m -> one_diff S (l ++ q) (m ++ q).
Proof. intros [->|(p & a & b & q' & -> & -> & H)]; [now left|]. right. exists p, a, b, (q' ++ q). now rewrite <- !app_assoc. Qed.
Lemma od_cons {A} (S : A -> A -> Prop) x l m : one_diff S l m -> one_diff S (x :: l) (x :: m).
Proof. apply (od_pre S [x]). Qed.
Lemma od_head {A} (S : A -> A -> Prop) x y l : S x y -> one_diff S (x :: l) (y :: l).
Proof. intros H. right. exists [], x, y, l. auto. Qed.
Lemma od_map {A B} (S : A -> A -> Prop) (T : B -> B -> Prop) f l m : (forall a b, S a b -> T (f a) (f b)) ->
  one_diff S l m -> one_diff T (map f l) (map f m).
Proof.
  intros H [->|(p & a & b & q & -> & -> & Hs)]; [now left|]. right. exists (map f p), (f a), (f b), (map f q).
  rewrite !map_app. cbn. auto.
Qed.
Lemma od_length {A} (S : A -> A -> Prop) (l m : list A) : one_diff S l m -> List.length l = List.length m.
Proof. intros [->|(p & a & b & q & -> & -> & _)]; [reflexivity|]. rewrite !app_length. reflexivity. Qed.

Lemma od_concat l m : one_diff R l m -> R (List.concat l) (List.concat m).
Proof.
  intros [->|(p & a & b & q & -> & -> & H)]; [apply R_refl|]. rewrite !concat_app. cbn. now apply R_both.
Qed.
Lemma od_ended l m : one_diff R l m -> R (comma_ended l) (comma_ended m).
Proof. intros H. apply od_concat. eapply od_map; [|exact H]. intros a b. apply R_post. Qed.
Lemma od_separated l m : one_diff R l m -> R (comma_separated l) (comma_separated m).
Proof.
  intros [->|(p & a & b & q & -> & -> & H)]; [apply R_refl|].
  induction p as [|x p IH]; cbn [app comma_separated].
  - destruct q; [exact H|now apply R_post].
  - destruct p as [|x' p]; cbn [app] in *.
    + apply R_pre, R_cons. exact IH.
    + apply R_pre, R_cons. exact IH.
Qed.

Definition call_rel (c d : call) : Prop := call_name c = call_name d /\ R (call_args c) (call_args d).
Lemma od_chain l m : one_diff call_rel l m -> R (chain l) (chain m).
Proof.
  intros H. apply od_concat. eapply od_map; [|exact H]. intros [n a] [n' b] [Hn Ha]. cbn in *. subst.
  apply (R_in [_; _]), Ha.
Qed.
Lemma od_fragment l m : one_diff R l m -> R (fragment l) (fragment m).
Proof. intros H. apply R_pre, R_one, R_one. now apply od_ended. Qed.
Lemma od_children_calls args clones l m : one_diff R l m ->
  one_diff call_rel (children_calls args clones l) (children_calls args clones m).
Proof.
  intros H. assert (Hl := od_length _ _ _ H). destruct l as [|a l], m as [|b m]; try discriminate; [now left|].
  apply od_head. split; [reflexivity|]. cbn [call_args plain_call]. apply R_one, R_pre.
  apply od_fragment in H. destruct args; [apply R_cons, R_pre, H|]. apply R_pre, R_one, R_cons, R_pre, H.
Qed.

(** Slots. *)
Definition slot_rel (x y : ident * list tt) : Prop := fst x = fst y /\ R (snd x) (snd y).
Lemma od_slot_arg l m : one_diff R l m -> R (slot_arg l) (slot_arg m).
Proof.
  intros H. assert (Hl := od_length _ _ _ H). assert (Hs := od_separated _ _ H).
  destruct l as [|a [|a' l]], m as [|b [|b' m]]; try discriminate.
  - apply R_refl.
  - exact Hs.
  - unfold slot_arg. apply R_pre, R_pre, R_cons, R_one, R_pre, R_one, R_one, Hs.
Qed.
Lemma od_names (l m : list (ident * list tt)) : one_diff slot_rel l m -> map fst l = map fst m.
Proof. intros [->|(p & a & b & q & -> & -> & [H _])]; [reflexivity|]. rewrite !map_app. cbn. now rewrite H. Qed.
(** Only the slots of one name differ. *)
Lemma od_named l m : one_diff slot_rel l m -> exists j, forall i,
  (i <> j -> slots_named l i = slots_named m i) /\ one_diff R (slots_named l i) (slots_named m i).
Proof.
  intros [->|(p & [n a] & [n' b] & q & -> & -> & [Hn H])]; [exists (Id false ""); intros i; split; [auto|now left]|].
  cbn in Hn, H. subst n'. exists n. intros i. unfold slots_named. rewrite !filter_app, !map_app. cbn [filter fst].
  destruct (ident_dec n i) as [->|Hi]; cbn [map snd].
  - split; [congruence|]. apply od_pre, od_head, H.
  - split; [auto|]. now left.
Qed.
Lemma od_slot_calls l m calls : one_diff slot_rel l m -> slot_calls l calls ->
  exists calls', slot_calls m calls' /\ one_diff call_rel calls calls'.
Proof.
  intros H [order calls0 Hd Ho Hc]. destruct (od_named _ _ H) as (j & Hj).
  assert (Hx : exists cs, Forall2 (slot_call m) order cs /\ (~ In j order -> cs = calls0) /\ one_diff call_rel calls0 cs).
  { clear Ho. induction Hc as [|i c order calls0 Hi Hl IH]; [exists []; split; [constructor|split; [auto|now left]]|].
    apply NoDup_cons_iff in Hd. destruct Hd as [Hni Hd]. destruct (IH Hd) as (cs & H1 & H2 & H3).
    destruct Hi as [i n Hn Hr]. exists (Call (Id true n) (slot_arg (slots_named m i)) :: cs).
    split; [constructor; auto; now constructor|]. split.
    - intros Hj'. destruct (Hj i) as [Hj1 _]. rewrite Hj1; [|intros ->; apply Hj'; now left]. f_equal. apply H2. intros K. apply Hj'. now right.
    - destruct (ident_dec i j) as [->|Hij].
      + rewrite (H2 Hni). apply od_head. split; [reflexivity|]. cbn. apply od_slot_arg, Hj.
      + destruct (Hj i) as [Hj1 _]. rewrite (Hj1 Hij). now apply od_cons. }
  destruct Hx as (cs & H1 & _ & H3). exists cs. split; [|exact H3]. apply (slot_calls_intro m order); auto.
  now rewrite <- (od_names _ _ H).
Qed.

Lemma R_component path calls calls' entries : one_diff call_rel calls calls' ->
  R (component_frame path calls entries) (component_frame path calls' entries).
Proof.
  intros H. unfold component_frame. apply R_pre, R_pre, R_one, R_pre, R_post, R_one, R_cons, R_pre, R_cons, R_pre, R_pre.
  now apply od_chain, od_post.
Qed.
Lemma R_slot path calls calls' : one_diff call_rel calls calls' -> R (slot_frame path calls) (slot_frame path calls').
Proof. intros H. unfold slot_frame. apply R_pre, R_one, R_pre, R_pre, R_pre. now apply od_chain, od_post. Qed.

(** ** Outwards *)

Definition coded (P : list tt -> Prop) (a : list tt) : Prop := (exists b, P b) -> exists b, P b /\ R a b.
Inductive child_sim : child -> child -> Prop :=
| cs_node c c' : (forall e, c <> CSlot e) -> (forall e, c' <> CSlot e) ->
    (forall a, child_code c a -> coded (child_code c') a) -> child_sim c c'
| cs_slot e e' : el_tag e = el_tag e' -> (forall a, slot_code e a -> coded (slot_code e') a) -> child_sim (CSlot e) (CSlot e').

Lemma nodes_sim B c c' A codes codes0 : child_sim c c' ->
  nodes_code (B ++ c :: A) codes -> nodes_code (B ++ c' :: A) codes0 ->
  exists codes', nodes_code (B ++ c' :: A) codes' /\ one_diff R codes codes'.
Proof.
  intros Hc. revert codes codes0. induction B as [|b B IH]; cbn [app]; intros codes codes0 H H0.
  - destruct Hc as [c c' N N' He|e e' Ht He].
    + assert (K : forall c w, (forall e, c <> CSlot e) -> nodes_code (c :: A) w -> exists ts r, w = rendered ts :: r /\ child_code c ts /\ nodes_code A r).
      { intros x w Hx Hw. inversion Hw as [|v ts l r Hv Hl|e ts l r Hv Hl|e l r Hl]; subst; [eauto|eauto|now destruct (Hx e)]. }
      destruct (K _ _ N H) as (ts & w & -> & He1 & Hl). destruct (K _ _ N' H0) as (ts0 & w0 & -> & He0 & _).
      destruct (He _ He1 (ex_intro _ _ He0)) as (b & Hb & Hr). exists (rendered b :: w). split.
      { destruct c' as [v|e|e]; [now constructor|now constructor|now destruct (N' e)]. }
      apply od_head. apply R_pre, R_one, Hr.
    + inversion H; subst. exists codes. split; [now constructor|now left].
  - inversion H as [|? ts ? w Hv Hl|? ts ? w Hv Hl|? ? w Hl]; subst; inversion H0 as [|? ts0 ? w0 Hv0 Hl0|? ts0 ? w0 Hv0 Hl0|? ? w0 Hl0]; subst;
      destruct (IH _ _ Hl Hl0) as (codes' & H1 & H2).
    + exists (rendered ts :: codes'). split; [now constructor|now apply od_cons].
    + exists (rendered ts :: codes'). split; [now constructor|now apply od_cons].
    + exists codes'. split; [now constructor|auto].
Qed.
Lemma slots_sim B c c' A s s0 : child_sim c c' ->
  slots_code (B ++ c :: A) s -> slots_code (B ++ c' :: A) s0 ->
  exists s', slots_code (B ++ c' :: A) s' /\ one_diff slot_rel s s'.
Proof.
  intros Hc. revert s s0. induction B as [|b B IH]; cbn [app]; intros s s0 H H0.
  - destruct Hc as [c c' N N' He|e e' Ht He].
    + exists s. split; [|now left]. destruct c as [v|e|e]; [| |now destruct (N e)]; inversion H; subst;
        (destruct c' as [v'|e'|e']; [now constructor|now constructor|now destruct (N' e')]).
    + inversion H as [| | |? i ts ? w Ht1 He1 Hl]; inversion H0 as [| | |? i0 ts0 ? w0 Ht0 He0 Hl0]; subst.
      destruct (He _ He1 (ex_intro _ _ He0)) as (b & Hb & Hr). exists ((i, b) :: w). split; [constructor; auto; congruence|].
      apply od_head. now split.
  - inversion H as [|? ? w Hl|? ? w Hl|? i ts ? w Ht He Hl]; subst; inversion H0 as [|? ? w0 Hl0|? ? w0 Hl0|? i0 ts0 ? w0 Ht0 He0 Hl0]; subst;
      destruct (IH _ _ Hl Hl0) as (s' & H1 & H2).
    + exists s'. split; [now constructor|auto].
    + exists s'. split; [now constructor|auto].
    + exists ((i, ts) :: s'). split; [now constructor|now apply od_cons].
Qed.

(** One child differs: then the nodes differ in one place, or the slots do. *)
Definition lists_sim (cs cs' : list child) : Prop :=
  (forall codes codes0, nodes_code cs codes -> nodes_code cs' codes0 ->
     exists codes', nodes_code cs' codes' /\ one_diff R codes codes') /\
  (forall codes s codes0 s0, nodes_code cs codes -> slots_code cs s -> nodes_code cs' codes0 -> slots_code cs' s0 ->
     exists codes' s', nodes_code cs' codes' /\ slots_code cs' s' /\
       ((one_diff R codes codes' /\ s = s') \/ (codes = codes' /\ one_diff slot_rel s s'))).
Lemma slots_skip B c c' A s : (forall e, c <> CSlot e) -> (forall e, c' <> CSlot e) ->
  slots_code (B ++ c :: A) s -> slots_code (B ++ c' :: A) s.
Proof.
  intros N N'. revert s. induction B as [|b B IH]; cbn [app]; intros s H.
  - destruct c as [v|e|e]; [| |now destruct (N e)]; inversion H; subst;
      (destruct c' as [v'|e'|e']; [now constructor|now constructor|now destruct (N' e')]).
  - inversion H; subst; constructor; auto.
Qed.
Lemma nodes_skip B e e' A codes : nodes_code (B ++ CSlot e :: A) codes -> nodes_code (B ++ CSlot e' :: A) codes.
Proof.
  revert codes. induction B as [|b B IH]; cbn [app]; intros codes H.
  - inversion H; subst. now constructor.
  - inversion H; subst; constructor; auto.
Qed.
Lemma lists_one B c c' A : child_sim c c' -> lists_sim (B ++ c :: A) (B ++ c' :: A).
Proof.
  intros Hc. split; [intros codes codes0; now apply nodes_sim|].
  intros codes s codes0 s0 H1 H2 H3 H4. destruct Hc as [c c' N N' He|e e' Ht He].
  - destruct (nodes_sim B c c' A codes codes0) as (codes' & H5 & H6); [now constructor|auto|auto|].
    exists codes', s. split; [auto|]. split; [eapply slots_skip; [exact N|exact N'|exact H2]|]. now left.
  - destruct (slots_sim B (CSlot e) (CSlot e') A s s0) as (s' & H5 & H6); [now constructor|auto|auto|].
    exists codes, s'. split; [eapply nodes_skip; eauto|]. split; [auto|]. now right.
Qed.

Lemma owner_sim l cs cs' : lists_sim cs cs' -> child_sim (l_owner l cs) (l_owner l cs').
Proof.
  intros [Hn Hs]. unfold l_owner. destruct (l_slot l); constructor; [reflexivity| |discriminate|discriminate|].
  - intros a Ha (b0 & Hb). inversion Ha as [p attrs args ch path props clones codes slots scalls Hp Hk He Hcl Hno Hsl Hsc Q]; subst.
    inversion Hb as [p0 attrs0 args0 ch0 path0 props0 clones0 codes0 slots0 scalls0 Hp0 Hk0 He0 Hcl0 Hno0 Hsl0 Hsc0 Q0]; subst.
    destruct (Hs _ _ _ _ Hno Hsl Hno0 Hsl0) as (codes' & slots' & Hno' & Hsl' & D).
    assert (D1 : one_diff R codes codes') by (destruct D as [[D _]|[-> _]]; [exact D|now left]).
    assert (D2 : one_diff slot_rel slots slots') by (destruct D as [[_ ->]|[_ D]]; [now left|exact D]).
    destruct (od_slot_calls _ _ _ D2 Hsc) as (scalls' & Hsc' & D3).
    eexists. split; [eapply sc_slot; [exact Hp|exact Hk|exact He|exact Hcl|exact Hno'|exact Hsl'|exact Hsc']|].
    apply R_slot, od_pre. now apply od_children_calls.
  - intros a Ha (b0 & Hb).
    inversion Ha as [t sels attrs args ch head kvs dirs codes Hh Hk Hd Hno Q|p sels attrs args ch path props entries clones codes slots scalls Hp Hk He Hcl Hno Hsl Hsc Q Q1].
    + subst. inversion Hb as [t0 sels0 attrs0 args0 ch0 head0 kvs0 dirs0 codes0 Hh0 Hk0 Hd0 Hno0 Q0|p0 sels0 attrs0 args0 ch0 path0 props0 entries0 clones0 codes0 slots0 scalls0 Hp0 Hk0 He0 Hcl0 Hno0 Hsl0 Hsc0 Q0 Q1].
      2:{ rewrite <- Q0 in Hh. inversion Hh. }
      destruct (Hn _ _ Hno Hno0) as (codes' & Hno' & D1).
      eexists. split; [eapply ec_html; [exact Hh|exact Hk|exact Hd|exact Hno']|].
      apply R_pre, od_chain. do 5 apply od_pre. eapply od_map; [|exact D1]. intros x y Hx. now split.
    + subst. rewrite <- Q in Hb. inversion Hb as [t0 sels0 attrs0 args0 ch0 head0 kvs0 dirs0 codes0 Hh0 Hk0 Hd0 Hno0 Q0|p0 sels0 attrs0 args0 ch0 path0 props0 entries0 clones0 codes0 slots0 scalls0 Hp0 Hk0 He0 Hcl0 Hno0 Hsl0 Hsc0 Q0 Q1].
      { inversion Hh0. }
      destruct (Hs _ _ _ _ Hno Hsl Hno0 Hsl0) as (codes' & slots' & Hno' & Hsl' & D).
      destruct D as [[D ->]|[<- D]].
      * eexists. split; [eapply ec_component; [exact Hp|exact Hk|exact He|exact Hcl|exact Hno'|exact Hsl'|exact Hsc]|].
        apply R_component, od_pre, od_post. now apply od_children_calls.
      * destruct (od_slot_calls _ _ _ D Hsc) as (scalls' & Hsc' & D3).
        eexists. split; [eapply ec_component; [exact Hp|exact Hk|exact He|exact Hcl|exact Hno'|exact Hsl'|exact Hsc']|].
        apply R_component. now apply od_pre, od_pre.
Qed.

Lemma put_sim ls : forall B c c' A, child_sim c c' ->
  exists B' d d' A', put ls (B ++ c :: A) = B' ++ d :: A' /\ put ls (B ++ c' :: A) = B' ++ d' :: A' /\ child_sim d d'.
Proof.
  induction ls as [|l ls IH]; intros B c c' A H; [exists B, c, c', A; auto|]. cbn [put].
  apply IH. apply owner_sim. now apply lists_one.
Qed.

Lemma root_sim B c c' A out out0 : child_sim c c' -> root_code (B ++ c :: A) out -> root_code (B ++ c' :: A) out0 ->
  exists out', root_code (B ++ c' :: A) out' /\ R out out'.
Proof.
  intros Hc H H0. assert (Hl : List.length (B ++ c :: A) = List.length (B ++ c' :: A)) by (rewrite !app_length; reflexivity).
  assert (F : forall a b, R a b -> R (root_frame a) (root_frame b)).
  { intros a b Hab. apply R_one, R_pre, Hab. }
  inversion H as [x code Hs Hn Q1 Q2|cs codes Hlen Hs Hn Q1 Q2]; subst; inversion H0 as [x0 code0 Hs0 Hn0 Q3 Q4|cs0 codes0 Hlen0 Hs0 Hn0 Q3 Q4]; subst.
  - rewrite Q1 in Hn. rewrite Q3 in Hn0. destruct (nodes_sim _ _ _ _ _ _ Hc Hn Hn0) as (codes' & Hn' & D).
    assert (Hk := od_length _ _ _ D). destruct codes' as [|b [|? ?]]; try discriminate. exists (root_frame b). split.
    + rewrite <- Q3 in Hn'. now constructor.
    + apply F. apply (od_separated _ _ D).
  - rewrite <- Q1 in Hl. cbn in Hl. congruence.
  - rewrite <- Q3 in Hl. cbn in Hl. congruence.
  - destruct (nodes_sim _ _ _ _ _ _ Hc Hn Hn0) as (codes' & Hn' & D). exists (root_frame (fragment codes')). split; [now apply rc_many|].
    apply F. now apply od_fragment.
Qed.
End Around.

(** The code around an owner. *)
Lemma sa_pre a b p x y q : same_around a b x y -> same_around a b (p ++ x ++ q) (p ++ y ++ q).
Proof.
  intros [p' q'|p' d x' y' q' H].
  - rewrite <- !app_assoc. rewrite (app_assoc p p'), (app_assoc p p'). apply sa_here.
  - rewrite <- !app_assoc. cbn [app]. rewrite (app_assoc p p'), (app_assoc p p'). now apply sa_in.
Qed.
Definition around_owner (l : layer) (cs cs' : list child) (out out' : list tt) : Prop :=
  out = out' \/ exists a b, child_code (l_owner l cs) a /\ child_code (l_owner l cs') b /\ same_around a b out out'.

Lemma put_code l ls cs cs' out out0 : root_code (put (l :: ls) cs) out -> root_code (put (l :: ls) cs') out0 ->
  exists out', root_code (put (l :: ls) cs') out' /\ around_owner l cs cs' out out'.
Proof.
  intros H H0. cbn [put] in *. set (A := match l_after l with Read c _ => c | _ => [] end) in *.
  assert (R1 : forall a, around_owner l cs cs' a a) by (intros; now left).
  assert (R2 : forall p a b q, around_owner l cs cs' a b -> around_owner l cs cs' (p ++ a ++ q) (p ++ b ++ q)).
  { intros p a b q [->|(o & o' & H1 & H2 & H3)]; [now left|]. right. exists o, o'. split; [auto|]. split; [auto|]. now apply sa_pre. }
  assert (R3 : forall p d a b q, around_owner l cs cs' a b -> around_owner l cs cs' (p ++ TGroup d a :: q) (p ++ TGroup d b :: q)).
  { intros p d a b q [->|(o & o' & H1 & H2 & H3)]; [now left|]. right. exists o, o'. split; [auto|]. split; [auto|]. now apply sa_in. }
  assert (Hc : child_sim (around_owner l cs cs') (l_owner l cs) (l_owner l cs')).
  { unfold around_owner, l_owner, child_code. destruct (l_slot l); constructor; [reflexivity| |discriminate|discriminate|];
      intros a Ha (b & Hb); exists b; (split; [exact Hb|]); right; exists a, b; (split; [exact Ha|]); (split; [exact Hb|]);
      rewrite <- (app_nil_r a) at 2; rewrite <- (app_nil_r b) at 2; apply (sa_here a b [] []). }
  destruct (put_sim _ R1 R2 R3 ls (l_before l) _ _ A Hc) as (B' & d & d' & A' & Q1 & Q2 & Hd).
  rewrite Q1 in H. rewrite Q2 in *. eapply (root_sim _ R1 R2 R3); eauto.
Qed.
