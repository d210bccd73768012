(** The tree a view describes is determined, up to the order of slots. *)
From Verif Require Import Ast SpecStr SpecGrammar SpecOut SpecRun SpecView ExpandFacts2 EqualFacts3.
From Coq Require Import Permutation.
Open Scope string_scope.
Open Scope list_scope.

Lemma Forall2_fun {A B} (R : A -> B -> Prop) l m m' : (forall a b b', R a b -> R a b' -> b = b') ->
  Forall2 R l m -> Forall2 R l m' -> m = m'.
Proof.
  intros F H. revert m'. induction H as [|a b l m Hab H IH]; intros m' K; inversion K; subst; [reflexivity|].
  f_equal; [eapply F; eassumption|]. now apply IH.
Qed.
Lemma not_custom s : In s ["inner_html"; "ref"; "class"; "style"] -> ~ custom_name s.
Proof. cbn. intros H [D _]. unfold has_dash in D. intuition subst; cbn in D; intuition discriminate. Qed.
Ltac decide_keys :=
  repeat match goal with
  | H : ~ In ?a ?l |- _ => solve [apply H; cbn; tauto] || clear H
  | H : _ \/ _ |- _ => destruct H; try tauto
  | H : ~ ?P, K : ?P |- _ => exact (H K)
  end; try congruence; solve [eapply not_custom; [|eassumption]; cbn; tauto].
Lemma kv_fun t a p p' : kv_part t a p -> kv_part t a p' -> p = p'.
Proof.
  intros H K. destruct H; inversion K; subst; try reflexivity; try congruence; exfalso;
    repeat match goal with E : k_repr _ = _ |- _ => rewrite E in * end; decide_keys.
Qed.
Lemma dir_fun d p p' : dir_part d p -> dir_part d p' -> p = p'.
Proof. intros H K. destruct H; inversion K; subst; reflexivity. Qed.
Lemma item_fun a p p' : item_part a p -> item_part a p' -> p = p'.
Proof.
  intros H K. destruct H; inversion K; subst; cbn [key_text] in *; try reflexivity; try congruence; exfalso;
    repeat match goal with E : k_repr _ = _ |- _ => rewrite E in * end; decide_keys.
Qed.
Lemma made_fun t sp n sp' n' : made t sp n -> made t sp' n' -> sp = sp' /\ n = n'.
Proof. intros H K. destruct H; inversion K; now subst. Qed.
Lemma camel_fun s m m' : camel_snake s m -> camel_snake s m' -> m = m'.
Proof. rewrite !camel_iff. congruence. Qed.

Lemma gifts_app a b a' b' : same_gifts a a' -> same_gifts b b' -> same_gifts (a ++ b) (a' ++ b').
Proof. induction 1; [easy|]. intros K. cbn. constructor; auto. Qed.
Lemma given_props args attrs props ns ns' sg sg' : same_nodes ns ns' -> same_given sg sg' ->
  same_given (map prop_of props ++ children_given args attrs ns ++ sg) (map prop_of props ++ children_given args attrs ns' ++ sg').
Proof.
  intros Hn [g h g' P G]. econstructor; [apply Permutation_app_head, Permutation_app_head; exact P|].
  apply gifts_app; [|apply gifts_app; [|exact G]].
  - induction props; constructor; [|assumption]. constructor.
  - unfold children_given. destruct Hn as [|n n' ns ns' Hx Hn]; [constructor|]. constructor; [|constructor]. constructor. now constructor.
Qed.

(** Slots with their names. *)
Inductive same_called : list (ident * slot) -> list (ident * slot) -> Prop :=
| sc_nil : same_called [] []
| sc_cons i s s' l l' : same_slot s s' -> same_called l l' -> same_called ((i, s) :: l) ((i, s') :: l').
Lemma called_same l l' i : same_called l l' -> same_slots (called i l) (called i l').
Proof.
  unfold called. induction 1 as [|j s s' l l' Hs H IH]; [constructor|]. cbn. destruct (ident_dec j i); [|exact IH]. now constructor.
Qed.
Lemma slot_gift_same l l' : same_slots l l' -> same_gift (slot_gift l) (slot_gift l').
Proof.
  intros H. destruct H as [|s s' l l' Hs H]; [constructor; constructor|].
  destruct H as [|t t' l l' Ht H]; [now constructor|]. constructor. constructor; [assumption|]. now constructor.
Qed.
Lemma names_same l l' : same_called l l' -> map fst l = map fst l'.
Proof. induction 1; [reflexivity|]. cbn. now f_equal. Qed.
Lemma Forall2_permutation {A B} (R : A -> B -> Prop) l l' m : Permutation l l' -> Forall2 R l m ->
  exists m', Permutation m m' /\ Forall2 R l' m'.
Proof.
  intros P. revert m. induction P as [|x l l' P IH|x y l|l l1 l' P1 IH1 P2 IH2]; intros m H.
  - exists m. split; [apply Permutation_refl|exact H].
  - inversion H; subst. destruct (IH l'0) as (m' & A1 & A2); [assumption|]. eexists (_ :: m'). split; [constructor; exact A1|now constructor].
  - inversion H; subst. inversion H4; subst. eexists (_ :: _ :: _). split; [apply perm_swap|]. repeat constructor; assumption.
  - destruct (IH1 m H) as (m1 & A1 & A2). destruct (IH2 m1 A2) as (m2 & B1 & B2). exists m2. split; [eapply perm_trans; eassumption|exact B2].
Qed.
Lemma slots_same l l' gs gs' : same_called l l' -> slots_given l gs -> slots_given l' gs' -> same_given gs gs'.
Proof.
  intros S [order g N1 O1 F1] [order' g' N2 O2 F2].
  assert (P : Permutation order order').
  { apply NoDup_Permutation; [assumption|assumption|]. intros i. rewrite O1, O2, (names_same _ _ S). reflexivity. }
  destruct (Forall2_permutation _ _ _ _ P F1) as (h & Ph & Fh). apply (sg_intro g h); [exact Ph|].
  clear - S Fh F2. revert g' F2. induction Fh as [|i a order h Hi Fh IH]; intros g' K; inversion K; subst; [constructor|].
  destruct Hi as [m Hm]. inversion H1; subst. rewrite (camel_fun _ _ _ H Hm). constructor; [|now apply IH].
  apply slot_gift_same. now apply called_same.
Qed.

Scheme means_mind := Minimality for means Sort Prop
  with slot_means_mind := Minimality for slot_means Sort Prop
  with nodes_mean_mind := Minimality for nodes_mean Sort Prop
  with slots_mean_mind := Minimality for slots_mean Sort Prop.
Combined Scheme means_mutind from means_mind, slot_means_mind, nodes_mean_mind, slots_mean_mind.

Lemma means_same :
  (forall e n, means e n -> forall n', means e n' -> same_node n n') /\
  (forall e s, slot_means e s -> forall s', slot_means e s' -> same_slot s s') /\
  (forall l ns, nodes_mean l ns -> forall ns', nodes_mean l ns' -> same_nodes ns ns') /\
  (forall l ss, slots_mean l ss -> forall ss', slots_mean l ss' -> same_called ss ss').
Proof.
  apply means_mutind.
  - intros t sels attrs args children sp n kvs dirs nodes Hm Hk Hd _ IH n' K. inversion K; subst.
    + destruct (made_fun _ _ _ _ _ Hm H5) as [-> ->].
      rewrite (Forall2_fun _ _ _ _ (kv_fun _) Hk H6), (Forall2_fun _ _ _ _ dir_fun Hd H7). constructor. now apply IH.
    + inversion Hm.
  - intros p sels attrs args children path nodes slots sgiven parts Hp Hi _ IHn _ IHs Hs n' K. inversion K; subst.
    + inversion H5.
    + rewrite (path_fun _ _ _ Hp ltac:(eassumption)), (Forall2_fun _ _ _ _ item_fun Hi ltac:(eassumption)). constructor. apply given_props; [now apply IHn|].
      eapply slots_same; [|eassumption|eassumption]. now apply IHs.
  - intros p sels attrs args children path nodes Hp _ IHn s' K. inversion K; subst. rewrite (path_fun _ _ _ Hp ltac:(eassumption)). constructor.
    rewrite <- (app_nil_r (children_given args attrs nodes)), <- (app_nil_r (children_given args attrs nodes0)).
    apply given_props; [now apply IHn|]. econstructor; constructor.
  - intros ns' K. inversion K; subst. constructor.
  - intros v l ns _ IH ns' K. inversion K; subst. constructor; [constructor|auto].
  - intros e n l ns _ IHe _ IH ns' K. inversion K; subst. constructor; auto.
  - intros e l ns _ IH ns' K. inversion K; subst. auto.
  - intros ns' K. inversion K; subst. constructor.
  - intros v l ss _ IH ns' K. inversion K; subst. auto.
  - intros e l ss _ IH ns' K. inversion K; subst. auto.
  - intros e i s l ss Ht _ IHe _ IH ss' K. inversion K; subst. rewrite Ht in H1. injection H1 as ->. constructor; auto.
Qed.

Theorem view_same cs n n' : view_means cs n -> view_means cs n' -> same_node n n'.
Proof.
  intros [c m H|cs' ms L H] K; inversion K; subst.
  - pose proof (proj1 (proj2 (proj2 means_same)) _ _ H _ H1) as S. now inversion S.
  - now elim H0.
  - now elim L.
  - constructor. eapply (proj1 (proj2 (proj2 means_same))); eassumption.
Qed.
