(** Two environments that differ only in the order of slots. *)
From Verif Require Export Same ExpandFacts2 SpecOrder.
From Coq Require Import Permutation Lia.
Open Scope list_scope.

(** ** Parsing does not look at the order *)

Lemma bind_ext {A B} (m m' : P A) (f f' : A -> P B) : (forall ts, m ts = m' ts) ->
  (forall a ts, f a ts = f' a ts) -> forall ts, bind m f ts = bind m' f' ts.
Proof.
  intros Hm Hf ts. unfold bind. rewrite Hm. destruct (m' ts) as [[a|e| |w|] r d]; auto. now rewrite Hf.
Qed.

Section Parse.
Variables E E' : env.
Hypothesis HG : forall ts, generic_args E ts = generic_args E' ts.

Lemma angle_order ts : parse_angle E ts = parse_angle E' ts.
Proof. unfold parse_angle. destruct (take_punct "::" ts); now rewrite HG. Qed.
Lemma seg_order : forall ts, parse_seg E ts = parse_seg E' ts.
Proof.
  unfold parse_seg. apply bind_ext; auto. intros []; auto. apply bind_ext; auto. intros b. apply bind_ext; auto. intros i.
  apply bind_ext; auto. intros []; auto. apply bind_ext; auto. intros. apply angle_order.
Qed.
Lemma segs_order n : forall ts, parse_segs_rest E n ts = parse_segs_rest E' n ts.
Proof.
  induction n as [|n IH]; intros ts; auto. cbn [parse_segs_rest]. destruct (_ && _); auto.
  apply bind_ext; auto. intros _. apply bind_ext; [apply seg_order|]. intros s. apply bind_ext; auto.
Qed.
Lemma path_order ts : parse_path E ts = parse_path E' ts.
Proof.
  unfold parse_path. apply bind_ext; auto. intros l. apply bind_ext; [apply seg_order|]. intros s.
  apply bind_ext; auto. apply segs_order.
Qed.
Lemma tag_order : forall ts, parse_tag E ts = parse_tag E' ts.
Proof.
  unfold parse_tag. apply bind_ext; auto. intros []; auto. apply bind_ext; auto. apply path_order.
Qed.
Lemma delimited_ext {A} d (m m' : P A) : (forall ts, m ts = m' ts) -> forall ts, delimited d m ts = delimited d m' ts.
Proof. intros H ts. unfold delimited. destruct ts as [|[] ts]; auto. destruct (delim_eqb _ _); auto; now rewrite H. Qed.
Lemma element_order pc pc' : (forall ts, pc ts = pc' ts) -> forall ts, parse_element E pc ts = parse_element E' pc' ts.
Proof.
  intros H. unfold parse_element. apply bind_ext; [apply tag_order|]. intros t. do 3 (apply bind_ext; [reflexivity|]; intros ?).
  destruct a1; auto. apply bind_ext; auto. intros [|x l]; auto.
  destruct (peek_group Brace _); [apply bind_ext; auto; now apply delimited_ext|].
  destruct (peek_group Paren _); [apply bind_ext; auto; now apply delimited_ext|].
  destruct (peek_punct "|" _); auto. apply bind_ext; auto. intros args. apply bind_ext; auto. intros ts'.
  destruct (peek_group Brace _); [apply bind_ext; auto; now apply delimited_ext|].
  destruct (peek_group Paren _); [apply bind_ext; auto; now apply delimited_ext|]. auto.
Qed.
Lemma child_order pc pc' : (forall ts, pc ts = pc' ts) -> forall ts, parse_child E pc ts = parse_child E' pc' ts.
Proof.
  intros H. unfold parse_child. apply bind_ext; [reflexivity|]. intros [v|]; [reflexivity|].
  apply bind_ext; [reflexivity|]. intros [].
  - do 2 (apply bind_ext; [reflexivity|]; intros ?). apply bind_ext; [now apply element_order|reflexivity].
  - apply bind_ext; [reflexivity|]. intros []; [|reflexivity]. apply bind_ext; [now apply element_order|reflexivity].
Qed.
Lemma children_order n : forall ts, parse_children E n ts = parse_children E' n ts.
Proof.
  induction n as [|n IH]; intros ts; auto. cbn [parse_children]. destruct ts as [|t ts]; auto.
  rewrite (child_order _ _ IH). destruct (parse_child E' _ _) as [[c|e| |w|] r d]; auto.
  - cbv zeta. now rewrite (bind_ext _ _ _ (fun cs => ret (c :: cs)) IH (fun _ _ => eq_refl)).
  - cbv zeta. destruct (peek_punct ";" r).
    + assert (Hx : (emit DExtraSemi ;;; unwrap (parse_punct ";") ;;; parse_children E n)%parse r =
                   (emit DExtraSemi ;;; unwrap (parse_punct ";") ;;; parse_children E' n)%parse r)
        by (apply bind_ext; auto; intros _; apply bind_ext; auto). now rewrite Hx.
    + assert (Hx : (emit (DParse e) ;;; take_rest ;;; parse_children E n)%parse r =
                   (emit (DParse e) ;;; take_rest ;;; parse_children E' n)%parse r)
        by (apply bind_ext; auto; intros _; apply bind_ext; auto). now rewrite Hx.
Qed.
End Parse.

(** ** Expansions that agree up to the order *)

Inductive xrel {A} (R : A -> A -> Prop) : X A -> X A -> Prop :=
| xrel_ret a b d : R a b -> xrel R (XR (XRet a) d) (XR (XRet b) d)
| xrel_abort d : xrel R (XR XAbort d) (XR XAbort d)
| xrel_panic w w' d d' : panic_alike w w' -> xrel R (XR (XPanic w) d) (XR (XPanic w') d').

Lemma xrel_refl {A} (R : A -> A -> Prop) x : (forall a, R a a) -> xrel R x x.
Proof. intros H. destruct x as [[a| |w] d]; constructor; auto. now left. Qed.
Lemma xrel_bind {A B} (R : A -> A -> Prop) (S : B -> B -> Prop) m m' f f' :
  xrel R m m' -> (forall a b, R a b -> xrel S (f a) (f' b)) -> xrel S (xbind m f) (xbind m' f').
Proof.
  intros [a b d Hr|d|w w' d d' Hw] Hf; cbn [xbind]; [|constructor|now constructor].
  destruct (Hf a b Hr); cbn; constructor; auto.
Qed.
(** The first part is the same. *)
Lemma xrel_let {A B} (S : B -> B -> Prop) (m : X A) f f' :
  (forall a, xrel S (f a) (f' a)) -> xrel S (xbind m f) (xbind m f').
Proof. intros H. apply (xrel_bind eq); [apply xrel_refl; auto|]. intros a b <-. apply H. Qed.
Lemma xrel_seq {A} (R : A -> A -> Prop) l l' : Forall2 (xrel R) l l' -> xrel (Forall2 R) (xseq l) (xseq l').
Proof.
  induction 1 as [|x x' l l' Hx Hl IH]; cbn [xseq]; [constructor; constructor|].
  eapply xrel_bind; [apply Hx|]. intros a b Hab. eapply xrel_bind; [apply IH|]. intros. constructor. now constructor.
Qed.

Lemma ro_cons t a b : reordered a b -> reordered (t :: a) (t :: b).
Proof. intros H. apply (ro_app [t] [t] a b); auto. constructor. Qed.
Lemma ro_in d a b r r' : reordered a b -> reordered r r' -> reordered (TGroup d a :: r) (TGroup d b :: r').
Proof. intros H H'. apply (ro_app [_] [_]); auto. now apply ro_group. Qed.
Lemma ro_concat l l' : Forall2 reordered l l' -> reordered (List.concat l) (List.concat l').
Proof. induction 1; cbn; [constructor|now apply ro_app]. Qed.
Lemma ro_flat f l l' : (forall a b, reordered a b -> reordered (f a) (f b)) -> Forall2 reordered l l' ->
  reordered (flat_map f l) (flat_map f l').
Proof. intros Hf. induction 1; cbn; [constructor|apply ro_app; auto]. Qed.
Lemma ro_method m a b : reordered a b -> reordered (method m a) (method m b).
Proof. intros H. do 2 apply ro_cons. now apply ro_group. Qed.
Lemma ro_fragment l l' : Forall2 reordered l l' -> reordered (children_fragment_tokens l) (children_fragment_tokens l').
Proof.
  intros H. unfold children_fragment_tokens. apply ro_app; [constructor|]. do 2 apply ro_group. apply ro_flat; auto.
  intros. apply ro_app; auto. constructor.
Qed.
Lemma ro_render a b : reordered a b -> reordered (into_render a) (into_render b).
Proof. intros H. unfold into_render. apply ro_app; [constructor|]. now apply ro_group. Qed.
Lemma ro_separated l l' : Forall2 reordered l l' -> reordered (comma_separated l) (comma_separated l').
Proof.
  induction 1 as [|a b l l' Hab Hl IH]; cbn; [constructor|]. destruct Hl; auto.
  apply ro_app; auto. now apply ro_cons.
Qed.
Lemma ro_arg l l' : Forall2 reordered l l' -> reordered (slot_arg l) (slot_arg l').
Proof.
  intros H. assert (Hs := ro_separated _ _ H). destruct H as [|a b l0 l0' Hab [|a2 b2 l1 l1' Hab2 Hl]]; [constructor|assumption|].
  unfold slot_arg. apply ro_app; [constructor|]. apply ro_app; [constructor|]. apply ro_cons, ro_group, ro_app; [constructor|]. now do 2 apply ro_group.
Qed.

(** ** Slots *)

Lemma slot_shaped E at_ e ts d : expand_element E at_ true e = XR (XRet ts) d -> slot_shape ts.
Proof.
  destruct e as [t sels attrs args ch]. rewrite expand_element_eq. unfold element_tokens, component_to_tokens.
  destruct t; cbn [expect_path]; try discriminate. intros H.
  repeat (apply xbind_inv in H; destruct H as (? & ? & ? & _ & H & _)).
  destruct x5 as [[props dirs] clones].
  repeat (apply xbind_inv in H; destruct H as (? & ? & ? & _ & H & _)). inversion H; subst. eexists. reflexivity.
Qed.

Definition slot_rel (a b : list tt) : Prop := reordered a b /\ slot_shape a /\ slot_shape b.
Definition entry_rel (a b : ident * list (list tt)) : Prop :=
  fst a = fst b /\ snd a <> [] /\ Forall2 slot_rel (snd a) (snd b).
Lemma insert_rel m m' k t t' : Forall2 entry_rel m m' -> slot_rel t t' ->
  Forall2 entry_rel (slot_insert m k t) (slot_insert m' k t').
Proof.
  intros H Ht. induction H as [|[a l] [b l'] m m' Hab Hm IH]; cbn [slot_insert].
  - constructor; [|constructor]. repeat split; cbn; [discriminate|]. constructor; auto.
  - destruct Hab as (Hk & Hn & Hl). cbn in *. subst b. destruct (ident_eqb k a); constructor; auto.
    + repeat split; cbn; [destruct l; discriminate|]. apply Forall2_app; auto.
    + repeat split; auto.
Qed.
Lemma collect_rel l l' : Forall2 (fun x y => fst x = fst y /\ xrel slot_rel (snd x) (snd y)) l l' ->
  forall m m', Forall2 entry_rel m m' -> xrel (Forall2 entry_rel) (collect_slots l m) (collect_slots l' m').
Proof.
  induction 1 as [|[t x] [t' x'] l l' [Ht Hx] Hl IH]; intros m m' Hm; cbn [collect_slots]; [now constructor|].
  cbn in Ht, Hx. subst t'. destruct t; try (apply xrel_panic; now left).
  destruct (get_ident p).
  - eapply xrel_bind; [apply Hx|]. intros a b Hab. apply IH. now apply insert_rel.
  - apply xrel_let. intros _. now apply IH.
Qed.
Lemma get_rel m m' k : Forall2 entry_rel m m' -> Forall2 slot_rel (slot_get m k) (slot_get m' k).
Proof.
  induction 1 as [|[a l] [b l'] m m' (Hk & Hn & Hl) Hm IH]; cbn in *; [constructor|]. subst b. destruct (ident_eqb k a); auto.
Qed.
Lemma get_some m m' k : Forall2 entry_rel m m' -> In k (map fst m) -> slot_get m k <> [].
Proof.
  induction 1 as [|[a l] [b l'] m m' (Hk & Hn & Hl) Hm IH]; cbn in *; [tauto|]. subst b. intros [->|Hi].
  - rewrite (proj2 (ident_eqb_iff k k) eq_refl). exact Hn.
  - destruct (ident_eqb k a); auto.
Qed.
Lemma rel_keys m m' : Forall2 entry_rel m m' -> map fst m = map fst m'.
Proof. induction 1 as [|a b m m' (Hk & _) Hm IH]; cbn; auto. now rewrite Hk, IH. Qed.

(** The calls of some slot names, if all of them can be method names. *)
Definition method_name (k : ident) : string := upper_camel_to_snake_case (i_name (unraw k)).
Definition name_ok (k : ident) : bool := match new_raw (method_name k) with Some _ => true | None => false end.
Definition slot_call_of (g : ident -> list (list tt)) (k : ident) : call :=
  Call (Id true (method_name k)) (slot_arg (g k)).
Lemma slot_method_eq g k : name_ok k = true -> slot_method k (g k) = xret (call_tokens (slot_call_of g k)).
Proof.
  unfold name_ok, slot_method. change (upper_camel_to_snake_case (i_name (unraw k))) with (method_name k).
  destruct (new_raw (method_name k)) as [i|] eqn:Hn; [|discriminate]. intros _.
  assert (Hi : i = Id true (method_name k)).
  { apply new_raw_iff in Hn. apply Hn. }
  subst i. f_equal. f_equal. unfold slot_call_of, call_tokens, slot_arg. cbn [call_name call_args].
  destruct (g k) as [|a [|b l]]; reflexivity.
Qed.
Lemma slot_method_bad g k : name_ok k = false -> slot_method k (g k) = xpanic (PNewRaw (method_name k)).
Proof. unfold name_ok, slot_method. change (upper_camel_to_snake_case (i_name (unraw k))) with (method_name k). destruct (new_raw (method_name k)); [discriminate|auto]. Qed.
Lemma methods_ok g o : forallb name_ok o = true ->
  xseq (map (fun k => slot_method k (g k)) o) = xret (map (fun k => call_tokens (slot_call_of g k)) o).
Proof.
  induction o as [|k o IH]; cbn [forallb map xseq]; [reflexivity|]. intros H. apply andb_prop in H. destruct H as [Hk Ho].
  rewrite slot_method_eq by auto. rewrite IH by auto. reflexivity.
Qed.
Lemma methods_bad g o : forallb name_ok o = false -> exists s,
  xseq (map (fun k => slot_method k (g k)) o) = xpanic (PNewRaw s).
Proof.
  induction o as [|k o IH]; cbn [forallb map xseq]; [discriminate|]. intros H. destruct (name_ok k) eqn:Hk; cbn in H.
  - rewrite slot_method_eq by auto. destruct (IH H) as (s & ->). exists s. reflexivity.
  - rewrite slot_method_bad by auto. eexists. reflexivity.
Qed.
Lemma forallb_perm {A} (f : A -> bool) l l' : Permutation l l' -> forallb f l = forallb f l'.
Proof. induction 1; cbn; auto; [now rewrite IHPermutation|rewrite !andb_assoc, (andb_comm (f y)); auto|congruence]. Qed.
Lemma chain_calls g o : List.concat (map (fun k => call_tokens (slot_call_of g k)) o) = chain (map (slot_call_of g) o).
Proof. unfold chain. now rewrite map_map. Qed.

Lemma rel_l l l' : Forall2 slot_rel l l' -> Forall2 reordered l l'.
Proof. induction 1 as [|a b l l' (H & _)]; constructor; auto. Qed.
Lemma rel_shape l l' : Forall2 slot_rel l l' -> Forall slot_shape l'.
Proof. induction 1 as [|a b l l' (_ & _ & H)]; constructor; auto. Qed.

Section Order.
Variables E E' : env.
Hypothesis HE : env_ok E.
Hypothesis HE' : env_ok E'.

Lemma slots_rel at_ l l' : Forall2 (fun x y => fst x = fst y /\ xrel slot_rel (snd x) (snd y)) l l' ->
  xrel reordered (slots_to_tokens E at_ l) (slots_to_tokens E' at_ l').
Proof.
  intros H. unfold slots_to_tokens. eapply xrel_bind; [apply (collect_rel _ _ H [] []); constructor|].
  intros m m' Hm. rewrite <- (rel_keys _ _ Hm). set (ks := map fst m).
  destruct HE as (_ & _ & Hp). destruct HE' as (_ & _ & Hp'). specialize (Hp at_ ks). specialize (Hp' at_ ks).
  set (o := slot_order E at_ ks) in *. set (o' := slot_order E' at_ ks) in *.
  destruct (forallb name_ok ks) eqn:Hk.
  - rewrite methods_ok by (now rewrite <- (forallb_perm _ _ _ Hp)). rewrite methods_ok by (now rewrite <- (forallb_perm _ _ _ Hp')).
    cbn. constructor. rewrite !chain_calls. apply ro_trans with (chain (map (slot_call_of (slot_get m')) o)).
    + unfold chain. rewrite !map_map. apply ro_concat. generalize o. clear -Hm. intros o. induction o as [|k o IH]; cbn [map]; constructor; auto.
      apply ro_method, ro_arg, rel_l, get_rel, Hm.
    + apply ro_slots; [|apply Permutation_map; etransitivity; [symmetry; apply Hp|apply Hp']].
      apply Forall_map, Forall_forall. intros k Hin. split; [reflexivity|]. exists (slot_get m' k).
      assert (Hg := get_rel _ _ k Hm). split; [|split; [eapply rel_shape; eauto|reflexivity]].
      intros Hx. rewrite Hx in Hg. inversion Hg as [Hy|]. symmetry in Hy. revert Hy. apply (get_some _ _ _ Hm).
      apply (Permutation_in _ (Permutation_sym Hp)), Hin.
  - destruct (methods_bad (slot_get m) o) as (s & ->); [now rewrite <- (forallb_perm _ _ _ Hp)|].
    destruct (methods_bad (slot_get m') o') as (s' & ->); [now rewrite <- (forallb_perm _ _ _ Hp')|].
    cbn. constructor. right. eauto.
Qed.

Lemma nodes_rel at_ l : Forall (fun c => match c with CElement e => forall at_ b, xrel reordered (expand_element E at_ b e) (expand_element E' at_ b e) | _ => True end) l ->
  forall n, Forall2 (xrel reordered) (expand_nodes E at_ n l) (expand_nodes E' at_ n l).
Proof.
  induction 1 as [|c l Hc Hl IH]; intros n; cbn [expand_nodes]; [constructor|]. destruct c as [v|e|e]; auto; constructor; auto; cbn [expand_node].
  - apply xrel_refl. constructor.
  - eapply xrel_bind; [apply Hc|]. intros. constructor. now apply ro_render.
Qed.
Lemma slot_list_rel at_ l : Forall (fun c => match c with CSlot e => forall at_ b, xrel reordered (expand_element E at_ b e) (expand_element E' at_ b e) | _ => True end) l ->
  forall n, Forall2 (fun x y => fst x = fst y /\ xrel slot_rel (snd x) (snd y)) (expand_slots E at_ n l) (expand_slots E' at_ n l).
Proof.
  induction 1 as [|c l Hc Hl IH]; intros n; cbn [expand_slots]; [constructor|]. destruct c as [v|e|e]; auto; constructor; auto. split; [reflexivity|].
  cbn [snd]. specialize (Hc (n :: at_) true).
  destruct (expand_element E (n :: at_) true e) as [[a| |w] d] eqn:H1; destruct (expand_element E' (n :: at_) true e) as [[b| |w'] d'] eqn:H2;
    inversion Hc; subst; constructor; auto.
  split; auto. split; eapply slot_shaped; eauto.
Qed.
Lemma element_rel e : forall at_ b, xrel reordered (expand_element E at_ b e) (expand_element E' at_ b e).
Proof.
  induction e as [t sels attrs args ch IH] using element_children_ind. intros at_ b. rewrite !expand_element_eq.
  assert (Hn : forall l, ch = Some l -> Forall2 (xrel reordered) (expand_nodes E at_ 0 l) (expand_nodes E' at_ 0 l)).
  { intros l ->. apply nodes_rel, Forall_forall. intros [v|e|e] Hin; auto. }
  assert (Hs : forall l, ch = Some l -> Forall2 (fun x y => fst x = fst y /\ xrel slot_rel (snd x) (snd y)) (expand_slots E at_ 0 l) (expand_slots E' at_ 0 l)).
  { intros l ->. apply slot_list_rel, Forall_forall. intros [v|e|e] Hin; auto. }
  assert (Hcomp : forall p b, xrel reordered
     (expect_path (component_to_tokens E at_ b (TagComponent p) sels attrs args (option_map (expand_nodes E at_ 0) ch) (option_map (expand_slots E at_ 0) ch)))
     (expect_path (component_to_tokens E' at_ b (TagComponent p) sels attrs args (option_map (expand_nodes E' at_ 0) ch) (option_map (expand_slots E' at_ 0) ch)))).
  { intros p b'. unfold component_to_tokens. cbn [expect_path]. apply xrel_let. intros p'. apply xrel_let. intros dirs0. apply xrel_let. intros [[props dirs] clones].
    apply (xrel_bind reordered).
    { destruct ch as [l|]; cbn [option_map]; [|constructor; constructor]. specialize (Hn l eq_refl).
      destruct Hn as [|x y l1 l2 Hxy Hl]; [constructor; constructor|]. unfold component_children_tokens.
      eapply xrel_bind; [apply xrel_seq; constructor; [apply Hxy|apply Hl]|]. intros c1 c2 Hc. constructor. apply ro_method, ro_group, ro_app; [constructor|].
      destruct args; [apply ro_cons, ro_app; [constructor|now apply ro_fragment]|].
      apply ro_app; [constructor|]. apply ro_group, ro_cons, ro_app; [constructor|now apply ro_fragment]. }
    intros c1 c2 Hc. apply (xrel_bind reordered).
    { destruct ch as [l|]; cbn [option_map]; [|constructor; constructor]. apply slots_rel, Hs, eq_refl. }
    intros s1 s2 Hss. destruct b'; constructor.
    - apply ro_app; [constructor|]. apply ro_group. repeat first [apply ro_app; [solve [constructor]|]|apply ro_app; [assumption|constructor]].
    - repeat (apply ro_app; [solve [constructor]|]). apply ro_group. apply ro_app; [constructor|]. apply ro_app; [|constructor].
      apply ro_group. repeat first [apply ro_app; [solve [constructor]|]|apply ro_app; [assumption|]]. constructor. }
  unfold element_tokens. destruct b.
  - destruct t; try (cbn; apply xrel_refl; constructor). apply Hcomp.
  - destruct t; [|apply Hcomp|..]; unfold xml_to_tokens; cbn [xml_tag_path];
      (apply xrel_let; intros [[kvs dirs] sps]; apply (xrel_bind reordered);
       [destruct ch as [l|]; cbn [option_map]; [|constructor; constructor]; unfold xml_child_methods_tokens;
        eapply xrel_bind; [apply xrel_seq, Hn, eq_refl|]; intros c1 c2 Hc; constructor; apply ro_flat; auto; intros; now apply ro_method
       |intros c1 c2 Hc; constructor; repeat (apply ro_app; [solve [constructor]|]); assumption]).
Qed.
Lemma root_rel cs : xrel reordered (root_tokens E cs) (root_tokens E' cs).
Proof.
  assert (Hn : forall at_ c, xrel reordered (expand_node E at_ c) (expand_node E' at_ c)).
  { intros at_ [v|e|e]; cbn [expand_node]; try (apply xrel_refl; constructor). eapply xrel_bind; [apply element_rel|]. intros. constructor. now apply ro_render. }
  assert (Hmany : xrel reordered (if existsb is_slot cs then xabort DRootSlot else
      xbind (xseq (expand_nodes E [] 0 cs)) (fun l => xret [TGroup Brace
                ([pu "#"; TGroup Bracket [kw "allow"; par [kw "unused_braces"]]] ++ children_fragment_tokens l)]))
     (if existsb is_slot cs then xabort DRootSlot else
      xbind (xseq (expand_nodes E' [] 0 cs)) (fun l => xret [TGroup Brace
                ([pu "#"; TGroup Bracket [kw "allow"; par [kw "unused_braces"]]] ++ children_fragment_tokens l)]))).
  { destruct (existsb is_slot cs); [constructor|]. eapply xrel_bind.
    - apply xrel_seq, nodes_rel, Forall_forall. intros [v|e|e] _; auto. intros. apply element_rel.
    - intros l l' Hl. constructor. apply ro_group, ro_app; [constructor|]. now apply ro_fragment. }
  unfold root_tokens. destruct cs as [|c [|c2 cs]]; try exact Hmany.
  specialize (Hn [0] c). destruct c; try (constructor; fail); (eapply xrel_bind; [apply Hn|]; intros; constructor; apply ro_group, ro_app; [constructor|assumption]).
Qed.
End Order.
