(** Every code of a tree is written for some order of the slot maps. *)
From Verif Require Import ExpandFacts2.
From Coq Require Import Permutation Lia.
Open Scope list_scope.
Open Scope expand_scope.

Definition order : Type := list nat -> list ident -> list ident.
Definition perm (o : order) : Prop := forall at_ ks, Permutation ks (o at_ ks).
(** The orders agree at a place and everywhere inside of it. *)
Definition agree (at_ : list nat) (o o' : order) : Prop := forall q, o (q ++ at_) = o' (q ++ at_).
Lemma agree_sym at_ o o' : agree at_ o o' -> agree at_ o' o.
Proof. intros H q. symmetry. apply H. Qed.
Lemma agree_in n at_ o o' : agree at_ o o' -> agree (n :: at_) o o'.
Proof. intros H q. specialize (H (q ++ [n])). now rewrite <- app_assoc in H. Qed.

Section Order.
Variable g : list tt -> (list tt * list tt) + list tt.
Notation en o := (Env g o).

(** ** Only the orders inside of a place matter *)

Lemma slots_at o o' at_ l : o at_ = o' at_ -> slots_to_tokens (en o) at_ l = slots_to_tokens (en o') at_ l.
Proof. intros H. unfold slots_to_tokens. cbn [slot_order]. now rewrite H. Qed.

Definition settled (e : element) : Prop :=
  forall o o' at_ b, agree at_ o o' -> expand_element (en o) at_ b e = expand_element (en o') at_ b e.
Lemma nodes_settled at_ l o o' : (forall e, In (CElement e) l -> settled e) -> agree at_ o o' ->
  forall n, expand_nodes (en o) at_ n l = expand_nodes (en o') at_ n l.
Proof.
  intros He Ha. induction l as [|c l IH]; intros n; auto. destruct c as [v|e|e]; cbn [expand_nodes expand_node].
  - f_equal. apply IH. intros. apply He. now right.
  - rewrite (He e (or_introl eq_refl) o o' (n :: at_) false) by now apply agree_in. f_equal. apply IH. intros. apply He. now right.
  - apply IH. intros. apply He. now right.
Qed.
Lemma slots_settled at_ l o o' : (forall e, In (CSlot e) l -> settled e) -> agree at_ o o' ->
  forall n, expand_slots (en o) at_ n l = expand_slots (en o') at_ n l.
Proof.
  intros He Ha. induction l as [|c l IH]; intros n; auto. destruct c as [v|e|e]; cbn [expand_slots].
  - apply IH. intros. apply He. now right.
  - apply IH. intros. apply He. now right.
  - rewrite (He e (or_introl eq_refl) o o' (n :: at_) true) by now apply agree_in. f_equal. apply IH. intros. apply He. now right.
Qed.
Lemma all_settled e : settled e.
Proof.
  induction e as [t sels attrs args ch IH1 IH2] using element_children_ind. intros o o' at_ b Ha. rewrite !expand_element_eq.
  assert (Hn : option_map (expand_nodes (en o) at_ 0) ch = option_map (expand_nodes (en o') at_ 0) ch).
  { destruct ch as [l|]; auto. cbn [option_map]. f_equal. now apply nodes_settled. }
  assert (Hs : option_map (expand_slots (en o) at_ 0) ch = option_map (expand_slots (en o') at_ 0) ch).
  { destruct ch as [l|]; auto. cbn [option_map]. f_equal. now apply slots_settled. }
  rewrite Hn, Hs.
  assert (Hc : forall b nodes, component_to_tokens (en o) at_ b t sels attrs args nodes (option_map (expand_slots (en o') at_ 0) ch) =
                       component_to_tokens (en o') at_ b t sels attrs args nodes (option_map (expand_slots (en o') at_ 0) ch)).
  { intros b' nodes. unfold component_to_tokens. destruct ch as [l|]; auto. cbn [option_map].
    rewrite (slots_at o o'); auto. apply (Ha []). }
  unfold element_tokens. now rewrite !Hc.
Qed.

(** ** Joining orders of different places *)

Definition inside (at_ p : list nat) : bool :=
  if list_eq_dec Nat.eq_dec (skipn (List.length p - List.length at_) p) at_ then true else false.
Lemma inside_iff at_ p : inside at_ p = true <-> exists q, p = q ++ at_.
Proof.
  unfold inside. destruct (list_eq_dec Nat.eq_dec (skipn (List.length p - List.length at_) p) at_) as [H|H]; split; intros K; try discriminate; auto.
  - exists (firstn (List.length p - List.length at_) p). rewrite <- H at 2. symmetry. apply firstn_skipn.
  - destruct K as (q & ->). exfalso. apply H. rewrite app_length.
    replace (List.length q + List.length at_ - List.length at_) with (List.length q) by lia.
    now rewrite skipn_app, skipn_all, Nat.sub_diag.
Qed.
(** [o] inside of a place, [o'] outside of it. *)
Definition join (at_ : list nat) (o o' : order) : order := fun p => if inside at_ p then o p else o' p.
Lemma join_perm at_ o o' : perm o -> perm o' -> perm (join at_ o o').
Proof. intros H H' p ks. unfold join. destruct (inside at_ p); auto. Qed.
Lemma join_in at_ o o' : agree at_ (join at_ o o') o.
Proof. intros q. unfold join. assert (H : inside at_ (q ++ at_) = true); [|now rewrite H]. apply inside_iff. eauto. Qed.
Lemma join_out n m at_ o o' : n <> m -> agree (m :: at_) (join (n :: at_) o o') o'.
Proof.
  intros Hn q. unfold join. destruct (inside (n :: at_) (q ++ m :: at_)) eqn:H; auto.
  apply inside_iff in H. destruct H as (q' & H). exfalso. apply Hn.
  change (m :: at_) with ([m] ++ at_) in H. change (n :: at_) with ([n] ++ at_) in H. rewrite !app_assoc in H.
  apply app_inv_tail in H. apply app_inj_tail in H. destruct H. congruence.
Qed.
(** [f] at the place itself, [o] elsewhere. *)
Definition put (at_ : list nat) (f : list ident -> list ident) (o : order) : order :=
  fun p => if list_eq_dec Nat.eq_dec p at_ then f else o p.
Lemma put_perm at_ f o : (forall ks, Permutation ks (f ks)) -> perm o -> perm (put at_ f o).
Proof. intros H H' p ks. unfold put. destruct (list_eq_dec Nat.eq_dec p at_); auto. Qed.
Lemma put_at at_ f o : put at_ f o at_ = f.
Proof. unfold put. destruct (list_eq_dec Nat.eq_dec at_ at_); congruence. Qed.
Lemma put_in n at_ f o : agree (n :: at_) (put at_ f o) o.
Proof.
  intros q. unfold put. destruct (list_eq_dec Nat.eq_dec (q ++ n :: at_) at_) as [H|]; auto.
  exfalso. apply (f_equal (@List.length nat)) in H. rewrite app_length in H. cbn in H. lia.
Qed.

(** ** Children *)

Definition reached (e : element) : Prop :=
  (forall at_ ts, element_code e ts -> exists o, perm o /\ expand_element (en o) at_ false e gives ts) /\
  (forall at_ ts, slot_code e ts -> exists o, perm o /\ expand_element (en o) at_ true e gives ts).

Definition slots_wanted (o : order) at_ n l (so : option (list (ident * list tt))) : Prop :=
  match so with None => True | Some slots => Forall2 slot_item (expand_slots (en o) at_ n l) slots end.

(** From the [n]th child on, only the places of those children matter. *)
Lemma later_nodes o o' at_ l : forall n, (forall m, n <= m -> agree (m :: at_) o o') ->
  expand_nodes (en o) at_ n l = expand_nodes (en o') at_ n l.
Proof.
  induction l as [|c l IH]; intros n Ha; auto. destruct c as [v|e|e]; cbn [expand_nodes expand_node].
  - f_equal. apply IH. intros. apply Ha. lia.
  - rewrite (all_settled e o o' (n :: at_) false) by (apply Ha; lia). f_equal. apply IH. intros. apply Ha. lia.
  - apply IH. intros. apply Ha. lia.
Qed.
Lemma later_slots o o' at_ l : forall n, (forall m, n <= m -> agree (m :: at_) o o') ->
  expand_slots (en o) at_ n l = expand_slots (en o') at_ n l.
Proof.
  induction l as [|c l IH]; intros n Ha; auto. destruct c as [v|e|e]; cbn [expand_slots].
  - apply IH. intros. apply Ha. lia.
  - apply IH. intros. apply Ha. lia.
  - rewrite (all_settled e o o' (n :: at_) true) by (apply Ha; lia). f_equal. apply IH. intros. apply Ha. lia.
Qed.

Lemma children_reached at_ l : (forall e, In (CElement e) l -> reached e) -> (forall e, In (CSlot e) l -> reached e) ->
  forall codes so, nodes_code l codes -> match so with None => True | Some slots => slots_code l slots end ->
  forall n, exists o, perm o /\ Forall2 (fun m a => m gives a) (expand_nodes (en o) at_ n l) codes /\ slots_wanted o at_ n l so.
Proof.
  induction l as [|c l IH]; intros H1 H2 codes so Hn Hs n.
  - exists (fun _ ks => ks). inversion Hn; subst. split; [intros p ks; reflexivity|]. split; [constructor|].
    destruct so as [slots|]; [|exact I]. inversion Hs; subst. constructor.
  - assert (IH' := IH (fun e H => H1 e (or_intror H)) (fun e H => H2 e (or_intror H))). clear IH.
    destruct c as [v|e|e].
    + inversion Hn as [|v' ts l' codes' Hv Hr| |]; subst.
      assert (Hs' : match so with None => True | Some slots => slots_code l slots end) by (destruct so; auto; inversion Hs; subst; auto).
      destruct (IH' codes' so Hr Hs' (S n)) as (o & Ho & Hno & Hso). exists o. split; [exact Ho|]. split.
      * cbn [expand_nodes expand_node]. constructor; [|exact Hno]. xgo.
      * destruct so; exact Hso.
    + inversion Hn as [| |e' ts l' codes' Hv Hr|]; subst.
      assert (Hs' : match so with None => True | Some slots => slots_code l slots end) by (destruct so; auto; inversion Hs; subst; auto).
      destruct (IH' codes' so Hr Hs' (S n)) as (o & Ho & Hno & Hso).
      destruct (proj1 (H1 e (or_introl eq_refl)) (n :: at_) ts Hv) as (oe & Hoe & He).
      assert (Hl : forall m, S n <= m -> agree (m :: at_) (join (n :: at_) oe o) o) by (intros; apply join_out; lia).
      exists (join (n :: at_) oe o). split; [now apply join_perm|]. split.
      * cbn [expand_nodes expand_node]. constructor.
        -- rewrite (all_settled e _ oe _ _ (join_in _ _ _)). apply xbind_ok. eexists. split; [exact He|reflexivity].
        -- rewrite (later_nodes _ o); auto.
      * destruct so; [|exact I]. cbn [slots_wanted expand_slots] in *. rewrite (later_slots _ o); auto.
    + inversion Hn as [| | |e' l' codes' Hr]; subst.
      destruct so as [slots|].
      * inversion Hs as [| | |e' i ts l' slots' Ht Hv Hrs]; subst.
        destruct (IH' codes (Some slots') Hr Hrs (S n)) as (o & Ho & Hno & Hso).
        destruct (proj2 (H2 e (or_introl eq_refl)) (n :: at_) ts Hv) as (oe & Hoe & He).
        assert (Hl : forall m, S n <= m -> agree (m :: at_) (join (n :: at_) oe o) o) by (intros; apply join_out; lia).
        exists (join (n :: at_) oe o). split; [now apply join_perm|]. split.
        -- cbn [expand_nodes]. rewrite (later_nodes _ o); auto.
        -- cbn [slots_wanted expand_slots] in *. constructor; [|rewrite (later_slots _ o); auto].
           split; [exact Ht|]. cbn [snd]. rewrite (all_settled e _ oe _ _ (join_in _ _ _)). exact He.
      * destruct (IH' codes None Hr I (S n)) as (o & Ho & Hno & _). exists o. split; [exact Ho|]. split; [exact Hno|exact I].
Qed.

(** ** The slots of one component *)

Definition ident_list_dec := list_eq_dec ident_dec.
Definition send (ks ks' : list ident) : list ident -> list ident := fun l => if ident_list_dec l ks then ks' else l.
Lemma send_perm ks ks' : Permutation ks ks' -> forall l, Permutation l (send ks ks' l).
Proof. intros H l. unfold send. destruct (ident_list_dec l ks) as [->|]; auto. Qed.
Lemma send_at ks ks' : send ks ks' ks = ks'.
Proof. unfold send. destruct (ident_list_dec ks ks); congruence. Qed.

Lemma slot_calls_reached l slots scalls : Forall2 slot_item l slots -> slot_calls slots scalls ->
  exists f, (forall ks, Permutation ks (f ks)) /\ forall o at_, o at_ = f -> slots_to_tokens (en o) at_ l gives (chain scalls).
Proof.
  intros Hl [ord calls Hnd Hin Hc].
  destruct (slot_map_ok slots [] (NoDup_nil _)) as (H1 & H2 & H3). cbn in H2, H3.
  exists (send (map fst (slot_map slots [])) ord). split.
  - apply send_perm. apply NoDup_Permutation; auto. intros i. rewrite H2, Hin. tauto.
  - intros o at_ Ho. unfold slots_to_tokens. apply xbind_ok. eexists. split; [apply collect_ok; eauto|].
    cbn [slot_order]. rewrite Ho, send_at. apply xbind_ok. exists (map call_tokens calls). split; [|reflexivity].
    apply xseq_map_ok. clear - Hc H3. induction Hc as [|k c ord calls Hk Hr IH]; constructor; auto.
    inversion Hk as [i m Hm1 Hm2]; subst. apply slot_method_ok. rewrite H3. eauto.
Qed.

(** The children of a component, its slot calls included. *)
Lemma component_children_reached at_ ch codes slots scalls :
  (forall e, In (CElement e) (child_list ch) -> reached e) -> (forall e, In (CSlot e) (child_list ch) -> reached e) ->
  nodes_code (child_list ch) codes -> slots_code (child_list ch) slots -> slot_calls slots scalls ->
  exists o, perm o /\ Forall2 (fun m a => m gives a) (expand_nodes (en o) at_ 0 (child_list ch)) codes /\
    match option_map (expand_slots (en o) at_ 0) ch with Some l => slots_to_tokens (en o) at_ l | None => xret [] end gives (chain scalls).
Proof.
  intros H1 H2 Hn Hs Hc.
  destruct (children_reached at_ _ H1 H2 codes (Some slots) Hn Hs 0) as (o & Ho & Hno & Hso). cbn [slots_wanted] in Hso.
  destruct (slot_calls_reached _ _ _ Hso Hc) as (f & Hf & Hsl).
  assert (Hl : forall m, 0 <= m -> agree (m :: at_) (put at_ f o) o) by (intros; apply put_in).
  exists (put at_ f o). split; [now apply put_perm|]. split.
  - rewrite (later_nodes _ o); auto.
  - destruct ch as [l|]; cbn [option_map child_list] in *.
    + rewrite (later_slots _ o); auto. apply Hsl. apply put_at.
    + inversion Hs; subst. destruct Hc as [[|i ord] calls Hnd Hin Hc]; [inversion Hc; reflexivity|].
      exfalso. apply (proj1 (Hin i)). now left.
Qed.

Lemma all_reached e : reached e.
Proof.
  induction e as [t sels attrs args ch IHe IHs] using element_children_ind. split; intros at_ ts H.
  - inversion H as [t' ? ? ? ? head kvs dirs codes Hh H1 H2 H3|p ? ? ? ? path props entries clones codes slots scalls H1 H2 H3 H4 H5 H6 H7]; subst.
    + destruct (children_reached at_ _ IHe IHs codes None H3 I 0) as (o & Ho & Hno & _).
      exists o. split; auto. rewrite expand_element_eq. unfold element_tokens.
      destruct (xml_to_tokens t sels attrs (option_map (expand_nodes (en o) at_ 0) ch)) as [x|] eqn:Hx.
      * apply (xml_ok _ _ _ _ _ _ Hx). exists head, kvs, dirs, codes. rewrite nodes_opt. eauto 6.
      * apply xml_none in Hx. destruct Hx as (p & ->). inversion Hh.
    + destruct (component_children_reached at_ _ _ _ _ IHe IHs H5 H6 H7) as (o & Ho & Hno & Hsl).
      exists o. split; auto. rewrite expand_element_eq. unfold element_tokens.
      cbn [xml_to_tokens xml_tag_path]. apply component_ok.
      exists path, props, entries, clones, codes, (chain scalls). rewrite nodes_opt, component_frame_eq.
      repeat split; eauto; discriminate.
  - inversion H as [p ? ? ? path props clones codes slots scalls H1 H2 H3 H4 H5 H6 H7]; subst.
    destruct (component_children_reached at_ _ _ _ _ IHe IHs H5 H6 H7) as (o & Ho & Hno & Hsl).
    exists o. split; auto. rewrite expand_element_eq. unfold element_tokens. apply component_ok.
    exists path, props, [], clones, codes, (chain scalls). rewrite nodes_opt. rewrite H3.
    repeat split; eauto.
Qed.

Lemma root_reached cs ts : root_code cs ts -> exists o, perm o /\ root_tokens (en o) cs gives ts.
Proof.
  intros H. inversion H as [c code Hc Hn|? codes Hl Hs Hn]; subst.
  - destruct (children_reached [] _ (fun e _ => all_reached e) (fun e _ => all_reached e) _ None Hn I 0) as (o & Ho & Hno & _).
    exists o. split; auto. destruct c as [v|e|e]; [| |exfalso; now apply (Hc e)].
    all: inversion Hno as [|m a ? ? Hm _]; subst; cbn [root_tokens]; apply xbind_ok; eexists; (split; [exact Hm|reflexivity]).
  - destruct (children_reached [] _ (fun e _ => all_reached e) (fun e _ => all_reached e) _ None Hn I 0) as (o & Ho & Hno & _).
    exists o. split; auto.
    assert (Hx : existsb is_slot cs = false).
    { destruct (existsb is_slot cs) eqn:Hx; auto. apply is_slot_iff in Hx. destruct Hx as (e & He). exfalso. eapply Hs; eauto. }
    assert (Hr : root_tokens (en o) cs = if existsb is_slot cs then xabort DRootSlot
      else
        l <- xseq (expand_nodes (en o) [] 0 cs) ;;
        xret [TGroup Brace
                ([pu "#"; TGroup Bracket [kw "allow"; par [kw "unused_braces"]]]
                 ++ children_fragment_tokens l)]).
    { destruct cs as [|c [|c' cs]]; auto. now exfalso. }
    rewrite Hr, Hx. apply xbind_ok. exists codes. rewrite xseq_ok. split; auto. rewrite fragment_eq. reflexivity.
Qed.
End Order.
