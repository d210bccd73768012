(** Views that mean the same: trees with the same expansion everywhere, and
    streams whose parses differ only by such trees. *)
From Verif Require Export Context Report.
Open Scope list_scope.

(** ** Trees *)

Definition tag_same (t t' : tag) : Prop :=
  t = t' \/ exists p p', t = TagComponent p /\ t' = TagComponent p' /\ get_ident p = get_ident p'.
Definition elem_same (E : env) (slot : bool) (e e' : element) : Prop :=
  forall at_, expand_element E at_ slot e = expand_element E at_ slot e'.
Inductive child_same (E : env) : child -> child -> Prop :=
| same_refl c : child_same E c c
| same_element e e' : elem_same E false e e' -> child_same E (CElement e) (CElement e')
| same_slot e e' : tag_same (el_tag e) (el_tag e') -> elem_same E true e e' ->
    child_same E (CSlot e) (CSlot e').

Lemma same_list_refl E l : Forall2 (child_same E) l l.
Proof. induction l; constructor; auto. apply same_refl. Qed.

Lemma same_node E at_ c c' : child_same E c c' -> expand_node E at_ c = expand_node E at_ c'.
Proof. intros H. inversion H; subst; auto. cbn [expand_node]. now rewrite (H0 at_). Qed.
Lemma same_nodes E l l' : Forall2 (child_same E) l l' ->
  forall at_ n, expand_nodes E at_ n l = expand_nodes E at_ n l'.
Proof.
  induction 1 as [|c c' l l' Hc Hl IH]; intros at_ n; auto.
  assert (Hn := same_node E (n :: at_) _ _ Hc).
  inversion Hc; subst; cbn [expand_nodes]; [|now rewrite Hn, IH|apply IH].
  destruct c'; now rewrite IH.
Qed.
Lemma collect_same l l' : Forall2 (fun x y => tag_same (fst x) (fst y) /\ snd x = snd y) l l' ->
  forall m, collect_slots l m = collect_slots l' m.
Proof.
  induction 1 as [|[t x] [t' x'] l l' [Ht Hx] Hl IH]; intros m; auto. cbn [fst snd] in *. subst x'.
  cbn [collect_slots]. destruct Ht as [<-|(p & p' & -> & -> & Hp)].
  - destruct t; auto. destruct (get_ident p); [|now rewrite IH].
    destruct x as [[ts| |w] d]; auto. cbn [xbind]. now rewrite IH.
  - rewrite Hp. destruct (get_ident p'); [|now rewrite IH].
    destruct x as [[ts| |w] d]; auto. cbn [xbind]. now rewrite IH.
Qed.
Lemma same_slots E l l' : Forall2 (child_same E) l l' -> forall at_ n,
  Forall2 (fun x y => tag_same (fst x) (fst y) /\ snd x = snd y)
    (expand_slots E at_ n l) (expand_slots E at_ n l').
Proof.
  assert (Hrefl : forall x : tag * X (list tt), tag_same (fst x) (fst x) /\ snd x = snd x)
    by (intros; split; auto; now left).
  induction 1 as [|c c' l l' Hc Hl IH]; intros at_ n; [constructor|].
  inversion Hc; subst; cbn [expand_slots]; auto.
  - destruct c'; auto.
  - constructor; auto. cbn. auto.
Qed.
Lemma slots_tokens_same E at_ l l' :
  Forall2 (fun x y => tag_same (fst x) (fst y) /\ snd x = snd y) l l' ->
  slots_to_tokens E at_ l = slots_to_tokens E at_ l'.
Proof. intros H. unfold slots_to_tokens. now rewrite (collect_same _ _ H). Qed.

(** Elements with the same children, up to the relation. *)
Lemma same_children E slot t sels attrs args cs cs' : Forall2 (child_same E) cs cs' ->
  elem_same E slot (Element t sels attrs args (Some cs)) (Element t sels attrs args (Some cs')).
Proof.
  intros H at_. rewrite !expand_element_eq. cbn [option_map].
  rewrite (same_nodes E _ _ H at_ 0). unfold element_tokens, component_to_tokens.
  now rewrite (slots_tokens_same E at_ _ _ (same_slots E _ _ H at_ 0)).
Qed.
Lemma same_as_child E slot t sels attrs args cs cs' : Forall2 (child_same E) cs cs' ->
  child_same E (as_child slot (Element t sels attrs args (Some cs)))
               (as_child slot (Element t sels attrs args (Some cs'))).
Proof.
  intros H. destruct slot; [apply same_slot|apply same_element]; try now apply same_children. now left.
Qed.
Lemma same_is_slot E l l' : Forall2 (child_same E) l l' -> existsb is_slot l = existsb is_slot l'.
Proof. induction 1 as [|c c' l l' Hc Hl IH]; auto. cbn. rewrite IH. f_equal. inversion Hc; auto. Qed.

(** The macro only sees the expansions. *)
Lemma root_same E cs cs' : Forall2 (child_same E) cs cs' -> root_tokens E cs = root_tokens E cs'.
Proof.
  intros H.
  assert (Hg : (if existsb is_slot cs then xabort DRootSlot else
      xbind (xseq (expand_nodes E [] 0 cs)) (fun l => xret [TGroup Brace
                ([pu "#"; TGroup Bracket [kw "allow"; par [kw "unused_braces"]]]
                 ++ children_fragment_tokens l)])) =
      (if existsb is_slot cs' then xabort DRootSlot else
      xbind (xseq (expand_nodes E [] 0 cs')) (fun l => xret [TGroup Brace
                ([pu "#"; TGroup Bracket [kw "allow"; par [kw "unused_braces"]]]
                 ++ children_fragment_tokens l)]))).
  { rewrite (same_is_slot _ _ _ H), (same_nodes E _ _ H [] 0). reflexivity. }
  unfold root_tokens. destruct H as [|c c' l l' Hc Hl]; auto.
  destruct Hl as [|c2 c2' l l' Hc2 Hl]; [|exact Hg].
  pose proof (same_node E [0] _ _ Hc) as Hn. inversion Hc; subst; auto. now rewrite Hn.
Qed.

(** ** Streams *)

(** The second result has the diagnostics [extra] in addition. *)
Inductive sim (E : env) (extra : list diag) : pres (list child) -> pres (list child) -> Prop :=
| sim_ret cs cs' d d' : Forall2 (child_same E) cs cs' ->
    sim E extra (PR (Ret cs) [] (d ++ d')) (PR (Ret cs') [] (d ++ extra ++ d'))
| sim_abort r r' d d' : sim E extra (PR Abort r (d ++ d')) (PR Abort r' (d ++ extra ++ d'))
| sim_panic w r r' d d' : sim E extra (PR (Panic w) r (d ++ d')) (PR (Panic w) r' (d ++ extra ++ d')).

Lemma sim_refl E ts : env_ok E -> sim E [] (children_of E ts) (children_of E ts).
Proof.
  intros HE. destruct (children_of_cases E ts HE) as [(cs & d & ->)|[(r & d & -> & _)|(w & r & d & ->)]];
    [apply (sim_ret E [] cs cs [] d), same_list_refl|apply (sim_abort E [] r r [] d)|apply (sim_panic E [] w r r [] d)].
Qed.
(** The additional diagnostics come first. *)
Lemma sim_here E ts extra : env_ok E -> sim E extra (children_of E ts) (prepend extra (children_of E ts)).
Proof.
  intros HE. destruct (children_of_cases E ts HE) as [(cs & d & ->)|[(r & d & -> & _)|(w & r & d & ->)]];
    [apply (sim_ret E extra cs cs [] d), same_list_refl|apply (sim_abort E extra r r [] d)|apply (sim_panic E extra w r r [] d)].
Qed.
Lemma sim_append E extra cs x x' : sim E extra x x' -> sim E extra (append_to cs x) (append_to cs x').
Proof.
  intros []; constructor. apply Forall2_app; auto. apply same_list_refl.
Qed.
Lemma sim_cons E extra c c' x x' d : child_same E c c' -> sim E extra x x' ->
  sim E extra (prepend d (cons_child c x)) (prepend d (cons_child c' x')).
Proof.
  intros Hc [cs cs' a b Hcs|r r' a b|w r r' a b]; unfold prepend; cbn [cons_child p_out p_rest p_diags]; rewrite (app_assoc d a b), (app_assoc d a (extra ++ b));
    constructor. now constructor.
Qed.
(** The same rest after a block. *)
Lemma sim_block E extra c c' d d' x : child_same E c c' -> sim E [] x x ->
  sim E extra (prepend (d ++ d') (cons_child c x)) (prepend (d ++ extra ++ d') (cons_child c' x)).
Proof.
  intros Hc H. inversion H; subst; unfold prepend; cbn [cons_child p_out p_rest p_diags app] in *; rewrite <- !app_assoc; constructor.
  constructor; auto.
Qed.

Lemma mview_sim E a b : env_ok E -> sim E [] (children_of E a) (children_of E b) -> mview E a = mview E b.
Proof.
  intros HE H. unfold mview. fold (children_of E a). fold (children_of E b).
  inversion H as [cs cs' d d' Hcs| |]; auto. now rewrite (root_same E _ _ Hcs).
Qed.
Lemma mview_more E extra a b : env_ok E -> extra <> [] -> sim E extra (children_of E a) (children_of E b) ->
  more extra (mview E a) (mview E b).
Proof.
  intros HE Hx H. unfold mview. fold (children_of E a). fold (children_of E b).
  inversion H as [cs cs' d d' Hcs| |]; [|constructor|constructor].
  rewrite (root_same E _ _ Hcs). destruct (root_tokens E cs') as [[ts| |w] ds]; [| |constructor].
  - rewrite <- !app_assoc. destruct (d ++ d' ++ ds) as [|x l] eqn:Hd.
    + apply app_nil_inv in Hd. destruct Hd as [-> Hd]. rewrite Hd. cbn. rewrite app_nil_r.
      destruct extra; [congruence|]. constructor.
    + rewrite <- Hd. destruct (d ++ extra ++ d' ++ ds) eqn:Hd2; [|rewrite <- Hd2; constructor].
      apply app_nil_inv in Hd2. destruct Hd2 as [_ Hd2]. apply app_nil_inv in Hd2. tauto.
  - rewrite <- !app_assoc. constructor.
Qed.

(** Replacing what is at a place by something that is read alike. *)
Lemma plug_sim E extra k : env_ok E -> forall x x', fits E k x -> fits E k x' ->
  wf (plug k x) -> wf (plug k x') ->
  sim E extra (children_of E x) (children_of E x') ->
  sim E extra (children_of E (plug k x)) (children_of E (plug k x')).
Proof.
  intros HE. induction k as [|k IH pre slot u args d post]; intros x x' Hf Hf' Hwf Hwf' Hs;
    cbn [plug fits] in *; auto.
  destruct Hf as ((cs & Hp) & (t & sels & attrs & Hh) & Ho & Ha & Hd & Hk).
  destruct Hf' as (_ & (t' & sels' & attrs' & Hh') & Ho' & _ & _ & Hk').
  apply IH; auto.
  assert (H1 := plug_wf _ _ Hwf). assert (H1' := plug_wf _ _ Hwf').
  (* the heads agree *)
  assert (Hh2 : elem_head E u t sels attrs (args_tokens args ++ TGroup d x' :: post)).
  { eapply (upto_head (m := Narrow)); [auto|discriminate| |apply args_not_op| |exact Hh].
    - apply upto_app, up_stop, ss_group. tauto.
    - intros _. apply head_open in Hh'. tauto. }
  rewrite (at_block E pre cs slot u t sels attrs args d x post); auto.
  rewrite (at_block E pre cs slot u t sels attrs args d x' post); auto.
  apply sim_append. inversion Hs; try constructor.
  apply sim_block; [now apply same_as_child|now apply sim_refl].
Qed.

Lemma mview_plug E k x x' : env_ok E -> fits E k x -> fits E k x' ->
  wf (plug k x) -> wf (plug k x') ->
  sim E [] (children_of E x) (children_of E x') -> mview E (plug k x) = mview E (plug k x').
Proof. intros. apply mview_sim; auto. now apply plug_sim. Qed.
Lemma more_plug E extra k x x' : env_ok E -> extra <> [] -> fits E k x -> fits E k x' ->
  wf (plug k x) -> wf (plug k x') ->
  sim E extra (children_of E x) (children_of E x') -> more extra (mview E (plug k x)) (mview E (plug k x')).
Proof. intros. apply mview_more; auto. now apply plug_sim. Qed.

(** A diagnostic reported at the place, or a failure to return, rules out an
    expansion. *)
Lemma mview_spoiled E k x : env_ok E -> fits E k x -> wf (plug k x) ->
  (forall cs, children_of E x <> PR (Ret cs) [] []) -> forall out, mview E (plug k x) <> Expanded out.
Proof.
  intros HE Hf Hwf Hx out Hm. destruct (plug_diags E k HE x Hf Hwf) as ((more & Hd) & Hret & _).
  unfold mview in Hm. fold (children_of E (plug k x)) in Hm.
  destruct (children_of E (plug k x)) as [[cs| | | |] r d] eqn:Hp; try discriminate.
  destruct (Hret cs r d eq_refl) as (cs' & r' & d' & Hx').
  destruct (root_tokens E cs) as [[ts| |w] ds]; try discriminate.
  destruct (d ++ ds) eqn:Hds; [|discriminate]. apply app_nil_inv in Hds. destruct Hds; subst.
  cbn [p_diags] in Hd. symmetry in Hd. apply app_nil_inv in Hd. destruct Hd as [Hd _].
  destruct (children_of_cases E x HE) as [(c2 & d2 & H2)|[(r2 & d2 & H2 & _)|(w & r2 & d2 & H2)]];
    rewrite H2 in *; try discriminate. cbn [p_diags] in Hd. subst d2. now apply (Hx c2).
Qed.

(** A diagnostic at the place is reported. *)
Lemma mview_reports E k x dg : env_ok E -> fits E k x -> wf (plug k x) ->
  In dg (p_diags (children_of E x)) -> reports E (plug k x) dg.
Proof.
  intros HE Hf Hwf Hin. destruct (plug_diags E k HE x Hf Hwf) as ((more & Hd) & _ & _).
  assert (Hin' : In dg (p_diags (children_of E (plug k x)))) by (rewrite Hd; apply in_or_app; auto).
  unfold reports, mview. fold (children_of E (plug k x)).
  destruct (children_of_cases E (plug k x) HE) as [(c2 & d2 & H2)|[(r2 & d2 & H2 & _)|(w & r2 & d2 & H2)]];
    rewrite H2 in *; cbn [p_diags] in Hin'.
  - destruct (root_tokens E c2) as [[ts| |w] ds]; auto.
    + destruct (d2 ++ ds) eqn:Hds; [apply app_nil_inv in Hds; destruct Hds; subst; destruct Hin'|].
      rewrite <- Hds. apply in_or_app. auto.
    + apply in_or_app. auto.
  - exact Hin'.
  - exact I.
Qed.
