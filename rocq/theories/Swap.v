(** Replacing one piece of syntax by another at a place in a view. *)
From Verif Require Export Same.
Open Scope list_scope.

(** ** The start of a child *)

Definition quiet (t : tt) : Prop := ~ punct ":" t /\ match t with TGroup d _ => d <> Bracket | _ => True end.
Lemma name_start_quiet t : name_start t -> quiet t.
Proof.
  intros [H|[sp ->]].
  - destruct t; try contradiction. split; auto. intros [sp Hx]. discriminate.
  - split; auto. intros [sp' Hx]. discriminate.
Qed.
Lemma brace_quiet x : quiet (TGroup Brace x).
Proof. split; [intros [sp H]; discriminate|discriminate]. Qed.

Lemma slot_swap u x f x' f' : u <> [] -> quiet x -> quiet x' ->
  slot_prefix (u ++ x :: f) -> slot_prefix (u ++ x' :: f').
Proof.
  intros Hu [Hx _] [Hx' _] (sp & r & Heq & Hn). destruct u as [|a [|b u]]; [congruence| |].
  - inversion Heq; subst. destruct Hx. now exists sp.
  - inversion Heq; subst. exists sp, (u ++ x' :: f'). split; auto.
    intros [-> Hp]. apply Hn. split; auto. destruct u; cbn in *; auto. now destruct Hx'.
Qed.
Lemma value_swap i u x f x' f' : quiet x -> quiet x' ->
  (exists v ts r, TIdent i :: u ++ x :: f = ts ++ r /\ value_phrase ts v r) ->
  exists v ts r, TIdent i :: u ++ x' :: f' = ts ++ r /\ value_phrase ts v r.
Proof.
  intros [_ Hx] [_ Hx'] (v & ts & r & Heq & Hv).
  assert (Hb : next_group Bracket (u ++ x :: f) <-> next_group Bracket (u ++ x' :: f')).
  { destruct u; cbn; [|tauto]. destruct x, x'; tauto. }
  inversion Hv; subst; inversion Heq; subst.
  - exists (VLit (LitBool true)), [TIdent (Id false "true")], (u ++ x' :: f'). split; auto. constructor. tauto.
  - exists (VLit (LitBool false)), [TIdent (Id false "false")], (u ++ x' :: f'). split; auto. constructor. tauto.
  - destruct u as [|y u]; cbn in *.
    + inversion Heq; subst. now destruct Hx.
    + inversion Heq; subst. eexists _, [_; _], _. split; [reflexivity|constructor].
Qed.
Lemma opens_swap slot u x f x' f' : u <> [] -> quiet x -> quiet x' ->
  opens slot (u ++ x :: f) -> opens slot (u ++ x' :: f').
Proof.
  intros Hu Hx Hx'. unfold opens. destruct slot as [sp|].
  - intros H. rewrite app_assoc in *. eapply slot_swap; [|exact Hx|exact Hx'|exact H]. discriminate.
  - intros (H1 & H2 & H3). destruct u as [|a u]; [congruence|]. cbn in H1. destruct a as [i| | |]; try contradiction.
    split; [exact I|]. split.
    + intros H. apply H2. eapply slot_swap; [| | |exact H]; auto.
    + intros H. apply H3. eapply value_swap; [| |exact H]; auto.
Qed.
Lemma opens_starts slot ts : opens slot ts -> exists i r, slot_tokens slot ++ ts = TIdent i :: r.
Proof.
  destruct slot as [sp|]; cbn; [eauto|]. intros [H _]. destruct ts as [|[i| | |] ts]; try contradiction. eauto.
Qed.

(** ** Blocks of children *)

Definition breaks_name (z : tt) : Prop :=
  match z with TPunct c _ => c <> "-"%char | TGroup _ _ => True | TLit k _ => k <> LkInt | TIdent _ => False end.
Lemma run_breaks z a r b e : breaks_name z -> ~ run b (a ++ z :: r) e.
Proof.
  intros Hz. revert b. induction a as [|t a IH]; intros b H; cbn in *; inversion H; subst; cbn in *; try congruence; try contradiction; eapply IH; eauto.
Qed.
Lemma name_breaks z a r : breaks_name z -> ~ name_phrase (a ++ z :: r).
Proof.
  intros Hz H. destruct a as [|t a]; cbn in H; inversion H; subst; cbn in *; try congruence; try contradiction; eapply run_breaks; eauto.
Qed.
Lemma name_before z a r ts r0 : breaks_name z -> a ++ z :: r = ts ++ r0 -> name_phrase ts -> exists l, a = ts ++ l.
Proof.
  intros Hz Heq Hn. apply app_eq_app in Heq. destruct Heq as (l & [[-> H]|[-> H]]).
  - eauto.
  - destruct l as [|y l]; [exists []; now rewrite !app_nil_r|].
    cbn in H. inversion H; subst. exfalso. eapply name_breaks; eauto.
Qed.
(** What comes after a token that cannot be part of a name does not matter,
    and it only gets better by inserting one. *)
Lemma block_break a b z r : breaks_name z -> (next_ident (a ++ [z]) \/ ~ next_punct "." (a ++ [z])) ->
  children_block (a ++ b) -> children_block (a ++ z :: r).
Proof.
  intros Hz Hd (H1 & H2 & H3). split; [now apply name_breaks|]. split.
  - intros (sp & r0 & Heq). destruct a as [|x a]; cbn in *.
    + inversion Heq; subst. destruct Hd as [[]|Hd]; apply Hd. now eexists.
    + inversion Heq; subst. destruct Hd as [[]|Hd]; apply Hd. now eexists.
  - intros ts r0 Heq Hn. destruct (name_before _ _ _ _ _ Hz Heq Hn) as [l ->].
    apply (H3 ts (l ++ b)); auto. now rewrite app_assoc.
Qed.
Lemma children_start E pre cs : children_phrase E pre cs -> pre <> [] ->
  exists x r, pre = x :: r /\ ~ punct "." x.
Proof.
  intros H Hne. inversion H; subst; [congruence|].
  assert (Hx : exists x r, ts = x :: r /\ ~ punct "." x).
  { inversion H0; subst.
    - inversion H2; subst; eexists _, _; (split; [reflexivity|]); intros [sp' Hs]; discriminate.
    - destruct ts as [|[] ts]; try contradiction. eexists _, _. split; [reflexivity|]. intros [? ?]; discriminate.
    - eexists _, _. split; [reflexivity|]. intros [? ?]; discriminate. }
  destruct Hx as (x & r & -> & Hx). exists x, (r ++ ts'). auto.
Qed.
Lemma place_start E pre cs slot ts l : children_phrase E pre cs -> opens slot ts ->
  ~ next_punct "." ((pre ++ slot_tokens slot ++ ts) ++ l).
Proof.
  intros Hp Ho. destruct pre as [|x pre].
  - destruct (opens_starts _ _ Ho) as (i & r & Heq). cbn. rewrite Heq. intros [sp Hs]. discriminate.
  - destruct (children_start _ _ _ Hp) as (y & r & Heq & Hy); [discriminate|]. inversion Heq; subst. exact Hy.
Qed.

(** ** Attributes *)

Definition from_attrs E slot t sels attrs : P child :=
  (e <- (l <- parse_attrs ;; element_tail (children_of E) t sels (attrs ++ l)) ;; ret (as_child slot e))%parse.
Lemma at_attrs E pre cs slot u t sels attrs x : env_ok E -> children_phrase E pre cs ->
  opens slot (u ++ x) -> wf (pre ++ slot_tokens slot ++ u ++ x) -> open_head E u t sels attrs x ->
  children_of E (pre ++ slot_tokens slot ++ u ++ x) =
  append_to cs (child_result E (from_attrs E slot t sels attrs x)).
Proof.
  intros HE Hp Ho Hwf Hh. rewrite (at_element E pre cs slot (u ++ x)); auto. unfold from_attrs. f_equal. f_equal.
  unfold bind at 1. rewrite (element_open E _ u t sels attrs x); auto. rewrite !wf_app in *. tauto.
Qed.
Lemma at_attrs_bare E slot u t sels attrs x : env_ok E ->
  opens slot (u ++ x) -> wf (slot_tokens slot ++ u ++ x) -> open_head E u t sels attrs x ->
  children_of E (slot_tokens slot ++ u ++ x) = child_result E (from_attrs E slot t sels attrs x).
Proof.
  intros HE Ho Hwf Hh. pose proof (at_attrs E [] [] slot u t sels attrs x HE (ch_nil E) Ho Hwf Hh) as Heq.
  cbn [app] in Heq. rewrite Heq. destruct (child_result _ _) as [[]]; reflexivity.
Qed.

Definition more_diags {A} (d : list diag) (x : pres A) : pres A := PR (p_out x) (p_rest x) (d ++ p_diags x).
Lemma more_bind {A B} d (m m' : P A) (f : A -> P B) ts ts' :
  m' ts' = more_diags d (m ts) -> bind m' f ts' = more_diags d (bind m f ts).
Proof.
  intros H. unfold bind. rewrite H. destruct (m ts) as [[a|e| |w|] r d0]; cbn; auto.
  unfold more_diags. destruct (f a r) as [[b|e| |w|] r' d']; cbn; now rewrite app_assoc.
Qed.
Lemma more_result E d x : child_result E (more_diags d x) = prepend d (child_result E x).
Proof.
  destruct x as [[c|e| |w|] r d0]; cbn; auto.
  - unfold prepend. cbn. now rewrite app_assoc.
  - destruct (peek_punct ";" r); unfold prepend; cbn; now rewrite !app_assoc.
Qed.
Lemma attrs_first x a r d : parse_attr x = PR (Ret a) r d ->
  parse_attrs x = more_diags d ((l <- parse_attrs ;; ret (a :: l))%parse r).
Proof.
  intros H. rewrite attrs_eq. unfold bind at 1, rollback_err. rewrite H. cbn beta iota zeta.
  unfold more_diags. now destruct ((l <- parse_attrs ;; ret (a :: l))%parse r).
Qed.

(** The first attribute after the place is read as the same, with [extra]
    diagnostics. *)
Lemma swap_one E extra k pre slot u x x' t sels attrs a r : env_ok E ->
  at_attr E k pre slot u x -> at_attr E k pre slot u x' ->
  wf (attr_place k pre slot u x) -> wf (attr_place k pre slot u x') ->
  open_head E u t sels attrs x -> open_head E u t sels attrs x' ->
  parse_attr x = PR (Ret a) r [] -> parse_attr x' = PR (Ret a) r extra ->
  sim E extra (children_of E (attr_place k pre slot u x)) (children_of E (attr_place k pre slot u x')).
Proof.
  intros HE ((cs & Hp) & _ & Ho & Hf) (_ & _ & Ho' & Hf') Hwf Hwf' Hh Hh' Ha Ha'.
  unfold attr_place in *. apply plug_sim; auto.
  apply plug_wf in Hwf, Hwf'.
  rewrite (at_attrs E pre cs slot u t sels attrs x); auto. rewrite (at_attrs E pre cs slot u t sels attrs x'); auto.
  apply sim_append.
  assert (Heq : from_attrs E slot t sels attrs x' = more_diags extra (from_attrs E slot t sels attrs x)).
  { unfold from_attrs. apply more_bind, more_bind. rewrite (attrs_first _ _ _ _ Ha), (attrs_first _ _ _ _ Ha').
    destruct ((l <- parse_attrs ;; ret (a :: l))%parse r); reflexivity. }
  rewrite Heq, more_result. rewrite <- at_attrs_bare with (u := u); auto.
  - now apply sim_here.
  - rewrite !wf_app in *. tauto.
Qed.
(** The attributes are read the same, with whatever result. *)
Lemma bind_at {A B} (m m' : P A) (f : A -> P B) ts ts' : m ts = m' ts' -> bind m f ts = bind m' f ts'.
Proof. intros H. unfold bind. now rewrite H. Qed.
Lemma swap_same E k pre slot u x x' t sels attrs : env_ok E ->
  at_attr E k pre slot u x -> at_attr E k pre slot u x' ->
  wf (attr_place k pre slot u x) -> wf (attr_place k pre slot u x') ->
  open_head E u t sels attrs x -> open_head E u t sels attrs x' ->
  parse_attrs x = parse_attrs x' ->
  mview E (attr_place k pre slot u x) = mview E (attr_place k pre slot u x').
Proof.
  intros HE ((cs & Hp) & _ & Ho & Hf) (_ & _ & Ho' & Hf') Hwf Hwf' Hh Hh' Ha.
  unfold attr_place in *. apply mview_plug; auto.
  apply plug_wf in Hwf, Hwf'.
  assert (Heq : children_of E (pre ++ slot_tokens slot ++ u ++ x') = children_of E (pre ++ slot_tokens slot ++ u ++ x)).
  { rewrite (at_attrs E pre cs slot u t sels attrs x); auto. rewrite (at_attrs E pre cs slot u t sels attrs x'); auto.
    do 2 f_equal. unfold from_attrs. apply bind_at, bind_at. auto. }
  rewrite Heq. now apply sim_refl.
Qed.
(** For that it is enough that the first one is. *)
Lemma attrs_same x x' : parse_attr x = parse_attr x' -> (forall e r d, parse_attr x <> PR (Fail e) r d) ->
  parse_attrs x = parse_attrs x'.
Proof.
  intros H Hn. rewrite attrs_eq, (attrs_eq x'). apply bind_at. unfold rollback_err. rewrite <- H.
  destruct (parse_attr x) as [[]]; auto. exfalso. eapply Hn; eauto.
Qed.

(** ** Where the attribute starts does not matter for what precedes it *)

Lemma head_nonempty E u t sels attrs f : open_head E u t sels attrs f -> u <> [].
Proof.
  intros (ts1 & ts2 & ts3 & -> & H & _). apply tag_nonempty in H. destruct ts1; [congruence|discriminate].
Qed.
Lemma tag_open_nonempty E u t sels f : open_tag E u t sels f -> u <> [].
Proof.
  intros (ts1 & ts2 & -> & H & _). apply tag_nonempty in H. destruct ts1; [congruence|discriminate].
Qed.
Lemma start_not_op x f : quiet x -> ~ next_op ":" ":" (x :: f).
Proof. intros [Hx _] (sp & r & Heq). inversion Heq; subst. apply Hx. now eexists. Qed.
(** [x] and [x'] are starts of attributes and [m] relates them. *)
Lemma at_attr_swap E k pre slot u m x f x' f' : env_ok E -> forward m -> same_stop m x x' ->
  quiet x -> quiet x' ->
  (bare_brace k -> children_block (pre ++ slot_tokens slot ++ u ++ x :: f) -> children_block (pre ++ slot_tokens slot ++ u ++ x' :: f')) ->
  at_attr E k pre slot u (x :: f) ->
  at_attr E k pre slot u (x' :: f') /\
  exists t sels attrs, open_head E u t sels attrs (x :: f) /\ open_head E u t sels attrs (x' :: f').
Proof.
  intros HE Hm Hs Hx Hx' Hb (Hp & (t & sels & attrs & Hh) & Ho & Hf).
  assert (Hh' : open_head E u t sels attrs (x' :: f')).
  { eapply upto_open; [auto|exact Hm| | |exact Hh]; [now apply up_stop|now apply start_not_op]. }
  split; [|eauto 6]. split; auto. split; [eauto|]. split.
  - eapply opens_swap; [|exact Hx|exact Hx'|exact Ho]. eapply head_nonempty; eauto.
  - eapply fits_swap; [auto|exact Hf|]. intros Hbb. apply Hb; auto.
    destruct k as [|k pre' slot' u' [[[]]|] d' post']; try contradiction. destruct d'; try contradiction.
    cbn [fits] in Hf. destruct Hf as (_ & (t' & sels' & attrs' & Hh2) & _).
    apply head_open in Hh2. apply Hh2.
Qed.

Lemma place_block E k pre slot u a b z r : at_attr E k pre slot u (a ++ b) -> u <> [] -> breaks_name z ->
  children_block (pre ++ slot_tokens slot ++ u ++ a ++ b) ->
  children_block (pre ++ slot_tokens slot ++ u ++ a ++ z :: r).
Proof.
  intros ((cs & Hp) & _ & Ho & _) Hu Hz H.
  replace (pre ++ slot_tokens slot ++ u ++ a ++ z :: r) with ((pre ++ slot_tokens slot ++ u ++ a) ++ z :: r)
    by now rewrite <- !app_assoc.
  replace (pre ++ slot_tokens slot ++ u ++ a ++ b) with ((pre ++ slot_tokens slot ++ u ++ a) ++ b) in H
    by now rewrite <- !app_assoc.
  apply (block_break _ b); auto. right. rewrite <- !app_assoc.
  pose proof (place_start E pre cs slot _ [] Hp Ho) as Hs. rewrite app_nil_r in Hs.
  destruct pre; [|exact Hs]. cbn [app] in *. destruct slot; [exact Hs|]. cbn [slot_tokens app] in *.
  destruct u; [congruence|exact Hs].
Qed.
(** The attributes before the place are the same if it still starts with the
    same token of a name, ... *)
Lemma at_attr_break E k pre slot u x a b z r : env_ok E -> name_start x -> breaks_name z ->
  at_attr E k pre slot u (x :: a ++ b) ->
  at_attr E k pre slot u (x :: a ++ z :: r) /\
  exists t sels attrs, open_head E u t sels attrs (x :: a ++ b) /\ open_head E u t sels attrs (x :: a ++ z :: r).
Proof.
  intros HE Hx Hz Hat. assert (Hq := name_start_quiet _ Hx).
  apply (at_attr_swap E k pre slot u Wide x (a ++ b) x (a ++ z :: r)); auto.
  - discriminate.
  - apply ss_same; auto. destruct Hx as [Hx|[sp' ->]]; [destruct x; try contradiction; exact I|reflexivity].
  - intros _ H. assert (Hu : u <> []) by (destruct Hat as (_ & (? & ? & ? & Hh) & _); eapply head_nonempty; eauto).
    now apply (place_block E k pre slot u (x :: a) b z r).
Qed.
(** ... and a braced group is as good as a name. *)
Lemma at_attr_group E k pre slot u x a g r : env_ok E -> name_start x ->
  at_attr E k pre slot u (x :: a) ->
  at_attr E k pre slot u (TGroup Brace g :: r) /\
  exists t sels attrs, open_head E u t sels attrs (x :: a) /\ open_head E u t sels attrs (TGroup Brace g :: r).
Proof.
  intros HE Hx Hat. assert (Hq := name_start_quiet _ Hx).
  apply (at_attr_swap E k pre slot u Into x a (TGroup Brace g) r); auto.
  - discriminate.
  - now apply ss_into.
  - apply brace_quiet.
  - intros _ H. assert (Hu : u <> []) by (destruct Hat as (_ & (? & ? & ? & Hh) & _); eapply head_nonempty; eauto).
    now apply (place_block E k pre slot u [] (x :: a) (TGroup Brace g) r).
Qed.
Lemma place_inner k pre slot u x : wf (attr_place k pre slot u x) -> wf x.
Proof. unfold attr_place. intros H. apply plug_wf in H. rewrite !wf_app in H. tauto. Qed.
Lemma place_wf k pre slot u x x' : wf (attr_place k pre slot u x) -> wf x' -> wf (attr_place k pre slot u x').
Proof.
  unfold attr_place. intros H Hx. eapply plug_wf_iff; [exact H|]. apply plug_wf in H. rewrite !wf_app in *. tauto.
Qed.
