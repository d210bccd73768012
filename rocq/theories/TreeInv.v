(** A property that every tag, selector, attribute, closure arguments and child
    value has when it is read holds everywhere in the trees the parser builds,
    errors or not. *)
From Verif Require Export ParseInv.
Open Scope list_scope.

Section TreeInv.
Variables (Qt : tag -> Prop) (Qs : selector -> Prop) (Qa : attr -> Prop) (Qr : list tt -> Prop) (Qv : value -> Prop).

Inductive tree : child -> Prop :=
| tree_value v : Qv v -> tree (CValue v)
| tree_element e : tree_elem e -> tree (CElement e)
| tree_slot e : tree_elem e -> tree (CSlot e)
with tree_elem : element -> Prop :=
| tree_elem_intro t sels attrs args ch : Qt t -> Forall Qs sels -> Forall Qa attrs ->
    (forall a, args = Some a -> Qr a) ->
    (forall c, In c (child_list ch) -> tree c) ->
    tree_elem (Element t sels attrs args ch).

(** The streams considered; the parsers of the parts establish the properties on them. *)
Variable E : env.
Variable L : list tt -> Prop.
Hypothesis L_suffix : forall r ts, suffix r ts -> L ts -> L r.
Hypothesis L_group : forall d inner ts, In (TGroup d inner) ts -> L ts -> L inner.
Hypothesis Ht : forall ts t r d, L ts -> parse_tag E ts = PR (Ret t) r d -> Qt t.
Hypothesis Hs : forall ts s r d, L ts -> parse_selector ts = PR (Ret s) r d -> Qs s.
Hypothesis Ha : forall ts a r d, L ts -> parse_attr ts = PR (Ret a) r d -> Qa a.
Hypothesis Hr : forall ts a r d, L ts -> parse_closure_args ts = PR (Ret a) r d -> Qr a.
Hypothesis Hv : forall ts v r d, L ts -> parse_value ts = PR (Ret v) r d ->
  (forall l, v = VLit l -> exists s, l = LitTok LkStr s) -> Qv v.
Hypothesis Hempty : Qv (VLit (LitTok LkStr "")).
Hypothesis HE : env_ok E.

Lemma many_all {A} (m : P A) (Q : A -> Prop) : (forall ts, fine ts (m ts)) ->
  (forall ts a r d, L ts -> m ts = PR (Ret a) r d -> Q a) ->
  forall n ts l r d, L ts -> many n m ts = PR (Ret l) r d -> Forall Q l.
Proof.
  intros Hf Hm. induction n as [|n IH]; intros ts l r d HL H; cbn [many] in H; [discriminate|].
  apply bind_ret_inv in H. destruct H as (o & r1 & d1 & d2 & H1 & H & _).
  unfold rollback_err in H1. pose proof (Hf ts) as Hs'. destruct (m ts) as [[a|e| |w|] r0 d0] eqn:Hx; inversion H1; subst.
  - apply bind_ret_inv in H. destruct H as (l' & r2 & d3 & d4 & H2 & H & _). inversion H; subst.
    constructor; [eapply Hm; eauto|]. apply fine_suffix in Hs'. cbn in Hs'. apply (IH r1 l' r d3); eauto.
  - inversion H; subst. constructor.
Qed.
Lemma delimited_ret_inv {A} dl (m : P A) ts a r d : delimited dl m ts = PR (Ret a) r d ->
  exists inner, In (TGroup dl inner) ts /\ m inner = PR (Ret a) [] d.
Proof.
  unfold delimited. destruct ts as [|[| | |d' inner] ts]; try discriminate. destruct (delim_eqb dl d') eqn:Hd; [|discriminate].
  destruct (m inner) as [[x|e| |w|] [|z rr] dd] eqn:Hx; try discriminate. intros H. inversion H; subst. exists inner.
  split; auto. left. destruct dl, d'; try discriminate; reflexivity.
Qed.
Definition pc_tree (pc : P (list child)) (ts : list tt) : Prop :=
  forall dl inner, In (TGroup dl inner) ts -> forall cs r d, pc inner = PR (Ret cs) r d -> Forall tree cs.
Lemma pc_tree_suffix pc r ts : suffix r ts -> pc_tree pc ts -> pc_tree pc r.
Proof. intros Hs' H dl inner Hin. eapply H, suffix_in; eauto. Qed.

Lemma element_tree (pc : P (list child)) ts : pc_tree pc ts -> L ts ->
  forall e r d, parse_element E pc ts = PR (Ret e) r d -> tree_elem e.
Proof.
  intros Hpc HL e r d H. rewrite parse_element_eq in H.
  apply bind_ret_inv in H. destruct H as (t & r1 & d1 & ? & H1 & H & _).
  assert (S1 := fine_after _ _ _ _ _ (fine_tag E ts HE) H1).
  apply bind_ret_inv in H. destruct H as (sels & r2 & d2 & ? & H2 & H & _).
  assert (S2 := suffix_trans _ _ _ (fine_after _ _ _ _ _ (fine_selectors r1) H2) S1).
  apply bind_ret_inv in H. destruct H as (attrs & r3 & d3 & d3' & H3 & H & _).
  assert (S3 := suffix_trans _ _ _ (fine_after _ _ _ _ _ (fine_attrs r2) H3) S2).
  apply Ht in H1; auto. apply (many_all _ _ fine_selector Hs) in H2; eauto. apply (many_all _ _ fine_attr Ha) in H3; eauto.
  apply (pc_tree_suffix _ _ _ S3) in Hpc. apply (L_suffix _ _ S3) in HL. clear S1 S2 S3 r1 r2 d1 d2. revert H.
  assert (Hblk : forall args dl ts r d, pc_tree pc ts -> (forall a, args = Some a -> Qr a) ->
     (c <- delimited dl pc ;; ret (Element t sels attrs args (Some c)))%parse ts = PR (Ret e) r d -> tree_elem e).
  { intros args dl ts0 r0 d0 Hpc0 Har H. apply bind_ret_inv in H. destruct H as (c & r4 & d4 & d5 & Hd & H & _). inversion H; subst.
    apply delimited_ret_inv in Hd. destruct Hd as (inner & Hin & Hd). apply (Hpc0 _ _ Hin) in Hd. constructor; auto.
    cbn. now apply Forall_forall. }
  assert (Hno : forall args, (forall a, args = Some a -> Qr a) -> tree_elem (Element t sels attrs args None)).
  { intros. constructor; auto. cbn. tauto. }
  assert (Hnone : forall a, None = Some a -> Qr a) by discriminate.
  assert (Hem : forall g x r1 r0 d0, (emit g ;;; ret x)%parse r1 = PR (Ret e) r0 d0 -> e = x).
  { intros g y r4 r0 d0 H. inversion H; reflexivity. }
  unfold element_tail. intros H. apply bind_ret_inv in H. destruct H as (o & r5 & ? & ? & Ho & H & _).
  assert (S5 : suffix r5 r3) by (eapply (fine_after _ _ _ _ _ (fine_rollback _ _ (fine_punct ";" r3))); eauto).
  destruct o as [u|]; [inversion H; subst; auto|].
  apply bind_ret_inv in H. destruct H as (rr & r6 & ? & ? & H6 & H & _). inversion H6; subst; clear H6.
  assert (Hpc5 := pc_tree_suffix _ _ _ S5 Hpc).
  destruct r6 as [|t0 rr]; [apply Hem in H; subst; auto|]. set (tt := t0 :: rr) in *.
  destruct (peek_group Brace tt); [eapply Hblk; eauto|].
  destruct (peek_group Paren tt); [eapply Hblk; eauto|].
  destruct (peek_punct "|" tt).
  - apply bind_ret_inv in H. destruct H as (args & r7 & ? & ? & H7 & H & _).
    assert (S7 := fine_after _ _ _ _ _ (fine_closure_args tt) H7). apply Hr in H7; [|eapply L_suffix; eauto].
    apply bind_ret_inv in H. destruct H as (rr' & r8 & ? & ? & H8 & H & _). inversion H8; subst; clear H8.
    assert (Hpc7 := pc_tree_suffix _ _ _ S7 Hpc5).
    assert (Hs7 : forall a, Some args = Some a -> Qr a) by (intros a Hx; inversion Hx; subst; auto).
    destruct (peek_group Brace r8); [eapply Hblk; eauto|].
    destruct (peek_group Paren r8); [eapply Hblk; eauto|].
    apply Hem in H. subst. auto.
  - apply bind_ret_inv in H. destruct H as (? & r7 & ? & ? & _ & H & _). inversion H; subst. auto.
Qed.
Lemma child_tree (pc : P (list child)) ts : pc_tree pc ts -> L ts ->
  forall c r d, parse_child E pc ts = PR (Ret c) r d -> tree c.
Proof.
  intros Hpc HL c r d H. unfold parse_child in H. apply bind_ret_inv in H. destruct H as (v & r1 & d1 & d2 & H1 & H & _).
  unfold rollback_err in H1. destruct (parse_value ts) as [[v'|e| |w|] r' d'] eqn:Hx; inversion H1; subst; clear H1.
  - assert (Hb : (exists l, v' = VLit l /\ (forall s, l <> LitTok LkStr s)) \/ (forall l, v' = VLit l -> exists s, l = LitTok LkStr s)).
    { destruct v' as [[[] s|]| |]; try (right; intros l Hl; inversion Hl; subst; eauto; fail); left; eexists; (split; [reflexivity|discriminate]). }
    destruct Hb as [(l & -> & Hl)|Hb].
    + assert (Hc : c = CValue (VLit (LitTok LkStr ""))).
      { destruct l as [[] s|]; try (inversion H; reflexivity). now destruct (Hl s). }
      subst c. now constructor.
    + assert (c = CValue v') as ->.
      { destruct v' as [l| |]; try (inversion H; reflexivity). destruct (Hb l eq_refl) as (s & ->). inversion H. reflexivity. }
      constructor. eapply Hv; eauto.
  - apply bind_ret_inv in H. destruct H as (b & r2 & d3 & d4 & H2 & H & _). inversion H2; subst; clear H2. destruct (_ && _ && _).
    + apply bind_ret_inv in H. destruct H as (? & r3 & ? & ? & H3 & H & _).
      apply bind_ret_inv in H. destruct H as (? & r4 & ? & ? & H4 & H & _).
      apply bind_ret_inv in H. destruct H as (e' & r5 & ? & ? & He & H & _). inversion H; subst. constructor.
      assert (S3 := fine_after _ _ _ _ _ (fine_unwrap _ _ (fine_any r2)) H3).
      assert (S4 := suffix_trans _ _ _ (fine_after _ _ _ _ _ (fine_unwrap _ _ (fine_punct ":" r3)) H4) S3).
      apply (element_tree pc r4) with (r := r) (d := x5); eauto using pc_tree_suffix.
    + apply bind_ret_inv in H. destruct H as (b & r3 & d5 & d6 & H3 & H & _). inversion H3; subst; clear H3.
      destruct (peek_any r3); [|discriminate].
      apply bind_ret_inv in H. destruct H as (e' & r5 & ? & ? & He & H & _). inversion H; subst. constructor. eapply element_tree; eauto.
Qed.
Theorem children_tree n : forall ts cs r d, size ts < n -> L ts -> parse_children E n ts = PR (Ret cs) r d -> Forall tree cs.
Proof.
  induction n as [|n IH]; intros ts cs r d Hn HL H; [discriminate|].
  destruct ts as [|t ts]; [inversion H; subst; constructor|]. rewrite parse_children_step in H.
  assert (Hpt : pc_tree (parse_children E n) (t :: ts)).
  { intros dl inner Hin. assert (Hsz := in_group_size _ _ _ Hin). intros cs0 r0 d0 H0. apply (IH inner cs0 r0 d0); eauto. lia. }
  assert (Hpf : pc_fine (parse_children E n) (t :: ts)).
  { intros dl inner Hin. apply fine_children; auto. apply in_group_size in Hin. lia. }
  pose proof (fine_child E _ _ HE Hpf) as Hf. pose proof (eats_child E _ _ HE Hpf) as He.
  destruct (parse_child E (parse_children E n) (t :: ts)) as [[c|e| |w|] r' d'] eqn:Hc; try discriminate.
  - apply (child_tree _ _ Hpt HL) in Hc. specialize (He c eq_refl). cbn [p_rest] in He. apply fine_suffix in Hf. cbn in Hf.
    assert (Hsz := suffix_len_size _ _ Hf He).
    destruct (parse_children E n r') as [[cs'|e| |w|] r'' d''] eqn:H2; try discriminate.
    inversion H; subst. constructor; auto. eapply IH; [|eapply L_suffix; eauto|eauto]. lia.
  - apply fine_suffix in Hf. cbn in Hf. destruct (peek_punct ";" r') eqn:Hsemi.
    + apply peek_punct1 in Hsemi; [|discriminate]. destruct r' as [|x r']; [contradiction|]. cbn [tl] in H.
      assert (Hsuf : suffix r' (t :: ts)) by (destruct Hf as [u Hu]; exists (u ++ [x]); rewrite Hu, <- app_assoc; reflexivity).
      assert (Hsz : size r' < n).
      { apply suffix_size in Hf. rewrite size_cons in Hf. pose proof (tt_size_pos x). lia. }
      destruct (parse_children E n r') as [[cs'|e'| |w|] r'' d''] eqn:H2; try discriminate. inversion H; subst.
      eapply IH; [|eapply L_suffix; eauto|eauto]. lia.
    + assert (Hsz : size [] < n) by (rewrite size_cons in Hn; pose proof (tt_size_pos t); change (size []) with 0; lia).
      destruct (parse_children E n []) as [[cs'|e'| |w|] r'' d''] eqn:H2; try discriminate. inversion H; subst.
      eapply IH; [|eapply (L_suffix []); eauto with suff|eauto]. lia.
Qed.
End TreeInv.

(** ** Paths never have parenthesised arguments *)

Definition seg_no_fn (s : path_seg) : Prop := forall ts, seg_args s <> PParen ts.
Definition tag_plain (t : tag) : Prop := forall p, t = TagComponent p -> Forall seg_no_fn (segs p).
Lemma parse_seg_no_fn E ts s r d : parse_seg E ts = PR (Ret s) r d -> seg_no_fn s.
Proof.
  unfold parse_seg. intros H. apply bind_ret_inv in H. destruct H as (b & r1 & d1 & d2 & _ & H & _). destruct b.
  - apply bind_ret_inv in H. destruct H as (i & r2 & ? & ? & _ & H & _). inversion H; subst. red; cbn. discriminate.
  - apply bind_ret_inv in H. destruct H as (b & r2 & ? & ? & _ & H & _).
    apply bind_ret_inv in H. destruct H as (i & r3 & ? & ? & _ & H & _).
    apply bind_ret_inv in H. destruct H as (b' & r4 & ? & ? & _ & H & _). destruct b'.
    + apply bind_ret_inv in H. destruct H as (a & r5 & ? & ? & Ha & H & _). inversion H; subst. red; cbn.
      unfold parse_angle in Ha. destruct (match take_punct "::" r4 with Some r => (true, r) | None => (false, r4) end) as [tf ts1].
      destruct (generic_args E ts1) as [[u rr]|rr]; inversion Ha; subst. discriminate.
    + inversion H; subst. red; cbn. discriminate.
Qed.
Lemma parse_segs_rest_plain E n : forall ts l r d, parse_segs_rest E n ts = PR (Ret l) r d -> Forall seg_no_fn l.
Proof.
  induction n as [|n IH]; intros ts l r d H; [discriminate|]. cbn [parse_segs_rest] in H.
  destruct (_ && _); [|inversion H; subst; constructor].
  apply bind_ret_inv in H. destruct H as (? & r1 & ? & ? & _ & H & _).
  apply bind_ret_inv in H. destruct H as (s & r2 & ? & ? & Hs & H & _).
  apply bind_ret_inv in H. destruct H as (l' & r3 & ? & ? & Hl & H & _). inversion H; subst.
  constructor; [eapply parse_seg_no_fn; eauto|eapply IH; eauto].
Qed.
Lemma parse_path_plain E ts p r d : parse_path E ts = PR (Ret p) r d -> Forall seg_no_fn (segs p).
Proof.
  unfold parse_path. intros H.
  apply bind_ret_inv in H. destruct H as (? & r1 & ? & ? & _ & H & _).
  apply bind_ret_inv in H. destruct H as (s & r2 & ? & ? & Hs & H & _).
  apply bind_ret_inv in H. destruct H as (l' & r3 & ? & ? & Hl & H & _). inversion H; subst. cbn.
  constructor; [eapply parse_seg_no_fn; eauto|eapply parse_segs_rest_plain; eauto].
Qed.
Lemma parse_tag_plain E ts t r d : parse_tag E ts = PR (Ret t) r d -> tag_plain t.
Proof.
  unfold parse_tag. intros H. apply bind_ret_inv in H. destruct H as (b & r1 & ? & ? & _ & H & _). destruct b.
  - apply bind_ret_inv in H. destruct H as (p & r2 & ? & ? & Hp & H & _). inversion H; subst.
    intros p' Hp'. inversion Hp'; subst. eapply parse_path_plain; eauto.
  - apply bind_ret_inv in H. destruct H as (k & r2 & ? & ? & _ & H & _).
    destruct (tag_kind_from (k_repr k)); try (apply bind_ret_inv in H; destruct H as (i & r3 & ? & ? & _ & H & _));
      inversion H; subst; intros p Hp; inversion Hp; subst.
    cbn. constructor; auto. red; cbn. discriminate.
Qed.

(** Trees without parenthesised path arguments never make the expander abort,
    except for a slot at the root. *)
Definition plain_elem := tree_elem tag_plain (fun _ => True) (fun _ => True) (fun _ => True) (fun _ => True).
Definition plain_child := tree tag_plain (fun _ => True) (fun _ => True) (fun _ => True) (fun _ => True).
Lemma parsed_plain E n ts cs r d : env_ok E -> size ts < n ->
  parse_children E n ts = PR (Ret cs) r d -> Forall plain_child cs.
Proof.
  intros HE Hn. apply (children_tree _ _ _ _ _ E (fun _ => True)); auto. intros. eapply parse_tag_plain; eauto.
Qed.
