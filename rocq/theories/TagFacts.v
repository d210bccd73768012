(** Tag classification and [parse_tag]. *)
From Verif Require Export GrammarFacts2.

(** ** Binary search *)

Fixpoint all_lt (l : list string) : bool :=
  match l with
  | [] => true
  | x :: r => forallb (fun y => match String.compare x y with Lt => true | _ => false end) r && all_lt r
  end.

Lemma all_lt_nth l : all_lt l = true -> forall i j a b,
  nth_error l i = Some a -> nth_error l j = Some b -> i < j -> String.compare a b = Lt.
Proof.
  induction l as [|x l IH]; cbn [all_lt]; intros H i j a b Ha Hb Hij; [destruct i; discriminate|].
  apply andb_true_iff in H. destruct H as [H1 H2].
  destruct j as [|j]; [lia|]. cbn in Hb. destruct i as [|i].
  - cbn in Ha. inversion Ha; subst. apply nth_error_In in Hb.
    rewrite forallb_forall in H1. specialize (H1 _ Hb). destruct (String.compare a b); congruence.
  - cbn in Ha. eapply IH; eauto. lia.
Qed.

Lemma compare_refl x : String.compare x x = Eq.
Proof. destruct (String.compare x x) eqn:H; auto; pose proof H as H'; rewrite String.compare_antisym, H in H'; discriminate. Qed.

Lemma bsearch_complete l x p : all_lt l = true -> nth_error l p = Some x ->
  forall n lo hi, lo <= p < hi -> hi <= List.length l -> hi - lo < n -> bsearch n l lo hi x = true.
Proof.
  intros Hl Hp. induction n as [|n IH]; intros lo hi Hr Hh Hn; [lia|].
  cbn [bsearch]. assert (Nat.ltb lo hi = true) as -> by (apply Nat.ltb_lt; lia).
  set (mid := lo + Nat.div2 (hi - lo)).
  assert (Hmid : lo <= mid < hi).
  { unfold mid. assert (Nat.div2 (hi - lo) < hi - lo) by (apply Nat.lt_div2; lia). lia. }
  destruct (nth_error l mid) as [y|] eqn:Hy; [|apply nth_error_None in Hy; lia].
  destruct (String.compare y x) eqn:Hc; auto.
  - apply IH; try lia. destruct (Nat.lt_trichotomy p mid) as [H|[H|H]]; [| |lia].
    + pose proof (all_lt_nth l Hl _ _ _ _ Hp Hy H) as H'.
      rewrite String.compare_antisym, Hc in H'. discriminate.
    + subst p. rewrite Hy in Hp. inversion Hp; subst. rewrite compare_refl in Hc. discriminate.
  - apply IH; try lia. destruct (Nat.lt_trichotomy p mid) as [H|[H|H]]; [lia| |].
    + subst p. rewrite Hy in Hp. inversion Hp; subst. rewrite compare_refl in Hc. discriminate.
    + pose proof (all_lt_nth l Hl _ _ _ _ Hy Hp H) as H'. congruence.
Qed.

Lemma bsearch_sound l x n lo hi : bsearch n l lo hi x = true -> In x l.
Proof.
  revert lo hi. induction n as [|n IH]; intros lo hi H; [discriminate|]. cbn [bsearch] in H.
  destruct (Nat.ltb lo hi); [|discriminate].
  destruct (nth_error l _) as [y|] eqn:Hy; [|discriminate].
  destruct (String.compare y x) eqn:Hc; eauto.
  apply String.compare_eq_iff in Hc. subst. eapply nth_error_In; eauto.
Qed.

Lemma binary_search_iff l x : all_lt l = true -> binary_search l x = true <-> In x l.
Proof.
  intros Hl. split; [apply bsearch_sound|]. intros H. apply In_nth_error in H. destruct H as [p Hp].
  unfold binary_search. assert (p < List.length l) by (apply nth_error_Some; congruence).
  eapply bsearch_complete; eauto; lia.
Qed.

Lemma is_svg_iff s : is_svg_element s = true <-> In s svg_names.
Proof. apply (binary_search_iff svg_list). vm_compute. reflexivity. Qed.
Lemma is_math_iff s : is_math_ml_element s = true <-> In s mathml_names.
Proof. apply (binary_search_iff math_list). vm_compute. reflexivity. Qed.

Lemma tag_kind_iff s k : tag_kind_from s = k <-> tag_kind_spec s k.
Proof.
  unfold tag_kind_from, is_web_component.
  destruct (is_component s) eqn:H1;
    [apply is_component_iff in H1
    |rewrite <- not_true_iff_false, is_component_iff in H1;
     destruct (is_svg_element s) eqn:H2;
     [apply is_svg_iff in H2
     |rewrite <- not_true_iff_false, is_svg_iff in H2;
      destruct (contains_dash s) eqn:H3;
      [apply contains_dash_iff in H3
      |rewrite <- not_true_iff_false, contains_dash_iff in H3;
       destruct (is_math_ml_element s) eqn:H4;
       [apply is_math_iff in H4
       |rewrite <- not_true_iff_false, is_math_iff in H4]]]];
  split; try (intros <-; constructor; assumption);
    intros H; inversion H; subst; try reflexivity; contradiction.
Qed.

(** ** [parse_tag] *)

Lemma quote_tag E ts c r : ts = TPunct c Joint :: r -> c = "'"%char ->
  forall t r', ~ (parse_tag E on ts >> t, r').
Proof.
  intros -> -> t r' H. unfold parse_tag in H. rewrite (bind_run0 _ _ _ _ _ eq_refl) in H.
  cbn beta in H. destruct (_ || _ || _).
  - apply bind_ok in H. destruct H as (p & r1 & H & _). unfold parse_path in H.
    rewrite (bind_run0 _ _ (TPunct "'" Joint :: r) None (TPunct "'" Joint :: r) eq_refl) in H.
    apply bind_ok in H. destruct H as (s & r2 & H & _). rewrite parse_seg_step in H. discriminate.
  - apply bind_ok in H. destruct H as (k & r1 & H & _). rewrite parse_kebab_fail in H; [discriminate|].
    intros [[]|[sp Hsp]]. discriminate.
Qed.

Lemma path_follows_dec ts : path_follows ts \/ ~ path_follows ts.
Proof.
  unfold path_follows. destruct (next_op_dec ":" ":" ts), (next_op_dec ":" ":" (tl ts)),
    (next_punct_dec "<" (tl ts)); tauto.
Qed.

Lemma parse_tag_ok E ts t r : env_ok E -> wf ts ->
  parse_tag E on ts >> t, r <-> exists u, ts = u ++ r /\ tag_phrase E u t r.
Proof.
  intros HE Hwf.
  assert (Hq : (exists c r, ts = TPunct c Joint :: r /\ c = "'"%char) \/
               ~ (exists c r, ts = TPunct c Joint :: r /\ c = "'"%char)).
  { destruct ts as [|[|c [|]| |] r0]; try (right; intros (? & ? & ? & ?); discriminate).
    destruct (ascii_dec c "'"); [left; eauto|right]. intros (? & ? & H & ?). inversion H; congruence. }
  destruct Hq as [(c & r0 & -> & ->)|Hq].
  { split; [intros H; exfalso; eapply quote_tag; eauto|].
    intros (u & Hu & Ht). exfalso.
    assert (Hn : forall k, ~ name u k r).
    { intros k (Hp & _). apply phrase_starts with (r := r) in Hp. rewrite <- Hu in Hp.
      destruct Hp as [[]|[sp Hsp]]. discriminate. }
    inversion Ht; subst; try (eapply Hn; eauto; fail).
    inversion H0; subst.
    - apply segments_starts in H1. destruct H1 as (? & ? & ->). discriminate.
    - discriminate. }
  unfold parse_tag. rewrite (bind_run0 _ _ _ _ _ eq_refl). cbn beta.
  destruct (_ || _ || peek2 _ ts) eqn:Hpt.
  - apply path_test in Hpt; auto. rewrite bind_ok. split.
    + intros (p & r1 & H1 & H2). apply ret_ok in H2. destruct H2; subst.
      apply parse_path_ok in H1; auto. destruct H1 as (u & -> & Hp). exists u. split; auto. now constructor.
    + intros (u & -> & Ht). inversion Ht; subst; try contradiction.
      exists p, r. rewrite ret_ok. split; auto. apply parse_path_ok; eauto.
  - assert (Hnp : ~ path_follows ts).
    { intros H. apply path_test in H; auto. congruence. }
    rewrite bind_ok. split.
    + intros (k & r1 & H1 & H2). apply parse_kebab_ok in H1; [|now apply wf_wf_head].
      destruct H1 as (u & -> & Hk).
      destruct (tag_kind_from (k_repr k)) eqn:Hkind; apply tag_kind_iff in Hkind.
      1,2,3,4: apply bind_ok in H2; destruct H2 as (i & r2 & H2 & H3); apply snake_ok in H2;
        apply ret_ok in H3; destruct H2, H3; subst; exists u; split; auto;
        (eapply tag_component || eapply tag_html || eapply tag_svg || eapply tag_math); eauto.
      apply ret_ok in H2. destruct H2; subst. exists u. split; auto. now constructor.
    + intros (u & -> & Ht). inversion Ht; subst; try contradiction;
        match goal with h : name u ?k r |- _ => exists k, r end;
        (split; [apply parse_kebab_ok; [now apply wf_wf_head|eauto]|]);
        match goal with h : tag_kind_spec _ _ |- _ => apply tag_kind_iff in h; rewrite h end;
        try (apply bind_ok; exists i, r; rewrite snake_ok, ret_ok; auto; fail).
      now apply ret_ok.
Qed.
