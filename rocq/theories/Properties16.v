(** Theorem C50: where spans come from. *)
From Verif Require Import SpecSpan Move SpanExamples SLex SMacro.
Open Scope list_scope.

(** ** C50: errors and code are placed relative to the input *)

Lemma r_respan f t : rtt (fun a b => b = f a) t (respan f t).
Proof.
  induction t as [| | |s d ts IH] using stt_ind2; cbn; auto with move. constructor.
  - destruct s. now constructor.
  - induction IH; cbn; auto with move.
Qed.
Lemma r_respans f ts : rts (fun a b => b = f a) ts (respans f ts).
Proof. unfold respans. induction ts; cbn; constructor; [apply r_respan|assumption]. Qed.
Lemma respan_r f t : forall t', rtt (fun a b => b = f a) t t' -> t' = respan f t.
Proof.
  induction t as [| | |s d ts IH] using stt_ind2; intros t' H; inversion H; subst; cbn; try reflexivity.
  f_equal.
  - match goal with H : rds _ _ _ |- _ => now destruct H; subst end.
  - match goal with H : Forall2 _ _ _ |- _ => rename H into Hf end. clear H.
    revert IH. induction Hf as [|x x' l l' Hx Hl IHl]; intros IH; cbn; [reflexivity|].
    inversion IH; subst. f_equal; auto.
Qed.
Lemma respans_r f ts ts' : rts (fun a b => b = f a) ts ts' -> ts' = respans f ts.
Proof. intros H. induction H; cbn; [reflexivity|]. f_equal; [now apply respan_r|assumption]. Qed.
Lemma diags_r f d d' : rdiags (fun a b => b = f a) d d' -> d' = move_diags f d.
Proof.
  intros H. induction H as [|x x' l l' Hx Hl IH]; cbn; [reflexivity|]. f_equal; [|assumption]. now destruct Hx; subst.
Qed.

Section Moves.
Context (f : span -> span) (E E' : senv) (H : moves f E E').
Lemma moves_call : Call = f Call.
Proof. symmetry. apply H. Qed.
Lemma moves_env : s_env E = s_env E'.
Proof. apply H. Qed.
Lemma moves_join a a' b b' : a' = f a -> b' = f b -> ropt (fun a b => b = f a) (s_join E a b) (s_join E' a' b').
Proof. intros -> ->. destruct H as (_ & _ & Hj & _). rewrite Hj. destruct (s_join E a b); now constructor. Qed.
Lemma moves_generic sc sc' ts ts' : sc' = f sc -> rts (fun a b => b = f a) ts ts' ->
  rsum (rprod (rts (fun a b => b = f a)) (rts (fun a b => b = f a)))
       (rprod (rts (fun a b => b = f a)) (fun a b => b = f a)) (s_generic E sc ts) (s_generic E' sc' ts').
Proof.
  intros -> Ht. rewrite (respans_r _ _ _ Ht). destruct H as (_ & _ & _ & Hg). rewrite Hg.
  destruct (s_generic E sc ts) as [[u r]|[r s]]; constructor; constructor; auto using r_respans.
Qed.
End Moves.

(** If the tokens of a view are moved (the file is edited before the view, the
    view is put into another file, ..) then its expansion is the same with
    every span moved in the same way, and every error moves along. *)
Theorem C50_move f E E' input : moves f E E' ->
  smview E' (respans f input) = move_result f (smview E input).
Proof.
  intros H.
  destruct (r_mview _ E E' (moves_call _ _ _ H) (moves_join _ _ _ H) (moves_generic _ _ _ H) (moves_env _ _ _ H)
              _ _ (r_respans f input)); cbn; try reflexivity.
  - f_equal. now apply respans_r.
  - f_equal. now apply diags_r.
Qed.
Print Assumptions C50_move.

Theorem C50_move_nightly f E E' input : moves f E E' ->
  smview_nightly E' (respans f input) = move_answer f (smview_nightly E input).
Proof.
  intros H.
  destruct (r_mview_nightly _ E E' (moves_call _ _ _ H) (moves_join _ _ _ H) (moves_generic _ _ _ H) (moves_env _ _ _ H)
              _ _ (r_respans f input)); cbn; try reflexivity.
  f_equal; [now apply respans_r|now apply diags_r].
Qed.
Print Assumptions C50_move_nightly.

Definition moved_view : string := "div.a { Foo<T> x=[y] |z| { {z} } }".
Definition wrong_view : string := "div a:b=1 ref=[r] { 3 }".
Example C50_move_case :
  smview SE1 (respans (push 100) (slex moved_view)) = move_result (push 100) (smview SE1 (slex moved_view)) /\
  smview SE1 (respans (push 100) (slex moved_view)) <> smview SE1 (slex moved_view) /\
  smview SE1 (slex wrong_view) = SErrors [(DNonStrChild, Src 0 20 21); (DUnknownDirective, Src 0 4 5)] /\
  smview SE1 (respans (push 100) (slex wrong_view)) =
    SErrors [(DNonStrChild, Src 0 120 121); (DUnknownDirective, Src 0 104 105)].
Proof.
  split; [apply C50_move, push_moves|]. split; [vm_compute; discriminate|].
  split; [vm_compute; reflexivity|]. rewrite (C50_move _ _ _ _ (push_moves 100)). vm_compute. reflexivity.
Qed.

(** ** Where a span can point *)

Section Closed.
Context (E : senv) (Q : span -> Prop) (HE : senv_ok E) (HC : Q Call) (HQ : closed E Q).
Notation R := (fun a b : span => b = a /\ Q a).

Lemma refl_r t : Forall Q (spans_of t) -> rtt R t t.
Proof.
  induction t as [| | |[o c w] d ts IH] using stt_ind2; intros H; cbn in H; inversion H as [|? ? H1 H2]; subst; auto with move.
  inversion H2 as [|? ? H3 H4]; subst. inversion H4 as [|? ? H5 H6]; subst. cbn in *.
  constructor; [now constructor|].
  clear - IH H6. induction IH as [|t r Ht Hr IHr]; cbn in *; constructor.
  - apply Ht. now apply Forall_app in H6.
  - apply IHr. now apply Forall_app in H6.
Qed.
Lemma refl_rs ts : Forall Q (spans ts) -> rts R ts ts.
Proof.
  intros H. induction ts as [|t r IH]; cbn in *; constructor; apply Forall_app in H; [now apply refl_r|now apply IH].
Qed.
Lemma r_refl t : forall t', rtt R t t' -> t' = t /\ Forall Q (spans_of t).
Proof.
  induction t as [| | |s d ts IH] using stt_ind2; intros t' H; inversion H; subst; cbn;
    repeat match goal with H : _ /\ _ |- _ => destruct H; subst end; auto.
  match goal with H : rds _ _ _ |- _ => destruct H as [? ? ? ? ? ? [? ?] [? ?] [? ?]]; subst end.
  match goal with H : Forall2 _ _ _ |- _ => rename H into Hf end. clear H.
  assert (Hts : ts' = ts /\ Forall Q (flat_map spans_of ts)).
  { revert IH. induction Hf as [|x x' l l' Hx Hl IHl]; intros IH; cbn; [auto|].
    inversion IH as [|? ? Ha Hb]; subst. destruct (IHl Hb). destruct (Ha _ Hx). subst. split; [reflexivity|].
    apply Forall_app. auto. }
  destruct Hts. subst. cbn. auto.
Qed.
Lemma rs_refl ts ts' : rts R ts ts' -> ts' = ts /\ Forall Q (spans ts).
Proof.
  intros H. induction H as [|x x' l l' Hx Hl [IH1 IH2]]; cbn; [auto|]. destruct (r_refl _ _ Hx). subst.
  split; [reflexivity|]. apply Forall_app. auto.
Qed.
Lemma ds_refl d d' : rdiags R d d' -> Forall Q (map snd d').
Proof. intros H. induction H as [|x x' l l' Hx Hl IH]; cbn; constructor; [|assumption]. now destruct Hx as [? ? ? [-> ?]]. Qed.

Lemma points_in ts s : Forall Q (spans ts) -> points E ts s -> Q s.
Proof.
  intros H. induction 1 as [s Hs|a b s _ Ha _ Hb Hj]; [|now apply (HQ a b)].
  rewrite Forall_forall in H. now apply H.
Qed.
Lemma closed_join a a' b b' : R a a' -> R b b' -> ropt R (s_join E a b) (s_join E a' b').
Proof.
  intros [-> Ha] [-> Hb]. destruct (s_join E a b) eqn:Ej; constructor. split; [reflexivity|]. now apply (HQ a b).
Qed.
Lemma closed_generic sc sc' ts ts' : R sc sc' -> rts R ts ts' ->
  rsum (rprod (rts R) (rts R)) (rprod (rts R) R) (s_generic E sc ts) (s_generic E sc' ts').
Proof.
  intros [-> Hsc] Ht. destruct (rs_refl _ _ Ht) as [-> Hts]. destruct HE as (_ & _ & Hg & Hf & _).
  destruct (s_generic E sc ts) as [[u r]|[r s]] eqn:Eg; constructor.
  - rewrite (Hg _ _ _ _ Eg) in Hts. unfold spans in Hts. rewrite flat_map_app in Hts. apply Forall_app in Hts.
    constructor; now apply refl_rs.
  - destruct (Hf _ _ _ _ Eg) as [[u Hu] Hs]. constructor.
    + apply refl_rs. rewrite Hu in Hts. unfold spans in *. rewrite flat_map_app in Hts. now apply Forall_app in Hts.
    + split; [reflexivity|]. destruct Hs as [->|Hs]; [exact Hsc|]. now apply (points_in ts).
Qed.
End Closed.

(** Every span of the expansion and of the errors is in every set that has
    the call site and the spans of the input and that joining cannot leave. *)
Theorem C50_closed E (Q : span -> Prop) input : senv_ok E -> Q Call -> closed E Q -> Forall Q (spans input) ->
  Forall Q (result_spans (smview E input)) /\ Forall Q (answer_spans (smview_nightly E input)).
Proof.
  intros HE HC HQ Hi. assert (Hr := refl_rs Q _ Hi). split.
  - destruct (r_mview _ E E (conj eq_refl HC) (closed_join E Q HQ) (closed_generic E Q HE HQ) eq_refl _ _ Hr);
      cbn; auto; [now destruct (rs_refl Q ts ts'); subst|now apply (ds_refl Q d d')].
  - destruct (r_mview_nightly _ E E (conj eq_refl HC) (closed_join E Q HQ) (closed_generic E Q HE HQ) eq_refl _ _ Hr);
      cbn; auto. apply Forall_app. split; [now destruct (rs_refl Q ts ts'); subst|now apply (ds_refl Q d d')].
Qed.
Print Assumptions C50_closed.

(** On stable Rust ([Span::join] fails) every span is the call site or the
    span of a token or delimiter of the input. *)
Theorem C50_stable E input : senv_ok E -> (forall a b, s_join E a b = None) ->
  forall s, In s (result_spans (smview E input)) -> s = Call \/ In s (spans input).
Proof.
  intros HE Hj. destruct (C50_closed E (fun s => s = Call \/ In s (spans input)) input HE) as [H _].
  - now left.
  - intros a b c _ _ H. now rewrite Hj in H.
  - apply Forall_forall. auto.
  - now rewrite Forall_forall in H.
Qed.
Print Assumptions C50_stable.

(** On nightly Rust no span leaves the part of the file where the view is. *)
Theorem C50_inside E input f lo hi : senv_ok E ->
  closed E (fun s => s = Call \/ inside f lo hi s) -> Forall (inside f lo hi) (spans input) ->
  forall s, In s (answer_spans (smview_nightly E input)) -> s = Call \/ inside f lo hi s.
Proof.
  intros HE HQ Hi. destruct (C50_closed E (fun s => s = Call \/ inside f lo hi s) input HE) as [_ H].
  - now left.
  - exact HQ.
  - eapply Forall_impl; [|exact Hi]. auto.
  - now rewrite Forall_forall in H.
Qed.
Print Assumptions C50_inside.

Lemma range_closed f lo hi : closed SE1 (fun s => s = Call \/ inside f lo hi s).
Proof.
  intros [|fa la ha] [|fb lb hb] c Ha Hb; cbn; try discriminate; [intros [= <-]; now left|].
  destruct (Nat.eqb fa fb) eqn:Ef; [|discriminate]. intros [= <-]. right.
  destruct Ha as [|[-> [? ?]]], Hb as [|[-> [? ?]]]; try discriminate. cbn. split; [reflexivity|].
  split; [now apply Nat.min_glb|now apply Nat.max_lub].
Qed.
Example C50_inside_case :
  (forall s, In s (answer_spans (smview_nightly SE1 (slex moved_view))) -> s = Call \/ inside 0 0 34 s) /\
  In (Src 0 8 14) (answer_spans (smview_nightly SE1 (slex moved_view))) /\
  ~ In (Src 0 8 14) (spans (slex moved_view)).
Proof.
  split; [|split].
  - apply (C50_inside SE1 _ 0 0 34 SE1_ok (range_closed 0 0 34)).
    apply Forall_forall. assert (H : forallb (fun s => match s with Src 0 a b => Nat.leb b 34 | _ => false end)
      (spans (slex moved_view)) = true) by (vm_compute; reflexivity).
    rewrite forallb_forall in H. intros s Hs. specialize (H s Hs).
    destruct s as [|[|?] a b]; try discriminate. cbn. split; [reflexivity|]. split; [apply Nat.le_0_l|].
    now apply Nat.leb_le.
  - vm_compute. tauto.
  - vm_compute. intuition discriminate.
Qed.
Example C50_stable_case :
  (forall s, In s (result_spans (smview SE0 (slex moved_view))) -> s = Call \/ In s (spans (slex moved_view))) /\
  In (Src 0 8 11) (result_spans (smview SE0 (slex moved_view))).
Proof. split; [apply C50_stable; [exact SE0_ok|reflexivity]|]. vm_compute. tauto. Qed.
