(** An upper bound for the steps of the parser. *)
From Verif Require Export WorkFacts SpecGrammar.
From Coq Require Import Lia Arith.
Open Scope list_scope.

(** Characters of a stream without the content of groups. *)
Definition flat1 (t : tt) : nat := match t with TGroup _ _ => 1 | _ => weigh t end.
Definition F (ts : list tt) : nat := fold_right (fun x n => flat1 x + n) 0 ts.

Lemma F_app a b : F (a ++ b) = F a + F b.
Proof. induction a as [|x a IH]; cbn [app F fold_right] in *; auto. fold (F (a ++ b)) (F a). fold (F (a ++ b)) in IH. lia. Qed.
Lemma weight_app a b : weight (a ++ b) = weight a + weight b.
Proof. induction a as [|x a IH]; cbn [app weight fold_right] in *; auto. fold (weight (a ++ b)) (weight a). fold (weight (a ++ b)) in IH. lia. Qed.
Lemma flat1_pos t : 1 <= flat1 t. Proof. destruct t; cbn; lia. Qed.
Lemma weight_cons t ts : weight (t :: ts) = weigh t + weight ts. Proof. reflexivity. Qed.
Lemma F_cons t ts : F (t :: ts) = flat1 t + F ts. Proof. reflexivity. Qed.
Lemma weigh_group d ts : weigh (TGroup d ts) = S (weight ts). Proof. reflexivity. Qed.
Lemma weigh_pos t : 1 <= weigh t. Proof. destruct t; cbn; lia. Qed.

Section Bound.
Variable G : list tt -> nat.
Variable E : env.
Variable K : nat.

(** What is paid for each token in advance. *)
Notation a0 := 100.
Fixpoint pot (t : tt) : nat :=
  match t with
  | TGroup _ ts => a0 + K + 8 * F ts + fold_right (fun x n => pot x + n) 0 ts
  | t => (a0 + K) * weigh t
  end.
Definition Phi (ts : list tt) : nat := fold_right (fun x n => pot x + n) 0 ts.

Lemma Phi_cons t ts : Phi (t :: ts) = pot t + Phi ts. Proof. reflexivity. Qed.
Lemma Phi_app a b : Phi (a ++ b) = Phi a + Phi b.
Proof. induction a as [|x a IH]; cbn [app]; auto. rewrite !Phi_cons. lia. Qed.
Lemma pot_group d ts : pot (TGroup d ts) = a0 + K + 8 * F ts + Phi ts. Proof. reflexivity. Qed.

(** Groups of a stream, for induction. *)
Lemma tt_rect' (Q : tt -> Prop) :
  (forall t, (forall d ts, t <> TGroup d ts) -> Q t) -> (forall d ts, Forall Q ts -> Q (TGroup d ts)) -> forall t, Q t.
Proof.
  intros Ho Hg. fix IH 1. intros [i|c sp|k s|d ts]; [now apply Ho|now apply Ho|now apply Ho|].
  apply Hg. induction ts as [|x ts IHts]; constructor; auto.
Qed.

Lemma pot_low t : a0 * flat1 t + K * weigh t <= pot t.
Proof.
  induction t as [t Ht|d ts IH] using tt_rect'.
  - destruct t as [i|c sp|k s|d ts]; cbn [flat1]; try (cbn [pot]; rewrite Nat.mul_add_distr_r; lia). now destruct (Ht d ts).
  - rewrite pot_group, weigh_group. cbn [flat1].
    assert (H : K * weight ts <= Phi ts).
    { induction IH as [|x ts Hx IH IHts]; [cbn; lia|]. rewrite Phi_cons, weight_cons. lia. }
    lia.
Qed.
Lemma Phi_low ts : a0 * F ts + K * weight ts <= Phi ts.
Proof. induction ts as [|t ts IH]; [cbn; lia|]. rewrite Phi_cons, F_cons, weight_cons. assert (H := pot_low t). lia. Qed.
Lemma pot_high t : pot t + 8 * flat1 t <= (a0 + 8 + K) * weigh t.
Proof.
  induction t as [t Ht|d ts IH] using tt_rect'.
  - destruct t as [i|c sp|k s|d ts]; cbn [flat1 pot]; try (rewrite !Nat.mul_add_distr_r; lia). now destruct (Ht d ts).
  - rewrite pot_group, weigh_group. cbn [flat1].
    assert (H : 8 * F ts + Phi ts <= (a0 + 8 + K) * weight ts).
    { induction IH as [|x ts Hx IH IHts]; [cbn; lia|]. rewrite Phi_cons, weight_cons, F_cons. lia. }
    lia.
Qed.
Lemma Phi_high ts : Phi ts <= (a0 + 8 + K) * weight ts.
Proof. induction ts as [|t ts IH]; [cbn; lia|]. rewrite Phi_cons, weight_cons. assert (H := pot_high t). lia. Qed.

Lemma pot_ident i : pot (TIdent i) = (a0 + K) * S (String.length (i_name i)). Proof. reflexivity. Qed.
Lemma pot_punct c sp : pot (TPunct c sp) = a0 + K. Proof. cbn [pot weigh]. lia. Qed.
Lemma pot_lit k s : pot (TLit k s) = (a0 + K) * S (String.length s). Proof. reflexivity. Qed.
Lemma pot_pos t : a0 + K <= pot t.
Proof. destruct t as [i|c sp|k s|d ts]; [rewrite pot_ident|rewrite pot_punct|rewrite pot_lit|rewrite pot_group]; lia. Qed.
Lemma pot_weigh t : weigh t + (a0 - 1) <= pot t.
Proof.
  induction t as [t Ht|d ts IH] using tt_rect'.
  - assert (H := pot_low t). assert (H1 := flat1_pos t). destruct t as [i|c sp|k s|d ts]; cbn [flat1] in *; try lia. now destruct (Ht d ts).
  - rewrite pot_group, weigh_group. assert (H : weight ts <= Phi ts).
    { induction IH as [|x ts Hx IH IHts]; [cbn; lia|]. rewrite Phi_cons, weight_cons. lia. }
    lia.
Qed.
Lemma Phi_weight ts : weight ts <= Phi ts.
Proof. induction ts as [|t ts IH]; [cbn; lia|]. rewrite Phi_cons, weight_cons. assert (H := pot_weigh t). lia. Qed.

(** ** Bounded parsers *)

Definition ok {A} (c : A -> nat) (b : nat) (ts : list tt) (y : nat * pres A) : Prop :=
  match p_out (snd y) with
  | Ret a => fst y + c a + Phi (p_rest (snd y)) <= Phi ts + b
  | Fail _ => fst y + Phi (p_rest (snd y)) <= Phi ts + b
  | _ => fst y <= Phi ts + b
  end.
Definition bounded {A} (c : A -> nat) (b : nat) (m : WP A) : Prop := forall ts, ok c b ts (m ts).
Notation no := (fun _ => 0).

Lemma ok_weaken {A} (c c' : A -> nat) b b' ts y : ok c' b' ts y -> (forall a, c a <= c' a) -> b' <= b -> ok c b ts y.
Proof. unfold ok. intros H Hc Hb. destruct (p_out (snd y)) as [a|e| |w|]; try lia. specialize (Hc a). lia. Qed.
Lemma b_weaken {A} (c c' : A -> nat) b b' m : bounded c' b' m -> (forall a, c a <= c' a) -> b' <= b -> bounded c b m.
Proof. intros H Hc Hb ts. eapply ok_weaken; eauto. Qed.
Lemma b_le {A} (c : A -> nat) b b' m : bounded c b' m -> b' <= b -> bounded c b m.
Proof. intros H Hb. eapply b_weaken; eauto. Qed.
Lemma b_bind {A B} (c1 : A -> nat) (c2 : B -> nat) b1 b2 b m f :
  bounded c1 b1 m -> (forall a, bounded c2 (b2 + c1 a) (f a)) -> b1 + b2 <= b -> bounded c2 b (w_bind m f).
Proof.
  intros Hm Hf Hb ts. specialize (Hm ts). unfold ok, w_bind in *. destruct (m ts) as [n [[a|e| |w|] r d]]; cbn [fst snd p_out p_rest] in *; try lia.
  specialize (Hf a r). unfold ok in Hf. destruct (p_out (snd (f a r))); lia.
Qed.
Lemma b_seq {A B} (c1 : A -> nat) (c2 : B -> nat) b1 b m f :
  bounded c1 b1 m -> b1 <= b -> (forall a, bounded c2 (b - b1 + c1 a) (f a)) -> bounded c2 b (w_bind m f).
Proof. intros Hm Hb Hf. eapply b_bind; [exact Hm|exact Hf|lia]. Qed.
Lemma b_ret {A} (c : A -> nat) b a : c a <= b -> bounded c b (w_ret a).
Proof. intros H ts. unfold ok. cbn -[Phi]. lia. Qed.
Lemma b_fail {A} (c : A -> nat) b e : bounded c b (w_fail e).
Proof. intros ts. unfold ok. cbn -[Phi]. lia. Qed.
Lemma b_emit b d : 1 <= b -> bounded no b (w_emit d).
Proof. intros H ts. unfold ok. cbn -[Phi]. lia. Qed.
Lemma b_pay n b : n <= b -> bounded no b (pay n).
Proof. intros H ts. unfold ok. cbn -[Phi]. lia. Qed.
Lemma b_look {A} (f : list tt -> A) b : 1 <= b -> bounded no b (w_look f).
Proof. intros H ts. unfold ok. cbn -[Phi]. lia. Qed.
Lemma b_unwrap {A} (c : A -> nat) b m : bounded c b m -> bounded c b (w_unwrap m).
Proof. intros H ts. specialize (H ts). unfold ok, w_unwrap in *. destruct (m ts) as [n [[a|e| |w|] r d]]; cbn [fst snd p_out p_rest] in *; lia. Qed.
Lemma b_abort {A} (c : A -> nat) b m : bounded c b m -> bounded c (S b) (w_unwrap_or_abort m).
Proof. intros H ts. specialize (H ts). unfold ok, w_unwrap_or_abort in *. destruct (m ts) as [n [[a|e| |w|] r d]]; cbn [fst snd p_out p_rest] in *; lia. Qed.

(** What a failure costs, wherever it happens. *)
Definition fails {A} (f : list tt -> nat) (m : WP A) : Prop :=
  forall ts n e r d, m ts = (n, PR (Fail e) r d) -> n <= f ts.
Definition oc {A} (c : A -> nat) (o : option A) : nat := match o with Some a => c a | None => 0 end.
Lemma b_rollback {A} (c : A -> nat) b f m : bounded c b m -> fails (fun _ => f) m -> f <= b -> bounded (oc c) (S b) (w_rollback_err m).
Proof.
  intros H Hf Hb ts. specialize (H ts). specialize (Hf ts). unfold ok, w_rollback_err in *.
  destruct (m ts) as [n [[a|e| |w|] r d]]; cbn [fst snd p_out p_rest oc] in *; try lia. specialize (Hf _ _ _ _ eq_refl). lia.
Qed.
Definition never {A} (m : WP A) : Prop := forall ts n e r d, m ts <> (n, PR (Fail e) r d).
Lemma n_fails {A} f (m : WP A) : never m -> fails f m.
Proof. intros H ts n e r d Hm. now apply H in Hm. Qed.
Lemma n_ret {A} (a : A) : never (w_ret a). Proof. discriminate. Qed.
Lemma n_look {A} (f : list tt -> A) : never (w_look f). Proof. discriminate. Qed.
Lemma n_emit d : never (w_emit d). Proof. discriminate. Qed.
Lemma n_pay n : never (pay n). Proof. discriminate. Qed.
Lemma n_unwrap {A} (m : WP A) : never (w_unwrap m).
Proof. intros ts n e r d. unfold w_unwrap. destruct (m ts) as [k [[| | | |] ? ?]]; discriminate. Qed.
Lemma n_abort {A} (m : WP A) : never (w_unwrap_or_abort m).
Proof. intros ts n e r d. unfold w_unwrap_or_abort. destruct (m ts) as [k [[| | | |] ? ?]]; discriminate. Qed.
Lemma n_rollback {A} (m : WP A) : never (w_rollback_err m).
Proof. intros ts n e r d. unfold w_rollback_err. destruct (m ts) as [k [[| | | |] ? ?]]; discriminate. Qed.
Lemma n_snake k : never (w_snake k).
Proof. intros ts n e r d. unfold w_snake, priced, snake, or_panic. destruct (to_snake_ident k); discriminate. Qed.
Lemma n_bind {A B} (m : WP A) (f : A -> WP B) : never m -> (forall a, never (f a)) -> never (w_bind m f).
Proof.
  intros Hm Hf ts n e r d. unfold w_bind. specialize (Hm ts). destruct (m ts) as [k [[a|e'| |w|] r' d']]; try discriminate.
  - specialize (Hf a r'). destruct (f a r') as [k' [[| | | |] ? ?]]; try discriminate. now destruct (Hf _ _ _ _ eq_refl).
  - now destruct (Hm _ _ _ _ eq_refl).
Qed.
Lemma f_look {A B} (g : list tt -> A) f f' (k : A -> WP B) :
  (forall a, fails f (k a)) -> (forall ts, S (f ts) <= f' ts) -> fails f' (w_bind (w_look g) k).
Proof.
  intros Hk Hf ts n e r d H. unfold w_bind, w_look, priced, look in H. specialize (Hk (g ts) ts). specialize (Hf ts).
  destruct (k (g ts) ts) as [n' [[| | | |] r' d']]; cbn in H; try discriminate.
  injection H as <- _. specialize (Hk _ _ _ _ eq_refl). lia.
Qed.
(** After a failed attempt the stream has not moved. *)
Lemma f_try {A B} (m : WP A) f g f' (k : option A -> WP B) :
  fails f m -> fails g (k None) -> (forall a, never (k (Some a))) -> (forall ts, S (f ts) + g ts <= f' ts) ->
  fails f' (w_bind (w_rollback_err m) k).
Proof.
  intros Hm Hk Hn Hf ts n e r d H. unfold w_bind, w_rollback_err in H. specialize (Hm ts).
  destruct (m ts) as [n' [[a|e'| |w|] r' d']]; try discriminate.
  - specialize (Hn a r'). destruct (k (Some a) r') as [n2 [[| | | |] r2 d2]]; cbn in H; try discriminate. now destruct (Hn _ _ _ _ eq_refl).
  - specialize (Hk ts). specialize (Hm _ _ _ _ eq_refl). specialize (Hf ts).
    destruct (k None ts) as [n2 [[| | | |] r2 d2]]; cbn in H; try discriminate. injection H as <- _.
    specialize (Hk _ _ _ _ eq_refl). lia.
Qed.
Ltac nv := repeat first [apply n_ret | apply n_look | apply n_emit | apply n_pay | apply n_unwrap | apply n_abort | apply n_rollback
  | apply n_snake | apply n_bind; [|intros ?]
  | match goal with |- never (if ?c then _ else _) => destruct c end
  | match goal with |- never (match ?c with _ => _ end) => destruct c end].

(** ** Primitives *)

Lemma take_punct_Phi s : forall ts r, take_punct s ts = Some r -> Phi r + (a0 + K) * String.length s <= Phi ts.
Proof.
  induction s as [|ch s IH]; intros ts r H; [discriminate|]. cbn [take_punct] in H.
  unfold cur_punct in H. destruct ts as [|[i|c sp|k v|d inner] ts]; try discriminate.
  destruct (Ascii.eqb c "'"); [discriminate|]. destruct (Ascii.eqb c ch); [|discriminate].
  rewrite Phi_cons, pot_punct. destruct s as [|ch' s].
  - injection H as <-. cbn [String.length]. lia.
  - destruct sp; try discriminate. apply IH in H. cbn [String.length] in *. lia.
Qed.
Lemma f_punct s : fails (fun _ => String.length s) (w_parse_punct s).
Proof. intros ts n e r d H. unfold w_parse_punct, priced in H. injection H as <- _. auto. Qed.
Lemma b_punct s : bounded (fun _ => (a0 + K) * String.length s) (String.length s) (w_parse_punct s).
Proof.
  intros ts. unfold ok, w_parse_punct, priced, parse_punct. destruct (take_punct s ts) as [r|] eqn:Hr; cbn [fst snd p_out p_rest].
  - apply take_punct_Phi in Hr. lia.
  - lia.
Qed.
Lemma b_punct1 c : bounded (fun _ => a0 + K) 1 (w_parse_punct (String c EmptyString)).
Proof. eapply b_weaken; [apply b_punct| |]; intros; cbn [String.length]; lia. Qed.
Lemma b_try1 c : bounded (oc (fun _ => a0 + K)) 2 (w_rollback_err (w_parse_punct (String c EmptyString))).
Proof. eapply b_rollback; [apply b_punct1|apply f_punct|auto]. Qed.
Lemma b_any : bounded (fun i => (a0 + K) * S (String.length (i_name i))) 1 w_parse_any.
Proof.
  intros ts. unfold ok, w_parse_any, priced, parse_any, cur_ident.
  destruct ts as [|[i|c sp|k s|d inner] ts]; cbn [fst snd p_out p_rest]; try lia. rewrite Phi_cons, pot_ident. lia.
Qed.
Lemma b_any1 : bounded (fun i => a0 + K) 1 w_parse_any.
Proof. eapply b_weaken; [apply b_any| |auto]. intros. cbn beta. rewrite Nat.mul_succ_r. lia. Qed.
Lemma b_ident1 : bounded (fun i => a0 + K) 1 w_parse_ident.
Proof.
  intros ts. unfold ok, w_parse_ident, priced, parse_ident.
  destruct ts as [|[i|c sp|k s|d inner] ts]; cbn [fst snd p_out p_rest]; try lia.
  destruct (accept_as_ident i); cbn [fst snd p_out p_rest]; rewrite ?Phi_cons, ?pot_ident; lia.
Qed.
Lemma take_lit_Phi ts l r : take_lit ts = Some (l, r) -> Phi r + a0 + K <= Phi ts.
Proof.
  unfold take_lit. destruct ts as [|t ts]; [discriminate|]. rewrite Phi_cons. assert (Ht := pot_pos t).
  destruct t as [i|c sp|k s|d inner]; try discriminate.
  - destruct (ident_is i "true"); [intros [= <- <-]; lia|]. destruct (ident_is i "false"); [intros [= <- <-]; lia|discriminate].
  - destruct ts as [|[| |k s|] ts]; try discriminate. destruct (Ascii.eqb c "-"); [|discriminate].
    rewrite Phi_cons. destruct k; try discriminate; intros [= <- <-]; lia.
  - intros [= <- <-]. lia.
Qed.
Lemma b_lit : bounded (fun _ => a0 + K) 2 w_parse_lit.
Proof.
  intros ts. unfold ok, w_parse_lit, priced, parse_lit. destruct (take_lit ts) as [[l r]|] eqn:H; cbn [fst snd p_out p_rest]; try lia.
  apply take_lit_Phi in H. lia.
Qed.
Lemma b_lit_str : bounded (fun _ => a0 + K) 2 w_parse_lit_str.
Proof.
  intros ts. unfold ok, w_parse_lit_str, priced, parse_lit_str. destruct (take_lit ts) as [[l r]|] eqn:H; cbn [fst snd p_out p_rest]; try lia.
  apply take_lit_Phi in H. destruct l as [[] s|]; cbn [fst snd p_out p_rest]; lia.
Qed.
Lemma f_lit_str : fails (fun _ => 2) w_parse_lit_str.
Proof. intros ts n e r d H. unfold w_parse_lit_str, priced in H. injection H as <- _. auto. Qed.
Lemma b_group d : bounded (fun _ => a0 - 1) 1 (w_group_tokens d).
Proof.
  intros ts. unfold ok, w_group_tokens, priced, group_tokens, extract, peek_group, next_weight.
  destruct ts as [|t ts]; cbn [fst snd p_out p_rest]; try lia. rewrite Phi_cons. assert (H := pot_weigh t).
  destruct t as [i|c sp|k s|d' inner]; cbn [fst snd p_out p_rest]; rewrite ?Phi_cons; try lia.
  destruct (delim_eqb d d'); cbn [fst snd p_out p_rest]; rewrite ?Phi_cons; lia.
Qed.
Lemma b_tt : bounded (fun _ => a0 - 1) 1 w_parse_tt.
Proof.
  intros ts. unfold ok, w_parse_tt, priced, parse_tt, next_weight.
  destruct ts as [|t ts]; cbn [fst snd p_out p_rest]; try lia. rewrite Phi_cons. assert (H := pot_weigh t). lia.
Qed.
Lemma f_tt : fails (fun _ => 1) w_parse_tt.
Proof. intros ts n e r d H. unfold w_parse_tt, priced, parse_tt, next_weight in H. destruct ts; [|discriminate]. injection H as <- _. auto. Qed.
Lemma b_rest : bounded no 1 w_take_rest.
Proof. intros ts. unfold ok, w_take_rest, priced, take_rest. cbn [fst snd p_out p_rest]. assert (H := Phi_weight ts). change (Phi []) with 0. lia. Qed.

(** ** Values *)

Ltac bstep := first
  [ eapply b_ret; cbn [oc]; lia | apply b_fail | eapply b_emit; lia | eapply b_look; lia | eapply b_pay; lia ].
Tactic Notation "bs" uconstr(H) := eapply b_seq; [apply H| |]; [cbn [oc String.length]; try lia|intros ?; cbn beta; cbn [String.length]].
Tactic Notation "bl" := eapply b_seq; [apply b_look with (b := 1); lia|cbn [oc]; lia|intros ?; cbn beta].
Tactic Notation "be" := eapply b_seq; [apply b_emit with (b := 1); lia|cbn [oc]; lia|intros ?; cbn beta].
Tactic Notation "bp" := eapply b_seq; [apply b_pay; apply Nat.le_refl|cbn [oc]; try lia|intros ?; cbn beta].
Ltac dd := match goal with |- bounded _ _ (match ?c with _ => _ end) => destruct c end.

Lemma b_value : bounded (fun _ => 40) 6 w_parse_value.
Proof.
  unfold w_parse_value. bl. dd.
  { bs (b_unwrap _ _ _ (b_group _)). bstep. }
  bl. dd.
  { bs (b_unwrap _ _ _ b_any1). bs (b_unwrap _ _ _ (b_group _)). bstep. }
  bl. dd.
  { bs (b_unwrap _ _ _ (b_group _)). bstep. }
  bl. dd; [|bstep]. bs (b_unwrap _ _ _ b_lit). bstep.
Qed.
Lemma f_fail {A} e f : fails f (w_fail (A := A) e).
Proof. intros ts n e' r d H. injection H as <- _. lia. Qed.
Lemma f_value : fails (fun _ => 4) w_parse_value.
Proof.
  unfold w_parse_value. eapply f_look with (f := fun _ => 3); [|lia]. intros []; [apply n_fails; nv|].
  eapply f_look with (f := fun _ => 2); [|lia]. intros []; [apply n_fails; nv|].
  eapply f_look with (f := fun _ => 1); [|lia]. intros []; [apply n_fails; nv|].
  eapply f_look with (f := fun _ => 0); [|lia]. intros []; [apply n_fails; nv|]. apply f_fail.
Qed.
Lemma b_try_value : bounded (oc (fun _ => 40)) 7 (w_rollback_err w_parse_value).
Proof. eapply b_rollback; [apply b_value|apply f_value|lia]. Qed.
Lemma b_or_emit : bounded no 9 w_parse_or_emit_err.
Proof. unfold w_parse_or_emit_err. bs b_try_value. dd; [bstep|]. bl. be. bstep. Qed.
Lemma n_or_emit : never w_parse_or_emit_err.
Proof. unfold w_parse_or_emit_err. nv. Qed.

(** ** Names *)

Lemma Phi_used u r : a0 * F u + K * weight u + Phi r <= Phi (u ++ r).
Proof. rewrite Phi_app. assert (H := Phi_low u). lia. Qed.

Lemma length_app a b : String.length (a ++ b) = String.length a + String.length b.
Proof. induction a; cbn; auto. Qed.

Lemma segment_used k ts : exists n k' u r d, w_kebab_segment k ts = (n, PR (Ret k') r d) /\ ts = u ++ r /\
  n <= 5 + F u /\ String.length (k_repr k') <= String.length (k_repr k) + F u.
Proof.
  destruct ts as [|t ts]; [do 5 eexists; split; [reflexivity|split; [exact (eq_sym (app_nil_l _))|cbn; lia]]|].
  assert (Hno : take_lit (t :: ts) = None \/ (exists l r, take_lit (t :: ts) = Some (l, r)) ) by (destruct (take_lit (t :: ts)) as [[l r]|]; eauto).
  destruct t as [i|c sp|lk s|d inner].
  - unfold w_kebab_segment, w_bind, w_rollback_err, w_parse_any, priced, parse_any, cur_ident, pay, w_emit, w_ret, emit, ret, priced.
    destruct (i_raw i); cbn -[append String.length];
      (do 5 eexists; split; [reflexivity|split; [exact (eq_refl ([TIdent i] ++ ts))|]]; cbn [F fold_right flat1 weigh k_repr]; rewrite length_app; lia).
  - destruct ts as [|[i'|c' sp'|lk' s'|d' inner'] ts'];
      try (do 5 eexists; split; [reflexivity|split; [exact (eq_sym (app_nil_l _))|cbn; lia]]).
    destruct (Ascii.eqb c "-") eqn:Hc.
    + destruct lk'; try (unfold w_kebab_segment, w_bind, w_rollback_err, w_parse_any, w_parse_lit_int, priced, parse_any, cur_ident, parse_lit_int, take_lit;
         rewrite Hc; do 5 eexists; split; [reflexivity|split; [exact (eq_sym (app_nil_l _))|cbn; lia]]).
      unfold w_kebab_segment, w_bind, w_rollback_err, w_parse_any, w_parse_lit_int, priced, parse_any, cur_ident, parse_lit_int, take_lit.
      rewrite Hc. do 5 eexists; split; [reflexivity|split; [exact (eq_refl ([TPunct c sp; TLit LkInt s'] ++ ts'))|]].
      cbn [F fold_right flat1 weigh k_repr]. rewrite ?length_app. cbn. rewrite ?length_app. cbn. lia.
    + unfold w_kebab_segment, w_bind, w_rollback_err, w_parse_any, w_parse_lit_int, priced, parse_any, cur_ident, parse_lit_int, take_lit.
      rewrite Hc. do 5 eexists; split; [reflexivity|split; [exact (eq_sym (app_nil_l _))|cbn; lia]].
  - destruct lk; try (do 5 eexists; split; [reflexivity|split; [exact (eq_sym (app_nil_l _))|cbn; lia]]).
    do 5 eexists; split; [reflexivity|split; [exact (eq_refl ([TLit LkInt s] ++ ts))|]].
    cbn [F fold_right flat1 weigh k_repr]. rewrite ?length_app. cbn. rewrite ?length_app. cbn. lia.
  - do 5 eexists; split; [reflexivity|split; [exact (eq_sym (app_nil_l _))|cbn; lia]].
Qed.

(** A name that was read, or a loop that ran out of fuel. *)
Definition named_by (k : kebab) (ts : list tt) (b : nat) (y : nat * pres kebab) : Prop :=
  exists u, ts = u ++ p_rest (snd y) /\ fst y <= 8 * F u + b /\
  ((exists k', p_out (snd y) = Ret k' /\ String.length (k_repr k') <= String.length (k_repr k) + F u) \/ p_out (snd y) = NoFuel).

Lemma bind_step {A B} (m : WP A) (f : A -> WP B) ts n a r d : m ts = (n, PR (Ret a) r d) ->
  w_bind m f ts = (n + fst (f a r), PR (p_out (snd (f a r))) (p_rest (snd (f a r))) (d ++ p_diags (snd (f a r)))).
Proof. intros H. unfold w_bind. now rewrite H. Qed.
Lemma try_dash ts : (exists sp r, ts = TPunct "-" sp :: r /\ w_rollback_err (w_parse_punct "-") ts = (2, PR (Ret (Some Datatypes.tt)) r [])) \/
  w_rollback_err (w_parse_punct "-") ts = (2, PR (Ret None) ts []).
Proof.
  destruct ts as [|[i|c sp|k s|d inner] ts]; auto. destruct (Ascii.eqb_spec c "-") as [->|Hc].
  - left. eauto.
  - right. unfold w_rollback_err, w_parse_punct, priced, parse_punct, take_punct, cur_punct.
    apply Ascii.eqb_neq in Hc. destruct (Ascii.eqb c "'"); [reflexivity|]. now rewrite Hc.
Qed.

Lemma loop_used n : forall (second : bool) k ts, named_by k ts (if second then 9 else 2) (w_kebab_loop n second k ts).
Proof.
  induction n as [|n IH]; intros second k ts.
  { exists []. cbn. split; [auto|]. split; [destruct second; lia|auto]. }
  cbn [w_kebab_loop]. destruct (try_dash ts) as [(sp & r & -> & H)|H]; rewrite (bind_step _ _ _ _ _ _ _ H).
  - rewrite (bind_step (pay 1) _ r 1 Datatypes.tt r [] eq_refl).
    destruct (segment_used (Kebab (k_repr k ++ "-") (k_spans k)) r) as (n1 & k1 & u1 & r1 & d1 & H1 & Hr & Hn1 & Hl1).
    rewrite (bind_step _ _ _ _ _ _ _ H1). destruct (IH false k1 r1) as (u2 & Hr2 & Hn2 & Ho2).
    destruct (w_kebab_loop n false k1 r1) as [n2 [o2 r2 d2]]. cbn [fst snd p_out p_rest k_repr] in *. rewrite length_app in Hl1.
    exists (TPunct "-" sp :: u1 ++ u2). cbn [fst snd p_out p_rest]. rewrite F_cons, F_app. cbn [flat1 weigh].
    split; [rewrite Hr, Hr2; cbn [app]; now rewrite app_assoc|]. split; [destruct second; lia|].
    destruct Ho2 as [(k' & Hk & Hl)|Ho2]; [left; exists k'; split; auto; cbn in *; lia|auto].
  - destruct second; cbn [andb negb].
    2: { exists []. split; [auto|]. split; [cbn; lia|]. left. exists k. split; auto. cbn. lia. }
    destruct (String.eqb (k_repr k) "-"); cbn [negb].
    2: { exists []. split; [auto|]. split; [cbn; lia|]. left. exists k. split; auto. cbn. lia. }
    destruct (segment_used k ts) as (n1 & k1 & u1 & r1 & d1 & H1 & Hr & Hn1 & Hl1).
    rewrite (bind_step _ _ _ _ _ _ _ H1). destruct (IH false k1 r1) as (u2 & Hr2 & Hn2 & Ho2).
    destruct (w_kebab_loop n false k1 r1) as [n2 [o2 r2 d2]]. cbn [fst snd p_out p_rest] in *.
    exists (u1 ++ u2). cbn [fst snd p_out p_rest]. rewrite F_app.
    split; [rewrite Hr, Hr2; now rewrite app_assoc|]. split; [lia|].
    destruct Ho2 as [(k' & Hk & Hl)|Ho2]; [left; exists k'; split; auto; lia|auto].
Qed.

Lemma kebab_used ts :
  (exists n d, w_parse_kebab ts = (n, PR (Fail (EKebab (found_in ts))) ts d) /\ n <= 4) \/
  exists u, ts = u ++ p_rest (snd (w_parse_kebab ts)) /\ 1 <= F u /\ fst (w_parse_kebab ts) <= 8 * F u + 5 /\
   ((exists k', p_out (snd (w_parse_kebab ts)) = Ret k' /\ String.length (k_repr k') <= F u) \/ p_out (snd (w_parse_kebab ts)) = NoFuel).
Proof.
  unfold w_parse_kebab. generalize (S (S (List.length ts))). intros fuel.
  destruct ts as [|[i|c sp|lk s|d inner] ts]; try (left; do 2 eexists; split; [reflexivity|auto]).
  - right. rewrite (bind_step (w_rollback_err w_parse_any) _ (TIdent i :: ts) 2 (Some i) ts [] eq_refl).
    rewrite (bind_step _ _ ts (String.length (i_name i)) (Kebab (i_name i) 1) ts []).
    2: { unfold w_bind, pay, w_ret, priced, ret. cbn [fst snd p_out p_rest p_diags app]. f_equal. lia. }
    destruct (loop_used fuel true (Kebab (i_name i) 1) ts) as (u & Hu & Hn & Ho).
    destruct (w_kebab_loop fuel true (Kebab (i_name i) 1) ts) as [n [o r d]]. cbn [fst snd p_out p_rest k_repr] in *.
    exists (TIdent i :: u). rewrite F_cons. cbn [flat1 weigh]. split; [now rewrite Hu|]. split; [lia|]. split; [lia|].
    destruct Ho as [(k' & Hk & Hl)|Ho]; [left; exists k'; split; auto; lia|auto].
  - destruct (try_dash (TPunct c sp :: ts)) as [(sp' & r & [= -> -> <-] & H)|H].
    + right. rewrite (bind_step (w_rollback_err w_parse_any) _ (TPunct "-" sp' :: ts) 2 None (TPunct "-" sp' :: ts) [] eq_refl).
      rewrite (bind_step _ _ (TPunct "-" sp' :: ts) 2 (Kebab "-" 1) ts []).
      2: { rewrite (bind_step _ _ _ _ _ _ _ H). reflexivity. }
      destruct (loop_used fuel true (Kebab "-" 1) ts) as (u & Hu & Hn & Ho).
      destruct (w_kebab_loop fuel true (Kebab "-" 1) ts) as [n [o r d]]. cbn [fst snd p_out p_rest k_repr String.length] in *.
      exists (TPunct "-" sp' :: u). rewrite F_cons. cbn [flat1 weigh]. split; [now rewrite Hu|]. split; [lia|]. split; [lia|].
      destruct Ho as [(k' & Hk & Hl)|Ho]; [left; exists k'; split; auto; lia|auto].
    + left. exists 4, []. split; [|auto]. unfold w_bind at 1. cbn -[w_kebab_loop w_bind w_parse_punct].
      unfold w_bind. rewrite H. reflexivity.
Qed.

Lemma f_kebab : fails (fun _ => 4) w_parse_kebab.
Proof.
  intros ts n e r d H. destruct (kebab_used ts) as [(n' & d' & H' & Hn)|(u & _ & _ & _ & [(k & Hk & _)|Hk])]; rewrite H in *.
  - now injection H' as <- _ _ _.
  - discriminate.
  - discriminate.
Qed.
(** Enough is left of what was paid for the name to look at its text sixteen times. *)
Definition kcredit (k : kebab) : nat := a0 - 24 + K + 16 * String.length (k_repr k).
Lemma b_kebab : bounded kcredit 5 w_parse_kebab.
Proof.
  intros ts. unfold ok, kcredit. destruct (kebab_used ts) as [(n & d & H & Hn)|(u & Hu & Hf & Hn & Ho)].
  - rewrite H. cbn [fst snd p_out p_rest]. lia.
  - destruct (w_parse_kebab ts) as [n [o r d]]. cbn [fst snd p_out p_rest] in *. subst ts. assert (H := Phi_used u r).
    assert (K * 1 <= K * weight u).
    { apply Nat.mul_le_mono_l. destruct u as [|t u]; [cbn in Hf; lia|]. rewrite weight_cons. assert (Ht := weigh_pos t). lia. }
    destruct Ho as [(k & -> & Hk)| ->]; lia.
Qed.
Lemma b_snake k c b : (forall i, c i + 2 * S (String.length (k_repr k)) <= b) -> bounded c b (w_snake k).
Proof.
  intros H ts. unfold ok, w_snake, priced, snake, or_panic. destruct (to_snake_ident k) as [i|].
  - specialize (H i). cbn -[Phi Nat.mul]. lia.
  - specialize (H (Id false "")). cbn -[Phi Nat.mul]. lia.
Qed.
Lemma b_try {A} (c : A -> nat) b f m b' : bounded c b m -> fails (fun _ => f) m -> f <= b -> b' = S b -> bounded (oc c) b' (w_rollback_err m).
Proof. intros. subst. eapply b_rollback; eauto. Qed.

Lemma b_kebab_or_str : bounded (fun _ => a0 - 24 + K) 8 w_parse_kebab_or_str.
Proof.
  unfold w_parse_kebab_or_str. bs (b_rollback _ _ _ _ b_lit_str f_lit_str (le_n _)). dd; cbn [oc]; [bstep|].
  bs b_kebab. unfold kcredit. bstep.
Qed.
Lemma b_block k c b : (forall v, c v + 2 * S (String.length (k_repr k)) <= b) -> bounded c b (w_into_block_value k).
Proof.
  intros H. unfold w_into_block_value. eapply b_seq with (b1 := 2 * S (String.length (k_repr k))) (c1 := no); [apply b_snake; lia| |].
  - specialize (H missing_value). lia.
  - intros i. apply b_ret. specialize (H (VBlock [TIdent i])). lia.
Qed.

(** ** Tags *)

Definition after_generics (ts : list tt) : list tt :=
  match generic_args E ts with inl (_, r) => r | inr r => r end.
Hypothesis HE : env_ok E.
Hypothesis HG : forall ts, G ts + K * weight (after_generics ts) <= K * S (weight ts).

Lemma generics_Phi ts : G ts + Phi (after_generics ts) <= Phi ts + K.
Proof.
  specialize (HG ts). unfold after_generics in *. destruct HE as (H1 & H2 & _).
  assert (Hu : exists u, ts = u ++ match generic_args E ts with inl (_, r) => r | inr r => r end).
  { destruct (generic_args E ts) as [[u r]|r] eqn:H; [exists u; now apply H1|now apply H2]. }
  destruct Hu as [u Hu]. revert HG Hu. generalize (match generic_args E ts with inl (_, r) => r | inr r => r end). intros r HG' ->.
  assert (H := Phi_used u r). rewrite weight_app in HG'. lia.
Qed.
Lemma b_angle : bounded no (3 + K) (w_parse_angle G E).
Proof.
  intros ts. unfold ok, w_parse_angle, priced, parse_angle.
  assert (Hp : exists ts1, match take_punct "::" ts with Some r => r | None => ts end = ts1 /\ Phi ts1 <= Phi ts).
  { destruct (take_punct "::" ts) as [r|] eqn:H; eexists; split; try reflexivity. apply take_punct_Phi in H. lia. }
  destruct Hp as (ts1 & Hp & Hle). rewrite Hp. assert (Hg := generics_Phi ts1). unfold after_generics in Hg.
  destruct (take_punct "::" ts) as [r|]; cbv beta zeta iota in Hp; subst ts1;
    (destruct (generic_args E _) as [[u r']|r']; cbn [fst snd p_out p_rest]; lia).
Qed.
Lemma b_seg : bounded (fun _ => a0 - 5) 4 (w_parse_seg G E).
Proof.
  unfold w_parse_seg. bl. dd; [bs b_any1; bstep|]. bl.
  eapply b_seq with (b1 := 1) (c1 := fun _ => a0 + K); [destruct a; [apply b_any1|apply b_ident1]|lia|]. intros i. cbn beta.
  bl. dd; [|bstep]. bs b_angle. bstep.
Qed.
Lemma b_segs n : bounded no 4 (w_parse_segs_rest G E n).
Proof.
  induction n as [|n IH]; intros ts; [unfold ok; cbn -[Phi]; lia|]. cbn [w_parse_segs_rest].
  destruct (_ && _); [|unfold ok; cbn -[Phi]; lia]. revert ts.
  match goal with |- forall ts, ok _ _ ts (?m ts) => change (bounded no 4 m) end.
  bp. bs (b_punct "::"). bs b_seg. bs IH. bstep.
Qed.
Lemma b_opt_punct2 : bounded no 3 (w_rollback_err (w_parse_punct "::")).
Proof. eapply b_weaken; [eapply b_rollback; [apply (b_punct "::")|apply f_punct|auto]| |]; intros; cbn; lia. Qed.
Lemma b_path : bounded (fun _ => a0 - 9) 7 (w_parse_path G E).
Proof.
  intros ts. unfold w_parse_path. generalize (S (List.length ts)). intros n. revert ts.
  match goal with |- forall ts, ok _ _ ts (?m ts) => change (bounded (fun _ => a0 - 9) 7 m) end.
  bs b_opt_punct2. bs b_seg. bs (b_segs n). bstep.
Qed.
Lemma b_tag : bounded (fun _ => a0 - 40) 8 (w_parse_tag G E).
Proof.
  unfold w_parse_tag. bl. dd; [bs b_path; bstep|]. bs b_kebab. unfold kcredit, kind_steps. bp.
  dd; try (eapply b_seq with (c1 := no); [apply b_snake; intros; apply Nat.le_refl| |]; [lia|intros; bstep]). bstep.
Qed.

(** ** Attributes *)

Lemma b_selector : bounded (fun _ => a0) 9 w_parse_selector.
Proof.
  unfold w_parse_selector. bs (b_try1 _). dd; cbn [oc]; [bs b_kebab; unfold kcredit; bstep|].
  bs (b_try1 _). dd; cbn [oc]; [bs b_kebab; unfold kcredit; bstep|]. bstep.
Qed.
Lemma f_bind {A B} (m : WP A) f c (k : A -> WP B) :
  fails (fun _ => f) m -> (forall ts n a r d, m ts = (n, PR (Ret a) r d) -> n <= c) -> (forall a, fails (fun _ => f - c) (k a)) -> c <= f ->
  fails (fun _ => f) (w_bind m k).
Proof.
  intros Hm Hr Hk Hc ts n e r d H. unfold w_bind in H. specialize (Hm ts). specialize (Hr ts).
  destruct (m ts) as [n' [[a|e'| |w|] r' d']]; try discriminate.
  - specialize (Hk a r'). specialize (Hr _ _ _ _ eq_refl). destruct (k a r') as [n2 [[| | | |] r2 d2]]; cbn in H; try discriminate.
    injection H as <- _ _ _. specialize (Hk _ _ _ _ eq_refl). lia.
  - injection H as <- _ _ _. eauto.
Qed.
Lemma try1_cost c ts n a r d : w_rollback_err (w_parse_punct (String c EmptyString)) ts = (n, PR (Ret a) r d) -> n <= 2.
Proof. unfold w_rollback_err, w_parse_punct, priced. destruct (parse_punct _ ts) as [[| | | |] ? ?]; intros [= <- _ _ _]; auto. Qed.
Lemma f_then {A B} (m : WP A) f (k : A -> WP B) : fails f m -> (forall a, never (k a)) -> fails f (w_bind m k).
Proof.
  intros Hm Hk ts n e r d H. unfold w_bind in H. specialize (Hm ts).
  destruct (m ts) as [n' [[a|e'| |w|] r' d']]; try discriminate.
  - specialize (Hk a r'). destruct (k a r') as [n2 [[| | | |] r2 d2]]; cbn in H; try discriminate. now destruct (Hk _ _ _ _ eq_refl).
  - injection H as <- _ _ _. eauto.
Qed.
Lemma f_selector : fails (fun _ => 8) w_parse_selector.
Proof.
  unfold w_parse_selector. apply f_bind with (c := 2); [apply n_fails; nv|apply try1_cost| |lia]. intros [u|].
  - apply f_then; [|intros; nv]. intros ts n e r d H. apply f_kebab in H. lia.
  - apply f_bind with (c := 2); [apply n_fails; nv|apply try1_cost| |lia]. intros [u|]; [|apply f_fail].
    apply f_then; [|intros; nv]. intros ts n e r d H. apply f_kebab in H. lia.
Qed.
Lemma b_many {A} (m : WP A) b f n : bounded (fun _ => S b) b m -> fails (fun _ => f) m -> f <= b -> bounded no (S b) (w_many n m).
Proof.
  intros Hm Hf Hb. induction n as [|n IH]; intros ts; [unfold ok; cbn -[Phi]; lia|]. cbn [w_many]. revert ts.
  match goal with |- forall ts, ok _ _ ts (?m ts) => change (bounded no (S b) m) end.
  eapply b_seq; [eapply b_rollback; eauto|lia|]. intros [x|]; cbn [oc]; [|bstep]. bs IH. bstep.
Qed.
Lemma b_selectors : bounded no 10 w_parse_selectors.
Proof. intros ts. apply b_many with (f := 8); [|apply f_selector|auto]. eapply b_weaken; [apply b_selector| |]; intros; cbn beta; lia. Qed.

(** ** [{name}]: the content of the group is read, and read again if it is not
    just a name. *)

(** The part of [Phi] that pays for the second reading. *)
Definition again (ts : list tt) : nat := match ts with TGroup Brace inner :: _ => 8 * F inner | _ => 0 end.
Lemma b_braced ts : match w_parse_braced_kebab ts with
  | (n, PR (Ret k) r _) => n + kcredit k + Phi r <= Phi ts + 6
  | (n, PR (Fail _) r _) => n <= again ts + 6 /\ r = ts
  | (n, _) => n <= Phi ts + 6
  end.
Proof.
  unfold w_parse_braced_kebab, w_delimited, delimited.
  destruct ts as [|[i|c sp|lk s|d inner] ts]; try (split; [cbn; lia|reflexivity]).
  destruct d; cbn [delim_eqb]; try (split; [cbn; lia|reflexivity]). rewrite Phi_cons, pot_group. cbn [again].
  assert (Hb := b_kebab inner). unfold ok in Hb.
  assert (Hn : fst (w_parse_kebab inner) <= 8 * F inner + 5).
  { destruct (kebab_used inner) as [(n & d & H & Hn)|(u & Hu & Hf & Hn & Ho)]; [rewrite H; cbn; lia|].
    assert (Hx : F inner = F u + F (p_rest (snd (w_parse_kebab inner)))) by (rewrite Hu at 1; apply F_app). lia. }
  destruct (w_parse_kebab inner) as [n [[k|e| |w|] r d]]; cbn [fst snd p_out p_rest] in *; try lia.
  - destruct r as [|t r]; cbn [fst]; [change (Phi []) with 0 in Hb; lia|]. split; [lia|reflexivity].
  - split; [lia|reflexivity].
Qed.

(** [bounded], except that the stream may be anywhere after a failure. *)
Definition wok {A} (c : A -> nat) (b : nat) (ts : list tt) (y : nat * pres A) : Prop :=
  match p_out (snd y) with
  | Ret a => fst y + c a + Phi (p_rest (snd y)) <= Phi ts + b
  | _ => fst y <= Phi ts + b
  end.
Definition weakly {A} (c : A -> nat) (b : nat) (m : WP A) : Prop := forall ts, wok c b ts (m ts).
Lemma w_of {A} (c : A -> nat) b m : bounded c b m -> weakly c b m.
Proof. intros H ts. specialize (H ts). unfold ok, wok in *. destruct (p_out _); lia. Qed.
Lemma w_seq {A B} (c1 : A -> nat) (c2 : B -> nat) b1 b m f :
  weakly c1 b1 m -> b1 <= b -> (forall a, weakly c2 (b - b1 + c1 a) (f a)) -> weakly c2 b (w_bind m f).
Proof.
  intros Hm Hb Hf ts. specialize (Hm ts). unfold wok, w_bind in *. destruct (m ts) as [n [[a|e| |w|] r d]]; cbn [fst snd p_out p_rest] in *; try lia.
  specialize (Hf a r). unfold wok in Hf. destruct (p_out (snd (f a r))); lia.
Qed.
Lemma w_weaken {A} (c c' : A -> nat) b b' m : weakly c' b' m -> (forall a, c a <= c' a) -> b' <= b -> weakly c b m.
Proof. intros H Hc Hb ts. specialize (H ts). unfold wok in *. destruct (p_out _) as [a| | | |]; try lia. specialize (Hc a). lia. Qed.
Lemma w_abort {A} (c : A -> nat) b m : weakly c b m -> bounded c (S b) (w_unwrap_or_abort m).
Proof. intros H ts. specialize (H ts). unfold ok, wok, w_unwrap_or_abort in *. destruct (m ts) as [n [[a|e| |w|] r d]]; cbn [fst snd p_out p_rest] in *; lia. Qed.
Tactic Notation "ws" uconstr(H) := eapply w_seq; [apply H| |]; [cbn [oc String.length]; try lia|intros ?; cbn beta; cbn [String.length]].
Tactic Notation "wb" uconstr(H) := eapply w_seq; [apply w_of; apply H| |]; [cbn [oc String.length]; try lia|intros ?; cbn beta; cbn [String.length]].
Tactic Notation "wl" := eapply w_seq; [apply w_of; apply b_look with (b := 1); lia|cbn [oc]; lia|intros ?; cbn beta].
Ltac wd := match goal with |- weakly _ _ (match ?c with _ => _ end) => destruct c end.
Ltac wret := apply w_of; bstep.

Lemma again_Phi ts : again ts <= Phi ts.
Proof. destruct ts as [|[i|c sp|lk s|[] inner] ts]; cbn [again]; try lia. rewrite Phi_cons, pot_group. lia. Qed.
Lemma w_braced : weakly kcredit 6 w_parse_braced_kebab.
Proof.
  intros ts. assert (Hb := b_braced ts). assert (Ha := again_Phi ts). unfold wok.
  destruct (w_parse_braced_kebab ts) as [n [[k|e| |w|] r d]]; cbn [fst snd p_out p_rest]; try lia.
Qed.
Lemma f_braced : fails (fun ts => again ts + 6) w_parse_braced_kebab.
Proof. intros ts n e r d H. assert (Hb := b_braced ts). rewrite H in Hb. tauto. Qed.
Lemma w_kv : weakly (fun _ => a0 - 44) 16 w_parse_kv.
Proof.
  unfold w_parse_kv. wl. wd.
  - ws w_braced. unfold kcredit. eapply w_seq with (c1 := no); [apply w_of, b_block; intros; apply Nat.le_refl|lia|]. intros v. cbn beta. wret.
  - wb b_kebab. unfold kcredit. wb (b_try1 _). wd; cbn [oc]; [|wret]. wb b_or_emit. wret.
Qed.
Lemma f_kv : fails (fun ts => again ts + 7) w_parse_kv.
Proof.
  unfold w_parse_kv. eapply f_look with (f := fun ts => again ts + 6); [|intros; lia]. intros [].
  - apply f_then; [apply f_braced|]. intros k. unfold w_into_block_value. nv.
  - apply f_then; [intros ts n e r d H; apply f_kebab in H; lia|]. intros k. nv.
Qed.
Lemma b_modifier : bounded no 3 w_try_parse_modifier.
Proof. unfold w_try_parse_modifier. bs (b_try1 _). dd; cbn [oc]; [|bstep]. bs b_any1. bstep. Qed.
Lemma w_directive : weakly (fun _ => a0) 2 w_parse_directive.
Proof.
  unfold w_parse_directive. wb b_any1. wb (b_punct1 _). wl. wd.
  - ws w_braced. unfold kcredit. eapply w_seq with (c1 := no); [apply w_of, b_block; intros; apply Nat.le_refl|lia|]. intros v. cbn beta.
    wb b_modifier. wret.
  - wb b_kebab_or_str. wb b_modifier. wb (b_try1 _). wd; cbn [oc]; [|wret]. wb b_or_emit. wret.
Qed.
Lemma take_punct_weight s : forall ts r, take_punct s ts = Some r -> weight r <= weight ts.
Proof.
  induction s as [|ch s IH]; intros ts r H; [discriminate|]. cbn [take_punct] in H.
  unfold cur_punct in H. destruct ts as [|[i|c sp|k v|d inner] ts]; try discriminate.
  destruct (Ascii.eqb c "'"); [discriminate|]. destruct (Ascii.eqb c ch); [|discriminate].
  rewrite weight_cons. destruct s as [|ch' s].
  - injection H as <-. lia.
  - destruct sp; try discriminate. apply IH in H. lia.
Qed.
Lemma spread_used ts : match w_parse_spread ts with
  | (n, PR (Ret _) r _) => n + again ts + a0 + Phi r <= Phi ts + 3
  | (n, PR (Fail _) _ _) => n <= 3
  | _ => False
  end.
Proof.
  unfold w_parse_spread, w_bind, w_extract, priced, extract, pay, w_ret, w_fail, priced, ret, fail.
  destruct ts as [|[i|c sp|lk s|d inner] ts]; try lia.
  destruct d; cbn [delim_eqb]; try lia. rewrite Phi_cons, pot_group. assert (Hw := Phi_weight inner). cbn [again].
  destruct (take_punct ".." inner) as [r|] eqn:Hr; cbn [fst snd p_out p_rest]; [|lia].
  apply take_punct_weight in Hr. lia.
Qed.
Lemma f_spread : fails (fun _ => 3) w_parse_spread.
Proof. intros ts n e r d H. assert (Hs := spread_used ts). now rewrite H in Hs. Qed.
Lemma w_try {A} (c : A -> nat) b g m : weakly c b m -> fails (fun ts => again ts + g) m -> forall ts,
  match w_rollback_err m ts with
  | (n, PR (Ret (Some a)) r _) => n + c a + Phi r <= Phi ts + S b
  | (n, PR (Ret None) r _) => n <= again ts + S g /\ r = ts
  | (n, PR (Fail _) _ _) => False
  | (n, _) => n <= Phi ts + S b
  end.
Proof.
  intros Hm Hf ts. specialize (Hm ts). specialize (Hf ts). unfold wok, w_rollback_err in *.
  destruct (m ts) as [n [[a|e| |w|] r d]]; cbn [fst snd p_out p_rest] in *; try lia.
  specialize (Hf _ _ _ _ eq_refl). split; [lia|auto].
Qed.
Lemma f_attr : fails (fun ts => again ts + 14) w_parse_attr.
Proof.
  unfold w_parse_attr. eapply f_look with (f := fun ts => again ts + 13); [|intros; lia]. intros []; [apply n_fails; nv|].
  eapply f_look with (f := fun ts => again ts + 12); [|intros; lia]. intros [].
  { apply f_then; [intros ts n e r d H; apply f_kv in H; lia|]. intros. nv. }
  eapply f_try with (g := fun _ => 4); [apply f_kv| |intros; nv|intros; cbn beta; lia].
  eapply f_try with (g := fun _ => 0); [apply f_spread|apply f_fail|intros; nv|intros; cbn beta; lia].
Qed.
Lemma w_attr : weakly (fun _ => 34) 20 w_parse_attr.
Proof.
  unfold w_parse_attr. wl. wd; [wb (w_abort _ _ _ w_directive); wret|]. wl. wd; [ws w_kv; wret|].
  intros ts. assert (Hk := w_try _ _ _ _ w_kv f_kv ts). unfold w_bind at 1.
  destruct (w_rollback_err w_parse_kv ts) as [n [[[kv|]|e| |w|] r d]]; unfold wok; cbn [fst snd p_out p_rest] in *; try lia.
  - cbn -[Phi]. lia.
  - destruct Hk as [Hn ->]. assert (Hs := spread_used ts). assert (Ha := again_Phi ts).
    unfold w_bind, w_rollback_err. destruct (w_parse_spread ts) as [n' [[sp|e| |w|] r d']]; try contradiction; cbn -[Phi again]; lia.
Qed.

(** The attempt that ends the loop is paid for by the group that follows. *)
Definition attrs_ok (b : nat) (ts : list tt) (y : nat * pres (list attr)) : Prop :=
  match p_out (snd y) with
  | Ret _ => fst y + Phi (p_rest (snd y)) <= Phi ts + again (p_rest (snd y)) + b
  | Fail _ => False
  | _ => fst y <= Phi ts + b
  end.
Lemma many_attrs n : forall ts, attrs_ok 21 ts (w_many n w_parse_attr ts).
Proof.
  induction n as [|n IH]; intros ts; [unfold attrs_ok; cbn -[Phi]; lia|]. cbn [w_many].
  assert (Hk := w_try _ _ _ _ w_attr f_attr ts). unfold w_bind at 1.
  destruct (w_rollback_err w_parse_attr ts) as [n' [[[a|]|e| |w|] r d]]; unfold attrs_ok; cbn [fst snd p_out p_rest] in *; try lia; try contradiction.
  - specialize (IH r). unfold attrs_ok, w_bind in *. destruct (w_many n w_parse_attr r) as [n2 [[l|e| |w|] r2 d2]]; cbn -[Phi again] in *; try lia.
  - destruct Hk as [Hn ->]. cbn -[Phi again]. lia.
Qed.
Lemma attrs_used ts : attrs_ok 21 ts (w_parse_attrs ts).
Proof. apply many_attrs. Qed.

(** ** Elements and children *)

Lemma b_closure_loop n : bounded no 4 (w_closure_loop n).
Proof.
  induction n as [|n IH]; intros ts; [unfold ok; cbn -[Phi]; lia|]. cbn [w_closure_loop]. revert ts.
  match goal with |- forall ts, ok _ _ ts (?m ts) => change (bounded no 4 m) end.
  bs (b_try1 _). dd; cbn [oc]; [bstep|].
  bs (b_rollback _ _ _ _ b_tt f_tt (le_n _)). dd; cbn [oc]; [|bstep]. bs IH. bstep.
Qed.
Lemma b_closure_args : bounded no 5 w_parse_closure_args.
Proof.
  intros ts. unfold w_parse_closure_args. generalize (S (List.length ts)). intros n. revert ts.
  match goal with |- forall ts, ok _ _ ts (?m ts) => change (bounded no 5 m) end.
  bs (b_punct1 _). bs (b_closure_loop n). bstep.
Qed.

(** A block of children read by [pc]. *)
Definition whole (pc : WP (list child)) : Prop := forall ts,
  match pc ts with
  | (n, PR (Ret _) r _) => n <= Phi ts + 24 /\ r = []
  | (n, PR (Fail _) _ _) => False
  | (n, _) => n <= Phi ts + 24
  end.
Lemma block_used pc d ts : whole pc -> peek_group d ts = true ->
  match w_delimited d pc ts with
  | (n, PR (Ret _) r _) => n + again ts + Phi r <= Phi ts + 2
  | (n, PR (Fail _) _ _) => False
  | (n, _) => n + again ts <= Phi ts + 2
  end.
Proof.
  intros Hpc Hg. unfold w_delimited, delimited. destruct ts as [|[i|c sp|lk s|d' inner] ts]; try discriminate.
  cbn [peek_group] in Hg. rewrite Hg. specialize (Hpc inner). rewrite Phi_cons, pot_group.
  assert (Ha : again (TGroup d' inner :: ts) <= 8 * F inner) by (cbn [again]; destruct d'; lia).
  destruct (pc inner) as [n [[l|e| |w|] r ds]]; cbn [fst snd]; try contradiction; try lia.
  destruct Hpc as [Hn ->]. lia.
Qed.
(** The end of an element, after its attributes. *)
Definition tail_ok {A} (b : nat) (ts : list tt) (y : nat * pres A) : Prop :=
  match p_out (snd y) with
  | Ret _ | Fail _ => fst y + again ts + Phi (p_rest (snd y)) <= Phi ts + b
  | _ => fst y + again ts <= Phi ts + b
  end.
Lemma tail_bounded {A} b ts (y : nat * pres A) : again ts = 0 -> ok no b ts y -> tail_ok b ts y.
Proof. unfold tail_ok, ok. intros ->. destruct (p_out (snd y)); lia. Qed.
Lemma b_block_or pc d ts (f : list child -> element) : whole pc -> peek_group d ts = true ->
  tail_ok 2 ts (w_bind (w_delimited d pc) (fun c => w_ret (f c)) ts).
Proof.
  intros Hpc Hg. assert (H := block_used _ _ _ Hpc Hg). unfold w_bind, tail_ok.
  destruct (w_delimited d pc ts) as [n [[l|e| |w|] r ds]]; cbn -[Phi again] in *; try contradiction; lia.
Qed.
Lemma tail_of {A} b b' ts (y : nat * pres A) : tail_ok b ts y -> b <= b' -> ok no b' ts y.
Proof. unfold tail_ok, ok. destruct (p_out (snd y)); lia. Qed.
Lemma tail_up {A} n b ts (y : nat * pres A) : tail_ok b ts y ->
  tail_ok (n + b) ts (n + fst y, PR (p_out (snd y)) (p_rest (snd y)) ([] ++ p_diags (snd y))).
Proof. unfold tail_ok. cbn [fst snd p_out p_rest]. destruct (p_out (snd y)); lia. Qed.

(** The part of [Element::parse] after the attributes. *)
Definition w_end (pc : WP (list child)) (t : tag) (sels : list selector) (attrs : list attr) : WP element :=
  semi <- w_rollback_err (w_parse_punct ";") ;;
  match semi with
  | Some _ => w_ret (Element t sels attrs None None)
  | None =>
      ts <- w_look (fun ts => ts) ;;
      match ts with
      | [] => w_emit DUnterminated ;;; w_ret (Element t sels attrs None None)
      | _ =>
          if peek_group Brace ts then
            c <- w_delimited Brace pc ;; w_ret (Element t sels attrs None (Some c))
          else if peek_group Paren ts then
            c <- w_delimited Paren pc ;; w_ret (Element t sels attrs None (Some c))
          else if peek_punct "|" ts then
            args <- w_parse_closure_args ;;
            ts' <- w_look (fun ts => ts) ;;
            if peek_group Brace ts' then
              c <- w_delimited Brace pc ;; w_ret (Element t sels attrs (Some args) (Some c))
            else if peek_group Paren ts' then
              c <- w_delimited Paren pc ;; w_ret (Element t sels attrs (Some args) (Some c))
            else
              w_emit DNoChildrenAfterArgs ;;;
              w_ret (Element t sels attrs (Some args) None)
          else
            w_emit DUnknownAttr ;;;
            w_emit DNoChildElements ;;;
            w_ret (Element t sels attrs None None)
      end
  end.

Lemma try_semi ts : (exists sp r, ts = TPunct ";" sp :: r /\ w_rollback_err (w_parse_punct ";") ts = (2, PR (Ret (Some Datatypes.tt)) r [])) \/
  w_rollback_err (w_parse_punct ";") ts = (2, PR (Ret None) ts []).
Proof.
  destruct ts as [|[i|c sp|k s|d inner] ts]; auto. destruct (Ascii.eqb_spec c ";") as [->|Hc].
  - left. eauto.
  - right. unfold w_rollback_err, w_parse_punct, priced, parse_punct, take_punct, cur_punct.
    apply Ascii.eqb_neq in Hc. destruct (Ascii.eqb c "'"); [reflexivity|]. now rewrite Hc.
Qed.
Lemma again_brace ts : peek_group Brace ts = false -> again ts = 0.
Proof. destruct ts as [|[i|c sp|k s|[] inner] ts]; cbn; congruence. Qed.

Lemma end_used pc t sels attrs ts : whole pc -> tail_ok 11 ts (w_end pc t sels attrs ts).
Proof.
  intros Hpc. unfold w_end. destruct (try_semi ts) as [(sp & r & -> & H)|H]; rewrite (bind_step _ _ _ _ _ _ _ H).
  { unfold tail_ok. cbn -[Phi]. rewrite Phi_cons. lia. }
  apply (tail_up 2 9). rewrite (bind_step (w_look (fun ts => ts)) _ ts 1 ts ts [] eq_refl). apply (tail_up 1 8).
  destruct (peek_group Brace ts) eqn:Hb.
  { destruct ts as [|x ts]; [discriminate|].
    assert (H1 := b_block_or pc Brace _ (fun c => Element t sels attrs None (Some c)) Hpc Hb).
    unfold tail_ok in *. destruct (p_out _); lia. }
  apply tail_bounded; [now apply again_brace|].
  destruct ts as [|x ts]; [unfold ok; cbn -[Phi]; lia|]. revert Hb. generalize (x :: ts). clear x ts H. intros ts Hb.
  destruct (peek_group Paren ts) eqn:Hp.
  { eapply tail_of; [exact (b_block_or pc Paren _ (fun c => Element t sels attrs None (Some c)) Hpc Hp)|lia]. }
  destruct (peek_punct "|" ts).
  2: { unfold ok; cbn -[Phi]; lia. }
  revert ts Hb Hp.
  assert (Hx : bounded no 8 (args <- w_parse_closure_args ;;
            ts' <- w_look (fun ts => ts) ;;
            if peek_group Brace ts' then
              c <- w_delimited Brace pc ;; w_ret (Element t sels attrs (Some args) (Some c))
            else if peek_group Paren ts' then
              c <- w_delimited Paren pc ;; w_ret (Element t sels attrs (Some args) (Some c))
            else
              w_emit DNoChildrenAfterArgs ;;;
              w_ret (Element t sels attrs (Some args) None))).
  { bs b_closure_args. intros ts. rewrite (bind_step (w_look (fun ts => ts)) _ ts 1 ts ts [] eq_refl).
    match goal with |- ok _ _ _ (1 + fst ?y, _) => assert (Hy : ok no 2 ts y); [|revert Hy; generalize y; intros y' Hy; unfold ok in *; cbn [fst snd p_out p_rest]; destruct (p_out (snd y')); lia] end.
    destruct (peek_group Brace ts) eqn:Hb; [eapply tail_of; [now apply b_block_or|lia]|].
    destruct (peek_group Paren ts) eqn:Hp; [eapply tail_of; [now apply b_block_or|lia]|].
    unfold ok; cbn -[Phi]; lia. }
  intros ts _ _. apply Hx.
Qed.

Lemma attrs_end pc t sels ts : whole pc -> ok no 32 ts (w_bind w_parse_attrs (w_end pc t sels) ts).
Proof.
  intros Hpc. assert (Ha := attrs_used ts). unfold w_bind. unfold attrs_ok in Ha.
  destruct (w_parse_attrs ts) as [n [[l|e| |w|] r ds]]; unfold ok; cbn [fst snd p_out p_rest] in *; try lia.
  assert (He := end_used pc t sels l r Hpc). unfold tail_ok in He. destruct (p_out (snd (w_end pc t sels l r))); lia.
Qed.
Lemma b_element pc : whole pc -> bounded (fun _ => a0 - 82) 8 (w_parse_element G E pc).
Proof.
  intros Hpc. unfold w_parse_element. eapply b_seq; [apply b_tag|lia|]. intros t. cbn beta.
  eapply b_seq; [apply b_selectors|lia|]. intros sels. cbn beta. intros ts.
  assert (H := attrs_end pc t sels ts Hpc). unfold ok in *.
  change (w_bind w_parse_attrs _) with (w_bind w_parse_attrs (w_end pc t sels)).
  destruct (p_out (snd (w_bind w_parse_attrs (w_end pc t sels) ts))); lia.
Qed.
Lemma b_child pc : whole pc -> bounded (fun _ => a0 - 82) 17 (w_parse_child G E pc).
Proof.
  intros Hpc. unfold w_parse_child. bs b_try_value. destruct a as [v|]; cbn [oc].
  { destruct v as [[[] s|b]| |]; try bstep; be; bstep. }
  bl. dd.
  - bs (b_unwrap _ _ _ b_any1). bs (b_unwrap _ _ _ (b_punct1 _)). bs (b_element pc Hpc). bstep.
  - bl. dd; [|bstep]. bs (b_element pc Hpc). bstep.
Qed.
Lemma children_used n : whole (w_parse_children G E n).
Proof.
  induction n as [|n IH]; intros ts; [cbn -[Phi]; lia|]. destruct ts as [|t ts]; [cbn; split; [lia|auto]|].
  cbn [w_parse_children]. assert (Hc := b_child _ IH (t :: ts)). unfold ok in Hc.
  destruct (w_parse_child G E _ (t :: ts)) as [k [[c|e| |w|] r d]]; cbn [fst snd p_out p_rest] in Hc; try lia.
  - specialize (IH r). unfold w_bind. destruct (w_parse_children G E n r) as [n2 [[l|e| |w|] r2 d2]]; cbn -[Phi] in *; try lia.
    destruct IH as [Hn ->]. split; [lia|auto].
  - destruct (peek_punct ";" r) eqn:Hs.
    + assert (Hr : exists sp r', r = TPunct ";" sp :: r').
      { unfold peek_punct, take_punct, cur_punct in Hs. destruct r as [|[i|c sp|lk v|d' inner] r]; try discriminate.
        destruct (Ascii.eqb c "'"); [discriminate|]. destruct (Ascii.eqb_spec c ";") as [->|]; [eauto|discriminate]. }
      destruct Hr as (sp & r' & ->). rewrite Phi_cons, pot_punct in Hc.
      rewrite (bind_step (w_emit DExtraSemi) _ _ 1 Datatypes.tt (TPunct ";" sp :: r') [DExtraSemi] eq_refl).
      rewrite (bind_step (w_unwrap (w_parse_punct ";")) _ (TPunct ";" sp :: r') 1 Datatypes.tt r' [] eq_refl).
      specialize (IH r'). destruct (w_parse_children G E n r') as [n2 [[l|e2| |w|] r2 d2]]; cbn [fst snd p_out p_rest p_diags] in *; try lia.
      destruct IH as [Hn ->]. split; [lia|auto].
    + rewrite (bind_step (w_emit (DParse e)) _ r 1 Datatypes.tt r [DParse e] eq_refl).
      rewrite (bind_step w_take_rest _ r (S (weight r)) r [] [] eq_refl).
      assert (H1 : fst (w_parse_children G E n []) = 1) by (destruct n; reflexivity).
      specialize (IH []). assert (Hw := Phi_weight r). change (Phi []) with 0 in *.
      destruct (w_parse_children G E n []) as [n2 [[l|e2| |w|] r2 d2]]; cbn [fst snd p_out p_rest p_diags] in *; try lia.
      destruct IH as [Hn ->]. split; [lia|auto].
Qed.
Theorem parse_bound input : parse_steps G E input <= (a0 + 8 + K) * weight input + 24.
Proof.
  unfold parse_steps. assert (H := children_used (S (size input)) input). assert (Hh := Phi_high input).
  destruct (w_parse_children G E _ input) as [n [[l|e| |w|] r d]]; cbn [fst]; lia.
Qed.
End Bound.
