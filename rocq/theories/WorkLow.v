(** A lower bound for the steps of the parser: every token is handled. *)
From Verif Require Export WorkFacts Monad.
From Coq Require Import Lia Arith.
Open Scope list_scope.
Close Scope parse_scope.
Open Scope work_scope.

Ltac sz := cbn -[size]; rewrite ?size_cons; cbn [tt_size]; lia.

Definition covers {A} (m : WP A) : Prop := forall ts,
  match m ts with
  | (n, PR (Ret _) r _) | (n, PR (Fail _) r _) => size ts <= n + size r
  | _ => True
  end.
Definition covers_ret {A} (m : WP A) : Prop := forall ts,
  match m ts with (n, PR (Ret _) r _) => size ts <= n + size r | _ => True end.

Lemma c_ret' {A} (m : WP A) : covers m -> covers_ret m.
Proof. intros H ts. specialize (H ts). destruct (m ts) as [n [[| | | |] ? ?]]; auto. Qed.
Lemma c_bind {A B} (m : WP A) (f : A -> WP B) : covers m -> (forall a, covers (f a)) -> covers (w_bind m f).
Proof.
  intros Hm Hf ts. specialize (Hm ts). unfold w_bind. destruct (m ts) as [n [[a|e| |w|] r d]]; auto.
  specialize (Hf a r). destruct (f a r) as [n' [[| | | |] ? ?]]; cbn [fst snd p_out Syn.p_rest] in *; auto; lia.
Qed.
Lemma c_still {A} c (m : P A) : (forall ts, Syn.p_rest (m ts) = ts) -> covers (priced c m).
Proof. intros H ts. specialize (H ts). unfold priced. destruct (m ts) as [[| | | |] r d]; cbn [Syn.p_rest] in *; subst; auto; lia. Qed.
Lemma c_ret {A} (a : A) : covers (w_ret a). Proof. now apply c_still. Qed.
Lemma c_fail {A} e : covers (w_fail (A := A) e). Proof. now apply c_still. Qed.
Lemma c_emit d : covers (w_emit d). Proof. now apply c_still. Qed.
Lemma c_look {A} (f : list tt -> A) : covers (w_look f). Proof. now apply c_still. Qed.
Lemma c_pay n : covers (pay n). Proof. intros ts. sz. Qed.
Lemma c_snake k : covers (w_snake k). Proof. apply c_still. intros ts. unfold snake, or_panic. now destruct (to_snake_ident k). Qed.
Lemma c_unwrap {A} (m : WP A) : covers_ret m -> covers (w_unwrap m).
Proof. intros H ts. specialize (H ts). unfold w_unwrap. destruct (m ts) as [n [[| | | |] ? ?]]; auto. Qed.
Lemma c_abort {A} (m : WP A) : covers_ret m -> covers (w_unwrap_or_abort m).
Proof. intros H ts. specialize (H ts). unfold w_unwrap_or_abort. destruct (m ts) as [n [[| | | |] ? ?]]; auto. Qed.
Lemma c_rollback {A} (m : WP A) : covers_ret m -> covers (w_rollback_err m).
Proof. intros H ts. specialize (H ts). unfold w_rollback_err. destruct (m ts) as [n [[| | | |] ? ?]]; auto; lia. Qed.

Lemma weigh_size t : tt_size t <= weigh t.
Proof.
  revert t. fix IH 1. intros [i|c sp|k s|d ts]; cbn [tt_size weigh]; try lia.
  apply le_n_S. induction ts as [|x ts IHts]; cbn [fold_right]; auto. specialize (IH x). lia.
Qed.
Lemma weight_size ts : size ts <= weight ts.
Proof. induction ts as [|t ts IH]; [auto|]. rewrite size_cons. cbn [weight fold_right]. fold (weight ts). assert (H := weigh_size t). lia. Qed.
Lemma take_punct_size s : forall ts r, take_punct s ts = Some r -> size ts = String.length s + size r.
Proof.
  induction s as [|ch s IH]; intros ts r H; [discriminate|]. cbn [take_punct] in H.
  unfold cur_punct in H. destruct ts as [|[i|c sp|k v|d inner] ts]; try discriminate.
  destruct (Ascii.eqb c "'"); [discriminate|]. destruct (Ascii.eqb c ch); [|discriminate].
  rewrite size_cons. cbn [tt_size String.length]. destruct s as [|ch' s].
  - injection H as <-. auto.
  - destruct sp; try discriminate. apply IH in H. lia.
Qed.
Lemma c_punct s : covers (w_parse_punct s).
Proof.
  intros ts. unfold w_parse_punct, priced, parse_punct. destruct (take_punct s ts) as [r|] eqn:H; [|lia].
  apply take_punct_size in H. lia.
Qed.
Lemma c_any : covers w_parse_any.
Proof. intros [|[i|c sp|k s|d inner] ts]; sz. Qed.
Lemma c_ident : covers w_parse_ident.
Proof. intros [|[i|c sp|k s|d inner] ts]; unfold w_parse_ident, priced, parse_ident; try (sz). destruct (accept_as_ident i); sz. Qed.
Lemma take_lit_size ts l r : take_lit ts = Some (l, r) -> size ts <= 2 + size r.
Proof.
  unfold take_lit. destruct ts as [|[i|c sp|k s|d inner] ts]; try discriminate.
  - destruct (ident_is i "true"); [intros [= <- <-]; sz|]. destruct (ident_is i "false"); [intros [= <- <-]; sz|discriminate].
  - destruct ts as [|[| |k s|] ts]; try discriminate. destruct (Ascii.eqb c "-"); [|discriminate].
    destruct k; try discriminate; intros [= <- <-]; sz.
  - intros [= <- <-]. sz.
Qed.
Lemma c_lit : covers w_parse_lit.
Proof. intros ts. unfold w_parse_lit, priced, parse_lit. destruct (take_lit ts) as [[l r]|] eqn:H; [apply take_lit_size in H|]; lia. Qed.
Lemma c_lit_int : covers w_parse_lit_int.
Proof. intros ts. unfold w_parse_lit_int, priced, parse_lit_int. destruct (take_lit ts) as [[[[] s|b] r]|] eqn:H; try (apply take_lit_size in H); lia. Qed.
Lemma c_lit_str : covers w_parse_lit_str.
Proof. intros ts. unfold w_parse_lit_str, priced, parse_lit_str. destruct (take_lit ts) as [[[[] s|b] r]|] eqn:H; try (apply take_lit_size in H); lia. Qed.
Lemma c_tt : covers w_parse_tt.
Proof. intros [|t ts]; cbn -[size]; [sz|]. rewrite size_cons. assert (H := weigh_size t). lia. Qed.
Lemma c_rest : covers w_take_rest.
Proof. intros ts. unfold w_take_rest, priced, take_rest. assert (H := weight_size ts). change (size []) with 0. lia. Qed.
Lemma c_group d : covers (w_group_tokens d).
Proof.
  intros ts. unfold w_group_tokens, priced, group_tokens, extract, peek_group, next_weight.
  destruct ts as [|[i|c sp|k s|d' inner] ts]; try (sz). destruct (delim_eqb d d'); [|lia].
  rewrite size_cons. assert (H := weigh_size (TGroup d' inner)). lia.
Qed.
Lemma c_delimited {A} d (m : WP A) : covers m -> covers (w_delimited d m).
Proof.
  intros Hm ts. unfold w_delimited, delimited. destruct ts as [|[i|c sp|k s|d' inner] ts]; try lia.
  destruct (delim_eqb d d'); [|lia]. specialize (Hm inner). destruct (m inner) as [n [[a|e| |w|] r ds]]; cbn [fst snd]; auto; try lia.
  destruct r as [|x r]; [|lia]. rewrite size_cons. change (size []) with 0 in Hm.
  change (tt_size (TGroup d' inner)) with (S (size inner)). lia.
Qed.

Ltac cov1 := first
  [ apply c_ret | apply c_fail | apply c_emit | apply c_look | apply c_pay | apply c_snake | apply c_punct | apply c_any | apply c_ident
  | apply c_lit | apply c_lit_int | apply c_lit_str | apply c_tt | apply c_rest | apply c_group | assumption
  | apply c_unwrap, c_ret' | apply c_abort, c_ret' | apply c_rollback, c_ret' | apply c_delimited
  | apply c_bind; [|intros ?]
  | match goal with |- covers (match ?c with _ => _ end) => destruct c end ].
Ltac cov := repeat cov1.
Ltac refold := match goal with |- forall ts, match ?m ts with _ => _ end => change (covers m) end.

Section Low.
Variable G : list tt -> nat.
Variable E : env.
Hypothesis HG : forall ts, size ts <= G ts + size match generic_args E ts with inl (_, r) => r | inr r => r end.

Lemma c_value : covers w_parse_value. Proof. unfold w_parse_value. cov. Qed.
Lemma c_or_emit : covers w_parse_or_emit_err. Proof. unfold w_parse_or_emit_err. assert (H := c_value). cov. Qed.
Lemma c_segment k : covers (w_kebab_segment k). Proof. unfold w_kebab_segment. cov. Qed.
Lemma c_kebab_loop n : forall second k, covers (w_kebab_loop n second k).
Proof.
  induction n as [|n IH]; intros second k ts; [exact I|]. cbn [w_kebab_loop]. revert ts. refold.
  apply c_bind; [cov|]. intros [u|]; [apply c_bind; [cov|]; intros _; apply c_bind; [apply c_segment|auto]|].
  destruct (negb _); [cov|]. apply c_bind; [apply c_segment|auto].
Qed.
Lemma c_kebab : covers w_parse_kebab.
Proof.
  intros ts. unfold w_parse_kebab. generalize (S (S (List.length ts))). intros n. revert ts. refold.
  apply c_bind; [cov|]. intros i. apply c_bind; [|intros k; apply c_kebab_loop].
  destruct i as [i|]; [cov|]. apply c_bind; [cov|]. intros [u|]; [cov|]. intros ts. apply c_fail.
Qed.
Lemma c_kebab_or_str : covers w_parse_kebab_or_str. Proof. unfold w_parse_kebab_or_str. assert (H := c_kebab). cov. Qed.
Lemma c_braced : covers w_parse_braced_kebab. Proof. apply c_delimited, c_kebab. Qed.
Lemma c_block k : covers (w_into_block_value k). Proof. unfold w_into_block_value. cov. Qed.
Lemma c_angle : covers (w_parse_angle G E).
Proof.
  intros ts. unfold w_parse_angle, priced, parse_angle. destruct (take_punct "::" ts) as [r|] eqn:H; [apply take_punct_size in H|].
  - assert (Hg := HG r). destruct (generic_args E r) as [[u r']|r']; cbn [String.length] in *; lia.
  - assert (Hg := HG ts). destruct (generic_args E ts) as [[u r']|r']; lia.
Qed.
Lemma c_seg : covers (w_parse_seg G E). Proof. unfold w_parse_seg. assert (H := c_angle). cov. Qed.
Lemma c_segs n : covers (w_parse_segs_rest G E n).
Proof.
  induction n as [|n IH]; intros ts; [exact I|]. cbn [w_parse_segs_rest]. destruct (_ && _); [|lia]. revert ts. refold.
  assert (H := c_seg). cov.
Qed.
Lemma c_path : covers (w_parse_path G E).
Proof.
  intros ts. unfold w_parse_path. generalize (S (List.length ts)). intros n. revert ts. refold.
  assert (H := c_seg). assert (H1 := c_segs n). cov.
Qed.
Lemma c_tag : covers (w_parse_tag G E). Proof. unfold w_parse_tag. assert (H := c_path). assert (H1 := c_kebab). cov. Qed.
Lemma c_selector : covers w_parse_selector. Proof. unfold w_parse_selector. assert (H1 := c_kebab). cov. Qed.
Lemma c_many {A} (m : WP A) n : covers_ret m -> covers (w_many n m).
Proof.
  intros Hm. induction n as [|n IH]; intros ts; [exact I|]. cbn [w_many]. revert ts. refold.
  apply c_bind; [now apply c_rollback|]. intros [x|]; cov.
Qed.
Lemma c_selectors : covers w_parse_selectors. Proof. intros ts. apply c_many, c_ret', c_selector. Qed.
Lemma c_kv : covers w_parse_kv.
Proof. unfold w_parse_kv. assert (H := c_braced). assert (H1 := c_kebab). assert (H2 := c_block). assert (H3 := c_or_emit). cov; auto. Qed.
Lemma c_modifier : covers w_try_parse_modifier. Proof. unfold w_try_parse_modifier. cov. Qed.
Lemma c_directive : covers w_parse_directive.
Proof.
  unfold w_parse_directive. assert (H := c_braced). assert (H1 := c_kebab_or_str). assert (H2 := c_block). assert (H3 := c_or_emit). assert (H4 := c_modifier). cov; auto.
Qed.
Lemma c_spread : covers_ret w_parse_spread.
Proof.
  intros ts. unfold w_parse_spread, w_bind, w_extract, priced, extract, pay, w_ret, w_fail, priced, ret, fail.
  destruct ts as [|[i|c sp|k s|d inner] ts]; auto. destruct (delim_eqb Brace d); auto.
  destruct (take_punct ".." inner) as [r|] eqn:H; cbn -[size]; auto. apply take_punct_size in H. rewrite size_cons.
  change (tt_size (TGroup d inner)) with (S (size inner)). cbn [String.length] in H. assert (Hw := weight_size r). lia.
Qed.
Lemma c_attr : covers w_parse_attr.
Proof.
  unfold w_parse_attr. assert (H := c_directive). assert (H1 := c_kv). apply c_bind; [cov|]. intros []; [cov|].
  apply c_bind; [cov|]. intros []; [cov|]. apply c_bind; [cov|]. intros [kv|]; [cov|].
  apply c_bind; [apply c_rollback, c_spread|]. intros. cov.
Qed.
Lemma c_attrs : covers w_parse_attrs. Proof. intros ts. apply c_many, c_ret', c_attr. Qed.
Lemma c_closure_loop n : covers (w_closure_loop n).
Proof. induction n as [|n IH]; intros ts; [exact I|]. cbn [w_closure_loop]. revert ts. refold. cov. Qed.
Lemma c_closure_args : covers w_parse_closure_args.
Proof.
  intros ts. unfold w_parse_closure_args. generalize (S (List.length ts)). intros n. revert ts. refold.
  assert (H := c_closure_loop n). cov.
Qed.
Lemma c_element pc : covers pc -> covers (w_parse_element G E pc).
Proof.
  intros Hpc. unfold w_parse_element. assert (H := c_tag). assert (H1 := c_selectors). assert (H2 := c_attrs). assert (H3 := c_closure_args). cov.
Qed.
Lemma c_child pc : covers pc -> covers (w_parse_child G E pc).
Proof. intros Hpc. unfold w_parse_child. assert (H := c_value). assert (H1 := c_element pc Hpc). cov. Qed.
Lemma c_children n : covers (w_parse_children G E n).
Proof.
  induction n as [|n IH]; intros ts; [exact I|]. destruct ts as [|t ts]; [sz|]. cbn [w_parse_children].
  assert (Hc := c_child _ IH (t :: ts)). destruct (w_parse_child G E _ (t :: ts)) as [k [[c|e| |w|] r d]]; auto.
  - assert (Hx : covers (cs <- w_parse_children G E n ;; w_ret (c :: cs))) by cov. specialize (Hx r).
    destruct (w_bind _ _ r) as [n2 [[| | | |] r2 d2]]; cbn [fst snd p_out Syn.p_rest]; auto; lia.
  - assert (Hx : forall b : bool, covers (if b then w_emit DExtraSemi ;;; w_unwrap (w_parse_punct ";") ;;; w_parse_children G E n
       else w_emit (DParse e) ;;; w_take_rest ;;; w_parse_children G E n)) by (intros []; cov).
    specialize (Hx (peek_punct ";" r) r).
    match type of Hx with match ?y with _ => _ end => destruct y as [n2 [[| | | |] r2 d2]] end; cbn [fst snd p_out Syn.p_rest]; auto; lia.
Qed.
Theorem parse_low input cs r d : w_parse_children G E (S (size input)) input = (parse_steps G E input, PR (Ret cs) r d) ->
  size input <= parse_steps G E input + size r.
Proof. intros H. assert (Hc := c_children (S (size input)) input). now rewrite H in Hc. Qed.
End Low.
