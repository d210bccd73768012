(** * What is parsed costs no more to expand than the tokens it was read from allow *)
From Verif Require Export WorkXBound2.
From Verif Require Import ExpandFacts2 WorkBound Inv.
From Coq Require Import Lia Arith.
Open Scope list_scope.
Notation len := (@List.length tt) (only parsing).
Notation slen := String.length (only parsing).

(** Each unit of weight that is read gives 1700 steps; a parser may spend [b] steps
    it was given and those of the tokens it reads, and leaves [f a]. *)
Definition earns {A} (b : nat) (m : P A) (f : A -> nat) : Prop :=
  forall ts a r d, m ts = PR (Ret a) r d -> f a + 1700 * weight r <= b + 1700 * weight ts.

Lemma e_le {A} b b' (m : P A) (f f' : A -> nat) : earns b m f -> b <= b' -> (forall a, f' a <= f a) -> earns b' m f'.
Proof. intros H H1 H2 ts a r d Hm. apply H in Hm. specialize (H2 a). lia. Qed.
Lemma e_add {A} b c (m : P A) (f : A -> nat) : earns b m f -> earns (b + c) m (fun a => f a + c).
Proof. intros H ts a r d Hm. apply H in Hm. lia. Qed.
Lemma e_bind {A B} b (m : P A) (k : A -> P B) f g : earns b m f -> (forall a, earns (f a) (k a) g) -> earns b (bind m k) g.
Proof.
  intros Hm Hk ts a r d H. unfold bind in H. destruct (m ts) as [[x|e| |w|] r1 d1] eqn:E1; try discriminate.
  destruct (k x r1) as [o2 r2 d2] eqn:E2. cbn [p_out p_rest p_diags] in H. injection H as -> -> <-. apply Hm in E1. apply Hk in E2. lia.
Qed.
Lemma e_ret {A} b (a : A) f : f a <= b -> earns b (ret a) f.
Proof. intros H ts x r d Hx. unfold ret in Hx. injection Hx as <- <- <-. lia. Qed.
Lemma e_fail {A} b e (f : A -> nat) : earns b (fail e) f. Proof. intros ts a r d H. discriminate. Qed.
Lemma e_panic {A} b e (f : A -> nat) : earns b (ppanic e) f. Proof. intros ts a r d H. discriminate. Qed.
Lemma e_emit b d : earns b (emit d) (fun _ => b).
Proof. intros ts x r d' Hx. unfold emit in Hx. injection Hx as <- <- <-. lia. Qed.
Lemma e_look {A} b (g : list tt -> A) : earns b (look g) (fun _ => b).
Proof. intros ts x r d' Hx. unfold look in Hx. injection Hx as <- <- <-. lia. Qed.
Lemma e_unwrap {A} b (m : P A) f : earns b m f -> earns b (unwrap m) f.
Proof. intros H ts a r d Hm. unfold unwrap in Hm. destruct (m ts) as [[x|e| |w|] r1 d1] eqn:E1; try discriminate. rewrite Hm in E1. exact (H _ _ _ _ E1). Qed.
Lemma e_abort {A} b (m : P A) f : earns b m f -> earns b (unwrap_or_abort m) f.
Proof. intros H ts a r d Hm. unfold unwrap_or_abort in Hm. destruct (m ts) as [[x|e| |w|] r1 d1] eqn:E1; try discriminate. rewrite Hm in E1. exact (H _ _ _ _ E1). Qed.
Definition o_cost {A} (b : nat) (f : A -> nat) (o : option A) : nat := match o with Some a => f a | None => b end.
Lemma e_try {A} b (m : P A) f : earns b m f -> earns b (rollback_err m) (o_cost b f).
Proof.
  intros H ts a r d Hm. unfold rollback_err in Hm. destruct (m ts) as [[x|e| |w|] r1 d1] eqn:E1; try discriminate.
  - injection Hm as <- <- <-. apply H in E1. exact E1.
  - injection Hm as <- <- <-. cbn [o_cost]. lia.
Qed.
Lemma e_delimited {A} b d (m : P A) f : earns (b + 1700) m f -> earns b (delimited d m) f.
Proof.
  intros H ts a r ds Hm. unfold delimited in Hm. destruct ts as [|[| | |d' inner] ts]; try discriminate.
  destruct (delim_eqb d d'); [|discriminate]. destruct (m inner) as [[x|e| |w|] [|t r1] d1] eqn:E1; try discriminate.
  injection Hm as <- <- <-. apply H in E1. rewrite weight_cons, weigh_group. cbn [weight fold_right] in E1. lia.
Qed.

(** ** Tokens *)

Lemma take_punct_weigh s : forall ts r, take_punct s ts = Some r -> weight r + slen s <= weight ts.
Proof.
  induction s as [|c s IH]; intros ts r; cbn [take_punct]; [discriminate|].
  destruct ts as [|[|c' sp| |] ts]; cbn [cur_punct]; try discriminate. destruct (Ascii.eqb c' "'"); [discriminate|].
  destruct (Ascii.eqb c' c); [|discriminate]. rewrite weight_cons. change (weigh (TPunct c' sp)) with 1.
  destruct s as [|c2 s]; [intros H; injection H as <-; cbn; lia|]. destruct sp; [discriminate|]. intros H. apply IH in H. cbn [String.length] in *. lia.
Qed.
Lemma e_punct b s : earns b (parse_punct s) (fun _ => b + 1700 * slen s).
Proof.
  intros ts a r d H. unfold parse_punct in H. destruct (take_punct s ts) as [r'|] eqn:E; [|discriminate]. injection H as <- <- <-.
  apply take_punct_weigh in E. lia.
Qed.
Lemma e_any b : earns b parse_any (fun i => b + 1700 * S (slen (i_name i))).
Proof. intros ts a r d H. unfold parse_any, cur_ident in H. destruct ts as [|[i| | |] ts]; try discriminate. injection H as <- <- <-. rewrite weight_cons, weigh_ident. lia. Qed.
Lemma e_ident b : earns b parse_ident (fun i => b + 1700 * S (slen (i_name i))).
Proof.
  intros ts a r d H. unfold parse_ident in H. destruct ts as [|[i| | |] ts]; try discriminate. destruct (accept_as_ident i); [|discriminate].
  injection H as <- <- <-. rewrite weight_cons, weigh_ident. lia.
Qed.
Definition c_lit (l : lit) : nat := weight (lit_tokens l).
Lemma ident_name i c s : ident_is i (String c s) = true -> c <> "r"%char -> slen (i_name i) = S (slen s).
Proof.
  unfold ident_is, ident_to_string. intros H Hc. apply String.eqb_eq in H. destruct (i_raw i); [|cbn in H; now rewrite H].
  cbn in H. injection H as H _. congruence.
Qed.
Lemma take_lit_weight ts l r : take_lit ts = Some (l, r) -> c_lit l + weight r <= weight ts /\ 1 <= c_lit l.
Proof.
  unfold take_lit. destruct ts as [|[i|c sp|k s|d l0] ts]; try discriminate.
  - destruct (ident_is i "true") eqn:H1; [|destruct (ident_is i "false") eqn:H2; [|discriminate]]; intros H; injection H as <- <-;
      rewrite weight_cons, weigh_ident; [apply ident_name in H1; [|discriminate]; rewrite H1|apply ident_name in H2; [|discriminate]; rewrite H2]; cbn; lia.
  - destruct ts as [|[|c' sp'|k s|] ts]; try discriminate. destruct (Ascii.eqb c "-"); [|discriminate].
    destruct k; try discriminate; intros H; injection H as <- <-; unfold c_lit; cbn [lit_tokens]; rewrite !weight_cons; cbn; lia.
  - intros H. injection H as <- <-. unfold c_lit. cbn [lit_tokens]. rewrite !weight_cons. cbn. lia.
Qed.
Lemma e_lit b : earns b parse_lit (fun l => b + 1700 * c_lit l).
Proof. intros ts a r d H. unfold parse_lit in H. destruct (take_lit ts) as [[l r']|] eqn:E; [|discriminate]. injection H as <- <- <-. apply take_lit_weight in E. lia. Qed.
Lemma e_lit_str b : earns b parse_lit_str (fun s => b + 1700 * S (slen s)).
Proof.
  intros ts a r d H. unfold parse_lit_str in H. destruct (take_lit ts) as [[[[] s|] r']|] eqn:E; try discriminate. injection H as <- <- <-.
  apply take_lit_weight in E. unfold c_lit in E. cbn [lit_tokens] in E. rewrite weight_cons, weigh_lit in E. lia.
Qed.
Lemma e_group b d : earns b (group_tokens d) (fun ts => b + 1700 * S (weight ts)).
Proof.
  intros ts a r ds H. unfold group_tokens, extract in H. destruct ts as [|[| | |d' inner] ts]; try discriminate.
  destruct (delim_eqb d d'); [|discriminate]. injection H as <- <- <-. rewrite weight_cons, weigh_group. lia.
Qed.
Lemma e_tt b : earns b parse_tt (fun _ => b + 1700).
Proof. intros ts a r d H. unfold parse_tt in H. destruct ts as [|t ts]; [discriminate|]. injection H as <- <- <-. rewrite weight_cons. assert (Hp := weigh_pos t). lia. Qed.

(** ** Values and names *)

Ltac looks := eapply e_bind; [apply e_look|cbn beta; intros ?].
Lemma e_value b : earns b parse_value (fun v => b + 1500 + 2 * c_value v).
Proof.
  unfold parse_value. looks. destruct a.
  { eapply e_bind; [apply e_unwrap, e_group|]. cbn beta. intros ts. apply e_ret. cbn [c_value]. assert (H := length_weight ts). lia. }
  looks. destruct a.
  { eapply e_bind; [apply e_unwrap, e_any|]. cbn beta. intros i. eapply e_bind; [apply e_unwrap, e_group|]. cbn beta. intros ts. apply e_ret. cbn [c_value]. assert (H := length_weight ts). lia. }
  looks. destruct a.
  { eapply e_bind; [apply e_unwrap, e_group|]. cbn beta. intros ts. apply e_ret. cbn [c_value]. assert (H := length_weight ts). lia. }
  looks. destruct a; [|apply e_fail].
  intros ts v r d H. unfold bind, unwrap, parse_lit in H. destruct (take_lit ts) as [[l r']|] eqn:E; [|discriminate]. cbn in H. injection H as <- <- _.
  apply take_lit_weight in E. cbn [c_value]. fold (c_lit l). lia.
Qed.
Lemma e_or_emit b : 40 <= b -> earns b parse_or_emit_err (fun v => b - 40 + 2 * c_value v).
Proof.
  intros Hb. unfold parse_or_emit_err. eapply e_bind; [apply e_try, e_value|]. intros [v|]; cbn [o_cost].
  - apply e_ret. lia.
  - looks. eapply e_bind; [apply e_emit|]. intros []. apply e_ret. cbn. lia.
Qed.

(** A name and its spans are about as big as what they are read from. *)
Definition k_size (k : kebab) : nat := slen (k_repr k) + k_spans k.
Definition kept {A} (m : P A) (c : nat) (f : A -> nat) : Prop :=
  forall ts a r d, m ts = PR (Ret a) r d -> f a + weight r <= c + weight ts.
Lemma k_bind {A B} c (m : P A) (k : A -> P B) f g : kept m c f -> (forall a, kept (k a) (f a) g) -> kept (bind m k) c g.
Proof.
  intros Hm Hk ts a r d H. unfold bind in H. destruct (m ts) as [[x|e| |w|] r1 d1] eqn:E1; try discriminate.
  destruct (k x r1) as [o2 r2 d2] eqn:E2. cbn [p_out p_rest p_diags] in H. injection H as -> -> <-. apply Hm in E1. apply Hk in E2. lia.
Qed.
Lemma k_ret {A} c (a : A) f : f a <= c -> kept (ret a) c f.
Proof. intros H ts x r d Hx. unfold ret in Hx. injection Hx as <- <- <-. lia. Qed.
Lemma k_emit c d : kept (emit d) c (fun _ => c).
Proof. intros ts x r d' Hx. unfold emit in Hx. injection Hx as <- <- <-. lia. Qed.
Lemma k_try {A} c (m : P A) f : kept m c f -> kept (rollback_err m) c (o_cost c f).
Proof.
  intros H ts a r d Hm. unfold rollback_err in Hm. destruct (m ts) as [[x|e| |w|] r1 d1] eqn:E1; try discriminate.
  - injection Hm as <- <- <-. apply H in E1. exact E1.
  - injection Hm as <- <- <-. cbn [o_cost]. lia.
Qed.
Lemma k_any c : kept parse_any c (fun i => c + S (slen (i_name i))).
Proof. intros ts a r d H. unfold parse_any, cur_ident in H. destruct ts as [|[i| | |] ts]; try discriminate. injection H as <- <- <-. rewrite weight_cons, weigh_ident. lia. Qed.
Lemma k_int c : kept parse_lit_int c (fun s => c + S (slen s)).
Proof.
  intros ts a r d H. unfold parse_lit_int in H. destruct (take_lit ts) as [[[[] s|] r']|] eqn:E; try discriminate. injection H as <- <- <-.
  apply take_lit_weight in E. unfold c_lit in E. cbn [lit_tokens] in E. rewrite weight_cons, weigh_lit in E. lia.
Qed.
Lemma k_dash c : kept (parse_punct "-") c (fun _ => c + 1).
Proof.
  intros ts a r d H. unfold parse_punct in H. destruct (take_punct "-" ts) as [r'|] eqn:E; [|discriminate]. injection H as <- <- <-.
  apply take_punct_weigh in E. cbn [String.length] in E. lia.
Qed.
Lemma k_segment c k : k_size k <= c -> kept (kebab_segment k) c k_size.
Proof.
  intros Hk. unfold kebab_segment. eapply k_bind; [apply k_try, k_any|]. intros [i|]; cbn [o_cost].
  - eapply k_bind with (f := fun _ => c + S (slen (i_name i))).
    + destruct (i_raw i); [apply k_emit|]. now apply k_ret.
    + intros []. apply k_ret. unfold k_size in *. cbn [k_repr k_spans]. rewrite length_app. lia.
  - eapply k_bind; [apply k_try, k_int|]. intros [s|]; cbn [o_cost]; apply k_ret; [|exact Hk].
    unfold k_size in *. cbn [k_repr k_spans]. rewrite length_app. lia.
Qed.
Lemma k_segment0 c k : kept (kebab_segment k) c (fun _ => c).
Proof.
  unfold kebab_segment. eapply k_bind; [apply k_try, k_any|]. intros [i|]; cbn [o_cost].
  - eapply k_bind with (f := fun _ => c + S (slen (i_name i))).
    + destruct (i_raw i); [apply k_emit|]. now apply k_ret.
    + intros []. apply k_ret. lia.
  - eapply k_bind; [apply k_try, k_int|]. intros [s|]; cbn [o_cost]; apply k_ret; lia.
Qed.
Definition loop_body (n : nat) (second : bool) (k : kebab) : P kebab :=
  (d <- rollback_err (parse_punct "-") ;;
   match d with
   | Some _ => k' <- kebab_segment (Kebab (k_repr k ++ "-") (k_spans k)) ;; kebab_loop n false k'
   | None => if negb (second && String.eqb (k_repr k) "-") then ret k else k' <- kebab_segment k ;; kebab_loop n false k'
   end)%parse.
Lemma k_loop n : forall second k c, k_size k <= c -> kept (kebab_loop n second k) c k_size.
Proof.
  induction n as [|n IH]; intros second k c Hk; [intros ts a r d H; discriminate|].
  change (kept (loop_body n second k) c k_size). unfold loop_body.
  eapply k_bind; [apply k_try, k_dash|]. intros [u|]; cbn [o_cost].
  - eapply k_bind; [apply k_segment|intros k'; now apply IH]. unfold k_size in *. cbn [k_repr k_spans]. rewrite length_app. cbn. lia.
  - destruct (negb _); [now apply k_ret|]. eapply k_bind; [apply k_segment, Hk|intros k'; now apply IH].
Qed.
Lemma k_loop0 n : forall second k c, kept (kebab_loop n second k) c (fun _ => c).
Proof.
  induction n as [|n IH]; intros second k c; [intros ts a r d H; discriminate|].
  change (kept (loop_body n second k) c (fun _ => c)). unfold loop_body.
  eapply k_bind; [apply k_try, k_dash|]. intros [u|]; cbn [o_cost].
  - eapply k_bind; [apply k_segment0|]. intros k' ts a r d H. apply (IH _ _ (c + 1)) in H. cbn beta in *. lia.
  - destruct (negb _); [now apply k_ret|]. eapply k_bind; [apply k_segment0|intros k'; apply IH].
Qed.
Lemma k_kebab : kept parse_kebab 1 k_size /\ kept parse_kebab 0 (fun _ => 1).
Proof.
  assert (H : forall ts, parse_kebab ts = (k <- (i <- rollback_err parse_any ;;
      match i with
      | Some i => ret (Kebab (i_name i) 1)
      | None => d <- rollback_err (parse_punct "-") ;; match d with Some _ => ret (Kebab "-" 1) | None => fun r => fail (EKebab (found_in r)) r end
      end) ;; kebab_loop (S (S (List.length ts))) true k)%parse ts).
  { intros ts. unfold parse_kebab, bind. destruct (rollback_err parse_any ts) as [[x|e| |w|] r1 d1]; cbn; try reflexivity.
    match goal with |- context [match ?X with PR _ _ _ => _ end] => destruct X as [[y|e| |w|] r2 d2] end; cbn; rewrite ?app_assoc; reflexivity. }
  assert (Hf : forall (f : kebab -> nat) c, f = k_size /\ c = 1 \/ (f = fun _ => 1) /\ c = 0 ->
    kept (i <- rollback_err parse_any ;;
      match i with
      | Some i => ret (Kebab (i_name i) 1)
      | None => d <- rollback_err (parse_punct "-") ;; match d with Some _ => ret (Kebab "-" 1) | None => fun r => fail (EKebab (found_in r)) r end
      end)%parse c f).
  { intros f c Hfc. eapply k_bind; [apply k_try, k_any|]. intros [i|]; cbn [o_cost].
    - apply k_ret. destruct Hfc as [[-> ->]|[-> ->]]; unfold k_size; cbn; lia.
    - eapply k_bind; [apply k_try, k_dash|]. intros [u|]; cbn [o_cost].
      + apply k_ret. destruct Hfc as [[-> ->]|[-> ->]]; unfold k_size; cbn; lia.
      + intros ts a r d Hx. discriminate. }
  split; intros ts a r d Hp; rewrite H in Hp.
  - assert (Hk := k_bind _ _ _ _ _ (Hf k_size 1 (or_introl (conj eq_refl eq_refl))) (fun k => k_loop (S (S (len ts))) true k _ (le_n _))). exact (Hk _ _ _ _ Hp).
  - assert (Hk := k_bind _ _ _ _ _ (Hf _ 0 (or_intror (conj eq_refl eq_refl))) (fun k => k_loop0 (S (S (len ts))) true k _)). exact (Hk _ _ _ _ Hp).
Qed.
Lemma e_kebab b : earns b parse_kebab (fun k => b + 1600 + 40 * k_size k).
Proof. intros ts a r d H. assert (H1 := proj1 k_kebab _ _ _ _ H). assert (H2 := proj2 k_kebab _ _ _ _ H). cbn beta in *. lia. Qed.

Lemma e_snake {A} b k (f : ident -> P A) g : (forall i, slen (i_name i) = slen (k_repr k) -> earns b (f i) g) -> earns b (bind (snake k) f) g.
Proof.
  intros H ts a r d Hx. unfold snake, or_panic, to_snake_ident, new_raw in Hx. destruct (existsb _ _); [discriminate|].
  unfold bind, ret in Hx. cbn [app] in Hx. destruct (f _ ts) as [o2 r2 d2] eqn:E in Hx. cbn [p_out p_rest p_diags] in Hx. injection Hx as -> -> ->.
  apply H in E; [exact E|]. cbn [i_name]. apply dashes_length.
Qed.

(** ** Attributes *)

Definition t_attr (a : attr) : nat := c_attr a + 5 * o_attr a.
Lemma e_kv b : earns b parse_kv (fun kv => b + 250 + c_kv kv).
Proof.
  unfold parse_kv. looks. destruct a.
  - eapply e_bind; [apply e_delimited, e_kebab|]. intros k. cbn beta. unfold into_block_value.
    eapply e_bind with (f := fun v => b + 1600 + 40 * k_size k + c_value v).
    + apply e_snake. intros i Hi. apply e_ret. cbn [c_value List.length]. lia.
    + intros v. apply e_ret. unfold c_kv, k_size. cbn [kv_key kv_value]. lia.
  - eapply e_bind; [apply e_kebab|]. intros k. cbn beta. eapply e_bind; [apply e_try, e_punct|]. intros [u|]; cbn [o_cost String.length].
    + eapply e_bind; [apply e_or_emit; lia|]. intros v. apply e_ret. unfold c_kv, k_size. cbn [kv_key kv_value]. lia.
    + apply e_ret. unfold c_kv, k_size. cbn. lia.
Qed.
Lemma e_modifier b : earns b try_parse_modifier (fun m => b + 2 * c_mod m).
Proof.
  unfold try_parse_modifier. eapply e_bind; [apply e_try, e_punct|]. intros [u|]; cbn [o_cost].
  - eapply e_bind; [apply e_any|]. intros i. apply e_ret. cbn [c_mod]. lia.
  - apply e_ret. cbn [c_mod]. lia.
Qed.
Lemma e_key b : earns b parse_kebab_or_str (fun k => b + 1600 + 40 * c_key k).
Proof.
  unfold parse_kebab_or_str. eapply e_bind; [apply e_try, e_lit_str|]. intros [s|]; cbn [o_cost].
  - apply e_ret. unfold c_key. cbn [key_string]. lia.
  - eapply e_bind; [apply e_kebab|]. intros k. apply e_ret. unfold c_key, k_size. cbn [key_string]. lia.
Qed.
Lemma e_directive b : earns b parse_directive (fun d => b + 250 + c_dir d).
Proof.
  unfold parse_directive. eapply e_bind; [apply e_any|]. intros i. cbn beta. eapply e_bind; [apply e_punct|]. intros []. cbn [String.length]. looks. destruct a.
  - eapply e_bind; [apply e_delimited, e_kebab|]. intros k. cbn beta. unfold into_block_value.
    eapply e_bind with (f := fun v => b + 3300 + 20 * slen (i_name i) + 40 * k_size k + 2 * c_value v).
    + apply e_snake. intros j Hj. apply e_ret. cbn [c_value List.length]. lia.
    + intros v. eapply e_bind; [apply e_modifier|]. intros m. apply e_ret. unfold c_dir, c_name, c_key, k_size. cbn [d_dir d_key d_modifier d_value key_string c_true]. lia.
  - eapply e_bind; [apply e_key|]. intros k. eapply e_bind; [apply e_modifier|]. intros m. eapply e_bind; [apply e_try, e_punct|]. intros [u|]; cbn [o_cost String.length].
    + eapply e_bind; [apply e_or_emit; lia|]. intros v. apply e_ret. unfold c_dir, c_name. cbn [d_dir d_key d_modifier d_value key_string c_true]. lia.
    + apply e_ret. unfold c_dir, c_name. cbn [d_dir d_key d_modifier d_value key_string c_true]. lia.
Qed.
Lemma e_attr b : earns b parse_attr (fun a => b + t_attr a).
Proof.
  unfold parse_attr. looks. destruct a.
  { eapply e_bind; [apply e_abort, e_directive|]. intros d. apply e_ret. unfold t_attr. cbn [c_attr o_attr]. lia. }
  looks. destruct a.
  { eapply e_bind; [apply e_kv|]. intros d. apply e_ret. unfold t_attr. cbn [c_attr o_attr]. lia. }
  eapply e_bind; [apply e_try, e_kv|]. intros [kv|]; cbn [o_cost]; [apply e_ret; unfold t_attr; cbn [c_attr o_attr]; lia|].
  eapply e_bind; [apply e_try with (f := fun s => b + 1700 * S (len s))|].
  - unfold parse_spread. eapply e_bind; [apply (e_group b Brace)|]. intros inner. destruct (take_punct ".." inner) as [rest|] eqn:E; [|apply e_fail].
    apply take_punct_weigh in E. apply e_ret. assert (H := length_weight rest). lia.
  - intros [s|]; cbn [o_cost]; [|apply e_fail]. apply e_ret. unfold t_attr. cbn [c_attr o_attr]. lia.
Qed.
Lemma e_many {A} (m : P A) g : (forall b, earns b m (fun a => b + g a)) -> forall n b, earns b (many n m) (fun l => b + sum g l).
Proof.
  intros Hm. induction n as [|n IH]; intros b; [intros ts a r d H; discriminate|].
  change (earns b (x <- rollback_err m ;; match x with Some x => r <- many n m ;; ret (x :: r) | None => ret [] end)%parse (fun l => b + sum g l)).
  eapply e_bind; [apply e_try, Hm|]. intros [x|]; cbn [o_cost].
  - eapply e_bind; [apply IH|]. intros r. apply e_ret. rewrite sum_cons. lia.
  - apply e_ret. rewrite sum_nil. lia.
Qed.
Lemma e_attrs b : earns b parse_attrs (fun l => b + sum t_attr l).
Proof. intros ts. apply (e_many parse_attr t_attr e_attr). Qed.
Definition t_sel (s : selector) : nat := 30 + c_sel s.
Lemma e_selector b : earns b parse_selector (fun s => b + t_sel s).
Proof.
  unfold parse_selector. eapply e_bind; [apply e_try, e_punct|]. intros [u|]; cbn [o_cost].
  - eapply e_bind; [apply e_kebab|]. intros k. apply e_ret. unfold t_sel, c_sel, k_size. cbn [sel_kebab]. lia.
  - eapply e_bind; [apply e_try, e_punct|]. intros [u|]; cbn [o_cost]; [|apply e_fail].
    eapply e_bind; [apply e_kebab|]. intros k. apply e_ret. unfold t_sel, c_sel, k_size. cbn [sel_kebab]. lia.
Qed.
Lemma e_selectors b : earns b parse_selectors (fun l => b + sum t_sel l).
Proof. intros ts. apply (e_many parse_selector t_sel e_selector). Qed.
Lemma e_closure b : earns b parse_closure_args (fun a => b + c_args (Some a)).
Proof.
  assert (Hl : forall n b, earns b (closure_loop n) (fun a => b + c_args (Some a))).
  { induction n as [|n IH]; intros c; [intros ts a r d H; discriminate|].
    change (earns c (p <- rollback_err (parse_punct "|") ;;
       match p with
       | Some _ => ret [pu "|"]
       | None => t <- rollback_err parse_tt ;; match t with Some t => r <- closure_loop n ;; ret (t :: r) | None => fail EClosure end
       end)%parse (fun a => c + c_args (Some a))).
    eapply e_bind; [apply e_try, e_punct|]. intros [u|]; cbn [o_cost String.length]; [apply e_ret; cbn [c_args List.length]; lia|].
    eapply e_bind; [apply e_try, e_tt|]. intros [t|]; cbn [o_cost]; [|apply e_fail]. eapply e_bind; [apply IH|].
    intros r. apply e_ret. cbn [c_args List.length]. lia. }
  enough (He : forall n, earns b (parse_punct "|" ;;; r <- closure_loop n ;; ret (pu "|" :: r))%parse (fun a => b + c_args (Some a))) by (intros ts; apply He).
  intros n. eapply e_bind; [apply e_punct|]. intros []. cbn [String.length]. eapply e_bind; [apply Hl|]. intros r. apply e_ret. cbn [c_args List.length]. lia.
Qed.

(** ** Tags *)

Lemma k_look {A} c (g : list tt -> A) : kept (look g) c (fun _ => c).
Proof. intros ts x r d' Hx. unfold look in Hx. injection Hx as <- <- <-. lia. Qed.
Lemma k_punct c s : kept (parse_punct s) c (fun _ => c + slen s).
Proof.
  intros ts a r d H. unfold parse_punct in H. destruct (take_punct s ts) as [r'|] eqn:E; [|discriminate]. injection H as <- <- <-.
  apply take_punct_weigh in E. lia.
Qed.
Lemma k_ident c : kept parse_ident c (fun i => c + S (slen (i_name i))).
Proof.
  intros ts a r d H. unfold parse_ident in H. destruct ts as [|[i| | |] ts]; try discriminate. destruct (accept_as_ident i); [|discriminate].
  injection H as <- <- <-. rewrite weight_cons, weigh_ident. lia.
Qed.
Ltac klooks := eapply k_bind; [apply k_look|cbn beta; intros ?].
Lemma k_angle E c i : env_ok E -> kept (parse_angle E) (c + S (slen (i_name i))) (fun a => c + weight (seg_tokens (PSeg i a))).
Proof.
  intros (HE & _) ts a r d H. unfold parse_angle in H.
  assert (Hs : forall tf g, weight (seg_tokens (PSeg i (PAngle tf g))) = S (slen (i_name i)) + (if tf : bool then 2 else 0) + weight g).
  { intros tf g. unfold seg_tokens. cbn [seg_ident seg_args]. rewrite weight_cons, weight_app, weigh_ident. destruct tf; [change (weight colon2) with 2|change (weight []) with 0]; lia. }
  destruct (take_punct "::" ts) as [r0|] eqn:E1.
  - apply take_punct_weigh in E1. cbn [String.length] in E1. destruct (generic_args E r0) as [[g r1]|] eqn:E2; [|discriminate]. injection H as <- <- <-.
    apply HE in E2. destruct E2 as [-> _]. rewrite weight_app in E1. rewrite Hs. lia.
  - destruct (generic_args E ts) as [[g r1]|] eqn:E2; [|discriminate]. injection H as <- <- <-.
    apply HE in E2. destruct E2 as [-> _]. rewrite weight_app, Hs. lia.
Qed.
Lemma k_seg E c : env_ok E -> kept (parse_seg E) c (fun s => c + weight (seg_tokens s)).
Proof.
  intros HE. assert (H0 : forall i, weight (seg_tokens (PSeg i PNone)) = S (slen (i_name i))).
  { intros i. unfold seg_tokens. cbn [seg_ident seg_args]. rewrite weight_cons, weigh_ident. change (weight []) with 0. lia. }
  unfold parse_seg. klooks. destruct a.
  { eapply k_bind; [apply k_any|]. intros i. apply k_ret. rewrite H0. lia. }
  klooks. eapply k_bind with (f := fun i => c + S (slen (i_name i))); [destruct a; [apply k_any|apply k_ident]|]. intros i. cbn beta.
  klooks. destruct a0; [|apply k_ret; rewrite H0; lia].
  eapply k_bind; [apply (k_angle E c i HE)|]. intros a0. apply k_ret. apply le_n.
Qed.
Lemma k_segs E : env_ok E -> forall n c, kept (parse_segs_rest E n) c (fun l => c + sum (fun s => 2 + weight (seg_tokens s)) l).
Proof.
  intros HE. induction n as [|n IH]; intros c; [intros ts a r d H; discriminate|].
  intros ts a r d H. cbn [parse_segs_rest] in H. destruct (peek_punct "::" ts && negb (peek3 (peek_group Paren) ts)).
  - revert H. revert ts a r d. change (kept (parse_punct "::" ;;; s <- parse_seg E ;; r <- parse_segs_rest E n ;; ret (s :: r))%parse c (fun l => c + sum (fun s => 2 + weight (seg_tokens s)) l)).
    eapply k_bind; [apply k_punct|]. intros []. eapply k_bind; [apply k_seg, HE|]. intros s. eapply k_bind; [apply IH|]. intros r. apply k_ret. rewrite sum_cons. cbn [String.length]. lia.
  - injection H as <- <- <-. rewrite sum_nil. lia.
Qed.
Lemma k_path E c : env_ok E -> kept (parse_path E) c (fun p => c + c_path p) /\ forall p, 1 <= c_path p \/ segs p = [].
Proof.
  intros HE. split.
  - enough (He : forall n, kept (l <- rollback_err (parse_punct "::") ;; s <- parse_seg E ;; r <- parse_segs_rest E n ;;
       ret (Path (match l with Some _ => true | None => false end) (s :: r)))%parse c (fun p => c + c_path p)) by (intros ts; apply He).
    intros n. eapply k_bind; [apply k_try, k_punct|]. intros l. eapply k_bind; [apply k_seg, HE|]. intros s. eapply k_bind; [apply k_segs, HE|]. intros r. apply k_ret.
    unfold c_path, path_tokens. cbn [leading segs]. rewrite weight_app. assert (H := segs_weight (s :: r)). rewrite sum_cons in H.
    destruct l; cbn [o_cost String.length]; [change (weight colon2) with 2|change (weight []) with 0]; lia.
  - intros [l [|s r]]; [now right|left]. unfold c_path, path_tokens. cbn [leading segs]. rewrite weight_app. assert (H := segs_weight (s :: r)). rewrite sum_cons in H. assert (H' := seg_pos s). lia.
Qed.
Lemma path_segs E ts p r d : parse_path E ts = PR (Ret p) r d -> segs p <> [].
Proof.
  unfold parse_path, bind. destruct (rollback_err _ ts) as [[x|e| |w|] r1 d1]; cbn [p_out p_rest p_diags]; try discriminate.
  destruct (parse_seg E r1) as [[s|e| |w|] r2 d2]; cbn [p_out p_rest p_diags]; try discriminate.
  match goal with |- context [parse_segs_rest E ?n r2] => destruct (parse_segs_rest E n r2) as [[l|e| |w|] r3 d3] end; cbn [p_out p_rest p_diags]; try discriminate. intros H. injection H as <- _ _. discriminate.
Qed.
Definition t_tag (t : tag) : nat := 1030 + c_tag t + c_slot t + e_slot t + tag_span_steps t.
Lemma e_tag E b : env_ok E -> earns b (parse_tag E) (fun t => b + t_tag t).
Proof.
  intros HE. unfold parse_tag. looks. destruct a.
  - eapply e_bind with (f := fun p => b + t_tag (TagComponent p)).
    + intros ts p r d H. assert (Hs := path_segs _ _ _ _ _ H). destruct (k_path E 0 HE) as [Hk Hp]. apply Hk in H. destruct (Hp p) as [Hp'|Hp']; [|contradiction].
      unfold t_tag. cbn [c_tag c_slot e_slot tag_span_steps]. fold (c_path p). lia.
    + intros p. now apply e_ret.
  - eapply e_bind; [apply e_kebab|]. intros k. cbn beta. unfold k_size.
    destruct (tag_kind_from (k_repr k)); try (apply e_snake; intros i Hi); apply e_ret; unfold t_tag; cbn [c_tag c_slot e_slot tag_span_steps]; try lia.
    fold (c_path (Path false [PSeg (unraw i) PNone])). replace (c_path (Path false [PSeg (unraw i) PNone])) with (S (slen (i_name i))).
    + lia.
    + unfold c_path, path_tokens. cbn [leading segs segs_tokens app]. unfold seg_tokens. cbn [seg_ident seg_args]. rewrite weight_cons, weigh_ident. change (weight []) with 0. cbn [i_name unraw]. lia.
Qed.

(** ** Elements and children *)

Definition t_child (c : child) : nat := 6 + c_child c.
Definition t_elem (e : element) : nat :=
  6 + (124 + tag_span_steps (el_tag e) + 2 * o_elem e + c_elem e) + (10 + c_slot (el_tag e) + e_slot (el_tag e)).
Lemma t_elem_eq t sels attrs args ch : t_elem (Element t sels attrs args ch) + 2 <= t_tag t + sum t_sel sels + sum t_attr attrs + c_args args + sum t_child (child_list ch).
Proof.
  unfold t_elem. rewrite c_elem_eq. unfold c_head, o_elem, t_tag, t_child, t_sel, c_sels, c_attrs, o_attrs. cbn [el_tag].
  rewrite !sum_shift.
  assert (H : sum t_attr attrs = sum c_attr attrs + 5 * sum o_attr attrs).
  { clear. induction attrs as [|a l IH]; [reflexivity|]. rewrite !sum_cons, IH. unfold t_attr. lia. }
  rewrite H. lia.
Qed.
Lemma e_tail E b pc : env_ok E -> (forall b, earns b pc (fun l => b + sum t_child l)) -> earns b (parse_element E pc) (fun e => b + t_elem e).
Proof.
  intros HE Hpc. unfold parse_element. eapply e_bind; [apply e_tag, HE|]. intros t. eapply e_bind; [apply e_selectors|]. intros sels.
  eapply e_bind; [apply e_attrs|]. intros attrs. eapply e_bind; [apply e_try, e_punct|]. cbn beta.
  assert (Hn : forall args, t_elem (Element t sels attrs args None) + 2 <= t_tag t + sum t_sel sels + sum t_attr attrs + c_args args).
  { intros args. assert (H := t_elem_eq t sels attrs args None). cbn [child_list] in H. rewrite sum_nil in H. lia. }
  assert (Hs : forall d args c, b + t_tag t + sum t_sel sels + sum t_attr attrs + c_args args <= c -> earns c (l <- delimited d pc ;; ret (Element t sels attrs args (Some l)))%parse (fun e => b + t_elem e)).
  { intros d args c Hc. eapply e_bind; [apply e_delimited, Hpc|]. intros l. apply e_ret. assert (H := t_elem_eq t sels attrs args (Some l)). cbn [child_list] in H. lia. }
  assert (Hn0 := Hn None). cbn [c_args] in Hn0.
  intros [u|]; cbn [o_cost]; [apply e_ret; lia|].
  looks. destruct a as [|t0 ts].
  { eapply e_bind; [apply e_emit|]. intros []. apply e_ret. lia. }
  destruct (peek_group Brace _); [apply Hs; cbn [c_args]; lia|].
  destruct (peek_group Paren _); [apply Hs; cbn [c_args]; lia|].
  destruct (peek_punct "|" _).
  - eapply e_bind; [apply e_closure|]. intros args. looks.
    destruct (peek_group Brace _); [apply Hs; lia|]. destruct (peek_group Paren _); [apply Hs; lia|].
    eapply e_bind; [apply e_emit|]. intros []. apply e_ret. specialize (Hn (Some args)). lia.
  - eapply e_bind; [apply e_emit|]. intros []. eapply e_bind; [apply e_emit|]. intros []. apply e_ret. lia.
Qed.
Lemma e_child E b pc : env_ok E -> (forall b, earns b pc (fun l => b + sum t_child l)) -> earns b (parse_child E pc) (fun c => b + t_child c).
Proof.
  intros HE Hpc. unfold parse_child. eapply e_bind; [apply e_try, e_value|]. intros [v|]; cbn [o_cost].
  - destruct v as [[k s|x]|ts|p ts].
    + destruct k; (apply e_ret || (eapply e_bind; [apply e_emit|intros []; apply e_ret])); unfold t_child; cbn [c_child c_value]; try lia; cbn; lia.
    + eapply e_bind; [apply e_emit|]. intros []. apply e_ret. cbn. lia.
    + apply e_ret. unfold t_child. cbn [c_child]. lia.
    + apply e_ret. unfold t_child. cbn [c_child]. lia.
  - looks. destruct a.
    + eapply e_bind; [apply e_unwrap, e_any|]. intros i. eapply e_bind; [apply e_unwrap, e_punct|]. intros [].
      eapply e_bind; [apply (e_tail E _ pc HE Hpc)|]. intros e. apply e_ret. unfold t_child, t_elem. cbn [c_child]. lia.
    + looks. destruct a; [|apply e_fail]. eapply e_bind; [apply (e_tail E _ pc HE Hpc)|]. intros e. apply e_ret. unfold t_child, t_elem. cbn [c_child]. lia.
Qed.

(** A parser leaves no more than it was given, also when it fails. *)
Definition shrinks {A} (m : P A) : Prop :=
  forall ts, match m ts with PR (Ret _) r _ | PR (Fail _) r _ => weight r <= weight ts | _ => True end.
Lemma s_fine {A} (m : P A) : (forall ts, fine ts (m ts)) -> shrinks m.
Proof.
  intros H ts. specialize (H ts). apply fine_suffix in H. destruct (m ts) as [[a|e| |w|] r d]; cbn in *; auto; destruct H as [u ->]; rewrite weight_app; lia.
Qed.
Lemma s_bind {A B} (m : P A) (f : A -> P B) : shrinks m -> (forall a, shrinks (f a)) -> shrinks (bind m f).
Proof.
  intros Hm Hf ts. unfold bind. specialize (Hm ts). destruct (m ts) as [[a|e| |w|] r d]; auto. specialize (Hf a r).
  destruct (f a r) as [[b|e| |w|] r2 d2]; cbn [p_out p_rest p_diags] in *; cbv iota in *; auto; lia.
Qed.
Lemma s_try {A} (m : P A) : shrinks m -> shrinks (rollback_err m).
Proof. intros Hm ts. unfold rollback_err. specialize (Hm ts). destruct (m ts) as [[a|e| |w|] r d]; auto. Qed.
Lemma s_delimited {A} d (m : P A) : shrinks (delimited d m).
Proof.
  intros ts. unfold delimited. destruct ts as [|[| | |d' l] ts]; auto. destruct (delim_eqb d d'); auto.
  destruct (m l) as [[a|e| |w|] [|t r] ds]; auto. rewrite weight_cons. lia.
Qed.
Lemma s_element E pc : env_ok E -> shrinks (parse_element E pc).
Proof.
  intros HE. assert (Hl : forall d t sels attrs args, shrinks (c <- delimited d pc ;; ret (Element t sels attrs args (Some c)))%parse).
  { intros. apply s_bind; [apply s_delimited|]. intros. apply s_fine. intros. apply fine_ret. }
  unfold parse_element. apply s_bind; [apply s_fine; intros; now apply fine_tag|]. intros t. apply s_bind; [apply s_fine, fine_selectors|]. intros sels.
  apply s_bind; [apply s_fine, fine_attrs|]. intros attrs. apply s_bind; [apply s_try, s_fine, fine_punct|]. intros [u|]; [apply s_fine, fine_ret|].
  apply s_bind; [apply s_fine, fine_look|]. intros [|t0 ts].
  { apply s_bind; [apply s_fine, fine_emit|]. intros. apply s_fine, fine_ret. }
  destruct (peek_group Brace _); [apply Hl|]. destruct (peek_group Paren _); [apply Hl|]. destruct (peek_punct "|" _).
  - apply s_bind; [apply s_fine, fine_closure_args|]. intros args. apply s_bind; [apply s_fine, fine_look|]. intros ts'.
    destruct (peek_group Brace _); [apply Hl|]. destruct (peek_group Paren _); [apply Hl|].
    apply s_bind; [apply s_fine, fine_emit|]. intros. apply s_fine, fine_ret.
  - apply s_bind; [apply s_fine, fine_emit|]. intros. apply s_bind; [apply s_fine, fine_emit|]. intros. apply s_fine, fine_ret.
Qed.
Lemma s_child E pc : env_ok E -> shrinks (parse_child E pc).
Proof.
  intros HE. unfold parse_child. apply s_bind; [apply s_try, s_fine, fine_value|]. intros [v|].
  - apply s_fine. intros ts. destruct v as [[k s|x]|l|p l]; [destruct k|..]; try apply fine_ret; (apply fine_bind; [apply fine_emit|intros; apply fine_ret]).
  - apply s_bind; [apply s_fine, fine_look|]. intros [].
    + apply s_bind; [apply s_fine; intros; apply fine_unwrap, fine_any|]. intros _. apply s_bind; [apply s_fine; intros; apply fine_unwrap, fine_punct|]. intros _.
      apply s_bind; [now apply s_element|]. intros. apply s_fine, fine_ret.
    + apply s_bind; [apply s_fine, fine_look|]. intros []; [|apply s_fine, fine_fail]. apply s_bind; [now apply s_element|]. intros. apply s_fine, fine_ret.
Qed.

Lemma e_children E : env_ok E -> forall n b, earns b (parse_children E n) (fun l => b + sum t_child l).
Proof.
  intros HE. induction n as [|n IH]; intros b ts cs r d H; [discriminate|]. destruct ts as [|t ts].
  { cbn in H. injection H as <- <- <-. rewrite sum_nil. lia. }
  rewrite parse_children_step in H. assert (Hc := e_child E b _ HE IH (t :: ts)). assert (Hs := s_child E (parse_children E n) HE (t :: ts)).
  set (ts0 := t :: ts) in *.
  destruct (parse_child E (parse_children E n) ts0) as [[c|e| |w|] r1 d1]; try discriminate.
  - specialize (Hc _ _ _ eq_refl). unfold prepend, cons_child in H. destruct (parse_children E n r1) as [[l|e| |w|] r2 d2] eqn:E2; cbn in H; try discriminate.
    injection H as <- <- <-. apply (IH b) in E2. rewrite sum_cons. lia.
  - destruct (peek_punct ";" r1).
    + unfold prepend in H. destruct (parse_children E n (tl r1)) as [[l|e'| |w|] r2 d2] eqn:E2; cbn in H; try discriminate. injection H as <- <- <-. apply (IH b) in E2.
      assert (Ht : weight (tl r1) <= weight r1) by (destruct r1 as [|x r1]; [apply le_n|rewrite weight_cons; cbn [tl]; lia]). lia.
    + unfold prepend in H. destruct (parse_children E n []) as [[l|e'| |w|] r2 d2] eqn:E2; cbn in H; try discriminate. injection H as <- <- <-. apply (IH b) in E2.
      change (weight []) with 0 in E2. lia.
Qed.

Theorem expand_linear E input cs : env_ok E -> p_out (parse_children E (S (size input)) input) = Ret cs ->
  expand_steps E cs <= 1700 * weight input + 200.
Proof.
  intros HE H. destruct (parse_children E (S (size input)) input) as [o r d] eqn:E1. cbn [p_out] in H. subst.
  apply (e_children E HE _ 0) in E1. assert (Hr := b_root E cs HE). unfold t_child in E1. rewrite sum_shift in E1. lia.
Qed.
