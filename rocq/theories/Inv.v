(** Invariants of every parser: it only moves forward, never runs out of fuel,
    and an abort has reported something.  No assumption on the tokens. *)
From Verif Require Export ElementFacts.

Definition suffix (r ts : list tt) : Prop := exists u, ts = u ++ r.

Lemma suffix_refl ts : suffix ts ts.
Proof. now exists []. Qed.
Lemma suffix_trans a b c : suffix a b -> suffix b c -> suffix a c.
Proof. intros [u ->] [v ->]. exists (v ++ u). now rewrite app_assoc. Qed.
Lemma suffix_cons t r ts : suffix r ts -> suffix r (t :: ts).
Proof. intros [u ->]. now exists (t :: u). Qed.
Lemma suffix_nil ts : suffix [] ts.
Proof. exists ts. now rewrite app_nil_r. Qed.
Lemma suffix_len r ts : suffix r ts -> List.length r <= List.length ts.
Proof. intros [u ->]. rewrite app_length. lia. Qed.
Lemma suffix_size r ts : suffix r ts -> size r <= size ts.
Proof. intros [u ->]. rewrite size_app. lia. Qed.
Lemma suffix_in t r ts : suffix r ts -> In t r -> In t ts.
Proof. intros [u ->] H. apply in_or_app. auto. Qed.
Lemma suffix_len_size r ts : suffix r ts -> List.length r < List.length ts -> size r < size ts.
Proof.
  intros [u ->] H. rewrite app_length in H. rewrite size_app. destruct u as [|t u]; cbn in H; [lia|].
  rewrite size_cons. pose proof (tt_size_pos t). lia.
Qed.
#[global] Hint Resolve suffix_refl suffix_cons suffix_nil suffix_trans : suff.

Record fine {A} (ts : list tt) (x : pres A) : Prop := Fine {
  fine_suffix : suffix (p_rest x) ts;
  fine_fuel : p_out x <> NoFuel;
  fine_abort : p_out x = Abort -> p_diags x <> []
}.

(** Success consumes at least one token. *)
Definition eats {A} (ts : list tt) (x : pres A) : Prop :=
  forall a, p_out x = Ret a -> List.length (p_rest x) < List.length ts.

Ltac fine0 := split; cbn [p_out p_rest p_diags]; [eauto with suff | discriminate | discriminate].

Lemma fine_ret {A} (a : A) ts : fine ts (ret a ts).
Proof. fine0. Qed.
Lemma fine_fail {A} e ts : fine ts (@fail A e ts).
Proof. fine0. Qed.
Lemma fine_emit d ts : fine ts (emit d ts).
Proof. fine0. Qed.
Lemma fine_look {A} (f : list tt -> A) ts : fine ts (look f ts).
Proof. fine0. Qed.
Lemma fine_panic {A} w ts : fine ts (@ppanic A w ts).
Proof. fine0. Qed.
Lemma fine_or_panic {A} w (o : option A) ts : fine ts (or_panic w o ts).
Proof. destruct o; fine0. Qed.
Lemma fine_bind {A B} (m : P A) (f : A -> P B) ts :
  fine ts (m ts) -> (forall a r d, m ts = PR (Ret a) r d -> fine r (f a r)) ->
  fine ts (bind m f ts).
Proof.
  intros Hm Hf. unfold bind. destruct (m ts) as [[a|e| |w|] r d] eqn:Heq.
  - specialize (Hf a r d eq_refl). destruct Hm as [Hs _ _], Hf as [Hs' Hn Ha]. cbn in *.
    split; cbn; eauto with suff. intros H. apply Ha in H. intros H'. apply app_nil_inv in H'. tauto.
  - destruct Hm as [H1 H2 H3]. split; cbn in *; auto; discriminate.
  - destruct Hm as [H1 H2 H3]. split; cbn in *; auto; discriminate.
  - destruct Hm as [H1 H2 H3]. split; cbn in *; auto; discriminate.
  - destruct Hm as [H1 H2 H3]. cbn in *. congruence.
Qed.
Lemma fine_rollback {A} (m : P A) ts : fine ts (m ts) -> fine ts (rollback_err m ts).
Proof.
  intros [H1 H2 H3]. unfold rollback_err. destruct (m ts) as [[a|e| |w|] r d] eqn:Heq; cbn in *; split; cbn;
    eauto with suff; try discriminate; congruence.
Qed.
Lemma fine_unwrap {A} (m : P A) ts : fine ts (m ts) -> fine ts (unwrap m ts).
Proof.
  intros [H1 H2 H3]. unfold unwrap. destruct (m ts) as [[a|e| |w|] r d] eqn:Heq; cbn in *; split; cbn;
    eauto with suff; try discriminate; congruence.
Qed.
Lemma fine_unwrap_or_abort {A} (m : P A) ts : fine ts (m ts) -> fine ts (unwrap_or_abort m ts).
Proof.
  intros [H1 H2 H3]. unfold unwrap_or_abort.
  destruct (m ts) as [[a|e| |w|] r d] eqn:Heq; cbn in *; split; cbn;
    eauto with suff; try discriminate; try congruence. intros _ H. apply app_nil_inv in H. destruct H; discriminate.
Qed.
Lemma take_punct_suffix s : forall ts r, take_punct s ts = Some r -> suffix r ts /\ List.length r < List.length ts.
Proof.
  induction s as [|c s IH]; intros ts r H; [discriminate|]. cbn in H.
  unfold cur_punct in H. destruct ts as [|[|c' sp| |] ts]; try discriminate.
  destruct (Ascii.eqb c' "'"); try discriminate. destruct (Ascii.eqb c' c); try discriminate.
  destruct s as [|c2 s].
  - inversion H; subst. cbn. eauto with suff.
  - destruct sp; try discriminate. apply IH in H. destruct H. cbn. split; [eauto with suff|lia].
Qed.
Lemma fine_punct s ts : fine ts (parse_punct s ts).
Proof.
  unfold parse_punct. destruct (take_punct s ts) as [r|] eqn:H; [|fine0].
  apply take_punct_suffix in H. destruct H. fine0.
Qed.
Lemma eats_punct s ts : eats ts (parse_punct s ts).
Proof.
  unfold parse_punct. destruct (take_punct s ts) as [r|] eqn:H; intros a Ha; [|discriminate].
  apply take_punct_suffix in H. cbn. tauto.
Qed.
Lemma fine_any ts : fine ts (parse_any ts).
Proof. unfold parse_any, cur_ident. destruct ts as [|[| | |] ?]; fine0. Qed.
Lemma eats_any ts : eats ts (parse_any ts).
Proof. unfold parse_any, cur_ident. destruct ts as [|[| | |] ?]; intros a Ha; try discriminate. cbn. lia. Qed.
Lemma fine_ident ts : fine ts (parse_ident ts).
Proof. unfold parse_ident. destruct ts as [|[| | |] ?]; try destruct (accept_as_ident i); fine0. Qed.
Lemma eats_ident ts : eats ts (parse_ident ts).
Proof.
  unfold parse_ident. destruct ts as [|[| | |] ?]; try destruct (accept_as_ident i); intros a Ha; try discriminate.
  cbn. lia.
Qed.
Lemma take_lit_suffix ts l r : take_lit ts = Some (l, r) -> suffix r ts.
Proof.
  unfold take_lit. destruct ts as [|[i|c sp|k s|d g] ts]; try discriminate.
  - destruct (ident_is i "true"), (ident_is i "false"); try discriminate; intros H; inversion H; subst; eauto with suff.
  - destruct ts as [|[| |k s|] ts]; try discriminate. destruct (Ascii.eqb c "-"); try discriminate.
    destruct k; try discriminate; intros H; inversion H; subst; eauto with suff.
  - intros H; inversion H; subst; eauto with suff.
Qed.
Lemma fine_lit ts : fine ts (parse_lit ts).
Proof.
  unfold parse_lit. destruct (take_lit ts) as [[l r]|] eqn:H; [apply take_lit_suffix in H|]; fine0.
Qed.
Lemma fine_lit_int ts : fine ts (parse_lit_int ts).
Proof.
  unfold parse_lit_int. destruct (take_lit ts) as [[l r]|] eqn:H; [apply take_lit_suffix in H|];
    [destruct l as [[]|]|]; fine0.
Qed.
Lemma fine_lit_str ts : fine ts (parse_lit_str ts).
Proof.
  unfold parse_lit_str. destruct (take_lit ts) as [[l r]|] eqn:H; [apply take_lit_suffix in H|];
    [destruct l as [[]|]|]; fine0.
Qed.
Lemma fine_tt ts : fine ts (parse_tt ts).
Proof. unfold parse_tt. destruct ts; fine0. Qed.
Lemma fine_rest ts : fine ts (take_rest ts).
Proof. unfold take_rest. fine0. Qed.
Lemma fine_extract d ts : fine ts (extract d ts).
Proof. unfold extract. destruct ts as [|[| | |d' l] ts]; try fine0. destruct (delim_eqb d d'); fine0. Qed.
Lemma fine_delimited {A} d (m : P A) ts :
  (forall inner r, ts = TGroup d inner :: r -> fine inner (m inner)) -> fine ts (delimited d m ts).
Proof.
  intros Hm. unfold delimited. destruct ts as [|[| | |d' l] ts]; try fine0.
  destruct (delim_eqb d d') eqn:Hd; [|fine0]. apply delim_eqb_eq in Hd. subst d'.
  specialize (Hm l ts eq_refl). destruct (m l) as [[a|e| |w|] [|t r] ds]; try fine0;
    destruct Hm as [H1 H2 H3]; cbn in *; try congruence; split; cbn; auto with suff; discriminate.
Qed.
Lemma eats_bind_l {A B} (m : P A) (f : A -> P B) ts :
  eats ts (m ts) -> (forall a r d, m ts = PR (Ret a) r d -> fine r (f a r)) -> eats ts (bind m f ts).
Proof.
  intros Hm Hf b Hb. unfold bind in *. destruct (m ts) as [[a|e| |w|] r d] eqn:Heq; cbn in *; try discriminate.
  specialize (Hm a eq_refl). specialize (Hf a r d eq_refl). destruct Hf as [Hs _ _]. apply suffix_len in Hs.
  cbn in *. lia.
Qed.
Lemma eats_bind_r {A B} (m : P A) (f : A -> P B) ts :
  fine ts (m ts) -> (forall a r d, m ts = PR (Ret a) r d -> eats r (f a r)) -> eats ts (bind m f ts).
Proof.
  intros Hm Hf b Hb. unfold bind in *. destruct (m ts) as [[a|e| |w|] r d] eqn:Heq; cbn in *; try discriminate.
  specialize (Hf a r d eq_refl b Hb). destruct Hm as [Hs _ _]. apply suffix_len in Hs. cbn in *. lia.
Qed.
Lemma eats_delimited {A} d (m : P A) ts : eats ts (delimited d m ts).
Proof.
  unfold delimited. destruct ts as [|[| | |d' l] ts]; intros a Ha; try discriminate.
  destruct (delim_eqb d d'); try discriminate.
  destruct (m l) as [[b|e| |w|] [|t r] ds]; try discriminate. cbn. lia.
Qed.
Lemma eats_rollback {A} (m : P A) ts a r d : eats ts (m ts) ->
  rollback_err m ts = PR (Ret (Some a)) r d -> List.length r < List.length ts.
Proof.
  unfold rollback_err. intros H. destruct (m ts) as [[b|e| |w|] r' d'] eqn:Heq; intros H'; inversion H'; subst.
  apply (H a). reflexivity.
Qed.

(** A loop that stops at the first failure. *)
Lemma fine_many {A} (m : P A) n : forall ts,
  (forall r, suffix r ts -> fine r (m r) /\ eats r (m r)) ->
  List.length ts < n -> fine ts (many n m ts).
Proof.
  induction n as [|n IH]; intros ts Hm Hn; [lia|]. cbn [many].
  apply fine_bind; [apply fine_rollback, Hm; auto with suff|].
  intros [x|] r d Hr; [|apply fine_ret].
  assert (Hf : fine ts (rollback_err m ts)) by (apply fine_rollback, Hm; auto with suff).
  rewrite Hr in Hf. apply fine_suffix in Hf. cbn in Hf.
  apply eats_rollback in Hr; [|apply Hm; auto with suff].
  apply fine_bind; [|intros; apply fine_ret].
  apply IH; [|lia]. intros r' Hr'. apply Hm. eauto with suff.
Qed.

(** ** The parsers of the crate *)

Ltac fn := repeat lazymatch goal with
  | |- fine _ (ret _ _) => apply fine_ret
  | |- fine _ (fail _ _) => apply fine_fail
  | |- fine _ (emit _ _) => apply fine_emit
  | |- fine _ (look _ _) => apply fine_look
  | |- fine _ (ppanic _ _) => apply fine_panic
  | |- fine _ (or_panic _ _ _) => apply fine_or_panic
  | |- fine _ (parse_punct _ _) => apply fine_punct
  | |- fine _ (parse_any _) => apply fine_any
  | |- fine _ (parse_ident _) => apply fine_ident
  | |- fine _ (parse_lit _) => apply fine_lit
  | |- fine _ (parse_lit_int _) => apply fine_lit_int
  | |- fine _ (parse_lit_str _) => apply fine_lit_str
  | |- fine _ (parse_tt _) => apply fine_tt
  | |- fine _ (take_rest _) => apply fine_rest
  | |- fine _ (extract _ _) => apply fine_extract
  | |- fine _ (rollback_err _ _) => apply fine_rollback
  | |- fine _ (unwrap _ _) => apply fine_unwrap
  | |- fine _ (unwrap_or_abort _ _) => apply fine_unwrap_or_abort
  | |- fine _ (bind _ _ _) => apply fine_bind; [|intros ? ? ? ?]
  end.

Lemma fine_value ts : fine ts (parse_value ts).
Proof.
  rewrite parse_value_run. destruct ts as [|[i|c sp|k s|d l] ts]; cbn [take_lit]; try fine0.
  - destruct ts as [|[| | |[] ?] ts]; try fine0;
    destruct (ident_is i "true"), (ident_is i "false"); fine0.
  - destruct ts as [|[| |k s|] ts]; try fine0. destruct (Ascii.eqb c "-"); [destruct k|]; fine0.
  - destruct d; fine0.
Qed.
Lemma fine_or_emit ts : fine ts (parse_or_emit_err ts).
Proof. unfold parse_or_emit_err. fn; [apply fine_value|]. destruct a; fn. Qed.

Lemma fine_segment k ts : fine ts (kebab_segment k ts).
Proof.
  unfold kebab_segment. fn. destruct a as [i|]; fn.
  - destruct (i_raw i); fn.
  - destruct a; fn.
Qed.
Lemma fine_kebab_loop n : forall second k ts,
  List.length ts + (if second : bool then 1 else 0) < n -> fine ts (kebab_loop n second k ts).
Proof.
  induction n as [|n IH]; intros second k ts Hn; [lia|]. rewrite loop_step.
  apply fine_bind; [fn|]. intros [u|] r d Hr.
  - apply eats_rollback in Hr; [|apply eats_punct].
    apply fine_bind; [apply fine_segment|]. intros k' r' d' Hk. apply IH.
    pose proof (fine_segment (Kebab (k_repr k ++ "-") (k_spans k)) r) as Hs. rewrite Hk in Hs.
    apply fine_suffix, suffix_len in Hs. cbn in Hs. lia.
  - assert (List.length r <= List.length ts) as Hle.
    { assert (Hf : fine ts (rollback_err (parse_punct "-") ts)) by fn. rewrite Hr in Hf.
      apply fine_suffix, suffix_len in Hf. auto. }
    destruct (negb _) eqn:Hb; [apply fine_ret|].
    destruct second; [|discriminate].
    apply fine_bind; [apply fine_segment|]. intros k' r' d' Hk. apply IH.
    pose proof (fine_segment k r) as Hs. rewrite Hk in Hs. apply fine_suffix, suffix_len in Hs. cbn in Hs. lia.
Qed.
Definition kebab_first : P kebab :=
  (i <- rollback_err parse_any ;;
   match i with
   | Some i => ret (Kebab (i_name i) 1)
   | None =>
       d <- rollback_err (parse_punct "-") ;;
       match d with
       | Some _ => ret (Kebab "-" 1)
       | None => fun r => fail (EKebab (found_in r)) r
       end
   end)%parse.
Lemma bind_assoc {A B C} (m : P A) (f : A -> P B) (g : B -> P C) ts :
  bind (bind m f) g ts = bind m (fun a => bind (f a) g) ts.
Proof.
  unfold bind. destruct (m ts) as [[a|e| |w|] r d]; cbn; auto.
  destruct (f a r) as [[b|e| |w|] r' d']; cbn; auto. now rewrite app_assoc.
Qed.
Lemma parse_kebab_split ts : parse_kebab ts =
  bind kebab_first (kebab_loop (S (S (List.length ts))) true) ts.
Proof. unfold parse_kebab, kebab_first. now rewrite bind_assoc. Qed.

Lemma fine_kebab_first ts : fine ts (kebab_first ts).
Proof. unfold kebab_first. fn. destruct a; fn. destruct a; fn. Qed.
Lemma eats_kebab_first ts : eats ts (kebab_first ts).
Proof.
  unfold kebab_first. destruct ts as [|t ts]; [intros a Ha; discriminate|].
  destruct t as [i|c sp|k s|d l].
  - intros a Ha. cbn. lia.
  - rewrite (bind_run0 (rollback_err parse_any) _ (TPunct c sp :: ts) None (TPunct c sp :: ts) eq_refl).
    destruct (rollback_err (parse_punct "-") (TPunct c sp :: ts)) as [[[u|]|e| |w|] r ds] eqn:Hr;
      unfold bind; rewrite Hr; intros k Hk; cbn in *; try discriminate.
    apply eats_rollback in Hr; [|apply eats_punct]. cbn in Hr. lia.
  - intros a Ha. discriminate.
  - intros a Ha. discriminate.
Qed.
Lemma fine_kebab ts : fine ts (parse_kebab ts).
Proof.
  rewrite parse_kebab_split. apply fine_bind; [apply fine_kebab_first|]. intros k r d Hk.
  apply fine_kebab_loop. pose proof (fine_kebab_first ts) as Hf. rewrite Hk in Hf.
  apply fine_suffix, suffix_len in Hf. cbn in Hf. lia.
Qed.
Lemma eats_kebab ts : eats ts (parse_kebab ts).
Proof.
  rewrite parse_kebab_split. apply eats_bind_l; [apply eats_kebab_first|]. intros k r d Hk.
  apply fine_kebab_loop. pose proof (fine_kebab_first ts) as Hf. rewrite Hk in Hf.
  apply fine_suffix, suffix_len in Hf. cbn in Hf. lia.
Qed.
Lemma fine_snake k ts : fine ts (snake k ts).
Proof. unfold snake. fn. Qed.
Lemma fine_kebab_or_str ts : fine ts (parse_kebab_or_str ts).
Proof. unfold parse_kebab_or_str. fn. destruct a; fn. apply fine_kebab. Qed.
Lemma fine_braced_kebab ts : fine ts (parse_braced_kebab ts).
Proof. apply fine_delimited. intros. apply fine_kebab. Qed.
Lemma fine_block_value k ts : fine ts (into_block_value k ts).
Proof. unfold into_block_value. fn. apply fine_snake. Qed.

Lemma fine_kv ts : fine ts (parse_kv ts).
Proof.
  unfold parse_kv. fn. destruct a; fn.
  - apply fine_braced_kebab.
  - apply fine_block_value.
  - apply fine_kebab.
  - match goal with |- context [match ?x with Some _ => _ | None => _ end] => destruct x end; fn.
    apply fine_or_emit.
Qed.
Lemma eats_kv ts : eats ts (parse_kv ts).
Proof.
  unfold parse_kv. apply eats_bind_r; [fn|]. intros [] r d Hr.
  - apply eats_bind_l; [apply eats_delimited|]. intros; fn. apply fine_block_value.
  - apply eats_bind_l; [apply eats_kebab|]. intros; fn.
    match goal with |- context [match ?x with Some _ => _ | None => _ end] => destruct x end; fn.
    apply fine_or_emit.
Qed.
Lemma fine_modifier ts : fine ts (try_parse_modifier ts).
Proof. unfold try_parse_modifier. fn. destruct a; fn. Qed.
Lemma fine_directive ts : fine ts (parse_directive ts).
Proof.
  unfold parse_directive. fn.
  match goal with |- context [if ?x then _ else _] => destruct x end; fn;
    first [apply fine_braced_kebab|apply fine_block_value|apply fine_modifier|apply fine_kebab_or_str|idtac].
  match goal with |- context [match ?x with Some _ => _ | None => _ end] => destruct x end; fn.
  apply fine_or_emit.
Qed.
Lemma eats_directive ts : eats ts (parse_directive ts).
Proof.
  unfold parse_directive. apply eats_bind_l; [apply eats_any|]. intros. fn.
  match goal with |- context [if ?x then _ else _] => destruct x end; fn;
    first [apply fine_braced_kebab|apply fine_block_value|apply fine_modifier|apply fine_kebab_or_str|idtac].
  match goal with |- context [match ?x with Some _ => _ | None => _ end] => destruct x end; fn.
  apply fine_or_emit.
Qed.
Lemma fine_spread ts : fine ts (parse_spread ts).
Proof. unfold parse_spread. fn. destruct (take_punct ".." a); fn. Qed.
Lemma eats_spread ts : eats ts (parse_spread ts).
Proof.
  unfold parse_spread. apply eats_bind_l.
  - unfold extract. destruct ts as [|[| | |d l] ts]; intros a Ha; try discriminate.
    destruct (delim_eqb Brace d); try discriminate. cbn. lia.
  - intros. destruct (take_punct ".." a); fn.
Qed.
Lemma eats_unwrap_or_abort {A} (m : P A) ts : eats ts (m ts) -> eats ts (unwrap_or_abort m ts).
Proof. unfold unwrap_or_abort. intros H a. destruct (m ts) as [[| | | |] ? ?] eqn:Heq; try discriminate. apply H. Qed.
Lemma fine_attr ts : fine ts (parse_attr ts).
Proof.
  unfold parse_attr. fn. destruct a; fn; [apply fine_directive|].
  match goal with |- context [if ?x then _ else _] => destruct x end; fn; try apply fine_kv.
  match goal with |- context [match ?x with Some _ => _ | None => _ end] => destruct x end; fn; try apply fine_spread.
  match goal with |- context [match ?x with Some _ => _ | None => _ end] => destruct x end; fn.
Qed.
Lemma eats_attr ts : eats ts (parse_attr ts).
Proof.
  rewrite parse_attr_step.
  destruct (_ && _).
  { apply eats_bind_l; [apply eats_unwrap_or_abort, eats_directive|]. intros; fn. }
  destruct (peek_ident ts).
  { apply eats_bind_l; [apply eats_kv|]. intros; fn. }
  unfold bind. destruct (rollback_err parse_kv ts) as [[[kv|]|e| |w|] r d] eqn:Hr; cbn; intros a Ha; try discriminate.
  { apply eats_rollback in Hr; [auto|apply eats_kv]. }
  assert (r = ts).
  { unfold rollback_err in Hr. destruct (parse_kv ts) as [[| | | |] ? ?]; inversion Hr; auto. }
  subst r. cbn in *.
  destruct (rollback_err parse_spread ts) as [[[kv|]|e| |w|] r' d'] eqn:Hr'; cbn in *; try discriminate.
  apply eats_rollback in Hr'; [auto|apply eats_spread].
Qed.
Lemma fine_attrs ts : fine ts (parse_attrs ts).
Proof.
  unfold parse_attrs. apply fine_many; [|lia]. intros r _. split; [apply fine_attr|apply eats_attr].
Qed.
Lemma fine_selector ts : fine ts (parse_selector ts).
Proof.
  unfold parse_selector. fn. destruct a; fn; [apply fine_kebab|].
  match goal with |- context [match ?x with Some _ => _ | None => _ end] => destruct x end; fn. apply fine_kebab.
Qed.
Lemma eats_selector ts : eats ts (parse_selector ts).
Proof.
  unfold parse_selector. apply eats_bind_r; [fn|]. intros [u|] r d Hr.
  - apply eats_bind_l; [apply eats_kebab|]. intros; fn.
  - apply eats_bind_r; [fn|]. intros [u|] r' d' Hr'.
    + apply eats_bind_l; [apply eats_kebab|]. intros; fn.
    + intros a Ha. discriminate.
Qed.
Lemma fine_selectors ts : fine ts (parse_selectors ts).
Proof.
  unfold parse_selectors. apply fine_many; [|lia]. intros r _. split; [apply fine_selector|apply eats_selector].
Qed.

(** Paths; the external parser has to leave the stream at a later position. *)
Lemma fine_angle E ts : env_ok E -> fine ts (parse_angle E ts).
Proof.
  intros (H1 & H2 & _). unfold parse_angle.
  destruct (take_punct "::" ts) as [r|] eqn:Ht.
  - apply take_punct_suffix in Ht. destruct Ht as [Ht _].
    destruct (generic_args E r) as [[g r']|r'] eqn:Hg.
    + apply H1 in Hg. destruct Hg as (Hg & _). assert (suffix r' r) by (now exists g). fine0.
    + apply H2 in Hg. assert (suffix r' r) by auto. fine0.
  - destruct (generic_args E ts) as [[g r']|r'] eqn:Hg.
    + apply H1 in Hg. destruct Hg as (Hg & _). assert (suffix r' ts) by (now exists g). fine0.
    + apply H2 in Hg. assert (suffix r' ts) by auto. fine0.
Qed.
Lemma fine_seg E ts : env_ok E -> fine ts (parse_seg E ts).
Proof.
  intros HE. unfold parse_seg. fn. destruct a; fn.
  - match goal with |- context [if ?x then _ else _] => destruct x end; fn.
  - match goal with |- context [if ?x then _ else _] => destruct x end; fn. now apply fine_angle.
Qed.
Lemma fine_segs_rest E n : env_ok E -> forall ts, List.length ts < n -> fine ts (parse_segs_rest E n ts).
Proof.
  intros HE. induction n as [|n IH]; intros ts Hn; [lia|]. cbn [parse_segs_rest].
  destruct (_ && _); [|fine0]. apply fine_bind; [fn|]. intros u r d Hr.
  assert (List.length r < List.length ts) by (pose proof (eats_punct "::" ts) as He; rewrite Hr in He; eapply He; reflexivity).
  apply fine_bind; [now apply fine_seg|]. intros s r' d' Hs.
  pose proof (fine_seg E r HE) as Hf. rewrite Hs in Hf. apply fine_suffix, suffix_len in Hf. cbn in Hf.
  apply fine_bind; [apply IH; lia|]. intros; fn.
Qed.
Lemma fine_path E ts : env_ok E -> fine ts (parse_path E ts).
Proof.
  intros HE. unfold parse_path. apply fine_bind; [fn|]. intros l r d Hl.
  assert (Hf : fine ts (rollback_err (parse_punct "::") ts)) by fn.
  rewrite Hl in Hf. apply fine_suffix, suffix_len in Hf. cbn [p_rest] in Hf.
  apply fine_bind; [now apply fine_seg|]. intros s r' d' Hs.
  pose proof (fine_seg E r HE) as Hf'. rewrite Hs in Hf'. apply fine_suffix, suffix_len in Hf'. cbn [p_rest] in Hf'.
  apply fine_bind; [apply fine_segs_rest; auto; lia|]. intros; fn.
Qed.
Lemma eats_seg E ts : env_ok E -> eats ts (parse_seg E ts).
Proof.
  intros HE. unfold parse_seg. apply eats_bind_r; [fn|]. intros [] r d Hr.
  - apply eats_bind_l; [apply eats_any|]. intros; fn.
  - apply eats_bind_r; [fn|]. intros b r' d' Hr'. apply eats_bind_l.
    + destruct b; [apply eats_any|apply eats_ident].
    + intros. fn. match goal with |- context [if ?x then _ else _] => destruct x end; fn. now apply fine_angle.
Qed.
Lemma eats_path E ts : env_ok E -> eats ts (parse_path E ts).
Proof.
  intros HE. unfold parse_path. apply eats_bind_r; [fn|]. intros l r d Hl.
  assert (Hf : fine ts (rollback_err (parse_punct "::") ts)) by fn.
  rewrite Hl in Hf. apply fine_suffix, suffix_len in Hf. cbn [p_rest] in Hf.
  apply eats_bind_l; [now apply eats_seg|]. intros s r' d' Hs.
  pose proof (fine_seg E r HE) as Hf'. rewrite Hs in Hf'. apply fine_suffix, suffix_len in Hf'. cbn [p_rest] in Hf'.
  apply fine_bind; [apply fine_segs_rest; auto; lia|]. intros; fn.
Qed.
Lemma fine_tag E ts : env_ok E -> fine ts (parse_tag E ts).
Proof.
  intros HE. unfold parse_tag. fn. destruct a; fn; [now apply fine_path|apply fine_kebab|].
  destruct (tag_kind_from (k_repr a)); fn; apply fine_snake.
Qed.
Lemma eats_tag E ts : env_ok E -> eats ts (parse_tag E ts).
Proof.
  intros HE. unfold parse_tag. apply eats_bind_r; [fn|]. intros [] r d Hr.
  - apply eats_bind_l; [now apply eats_path|]. intros; fn.
  - apply eats_bind_l; [apply eats_kebab|]. intros k r' d' Hk.
    destruct (tag_kind_from (k_repr k)); fn; apply fine_snake.
Qed.
Lemma fine_closure_loop n : forall ts, List.length ts < n -> fine ts (closure_loop n ts).
Proof.
  induction n as [|n IH]; intros ts Hn; [lia|]. cbn [closure_loop].
  apply fine_bind; [fn|]. intros [u|] r d Hr; [fn|].
  assert (r = ts).
  { unfold rollback_err in Hr. destruct (parse_punct "|" ts) as [[| | | |] ? ?]; inversion Hr; auto. }
  subst r. destruct ts as [|t ts].
  { unfold rollback_err, parse_tt, bind. cbn. fine0. }
  rewrite (bind_run0 (rollback_err parse_tt) _ (t :: ts) (Some t) ts eq_refl).
  cbn in Hn. assert (Hf : fine ts ((r <- closure_loop n;; ret (t :: r))%parse ts)).
  { apply fine_bind; [apply IH; lia|]. intros; fn. }
  destruct Hf. split; auto with suff.
Qed.
Lemma fine_closure_args ts : fine ts (parse_closure_args ts).
Proof.
  unfold parse_closure_args. apply fine_bind; [fn|]. intros u r d Hr.
  assert (List.length r < List.length ts) by (pose proof (eats_punct "|" ts) as He; rewrite Hr in He; eapply He; reflexivity).
  apply fine_bind; [apply fine_closure_loop; lia|]. intros; fn.
Qed.

(** Elements and children, for any parser of nested children. *)
Definition pc_fine (pc : P (list child)) (ts : list tt) : Prop :=
  forall d inner, In (TGroup d inner) ts -> fine inner (pc inner).
Lemma pc_fine_suffix pc r ts : suffix r ts -> pc_fine pc ts -> pc_fine pc r.
Proof. intros Hs H d inner Hin. eapply H. eapply suffix_in; eauto. Qed.

Lemma fine_block pc d (mk : list child -> element) ts : pc_fine pc ts ->
  fine ts ((c <- delimited d pc ;; ret (mk c))%parse ts).
Proof.
  intros Hpc. apply fine_bind; [|intros; fn]. apply fine_delimited. intros inner r ->. eapply Hpc. now left.
Qed.
Lemma fine_element_tail pc t sels attrs ts : pc_fine pc ts -> fine ts (element_tail pc t sels attrs ts).
Proof.
  intros Hpc. unfold element_tail. apply fine_bind; [fn|]. intros semi r d Hr.
  assert (Hsuf : suffix r ts).
  { assert (Hf : fine ts (rollback_err (parse_punct ";") ts)) by fn. rewrite Hr in Hf. now apply fine_suffix in Hf. }
  assert (Hpc' := pc_fine_suffix _ _ _ Hsuf Hpc).
  destruct semi; fn. match goal with H : look _ _ = _ |- _ => inversion H; subst end.
  match goal with |- fine ?x _ => destruct x as [|t0 r1] end; [fn|]. set (rr := t0 :: r1) in *.
  match goal with |- context [peek_group Brace ?r] => destruct (peek_group Brace r) end; [now apply fine_block|].
  match goal with |- context [peek_group Paren ?r] => destruct (peek_group Paren r) end; [now apply fine_block|].
  match goal with |- context [peek_punct "|" ?r] => destruct (peek_punct "|" r) end; [|fn].
  apply fine_bind; [apply fine_closure_args|]. intros args r2 d2 H2.
  match type of H2 with parse_closure_args ?r = _ =>
    pose proof (fine_closure_args r) as Hf; rewrite H2 in Hf; apply fine_suffix in Hf; cbn in Hf;
    pose proof (pc_fine_suffix _ _ _ Hf Hpc') as Hpc2 end.
  fn. match goal with H : look _ _ = _ |- _ => inversion H; subst end.
  match goal with |- context [peek_group Brace ?r] => destruct (peek_group Brace r) end; [now apply fine_block|].
  match goal with |- context [peek_group Paren ?r] => destruct (peek_group Paren r) end; [now apply fine_block|].
  fn.
Qed.
Lemma fine_after {A} (m : P A) ts a r d : fine ts (m ts) -> m ts = PR (Ret a) r d -> suffix r ts.
Proof. intros Hf H. rewrite H in Hf. now apply fine_suffix in Hf. Qed.
Lemma fine_element E pc ts : env_ok E -> pc_fine pc ts -> fine ts (parse_element E pc ts).
Proof.
  intros HE Hpc. rewrite parse_element_eq. apply fine_bind; [now apply fine_tag|]. intros t r d Hr.
  assert (Hs := fine_after _ _ _ _ _ (fine_tag E ts HE) Hr).
  apply fine_bind; [apply fine_selectors|]. intros sels r2 d2 Hr2.
  assert (Hs2 := fine_after _ _ _ _ _ (fine_selectors r) Hr2).
  apply fine_bind; [apply fine_attrs|]. intros attrs r3 d3 Hr3.
  assert (Hs3 := fine_after _ _ _ _ _ (fine_attrs r2) Hr3).
  apply fine_element_tail. eapply pc_fine_suffix; [|exact Hpc]. eauto with suff.
Qed.
Lemma eats_element E pc ts : env_ok E -> pc_fine pc ts -> eats ts (parse_element E pc ts).
Proof.
  intros HE Hpc. rewrite parse_element_eq. apply eats_bind_l; [now apply eats_tag|]. intros t r d Hr.
  assert (Hs := fine_after _ _ _ _ _ (fine_tag E ts HE) Hr).
  apply fine_bind; [apply fine_selectors|]. intros sels r2 d2 Hr2.
  assert (Hs2 := fine_after _ _ _ _ _ (fine_selectors r) Hr2).
  apply fine_bind; [apply fine_attrs|]. intros attrs r3 d3 Hr3.
  assert (Hs3 := fine_after _ _ _ _ _ (fine_attrs r2) Hr3).
  apply fine_element_tail. eapply pc_fine_suffix; [|exact Hpc]. eauto with suff.
Qed.

(** [parse_child] after its two look-aheads are resolved. *)
Lemma parse_child_step E pc ts : parse_child E pc ts =
  match parse_value ts with
  | PR (Ret v) r d =>
      match v with
      | VLit (LitTok LkStr s) => PR (Ret (CValue v)) r d
      | VLit _ => PR (Ret (CValue (VLit (LitTok LkStr "")))) r (d ++ [DNonStrChild])
      | _ => PR (Ret (CValue v)) r d
      end
  | _ =>
      if peek_keyword "slot" ts && peek2 (peek_punct ":") ts && negb (peek2 (peek_punct "::") ts) then
        match ts with
        | _ :: _ :: r => bind (parse_element E pc) (fun e => ret (CSlot e)) r
        | _ => PR NoFuel ts []
        end
      else if peek_any ts then bind (parse_element E pc) (fun e => ret (CElement e)) ts
      else PR (Fail EChild) ts []
  end.
Proof.
  unfold parse_child.
  destruct (parse_value_cases ts) as [(u & v & r1 & -> & Hv & Heq)|[Hnv Heq]]; rewrite Heq.
  - rewrite (bind_run0 _ _ _ _ _ (rollback_nofail _ _ _ _ _ Heq)).
    destruct v as [[[] s|b]|b|p b]; reflexivity.
  - rewrite (bind_run0 _ _ _ _ _ (rollback_fail _ _ _ _ _ Heq)).
    rewrite (bind_run0 _ _ _ _ _ eq_refl). cbn beta.
    destruct (_ && _ && _) eqn:Hslot.
    + apply slot_test in Hslot. destruct Hslot as (sp & r0 & -> & Hns).
      rewrite (bind_run0 (unwrap parse_any) _ (TIdent (Id false "slot") :: TPunct ":" sp :: r0)
                 (Id false "slot") (TPunct ":" sp :: r0) eq_refl).
      now rewrite (bind_run0 (unwrap (parse_punct ":")) _ (TPunct ":" sp :: r0) Datatypes.tt r0 eq_refl).
    + rewrite (bind_run0 (look peek_any) _ ts _ _ eq_refl). now destruct (peek_any ts).
Qed.

Lemma value_eats ts v r d : parse_value ts = PR (Ret v) r d -> List.length r < List.length ts.
Proof.
  destruct (parse_value_cases ts) as [(u & v' & r1 & -> & Hv & Heq)|[Hnv Heq]]; rewrite Heq; [|discriminate].
  intros H. inversion H; subst. rewrite app_length. inversion Hv; subst; cbn; lia.
Qed.

Lemma fine_child E pc ts : env_ok E -> pc_fine pc ts -> fine ts (parse_child E pc ts).
Proof.
  intros HE Hpc. rewrite parse_child_step. pose proof (fine_value ts) as Hv.
  destruct (parse_value_cases ts) as [(u & v & r1 & Hts & Hph & Heq)|[Hnv Heq]]; rewrite Heq in *.
  - apply fine_suffix in Hv. cbn in Hv. destruct v as [[[] s|b]|b|p b]; fine0.
  - destruct (_ && _ && _) eqn:Hslot.
    + apply slot_test in Hslot. destruct Hslot as (sp & r0 & -> & Hns).
      assert (Hf : fine r0 (bind (parse_element E pc) (fun e => ret (CSlot e)) r0)).
      { apply fine_bind; [|intros; fn]. apply fine_element; auto.
        eapply pc_fine_suffix; [|exact Hpc]. auto with suff. }
      destruct Hf. split; auto with suff.
    + destruct (peek_any ts); [|fine0]. apply fine_bind; [|intros; fn]. now apply fine_element.
Qed.
Lemma eats_child E pc ts : env_ok E -> pc_fine pc ts -> eats ts (parse_child E pc ts).
Proof.
  intros HE Hpc. rewrite parse_child_step.
  destruct (parse_value_cases ts) as [(u & v & r1 & Hts & Hph & Heq)|[Hnv Heq]]; rewrite Heq in *.
  - apply value_eats in Heq. intros c Hc. destruct v as [[[] s|b]|b|p b]; exact Heq.
  - destruct (_ && _ && _) eqn:Hslot.
    + apply slot_test in Hslot. destruct Hslot as (sp & r0 & -> & Hns).
      assert (Hf : eats r0 (bind (parse_element E pc) (fun e => ret (CSlot e)) r0)).
      { apply eats_bind_l; [|intros; fn]. apply eats_element; auto.
        eapply pc_fine_suffix; [|exact Hpc]. auto with suff. }
      intros c Hc. apply Hf in Hc. cbn [List.length]. lia.
    + destruct (peek_any ts); [|intros c Hc; discriminate].
      apply eats_bind_l; [|intros; fn]. now apply eats_element.
Qed.

(** One step of [parse_children], without the continuation's monad. *)
Definition prepend (d : list diag) (x : pres (list child)) : pres (list child) :=
  PR (p_out x) (p_rest x) (d ++ p_diags x).
Definition cons_child (c : child) (x : pres (list child)) : pres (list child) :=
  match x with
  | PR (Ret cs) r d => PR (Ret (c :: cs)) r d
  | x => x
  end.
Lemma bind_cons c m r : (cs <- m ;; ret (c :: cs))%parse r = cons_child c (m r).
Proof. unfold bind. destruct (m r) as [[| | | |] ? ?]; cbn; auto. now rewrite app_nil_r. Qed.

Lemma parse_children_step E n t ts : parse_children E (S n) (t :: ts) =
  match parse_child E (parse_children E n) (t :: ts) with
  | PR (Ret c) r d => prepend d (cons_child c (parse_children E n r))
  | PR (Fail e) r d =>
      if peek_punct ";" r then prepend (d ++ [DExtraSemi]) (parse_children E n (tl r))
      else prepend (d ++ [DParse e]) (parse_children E n [])
  | PR Abort r d => PR Abort r d
  | PR (Panic w) r d => PR (Panic w) r d
  | PR NoFuel r d => PR NoFuel r d
  end.
Proof.
  cbn [parse_children]. destruct (parse_child E (parse_children E n) (t :: ts)) as [[c|e| |w|] r d]; auto.
  - cbn zeta. rewrite bind_cons. reflexivity.
  - destruct (peek_punct ";" r) eqn:Hs.
    + apply peek_punct1 in Hs; [|discriminate]. destruct r as [|x r]; [contradiction|]. destruct Hs as [sp ->].
      rewrite (bind_run (emit DExtraSemi) _ _ _ _ _ eq_refl).
      rewrite (bind_run0 (unwrap (parse_punct ";")) _ (TPunct ";" sp :: r) Datatypes.tt r eq_refl).
      unfold prepend. cbn. now rewrite <- app_assoc.
    + rewrite (bind_run (emit (DParse e)) _ _ _ _ _ eq_refl).
      rewrite (bind_run0 take_rest _ r r [] eq_refl). unfold prepend. cbn. now rewrite <- app_assoc.
Qed.

Lemma fine_children E : env_ok E -> forall n ts, size ts < n ->
  fine ts (parse_children E n ts) /\
  (forall cs r d, parse_children E n ts = PR (Ret cs) r d -> r = []) /\
  (forall e r d, parse_children E n ts <> PR (Fail e) r d).
Proof.
  intros HE. induction n as [|n IH]; intros ts Hn; [lia|].
  destruct ts as [|t ts].
  { cbn. split; [fine0|]. split; [|discriminate]. intros cs r d H. now inversion H. }
  rewrite parse_children_step.
  assert (Hpc : pc_fine (parse_children E n) (t :: ts)).
  { intros d inner Hin. apply IH. apply in_group_size in Hin. lia. }
  pose proof (fine_child E _ _ HE Hpc) as Hf. pose proof (eats_child E _ _ HE Hpc) as He.
  assert (Hgo : forall r d (f : pres (list child) -> pres (list child)),
     suffix r (t :: ts) -> size r < n ->
     (forall x, p_rest (f x) = p_rest x) -> (forall x, p_out (f x) = NoFuel <-> p_out x = NoFuel) ->
     (forall x, p_out (f x) = Abort <-> p_out x = Abort) ->
     (forall x, p_diags (f x) = p_diags x) ->
     (forall x cs, p_out (f x) = Ret cs -> exists cs', p_out x = Ret cs') ->
     (forall x e, p_out (f x) = Fail e -> p_out x = Fail e) ->
     fine (t :: ts) (prepend d (f (parse_children E n r))) /\
     (forall cs r' d', prepend d (f (parse_children E n r)) = PR (Ret cs) r' d' -> r' = []) /\
     (forall e r' d', prepend d (f (parse_children E n r)) <> PR (Fail e) r' d')).
  { intros r d f Hsuf Hsz Hr Hnf Hab Hd Hret Hfail. destruct (IH r Hsz) as ([I1 I2 I3] & Hnil & Hnofail).
    destruct (parse_children E n r) as [o r' d'] eqn:Hx. cbn in *.
    repeat split; cbn.
    - rewrite Hr. cbn. eauto with suff.
    - rewrite Hnf. auto.
    - rewrite Hab. cbn. intros H. apply I3 in H. rewrite Hd. cbn. intros H'. apply app_nil_inv in H'. tauto.
    - intros cs r2 d2 H. unfold prepend in H. inversion H. rewrite Hr. cbn.
      destruct (Hret _ _ H1) as [cs' Hc]. cbn in Hc. subst o. eapply Hnil. reflexivity.
    - intros e r2 d2 H. unfold prepend in H. inversion H. apply Hfail in H1. cbn in H1. subst o.
      eapply Hnofail. reflexivity. }
  destruct (parse_child E (parse_children E n) (t :: ts)) as [[c|e| |w|] r d] eqn:Hc.
  - specialize (He c eq_refl). cbn [p_rest] in He. apply fine_suffix in Hf. cbn in Hf.
    apply (Hgo r d (cons_child c)); auto.
    + pose proof (suffix_len_size _ _ Hf He). lia.
    + now intros [[| | | |] ? ?].
    + intros [[| | | |] ? ?]; cbn; split; congruence.
    + intros [[| | | |] ? ?]; cbn; split; congruence.
    + now intros [[| | | |] ? ?].
    + intros [[| | | |] ? ?]; cbn; intros cs; try discriminate. eauto.
    + intros [[| | | |] ? ?]; cbn; intros e0; try discriminate. congruence.
  - apply fine_suffix in Hf. cbn in Hf. destruct (peek_punct ";" r) eqn:Hs.
    + apply peek_punct1 in Hs; [|discriminate]. destruct r as [|x r]; [contradiction|].
      assert (suffix r (t :: ts)) as Hsuf.
      { eapply suffix_trans; [|exact Hf]. auto with suff. }
      apply (Hgo r (d ++ [DExtraSemi]) (fun x => x)); auto; try tauto; eauto.
      apply suffix_size in Hf. rewrite size_cons in Hf. pose proof (tt_size_pos x). cbn in Hn, Hf. lia.
    + apply (Hgo [] (d ++ [DParse e]) (fun x => x)); auto with suff; try tauto; eauto.
      rewrite size_cons in Hn. pose proof (tt_size_pos t). unfold size. cbn. lia.
  - split; [|split; discriminate]. destruct Hf as [F1 F2 F3]. split; auto. discriminate.
  - split; [|split; discriminate]. destruct Hf as [F1 F2 F3]. split; auto. discriminate. discriminate.
  - destruct Hf as [F1 F2 F3]. cbn in F2. congruence.
Qed.
