(** Theorem C61: the parser takes time linear in the length of the view. *)
From Verif Require Import Parse Work WorkFacts WorkBound WorkLow SpecGrammar SpecSize Lex ExampleFacts.
From Coq Require Import Lia Arith.
Open Scope list_scope.

(** Where syn's parser for generic arguments stops. *)
Definition generics_end (E : env) (ts : list tt) : list tt :=
  match generic_args E ts with inl (_, r) => r | inr r => r end.

(** [G] steps are at most [K] for each character that was read, and at least one
    for each token that was read. *)
Definition linear_generics (E : env) (G : list tt -> nat) (K : nat) : Prop :=
  forall ts, G ts + K * weight (generics_end E ts) <= K * S (weight ts).
Definition counted_generics (E : env) (G : list tt -> nat) : Prop :=
  forall ts, size ts <= G ts + size (generics_end E ts).

(** The parser that counts is the parser. *)
Theorem C61_same_parser G E n ts : snd (w_parse_children G E n ts) = parse_children E n ts.
Proof. apply same_children. Qed.
Print Assumptions C61_same_parser.

(** Whatever the view is (also if it is wrong, or makes the macro panic), the number
    of steps is linear in its length: what is read twice is paid for by what is read
    once. *)
Theorem C61_linear E G K input : env_ok E -> linear_generics E G K ->
  parse_steps G E input <= (108 + K) * weight input + 24.
Proof. intros HE HG. apply parse_bound; auto. Qed.
Print Assumptions C61_linear.

(** The count leaves nothing out: every token takes a step. *)
Theorem C61_every_token E G input cs ds : env_ok E -> counted_generics E G ->
  parse_children E (S (size input)) input = PR (Ret cs) [] ds -> size input <= parse_steps G E input.
Proof.
  intros HE HG Hp. assert (Hs := C61_same_parser G E (S (size input)) input). rewrite Hp in Hs.
  assert (H := parse_low G E HG input cs [] ds). change (size []) with 0 in H.
  unfold parse_steps in *. destruct (w_parse_children G E (S (size input)) input) as [n p]. cbn [fst snd] in *. subst p.
  specialize (H eq_refl). lia.
Qed.
Print Assumptions C61_every_token.

(** Blocks in blocks, where every block is first tried as an attribute [{name}]: the
    depth does not multiply. *)
Definition AE (cs : list child) : child := CElement (Element (TagComponent (Path false [PSeg (Id false "A") PNone])) [] [] None (Some cs)).
Lemma step_inner G E pc k cs : pc [TGroup Bracket []] = (k, PR (Ret cs) [] []) ->
  w_parse_child G E pc [TIdent (Id false "A"); TGroup Brace [TGroup Bracket []]] = (68 + ((k + 0) + 0), PR (Ret (AE cs)) [] []).
Proof. intros H. vm_compute. rewrite H. reflexivity. Qed.
Lemma step_block G E pc x k cs : pc [TIdent (Id false "A"); TGroup Brace x] = (k, PR (Ret cs) [] []) ->
  w_parse_child G E pc [TIdent (Id false "A"); TGroup Brace [TIdent (Id false "A"); TGroup Brace x]] =
  (69 + ((k + 0) + 0), PR (Ret (AE cs)) [] []).
Proof. intros H. vm_compute. rewrite H. reflexivity. Qed.
Lemma nested_steps G E n : forall fuel, S n < fuel ->
  exists cs, w_parse_children G E fuel (nested n) = (match n with 0 => 5 | _ => 71 * n + 4 end, PR (Ret cs) [] []).
Proof.
  induction n as [|n IH]; intros fuel Hf; (destruct fuel as [|fuel]; [lia|]).
  - destruct fuel; [lia|]. eexists; reflexivity.
  - destruct (IH fuel ltac:(lia)) as [cs H]. exists [AE cs].
    assert (Hc : w_parse_child G E (w_parse_children G E fuel) (nested (S n)) =
      (71 * n + 73, PR (Ret (AE cs)) [] [])).
    { destruct n as [|n]; cbn [nested] in *.
      - rewrite (step_inner _ _ _ _ _ H). reflexivity.
      - rewrite (step_block _ _ _ _ _ _ H). f_equal. lia. }
    change (nested (S n)) with ([TIdent (Id false "A"); TGroup Brace (nested n)]) in *.
    cbn [w_parse_children]. rewrite Hc. destruct fuel; [lia|]. (cbn [w_parse_children w_bind fst snd p_out p_rest p_diags app w_ret priced ret]; f_equal; lia).
Qed.
Theorem C61_nested_case G E n : n <> 0 -> parse_steps G E (nested n) = 71 * n + 4.
Proof.
  intros Hn. unfold parse_steps. destruct (nested_steps G E n (S (size (nested n)))) as [cs H].
  - clear. assert (H : S n <= size (nested n)); [|lia]. induction n as [|n IH]; [apply le_n|]. change (size (nested (S n))) with (S (S (size (nested n) + 0))). lia.
  - rewrite H. destruct n; [contradiction|reflexivity].
Qed.
Print Assumptions C61_nested_case.

(** An environment and a count that meet the hypotheses, and a view with a bit of
    everything: 401 steps; the bounds are 36 and 7436. *)
Definition read_weight (ts : list tt) : nat := S (weight ts - weight (generics_end E0 ts)).
Definition some_view : list tt :=
  lex "div.a #b c='x' on:click={f} { p { {a} 'x' } My::Comp<T> slot:A |x| { q; } }".
Theorem C61_case : env_ok E0 /\ linear_generics E0 read_weight 1 /\ counted_generics E0 read_weight /\
  parse_steps read_weight E0 some_view = 401 /\ size some_view = 36 /\ weight some_view = 68.
Proof.
  assert (Hu : forall ts, exists u, ts = u ++ generics_end E0 ts).
  { intros ts. destruct E0_ok as (H1 & H2 & _). unfold generics_end.
    destruct (generic_args E0 ts) as [[u r]|r] eqn:H; [exists u; now apply H1|now apply H2]. }
  split; [exact E0_ok|]. split; [|split; [|split; [|split]]].
  - intros ts. unfold read_weight. destruct (Hu ts) as [u Hx]. revert Hx. generalize (generics_end E0 ts). intros r ->.
    rewrite weight_app. lia.
  - intros ts. unfold read_weight. destruct (Hu ts) as [u Hx]. revert Hx. generalize (generics_end E0 ts). intros r ->.
    rewrite weight_app, Monad.size_app. assert (H := weight_size u). lia.
  - vm_compute. reflexivity.
  - vm_compute. reflexivity.
  - vm_compute. reflexivity.
Qed.
