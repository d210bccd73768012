(** Theorems C16, C35, C39: generated identifiers, use of the user's code, and
    failed attempts. *)
From Verif Require Import PropFacts1 CodeFacts ElementFacts Inv Fuel ExampleFacts.
From Verif Require Import CountFacts Properties2 Properties8.
From Verif Require Import SpecStr SpecGrammar SpecOut SpecRead SpecCount.
From Coq Require Import Lia.
Open Scope list_scope.

(** ** C16: generated identifiers are valid *)

(** Any name the reader gets from real tokens, complaints or not: [to_snake_ident]
    yields a valid raw identifier, or panics because the name is reserved.  (In
    particular it is never empty and never contains anything else.) *)
Theorem C16_name ts k r d : wf ts -> parse_kebab ts = PR (Ret k) r d ->
  (forall i, to_snake_ident k = Some i -> i_raw i = true /\ raw_ident_ok (i_name i)) /\
  (to_snake_ident k = None <-> In (snake_name (k_repr k)) reserved_words).
Proof.
  intros Hw H. destruct (parse_kebab_cases ts (wf_wf_head _ Hw)) as [(used & rest & -> & Hp & _ & Heq)|[_ Heq]];
    rewrite Heq in H; [|discriminate]. unfold name_result in H. inversion H; subst. apply wf_app in Hw.
  assert (Hl : lex_ident (snake_name (name_text used))) by (apply phrase_lex; tauto).
  cbn [k_repr]. split.
  - intros i Hi. apply to_snake_iff in Hi. destruct Hi as [Hr ->]. cbn [k_repr i_raw i_name] in *.
    split; auto. split; auto. intros Hx. apply Hr. now right.
  - destruct (to_snake_ident _) as [i|] eqn:Hi.
    + apply to_snake_iff in Hi. destruct Hi as [Hr _]. split; [discriminate|]. intros Hx. destruct Hr. now right.
    + split; auto. intros _. destruct (List.in_dec string_dec (snake_name (name_text used)) reserved_words) as [Hx|Hx]; auto.
      assert (Hs' : to_snake_ident (Kebab (name_text used) (section_count used)) = Some (Id true (snake_name (name_text used)))).
      { apply to_snake_iff. split; auto. cbn [k_repr]. intros [He|He]; [|contradiction].
        rewrite <- He in Hl. destruct Hl. }
      congruence.
Qed.
Print Assumptions C16_name.

(** The method name of a slot with any valid name: it is lexically an
    identifier, so it is a valid raw identifier unless it is a reserved word. *)
Theorem C16_slot_name i m : wf_ident i -> camel_snake (i_name i) m ->
  (In m reserved_words /\ new_raw m = None) \/ (raw_ident_ok m /\ new_raw m = Some (Id true m)).
Proof.
  intros [Hl _] Hm. assert (Hm' := camel_lex _ _ Hm Hl).
  destruct (List.in_dec string_dec m reserved_words) as [Hx|Hx]; [left|right].
  - split; auto. destruct (new_raw m) as [j|] eqn:Hn; auto. apply new_raw_iff in Hn. destruct Hn as [Hn _]. destruct Hn. now right.
  - split; [split; auto|]. apply new_raw_iff. split; auto. intros [<-|H]; [destruct Hm'|contradiction].
Qed.
Print Assumptions C16_slot_name.

(** The whole macro: an identifier anywhere in the expansion of real tokens,
    copied or generated, is one that Rust accepts. *)
Definition this_ident (i : ident) (t : tt) : bool :=
  match t with TIdent j => if ident_dec i j then true else false | _ => false end.
Lemma within_occurs p t ts : p t = true -> within [t] ts -> occurrences p ts <> 0.
Proof.
  intros Hp H. remember [t] as x eqn:Hx. induction H as [pre post|pre d inner post H IH]; subst x.
  - rewrite !W_app, W_cons. destruct t; cbn [weight]; rewrite Hp; lia.
  - rewrite W_app, W_cons. cbn [weight]. fold (occurrences p inner). lia.
Qed.
Lemma tt_nested_ind (P : tt -> Prop) : (forall i, P (TIdent i)) -> (forall c sp, P (TPunct c sp)) ->
  (forall k s, P (TLit k s)) -> (forall d l, Forall P l -> P (TGroup d l)) -> forall t, P t.
Proof.
  intros H1 H2 H3 H4. fix rec 1. intros [i|c sp|k s|d l]; [apply H1|apply H2|apply H3|apply H4].
  induction l as [|t l IH]; constructor; auto.
Qed.
Lemma wf_no_ident i ts : ~ wf_ident i -> wf ts -> occurrences (this_ident i) ts = 0.
Proof.
  intros Hi. assert (Ht : forall t, wf_tt t -> weight (this_ident i) t = 0).
  { induction t as [j|c sp|k s|d l IH] using tt_nested_ind; intros Hw; cbn [weight this_ident]; auto.
    - destruct (ident_dec i j) as [->|]; [contradiction|reflexivity].
    - apply wf_group in Hw. fold (occurrences (this_ident i) l). cbn.
      induction IH as [|t l Ht IH' IH2]; [reflexivity|]. apply wf_cons in Hw. rewrite W_cons, Ht by tauto. now apply IH2. }
  induction 1 as [|t ts H1 H IH]; auto. rewrite W_cons, Ht, IH; auto.
Qed.
Lemma wf_ident_dec i : {wf_ident i} + {~ wf_ident i}.
Proof.
  destruct (lexb (i_name i)) eqn:Hl.
  - apply lexb_iff in Hl. destruct (i_raw i) eqn:Hr.
    + destruct (List.in_dec string_dec (i_name i) reserved_words) as [Hx|Hx].
      * right. intros [_ H]. now apply H.
      * left. split; auto.
    + left. split; auto. intros H. congruence.
  - right. intros [H _]. apply lexb_iff in H. congruence.
Qed.
Theorem C16_output E input out i : env_ok E -> wf input -> mview E input = Expanded out ->
  within [TIdent i] out -> wf_ident i.
Proof.
  intros HE Hw H Hin. destruct (wf_ident_dec i) as [Hi|Hi]; auto. exfalso.
  destruct (mview_sound E input out HE Hw H) as (cs & Hc & Hr).
  assert (Hle : occurrences (this_ident i) out <= 2 * occurrences (this_ident i) input).
  { apply (view_le (this_ident i)) with (E := E) (cs := cs); auto; try reflexivity.
    intros j Hj. cbn. destruct (ident_dec i j) as [->|]; [contradiction|reflexivity]. }
  rewrite (wf_no_ident i input) in Hle by auto.
  apply (within_occurs (this_ident i) (TIdent i)) in Hin; [lia|]. cbn. destruct (ident_dec i i); congruence.
Qed.
Print Assumptions C16_output.

(** Cases: names of dashes and digits, a slot name that hits a reserved word. *)
Example C16_case :
  parse_kebab (lex "--2-x-") = PR (Ret (Kebab "--2-x-" 3)) [] [] /\
  to_snake_ident (Kebab "--2-x-" 3) = Some (Id true "__2_x_") /\
  parse_kebab (lex "-") = PR (Ret (Kebab "-" 1)) [] [] /\ to_snake_ident (Kebab "-" 1) = None.
Proof. vm_compute. auto. Qed.
Example C16_slot_case : camel_snake "HTTPTab9" "h_t_t_p_tab9" /\ camel_snake "Super" "super" /\
  mview E0 (lex "My { slot:Super; }") = Panicked (PNewRaw "super").
Proof. split; [|split]; [apply camel_iff; vm_compute; reflexivity..|vm_compute; reflexivity]. Qed.
Example C16_output_case : within [TIdent (Id true "a_2_")] (out_of (lex "My a-2-={1} { slot:FooBar; }")) /\
  within [TIdent (Id true "foo_bar")] (out_of (lex "My a-2-={1} { slot:FooBar; }")).
Proof. split; vm_compute; find_within. Qed.
(** Tokens that no lexer makes can yield something else. *)
Example C16_needs_wf : mview E0 [TIdent (Id false "My"); TIdent (Id false "1x"); TPunct ";" Alone] <> NoFuelLeft /\
  parse_kebab [TIdent (Id false "1x")] = PR (Ret (Kebab "1x" 1)) [] [] /\ to_snake_ident (Kebab "1x" 1) = Some (Id true "1x").
Proof. vm_compute. repeat split; discriminate. Qed.

(** ** C35: the user's code is neither lost nor duplicated *)

Lemma unsigned_neg s : unsigned ("-" ++ s) = unsigned s.
Proof. reflexivity. Qed.
Section Literal.
Variables (k : litkind) (s : string).
Hypothesis Hk : user_literal k.
Lemma literal_ident i : literal k s (TIdent i) = false. Proof. reflexivity. Qed.
Lemma literal_str x : literal k s (TLit LkStr x) = false.
Proof. cbn. destruct (litkind_dec k LkStr) as [->|]; auto. now destruct Hk. Qed.
Lemma literal_int x : literal k s (TLit LkInt x) = false.
Proof. cbn. destruct (litkind_dec k LkInt) as [->|]; auto. now destruct Hk. Qed.
Lemma literal_neg x : literal k s (TLit LkFloat ("-" ++ x)) = literal k s (TLit LkFloat x).
Proof. cbn [literal]. destruct (litkind_dec k LkFloat); auto. Qed.
End Literal.

(** Every literal that can only come from the user occurs in the expansion as
    often as in the input, at any depth, if no slot is inside an HTML element
    or a slot, all closure arguments are used, and the literal is not in the
    generic arguments of a tag. *)
Theorem C35_once E input cs out k s : expands E input cs out -> user_literal k ->
  (forall b e, anywhere cs b e ->
     slots_used b e /\ args_used e /\ occurrences (literal k s) (tag_generics (el_tag e)) = 0) ->
  occurrences (literal k s) out = occurrences (literal k s) input.
Proof.
  intros He Hk Ho. assert (Hr := expands_root _ _ _ _ He). destruct He as (HE & Hw & Hc & _).
  apply (view_eq (literal k s)) with (E := E) (cs := cs); auto.
  - now apply literal_str.
  - now apply literal_int.
Qed.
Print Assumptions C35_once.

(** Without any condition: nothing is invented, and nothing is used more than
    twice. *)
Theorem C35_at_most_twice E input cs out k s : expands E input cs out -> user_literal k ->
  occurrences (literal k s) out <= 2 * occurrences (literal k s) input.
Proof.
  intros He Hk. assert (Hr := expands_root _ _ _ _ He). destruct He as (HE & Hw & Hc & _).
  apply (view_le (literal k s)) with (E := E) (cs := cs); auto.
  - now apply literal_str.
  - now apply literal_int.
Qed.
Print Assumptions C35_at_most_twice.

(** Each condition is needed: a literal in generic arguments is emitted twice;
    one in a slot of an HTML element, in a slot of a slot, or in unused closure
    arguments is lost. *)
Definition count_in (s : string) (ts : list tt) : nat := occurrences (literal LkFloat s) ts.
Theorem C35_refuted :
  let bad text := expands E0 (lex text) (tree_of (lex text)) (out_of (lex text)) /\
    count_in "1.5" (lex text) = 1 /\ count_in "1.5" (out_of (lex text)) <> 1 in
  bad "My<{1.5}>;" /\ bad "div { slot:A x=1.5; }" /\ bad "My { slot:A { slot:B { {1.5} } } }" /\
  bad "div |x = 1.5| { 'a' }" /\ bad "My |x = 1.5| { slot:A; }".
Proof.
  assert (H : forall input, wfb input = true -> parse_children E0 (S (size input)) input = PR (Ret (tree_of input)) [] [] ->
    mview E0 input = Expanded (out_of input) -> count_in "1.5" input = 1 -> count_in "1.5" (out_of input) <> 1 ->
    expands E0 input (tree_of input) (out_of input) /\ count_in "1.5" input = 1 /\ count_in "1.5" (out_of input) <> 1).
  { intros input H1 H2 H3 H4 H5. split; auto. now apply case_expands. }
  cbv zeta. repeat (split; [apply H; vm_compute; (reflexivity || discriminate)|]). apply H; vm_compute; (reflexivity || discriminate).
Qed.
Print Assumptions C35_refuted.

(** A case with every kind of place code can be written in. *)
Definition c35_input : list tt := lex
  "div a=1.5 b={f(1.5)} class:x={1.5} {..1.5} on:click=[1.5] { [1.5] f['{}', 1.5]
     My p=-1.5 class:y=1.5 {..1.5} clone:z |q = 1.5| { {1.5} slot:A p=1.5 { {1.5} } slot:B |q = 1.5| { 'x' } } }".
Definition once_test (k : litkind) (s : string) (b : bool) (e : element) : bool :=
  (if orb b (match el_tag e with TagComponent _ => false | _ => true end)
   then forallb (fun c => match c with CSlot _ => false | _ => true end) (child_list (el_children e)) else true) &&
  (match el_args e with
   | None => true
   | Some _ => match el_tag e with TagComponent _ => negb (Nat.eqb (List.length (non_slots (child_list (el_children e)))) 0) | _ => false end
   end) &&
  Nat.eqb (occurrences (literal k s) (tag_generics (el_tag e))) 0.
Fixpoint all_once (k : litkind) (s : string) (b : bool) (e : element) : bool :=
  once_test k s b e &&
  match e with
  | Element _ _ _ _ (Some l) => forallb (fun c =>
      match c with CValue _ => true | CElement e => all_once k s false e | CSlot e => all_once k s true e end) l
  | Element _ _ _ _ None => true
  end.
Definition child_once k s (c : child) : bool :=
  match c with CValue _ => true | CElement e => all_once k s false e | CSlot e => all_once k s true e end.
Lemma all_once_eq k s b e : all_once k s b e = once_test k s b e && forallb (child_once k s) (child_list (el_children e)).
Proof. destruct e as [t sels attrs args [l|]]; reflexivity. Qed.
Lemma once_test_ok k s b e : once_test k s b e = true ->
  slots_used b e /\ args_used e /\ occurrences (literal k s) (tag_generics (el_tag e)) = 0.
Proof.
  unfold once_test. rewrite !andb_true_iff. intros [[H1 H2] H3]. apply Nat.eqb_eq in H3. split; [|split]; auto.
  - intros Hc e' Hin. assert (Ho : orb b (match el_tag e with TagComponent _ => false | _ => true end) = true).
    { destruct Hc as [-> | Hc]; auto. apply orb_true_iff. right. destruct (el_tag e) as [| p | | |]; auto. now destruct (Hc p). }
    rewrite Ho in H1. rewrite forallb_forall in H1. now apply H1 in Hin.
  - intros Ha. destruct (el_args e); [|congruence]. destruct (el_tag e) as [|p| | |]; try discriminate. split; [eauto|].
    intros Hn. now rewrite Hn in H2.
Qed.
Lemma anywhere_once k s cs : forallb (child_once k s) cs = true -> forall b e, anywhere cs b e -> all_once k s b e = true.
Proof.
  rewrite forallb_forall. intros Hf. induction 1 as [e H|e H|b e e' H IH Hin|b e e' H IH Hin].
  - exact (Hf _ H).
  - exact (Hf _ H).
  - rewrite all_once_eq, andb_true_iff, forallb_forall in IH. exact (proj2 IH _ Hin).
  - rewrite all_once_eq, andb_true_iff, forallb_forall in IH. exact (proj2 IH _ Hin).
Qed.
Lemma once_everywhere k s cs : forallb (child_once k s) cs = true -> forall b e, anywhere cs b e ->
  slots_used b e /\ args_used e /\ occurrences (literal k s) (tag_generics (el_tag e)) = 0.
Proof.
  intros Hf b e Ha. apply once_test_ok. assert (H := anywhere_once _ _ _ Hf _ _ Ha).
  rewrite all_once_eq, andb_true_iff in H. tauto.
Qed.
Example C35_case : expands E0 c35_input (tree_of c35_input) (out_of c35_input) /\
  (forall b e, anywhere (tree_of c35_input) b e ->
     slots_used b e /\ args_used e /\ occurrences (literal LkFloat "1.5") (tag_generics (el_tag e)) = 0) /\
  count_in "1.5" c35_input = 15 /\ count_in "1.5" (out_of c35_input) = 15.
Proof.
  split; [apply case_expands; vm_compute; reflexivity|]. split; [|vm_compute; auto].
  apply once_everywhere. vm_compute. reflexivity.
Qed.

(** ** C39: failed attempts consume nothing *)

(** Whatever is attempted: if the attempt fails the position is unchanged and
    the diagnostics of the attempt are kept; if it succeeds it is as if the
    reader had been run directly. *)
Theorem C39_attempt {A} (m : P A) ts r d :
  (rollback_err m ts = PR (Ret None) r d <-> r = ts /\ exists e r', m ts = PR (Fail e) r' d) /\
  (forall a, rollback_err m ts = PR (Ret (Some a)) r d <-> m ts = PR (Ret a) r d).
Proof.
  unfold rollback_err. split; [split|intros a; split].
  - destruct (m ts) as [[a|e| |w|] r' d'] eqn:Hm; intros H; inversion H; subst. eauto.
  - intros (-> & e & r' & ->). reflexivity.
  - destruct (m ts) as [[b|e| |w|] r' d'] eqn:Hm; intros H; inversion H; subst. reflexivity.
  - intros ->. reflexivity.
Qed.
Print Assumptions C39_attempt.

(** Reading the content of a group moves the position only if the content is
    read to its end. *)
Theorem C39_group {A} d (m : P A) ts :
  (forall e r ds, delimited d m ts = PR (Fail e) r ds -> r = ts) /\
  (forall a r ds, delimited d m ts = PR (Ret a) r ds <->
     exists inner, ts = TGroup d inner :: r /\ m inner = PR (Ret a) [] ds).
Proof.
  split.
  - intros e r ds. unfold delimited. destruct ts as [|[i|c sp|k s|d' l] ts]; try (intros H; now inversion H).
    destruct (delim_eqb d d'); [|intros H; now inversion H]. destruct (m l) as [[a|e'| |w|] [|t r'] ds']; intros H; now inversion H.
  - intros a r ds. split.
    + unfold delimited. destruct ts as [|[i|c sp|k s|d' l] ts]; try discriminate.
      destruct (delim_eqb d d') eqn:Hd; [|discriminate]. assert (d' = d) as -> by (destruct d, d'; try discriminate; reflexivity).
      destruct (m l) as [[a'|e'| |w|] [|t r'] ds'] eqn:Hm; intros H; inversion H; subst. eauto.
    + intros (inner & -> & Hm). unfold delimited. rewrite Hm. destruct d; reflexivity.
Qed.
Print Assumptions C39_group.

(** Reading as often as possible: the position after the last success is the
    position where the failing attempt was made; everything the failing attempt
    reported is kept. *)
Inductive reads_many {A} (m : P A) : list tt -> list A -> list tt -> list diag -> Prop :=
| rm_stop ts e r d : m ts = PR (Fail e) r d -> reads_many m ts [] ts d
| rm_step ts a r d l r' d' : m ts = PR (Ret a) r d -> reads_many m r l r' d' ->
    reads_many m ts (a :: l) r' (d ++ d').
Lemma many_iff {A} (m : P A) n : forall ts l r ds, (forall r, eats r (m r)) -> List.length ts < n ->
  (many n m ts = PR (Ret l) r ds <-> reads_many m ts l r ds).
Proof.
  induction n as [|n IH]; intros ts l r ds He Hn; [lia|]. cbn [many]. unfold bind, rollback_err.
  destruct (m ts) as [[a|e| |w|] r0 d0] eqn:Hm; cbn [p_out p_rest p_diags].
  - assert (Hl : List.length r0 < n). { specialize (He ts a). rewrite Hm in He. cbn in He. specialize (He eq_refl). lia. }
    split.
    + destruct (many n m r0) as [[l'|e| |w|] r1 d1] eqn:Hr; cbn; intros H; inversion H; subst.
      rewrite app_nil_r. eapply rm_step; eauto. now apply IH.
    + intros H. inversion H as [? ? ? ? Hx|? a' r1 d1 l' ? d2 Hx Hy]; subst; [congruence|].
      rewrite Hm in Hx. inversion Hx; subst. apply IH in Hy; auto. rewrite Hy. cbn. now rewrite app_nil_r.
  - split.
    + cbn. intros H. inversion H; subst. rewrite app_nil_r. eapply rm_stop; eauto.
    + intros H. inversion H as [? ? ? ? Hx|? a' r1 d1 l' ? d2 Hx Hy]; subst; [|congruence].
      rewrite Hm in Hx. inversion Hx; subst. cbn. now rewrite app_nil_r.
  - split; [discriminate|]. intros H. inversion H; congruence.
  - split; [discriminate|]. intros H. inversion H; congruence.
  - split; [discriminate|]. intros H. inversion H; congruence.
Qed.
Theorem C39_attrs ts l r ds : parse_attrs ts = PR (Ret l) r ds <-> reads_many parse_attr ts l r ds.
Proof. apply many_iff; [apply eats_attr|lia]. Qed.
Print Assumptions C39_attrs.
Theorem C39_selectors ts l r ds : parse_selectors ts = PR (Ret l) r ds <-> reads_many parse_selector ts l r ds.
Proof. apply many_iff; [apply eats_selector|lia]. Qed.
Print Assumptions C39_selectors.

(** What a failing attempt can report.  A failing value reports nothing.  A
    failing attribute only complains about raw identifiers in a name, and only
    if it is a braced name followed by something else. *)
Theorem C39_value ts e r d : parse_value ts = PR (Fail e) r d -> r = ts /\ d = [].
Proof.
  rewrite parse_value_run. destruct ts as [|[i|c sp|k s|[] l] ts];
    try (destruct (take_lit _) as [[? ?]|]; intros H; inversion H; subst; now auto); try discriminate.
  destruct ts as [|[| | |[] ?] ?]; try (destruct (take_lit _) as [[? ?]|]; intros H; inversion H; subst; now auto); discriminate.
Qed.
Print Assumptions C39_value.
Lemma spread_fails ts e r d : parse_spread ts = PR (Fail e) r d -> d = [].
Proof.
  unfold parse_spread, bind, extract. destruct ts as [|[i|c sp|k s|[] l] ts]; cbn -[take_punct]; try (intros H; now inversion H).
  destruct (take_punct ".." l); cbn -[take_punct]; intros H; now inversion H.
Qed.
Lemma kv_fails ts e r d : wf ts -> parse_kv ts = PR (Fail e) r d -> d <> [] ->
  exists used t more rest, ts = TGroup Brace (used ++ t :: more) :: rest /\ name_phrase used /\ d = raw_diags (tl used).
Proof.
  intros Hw H Hd. assert (Hs : ~ starts_name ts).
  { intros Hs. destruct (parse_kv_total ts (wf_wf_head _ Hw) Hs) as (k & r' & d' & Hk). congruence. }
  unfold parse_kv in H. rewrite (bind_run0 (look (peek_group Brace)) _ ts _ _ eq_refl) in H.
  destruct (peek_group Brace ts) eqn:Hb.
  - destruct ts as [|[i|c sp|k s|[] l] ts]; try discriminate. unfold bind at 1 in H. unfold parse_braced_kebab, delimited in H.
    cbn [delim_eqb] in H. apply wf_cons in Hw. destruct Hw as [Hl _]. apply wf_group in Hl.
    destruct (parse_kebab_cases l (wf_wf_head _ Hl)) as [(u & rest & -> & Hp & _ & Heq)|[_ Heq]]; rewrite Heq in H.
    + unfold name_result in H. destruct rest as [|t more].
      * exfalso. cbn in H. unfold into_block_value, snake, or_panic, bind in H. destruct (to_snake_ident _); discriminate.
      * cbn in H. inversion H; subst. exists u, t, more, ts. auto.
    + cbn in H. inversion H; subst. now destruct Hd.
  - destruct (parse_kebab_cases ts (wf_wf_head _ Hw)) as [(u & rest & -> & Hp & _ & Heq)|[_ Heq]].
    + exfalso. apply Hs. now apply phrase_starts.
    + unfold bind at 1 in H. rewrite Heq in H. inversion H; subst. now destruct Hd.
Qed.
Lemma raw_diags_In l : raw_diags l <> [] -> exists i, In (TIdent i) l /\ i_raw i = true.
Proof.
  induction l as [|t l IH]; intros H; [now destruct H|]. destruct t as [[[|] n]|c sp|k s|d g];
    [exists (Id true n); split; [now left|reflexivity]|..];
    destruct (IH H) as (i & Hi & Hr); exists i; (split; [now right|auto]).
Qed.
Lemma raw_diags_all l : Forall (eq DRawInKebab) (raw_diags l).
Proof. induction l as [|[[[|] n]|c sp|k s|d g] l IH]; cbn; auto. Qed.
Theorem C39_leak ts e r d : wf ts -> parse_attr ts = PR (Fail e) r d ->
  r = ts /\
  (d <> [] -> exists used t more rest, ts = TGroup Brace (used ++ t :: more) :: rest /\ name_phrase used /\
     (exists i, In (TIdent i) (tl used) /\ i_raw i = true) /\ Forall (eq DRawInKebab) d).
Proof.
  intros Hw H. rewrite parse_attr_step in H.
  destruct (peek_any ts && peek2 (peek_punct ":") ts) eqn:Hd.
  { exfalso. unfold bind, unwrap_or_abort in H. destruct (parse_directive ts) as [[| | | |] ? ?]; discriminate. }
  destruct (peek_ident ts) eqn:Hi.
  { exfalso. assert (Hs : starts_name ts) by (destruct ts as [|[] ?]; try discriminate; now left).
    destruct (parse_kv_total ts (wf_wf_head _ Hw) Hs) as (k & r' & d' & Hk). unfold bind in H. rewrite Hk in H. discriminate. }
  unfold bind, rollback_err in H.
  destruct (parse_kv ts) as [[kv|e1| |w|] r1 d1] eqn:Hk; try discriminate.
  cbn [p_out p_rest p_diags] in H.
  destruct (parse_spread ts) as [[sp|e2| |w|] r2 d2] eqn:Hs; try discriminate; cbn [p_out p_rest p_diags] in H.
  assert (d2 = []) by (eapply spread_fails; eauto). subst d2. cbn in H. inversion H; subst. split; auto.
  rewrite app_nil_r. intros Hne. destruct (kv_fails _ _ _ _ Hw Hk Hne) as (u & t & more & rest & Ht & Hp & ->).
  exists u, t, more, rest. split; [exact Ht|split; [exact Hp|split; [now apply raw_diags_In|apply raw_diags_all]]].
Qed.
Print Assumptions C39_leak.

(** The diagnostics of the failed attempt are repeated by the next one: [{..}]
    after a tag is tried as an attribute, then read as children. *)
Theorem C39_duplicate :
  parse_attr (lex "{ a-r#b c; }") = PR (Fail EAttr) (lex "{ a-r#b c; }") [DRawInKebab] /\
  mview E0 (lex "div { a-r#b c; }") = Errors [DRawInKebab; DRawInKebab] /\
  mview E0 (lex "div ( a-r#b c; )") = Errors [DRawInKebab].
Proof. vm_compute. auto. Qed.
Print Assumptions C39_duplicate.
Example C39_attrs_case : let ts := lex "a=1 {b} [ x ] ;" in exists l,
  reads_many parse_attr ts l (lex "[ x ] ;") [] /\ List.length l = 2.
Proof. eexists. split; [apply C39_attrs; vm_compute; reflexivity|reflexivity]. Qed.
