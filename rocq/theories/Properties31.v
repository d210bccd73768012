(** Theorem C65: the macro takes time linear in the length of the view. *)
From Verif Require Import Parse Macro Work WorkBound WorkX WorkXFacts WorkXRead WorkXSize Monad SpecGrammar SpecSize Lex ExampleFacts Properties1 Properties23 Properties27.
From Coq Require Import Lia Arith.
Open Scope string_scope.
Open Scope list_scope.

(** The expander that counts is the expander. *)
Theorem C65_same_expander E cs : snd (w_root_tokens E cs) = root_tokens E cs.
Proof. apply same_root. Qed.
Print Assumptions C65_same_expander.

(** Whatever the view is (also if it is wrong, or makes the macro panic), parsing and
    expanding it takes a number of steps that is linear in its length. *)
Theorem C65_linear E G K input : env_ok E -> linear_generics E G K ->
  mview_steps G E input <= (1808 + K) * weight input + 224.
Proof.
  intros HE HG. assert (Hp := C61_linear E G K input HE HG). unfold mview_steps.
  destruct (p_out (parse_children E (S (size input)) input)) as [cs|e| |w|] eqn:H; try lia.
  apply (expand_linear E input cs HE) in H. lia.
Qed.
Print Assumptions C65_linear.

(** Expanding alone, which does not read generic arguments. *)
Theorem C65_expand_linear E input cs r ds : env_ok E -> parse_children E (S (size input)) input = PR (Ret cs) r ds ->
  expand_steps E cs <= 1700 * weight input + 200.
Proof. intros HE H. apply expand_linear; [exact HE|]. now rewrite H. Qed.
Print Assumptions C65_expand_linear.

Lemma expanded_tree E input out : env_ok E -> wf input -> mview E input = Expanded out -> exists cs, children_phrase E input cs /\
  parse_children E (S (size input)) input = PR (Ret cs) [] [] /\ x_out (root_tokens E cs) = XRet out.
Proof.
  intros HE Hw H. unfold mview in H. destruct (parse_children E (S (size input)) input) as [[cs|e| |w|] r d] eqn:Hp; try discriminate.
  destruct (root_tokens E cs) as [[ts| |w] d'] eqn:Hr; try discriminate. destruct d; [|discriminate]. destruct d'; [|discriminate]. injection H as <-.
  destruct (C02_accepts_only_grammar E input _ cs r HE Hw (le_n _) Hp) as [-> Hx]. exists cs. rewrite Hr. auto.
Qed.
(** The count leaves nothing out: every token of the expansion takes a step. *)
Theorem C65_every_token E G input out m : env_ok E -> wf input -> counted_generics E G ->
  mview E input = Expanded out -> counts out m -> m <= mview_steps G E input.
Proof.
  intros HE Hw HG H Hm. apply counts_T in Hm. subst m. rewrite <- size_T.
  destruct (expanded_tree E input out HE Hw H) as (cs & Hc & Hp & Hr).
  unfold mview_steps. rewrite Hp. cbn [p_out].
  assert (H1 := C61_every_token E G input cs [] HE HG Hp). assert (H2 := l_root E cs out HE Hr). assert (H3 := u_size E input cs Hc). lia.
Qed.
Print Assumptions C65_every_token.

(** Components in components: the depth does not multiply.  (It would if the span of
    a child, which is asked for again at each level, were found by expanding it.) *)
Definition the_A : tag := TagComponent (Path false [PSeg (Id false "A") PNone]).
Definition rendered_to (x : list tt) : X (list tt) :=
  XR (XRet (gpath ["leptos"; "prelude"; "IntoRender"; "into_render"] ++ [TGroup Paren x])) [].
Lemma one_level E at_ k x : slot_order E at_ [] = [] ->
  exists y, w_into_render (tag_span_steps the_A)
    (x_bind (x_pay 4) (fun _ => w_element_tokens E at_ false the_A [] [] None (Some [(k, rendered_to x)]) (Some []))) =
    (13 + (k + 1 + 166 + 207 + 16 + 94), rendered_to y).
Proof.
  intros H. eexists. unfold w_element_tokens, w_component_to_tokens, w_xml_to_tokens. cbn [w_xml_tag_path xml_tag_path the_A].
  assert (Hs : w_slots_to_tokens E at_ [] = (0, XR (XRet []) [])).
  { unfold w_slots_to_tokens, x_bind, xbind. cbn. rewrite H. reflexivity. }
  rewrite Hs. clear Hs H. vm_compute. reflexivity.
Qed.
Lemma nested_expand E n : env_ok E -> forall at_, exists x,
  w_expand_node E at_ (nested_tree n) = (497 * n + 88, rendered_to x).
Proof.
  intros (_ & _ & HE). induction n as [|n IH]; intros at_.
  - eexists. vm_compute. reflexivity.
  - destruct (IH (0 :: at_)) as [x H].
    assert (Hs : slot_order E at_ [] = []) by (apply Permutation.Permutation_nil; apply HE).
    destruct (one_level E at_ (497 * n + 88) x Hs) as [y Hy]. exists y.
    replace (497 * S n + 88) with (13 + (497 * n + 88 + 1 + 166 + 207 + 16 + 94)) by lia. rewrite <- Hy, <- H.
    destruct n; reflexivity.
Qed.
Theorem C65_nested_case G E n : env_ok E -> n <> 0 -> mview_steps G E (nested n) = 568 * n + 135.
Proof.
  intros HE Hn. unfold mview_steps. rewrite C61_nested_case by exact Hn.
  rewrite (C03_accepts_grammar E (nested n) _ [nested_tree n] HE (nested_wf n) (le_n _) (nested_reads E n)). cbn [p_out].
  unfold expand_steps. assert (Hr : w_root_tokens E [nested_tree n] =
    x_bind (x_pay 4) (fun _ => x_bind (w_expand_node E [0] (nested_tree n)) (fun ts =>
      quote [Grp Brace (fixed [pu "#"; TGroup Bracket [kw "allow"; par [kw "unused_braces"]]] ++ [Splice ts])])))
    by (destruct n; reflexivity).
  rewrite Hr. destruct (nested_expand E n HE [0]) as [x ->]. unfold x_bind. cbn [fst snd x_pay xret x_out rendered_to].
  match goal with |- _ + (_ + (_ + ?k)) = _ => let v := eval vm_compute in k in change k with v end. lia.
Qed.
Print Assumptions C65_nested_case.

(** Cases: the view of C61, which is wrong ([slot:A] is not an attribute), and one that is expanded. *)
Example C65_case : env_ok E0 /\ linear_generics E0 read_weight 1 /\ weight some_view = 68 /\
  mview E0 some_view = Errors [DUnknownDirective] /\ mview_steps read_weight E0 some_view = 2193.
Proof.
  destruct C61_case as (H1 & H2 & H3 & H4 & _ & H6). split; [exact H1|]. split; [exact H2|]. split; [exact H6|]. split; vm_compute; reflexivity.
Qed.
Definition good_view : list tt :=
  lex "div.a #b c='x' on:click={f} { p { {a} 'x' } My::Comp<T> d={g(1)} {..r} |x| { q; slot:A; } }".
Example C65_good_case : counted_generics E0 read_weight /\ wf good_view /\
  (exists out, mview E0 good_view = Expanded out /\ counts out 317) /\
  weight good_view = 83 /\ mview_steps read_weight E0 good_view = 2338.
Proof.
  destruct C61_case as (_ & _ & H3 & _). split; [exact H3|].
  split; [apply wfb_ok; vm_compute; reflexivity|]. split.
  { eexists. split; [vm_compute; reflexivity|]. apply counts_T. vm_compute. reflexivity. }
  split; vm_compute; reflexivity.
Qed.
