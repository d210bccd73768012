(** Theorem C52: where the tokens of an expansion point to. *)
From Verif Require Import PropFacts1 ExampleFacts Properties13 Properties17 WhereFacts UserIn PlacesIn SpanExamples SLex.
From Verif Require Import SpecStr SpecGrammar SpecReports SpecSpan SpecSpell SpecWhere SMacro STokens.
Open Scope list_scope.
Close Scope sparse_scope.

(** ** C52: the span of every token of an expansion *)

Lemma where_root E input cs : senv_ok E -> sp_children E input cs ->
  match sx_out (sroot_tokens E cs) with XRet ts => Forall (placed E cs) (atoms ts) | _ => True end.
Proof.
  intros HE Hs. assert (H := root_yields E HE cs (spelled_good E input cs Hs)).
  destruct (sx_out (sroot_tokens E cs)) as [ts| |w] eqn:Ho; auto. exact (H ts Ho).
Qed.

(** Each token of the expansion of a view without syntax errors is either a
    token of the view at the place it is written at, or one of the macro's, at
    the part of the view it stands for or at the call site. *)
Theorem C52_tokens E input cs : senv_ok E -> wf (erases input) ->
  children_phrase (s_env E) (erases input) (map echild cs) -> sp_children E input cs ->
  forall ts, smview E input = SExpanded ts -> Forall (placed E cs) (atoms ts).
Proof.
  intros HE Hw Hp Hs ts. unfold smview. rewrite (read_this E input cs HE Hw Hp Hs).
  assert (H := where_root E input cs HE Hs). destruct (sroot_tokens E cs) as [[ts'| |w] ds]; cbn [app]; try discriminate.
  destruct ds; [|discriminate]. intros [= <-]. exact H.
Qed.
Print Assumptions C52_tokens.

(** The same for what is given besides reports. *)
Theorem C52_tokens_nightly E input cs : senv_ok E -> wf (erases input) ->
  children_phrase (s_env E) (erases input) (map echild cs) -> sp_children E input cs ->
  forall ts ds, smview_nightly E input = SGave ts ds -> Forall (placed E cs) (atoms ts).
Proof.
  intros HE Hw Hp Hs ts ds. unfold smview_nightly. rewrite (read_this E input cs HE Hw Hp Hs).
  assert (H := where_root E input cs HE Hs). destruct (sroot_tokens E cs) as [[ts'| |w] ds']; cbn [app]; try discriminate.
  - intros [= <- <-]. exact H.
  - intros [= <- <-]. repeat constructor; right; constructor.
Qed.
Print Assumptions C52_tokens_nightly.

(** What stands at the call site: only tokens of the macro.  So each name, value
    and piece of code of the user is found where it was written. *)
Theorem C52_call_site E input cs : senv_ok E -> wf (erases input) ->
  children_phrase (s_env E) (erases input) (map echild cs) -> sp_children E input cs ->
  ~ points E input Call ->
  forall ts, smview E input = SExpanded ts ->
  forall a, In (Call, a) (atoms ts) -> generated E cs Call a.
Proof.
  intros HE Hw Hp Hs Hcall ts Hts a Hin. assert (H := C52_tokens E input cs HE Hw Hp Hs ts Hts).
  rewrite Forall_forall in H. destruct (H _ Hin) as [Hu|Hg]; [|exact Hg]. cbn in Hu.
  destruct (user_in E (points E input)) with input cs Call a as [Hq|[_ ->]]; auto.
  - intros x y Hx Hy. unfold joinx. destruct (s_join E x y) eqn:Ej; [|exact Hx]. exact (points_range E input x y s Hx Hy Ej).
  - apply Forall_forall. intros s Hin'. now apply points_at.
  - now destruct Hcall.
  - apply g_word. vm_compute. tauto.
Qed.
Print Assumptions C52_call_site.

(** And no name of the user gets lost among the names of the macro: an
    identifier that is not one of the macro's stands where the user wrote it. *)
Definition macro_words : list string := call_words ++
  ["move"; "format"; "id"; "__x"; "component_props_builder"; "__invalid_identifier_found_str"; "invalid_event"].
Definition macro_methods : list string :=
  ["attr"; "add_any_attr"; "clone"; "class"; "id"; "node_ref"; "directive"; "into"; "build"; "child"; "children"].
Theorem C52_names E input cs : senv_ok E -> wf (erases input) ->
  children_phrase (s_env E) (erases input) (map echild cs) -> sp_children E input cs ->
  forall ts ds, smview_nightly E input = SGave ts ds ->
  forall s i,
  (In (s, LWord i) (atoms ts) -> ~ In (i_name i) macro_words -> user E cs s (LWord i)) /\
  (In (s, LMethod i) (atoms ts) -> ~ In (i_name i) macro_methods -> user E cs s (LMethod i)).
Proof.
  intros HE Hw Hp Hs ts ds Hts s i. assert (H := C52_tokens_nightly E input cs HE Hw Hp Hs ts ds Hts). rewrite Forall_forall in H.
  split; intros Hin Hn; (destruct (H _ Hin) as [Hu|Hg]; [exact Hu|]); exfalso; apply Hn; cbn in Hg; clear - Hg.
  - inversion Hg; subst; repeat match goal with
      | H : In _ call_words |- _ => apply in_or_app; now left
      | H : In _ (_ :: _) |- _ => destruct H as [H|H]
      | H : In _ [] |- _ => destruct H
      | H : (if on_component ?e then _ else _) = _ |- _ => destruct (on_component e)
      | H : _ = LWord _ |- _ => try discriminate H; injection H as <-
      | H : _ = i_name _ |- _ => idtac
      end; try (vm_compute; tauto).
  - inversion Hg; subst; repeat match goal with
      | H : In _ (_ :: _) |- _ => destruct H as [H|H]
      | H : In _ [] |- _ => destruct H
      | H : (if on_component ?e then _ else _) = _ |- _ => destruct (on_component e)
      | H : _ = LMethod _ |- _ => try discriminate H; injection H as <-
      end; subst; try (vm_compute; tauto).
Qed.
Print Assumptions C52_names.

(** *** Cases *)

(** The tokens of an expansion that are not at the call site. *)
Definition located (ts : list stt) : list (span * atom) :=
  filter (fun x => match fst x with Call => false | _ => true end) (atoms ts).
Definition located_names (ts : list stt) : list (span * atom) :=
  filter (fun x => match snd x with LWord _ | LMethod _ => true | _ => false end) (located ts).

Definition where_view : string := "p.a-b title={t} on:click=[go()] { 'hi' }".
Example C52_case :
  (wf (erases (slex where_view)) /\
   children_phrase (s_env SE1) (erases (slex where_view)) (map echild (spelled SE1 (slex where_view))) /\
   sp_children SE1 (slex where_view) (spelled SE1 (slex where_view))) /\
  exists ts, smview SE1 (slex where_view) = SExpanded ts /\
  located ts =
    [(Src 0 0 1, LWord (Id true "p"));
     (Src 0 6 11, LMethod (Id true "title"));
     (Src 0 13 14, LDelim Brace); (Src 0 13 14, LDelim Brace); (Src 0 13 14, LDelim Brace); (Src 0 13 14, LWord (Id false "t"));
     (Src 0 16 18, LMethod (Id false "on")); (Src 0 19 24, LWord (Id true "click"));
     (Src 0 25 31, LWord (Id false "move")); (Src 0 25 31, LPunct "|"); (Src 0 25 31, LPunct "|");
     (Src 0 25 31, LDelim Brace); (Src 0 25 31, LDelim Brace); (Src 0 25 31, LDelim Brace);
     (Src 0 26 28, LWord (Id false "go")); (Src 0 28 29, LDelim Paren); (Src 0 29 30, LDelim Paren); (Src 0 28 30, LDelim Paren);
     (Src 0 1 2, LMethod (Id false "class")); (Src 0 2 3, LWord (Id false "__x")); (Src 0 4 5, LWord (Id false "__x"));
     (Src 0 34 38, LMethod (Id false "child")); (Src 0 34 38, LLit LkStr "hi")].
Proof.
  split; [apply spelled_ok; [exact SE1_ok|reflexivity| |]; vm_compute; reflexivity|].
  eexists. split; vm_compute; reflexivity.
Qed.

(** A component: each name of the user, and the macro's words at its tag, its
    value, its arguments and its children. *)
Definition where_component : string := "Tab<u8> on-pick=f['{x}'] |z| { b; slot:Big { 'x' } }".
Example C52_component_case :
  (wf (erases (slex where_component)) /\
   children_phrase (s_env SE1) (erases (slex where_component)) (map echild (spelled SE1 (slex where_component))) /\
   sp_children SE1 (slex where_component) (spelled SE1 (slex where_component))) /\
  exists ts, smview SE1 (slex where_component) = SExpanded ts /\
  located_names ts =
    [(Src 0 0 3, LWord (Id false "Tab")); (Src 0 4 6, LWord (Id false "u8"));
     (Src 0 0 7, LWord (Id false "leptos")); (Src 0 0 7, LWord (Id false "component"));
     (Src 0 0 7, LWord (Id false "component_props_builder"));
     (Src 0 0 3, LWord (Id false "Tab")); (Src 0 4 6, LWord (Id false "u8"));
     (Src 0 8 15, LMethod (Id true "on_pick"));
     (Src 0 17 24, LWord (Id false "move")); (Src 0 17 24, LWord (Id false "std")); (Src 0 16 17, LWord (Id false "format"));
     (Src 0 31 32, LMethod (Id false "children"));
     (Src 0 25 28, LWord (Id false "move")); (Src 0 26 27, LWord (Id false "z"));
     (Src 0 25 28, LWord (Id false "leptos")); (Src 0 25 28, LWord (Id false "prelude"));
     (Src 0 25 28, LWord (Id false "View")); (Src 0 25 28, LWord (Id false "new"));
     (Src 0 31 32, LWord (Id true "b"));
     (Src 0 39 42, LMethod (Id true "big")); (Src 0 39 42, LWord (Id false "Big"));
     (Src 0 45 48, LMethod (Id false "children")); (Src 0 45 48, LWord (Id false "move"));
     (Src 0 39 42, LMethod (Id false "build")); (Src 0 0 7, LMethod (Id false "build"))].
Proof.
  split; [apply spelled_ok; [exact SE1_ok|reflexivity| |]; vm_compute; reflexivity|].
  eexists. split; vm_compute; reflexivity.
Qed.

(** The spans of text are not the call site, and neither are their ranges. *)
Example C52_call_site_case : ~ points SE1 (slex where_view) Call.
Proof.
  assert (H : forall s, points SE1 (slex where_view) s -> s <> Call).
  { intros s Hs. induction Hs as [s Hs|a b s _ IHa _ IHb Hj].
    - intros ->. revert Hs. vm_compute. intros Hs. repeat (destruct Hs as [Hs|Hs]; [discriminate Hs|]). exact Hs.
    - destruct a as [|f lo hi], b as [|f' lo' hi']; try easy. cbn in Hj. destruct (Nat.eqb f f'); [|discriminate].
      injection Hj as <-. discriminate. }
  intros Hc. exact (H _ Hc eq_refl).
Qed.
