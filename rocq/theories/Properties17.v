(** Theorem C51: where the reports about a view without syntax errors are. *)
From Verif Require Import PropFacts1 CodeFacts ElementFacts Inv Fuel ExampleFacts Properties1 Properties13.
From Verif Require Import ReportsFacts PlacedFacts SpellOnce PlacesIn SpanExamples SLex.
From Verif Require Import SpecStr SpecGrammar SpecReports SpecSpan SpecSpell STokens.
Open Scope list_scope.
Close Scope sparse_scope.

(** ** C51: each report is where the part it is about is written *)

(** Reading a view without syntax errors. *)
Lemma read_tree E input cs0 : senv_ok E -> wf (erases input) -> children_phrase (s_env E) (erases input) cs0 ->
  exists cs, sparse_children E (S (size (erases input))) Call input = SPR (SRet cs) [] [] /\
    map echild cs = cs0 /\ sp_children E input cs.
Proof.
  intros HE Hw Hp. assert (HE' := HE). destruct HE' as (He & HG & _).
  assert (Ht := clean_tree _ _ _ He Hw Hp).
  assert (Hs := sim_children E HG (S (size (erases input))) Call input). rewrite Ht in Hs.
  destruct (sparse_children E _ Call input) as [[cs|e s| |w|] r ds] eqn:Es; try discriminate.
  unfold epres in Hs. cbn in Hs. injection Hs as Hc Hr Hd.
  destruct ds; [|discriminate]. destruct r; [|discriminate]. exists cs. split; [reflexivity|]. split; [exact Hc|].
  destruct (reads_children E HE _ _ _ _ _ Hw Es) as (u & -> & Hu). now rewrite app_nil_r.
Qed.

Lemma find_filter {A} (f : A -> bool) l : find f l = match filter f l with [] => None | a :: _ => Some a end.
Proof. induction l as [|a l IH]; cbn; [reflexivity|]. now destruct (f a). Qed.

(** Expanding it. *)
Lemma told_root E cs : Forall (child_tells E) cs -> Forall plain_child (map echild cs) ->
  (exists ts, sroot_tokens E cs = SXR (XRet ts) (placed_reports E cs)) \/
  (sroot_tokens E cs = SXR XAbort (placed_reports E cs) /\ placed_reports E cs <> []) \/
  (exists w ds, sroot_tokens E cs = SXR (XPanic w) ds).
Proof.
  intros Ht Hpl.
  assert (Hx := ex_root E cs). 
  destruct (existsb sis_slot cs) eqn:Hs.
  - right. left. unfold sroot_tokens, placed_reports. rewrite find_filter. change (fun c : schild => match c with SCSlot _ _ => true | _ => false end) with sis_slot.
    assert (Hf : exists s e r, filter sis_slot cs = SCSlot s e :: r /\ tag_span E (sel_tag e) = tag_place E (sel_tag e)).
    { clear - Ht Hs. induction Ht as [|c l Hc _ IH]; [discriminate|]. destruct c as [v|e|s e]; cbn in *; auto.
      destruct Hc as [Hc _]. eauto 6. }
    destruct Hf as (s & e & r & Hf & Hte). rewrite Hf. cbn [node_span]. rewrite Hte.
    destruct cs as [|[v|e'|s' e'] [|c' cs]]; try discriminate; (split; [reflexivity|discriminate]).
  - assert (Hn : no_root_slot (map echild cs)).
    { intros e Hin. apply in_map_iff in Hin as (c & Hc & Hin). destruct c as [v|e'|s e']; try discriminate.
      assert (existsb sis_slot cs = true) by (apply existsb_exists; eexists; split; [exact Hin|reflexivity]). congruence. }
    assert (Ha := root_noabort (s_env E) _ Hpl Hn). rewrite <- Hx in Ha.
    assert (Hy : tells (sroot_tokens E cs) (placed_reports E cs)).
    { unfold sroot_tokens, placed_reports. rewrite find_filter. change (fun c : schild => match c with SCSlot _ _ => true | _ => false end) with sis_slot.
      assert (Hf : filter sis_slot cs = []).
      { clear - Hs. induction cs as [|[v|e|s e] l IH]; cbn in *; try discriminate; auto. }
      rewrite Hf. assert (Hm := tells_nodes E _ Ht [] 0).
      destruct cs as [|c [|c' cs]]; [te; exact Hm| |te; destruct c; exact Hm].
      inversion Ht as [|? ? Hc _]; subst. destruct c as [v|e|s e]; cbn [flat_map p_child sexpand_node]; rewrite ?app_nil_r.
      - te. apply tells_value.
      - te. apply Hc.
      - discriminate. }
    destruct (sroot_tokens E cs) as [[ts| |w] ds]; [|now destruct Ha|eauto].
    left. exists ts. now rewrite <- (Hy ts eq_refl).
Qed.
Lemma placed_root E input cs : senv_ok E -> wf (erases input) ->
  children_phrase (s_env E) (erases input) (map echild cs) -> sp_children E input cs ->
  (exists ts, sroot_tokens E cs = SXR (XRet ts) (placed_reports E cs)) \/
  (sroot_tokens E cs = SXR XAbort (placed_reports E cs) /\ placed_reports E cs <> []) \/
  (exists w ds, sroot_tokens E cs = SXR (XPanic w) ds).
Proof.
  intros HE Hw Hp Hsp. apply told_root; [exact (children_tell E HE _ _ Hsp)|]. destruct HE as (He & _).
  exact (parsed_plain _ _ _ _ _ _ He (Nat.lt_succ_diag_r _) (clean_tree _ _ _ He Hw Hp)).
Qed.

(** A view without syntax errors has exactly one tree with spans whose parts
    are, in order, the tokens of the view. *)
Theorem C51_tree E input cs0 : senv_ok E -> wf (erases input) -> children_phrase (s_env E) (erases input) cs0 ->
  exists! cs, map echild cs = cs0 /\ sp_children E input cs.
Proof.
  intros HE Hw Hp. destruct (read_tree _ _ _ HE Hw Hp) as (cs & _ & Hc & Hs). exists cs. split; [auto|].
  intros cs' [Hc' Hs']. eapply children_once; eauto. congruence.
Qed.
Print Assumptions C51_tree.

Lemma read_this E input cs : senv_ok E -> wf (erases input) -> children_phrase (s_env E) (erases input) (map echild cs) ->
  sp_children E input cs -> sparse_children E (S (size (erases input))) Call input = SPR (SRet cs) [] [].
Proof.
  intros HE Hw Hp Hs. destruct (read_tree _ _ _ HE Hw Hp) as (cs' & Hr & Hc & Hs').
  now rewrite (children_once E HE _ _ Hs _ Hw Hs' (eq_sym Hc)).
Qed.

(** Exactly the reports of [placed_reports] are made about it, each at the
    place given there: in a value its prefix, in a directive its name, its key
    or its modifier, in a slot its first selector, the spread or its tag, and
    nowhere else. *)
Theorem C51_places E input cs : senv_ok E -> wf (erases input) ->
  children_phrase (s_env E) (erases input) (map echild cs) -> sp_children E input cs ->
  match smview E input with
  | SExpanded _ => placed_reports E cs = []
  | SErrors ds => ds = placed_reports E cs /\ ds <> []
  | SPanicked _ => True
  | SNoFuelLeft => False
  end.
Proof.
  intros HE Hw Hp Hs. unfold smview. rewrite (read_this E input cs HE Hw Hp Hs).
  destruct (placed_root E input cs HE Hw Hp Hs) as [(ts & ->)|[(-> & Hne)|(w & ds & ->)]]; cbn [app]; auto.
  destruct (placed_reports E cs); auto. split; auto. discriminate.
Qed.
Print Assumptions C51_places.

Theorem C51_places_nightly E input cs : senv_ok E -> wf (erases input) ->
  children_phrase (s_env E) (erases input) (map echild cs) -> sp_children E input cs ->
  match smview_nightly E input with
  | SGave _ ds => ds = placed_reports E cs
  | SCrashed _ => True
  | SOutOfFuel => False
  end.
Proof.
  intros HE Hw Hp Hs. unfold smview_nightly. rewrite (read_this E input cs HE Hw Hp Hs).
  destruct (placed_root E input cs HE Hw Hp Hs) as [(ts & ->)|[(-> & Hne)|(w & ds & ->)]]; cbn [app]; auto.
Qed.
Print Assumptions C51_places_nightly.

(** So no report about such a view is at the call site: each one points at
    something that was written in the view. *)
Theorem C51_in_the_view E input cs0 : senv_ok E -> wf (erases input) -> children_phrase (s_env E) (erases input) cs0 ->
  match smview_nightly E input with
  | SGave _ ds => Forall (fun d => points E input (snd d)) ds
  | SCrashed _ => True
  | SOutOfFuel => False
  end /\
  match smview E input with
  | SErrors ds => Forall (fun d => points E input (snd d)) ds
  | SExpanded _ | SPanicked _ => True
  | SNoFuelLeft => False
  end.
Proof.
  intros HE Hw Hp. destruct (read_tree _ _ _ HE Hw Hp) as (cs & _ & <- & Hs).
  assert (Hin : Forall (fun d : sdiag => points E input (snd d)) (placed_reports E cs)).
  { apply (placed_in E (points E input)) with input; [|exact Hs|].
    - intros a b Ha Hb. unfold joinx. destruct (s_join E a b) eqn:Ej; [|exact Ha]. exact (points_range E input a b s Ha Hb Ej).
    - apply Forall_forall. intros s Hin. now apply points_at. }
  assert (H1 := C51_places_nightly E input cs HE Hw Hp Hs). assert (H2 := C51_places E input cs HE Hw Hp Hs).
  destruct (smview_nightly E input); (split; [auto|]); try (subst; assumption);
  destruct (smview E input); auto; destruct H2 as [-> _]; assumption.
Qed.
Print Assumptions C51_in_the_view.

(** *** Cases *)

Definition faulty_view : string :=
  "br class:on:m attr:x={1}; my-tag.k use:'u':v b=h[1]; One::Two<u8> clone:z:m={2} on:a:b={c} { slot:T.q#w {..s} on:x; slot:A::B; }".
Definition spelled (E : senv) (input : list stt) : list schild :=
  match sparse_children E (S (size (erases input))) Call input with SPR (SRet cs) _ _ => cs | _ => [] end.
Lemma spelled_ok E input : senv_ok E -> s_env E = E0 -> wfb (erases input) = true ->
  match parse_children E0 (S (size (erases input))) (erases input) with PR (Ret _) [] [] => true | _ => false end = true ->
  wf (erases input) /\ children_phrase (s_env E) (erases input) (map echild (spelled E input)) /\
  sp_children E input (spelled E input).
Proof.
  intros HE HE0 Hw Hr. assert (Hwf := wfb_ok _ Hw). split; [exact Hwf|]. 
  destruct (parse_children E0 _ (erases input)) as [[cs| | | |] [|? ?] [|? ?]] eqn:Ep; try discriminate.
  assert (Hp : children_phrase (s_env E) (erases input) cs).
  { rewrite HE0. apply (C02_accepts_only_grammar E0 _ _ cs [] E0_ok Hwf (Nat.lt_succ_diag_r _) Ep). }
  destruct (read_tree _ _ _ HE Hwf Hp) as (cs' & Hr' & Hc & Hs). unfold spelled. rewrite Hr', Hc. auto.
Qed.

Definition faulty_reports (path_end : nat) : list sdiag :=
  [(DModifier, Src 0 12 13); (DNotOnElements "attr", Src 0 14 18);
   (DExpectedIdent, Src 0 39 42); (DModifier, Src 0 43 44); (DPrefix, Src 0 47 48);
   (DModifier, Src 0 74 75); (DModifier, Src 0 74 75); (DCloneValue, Src 0 76 79);
   (DUnknownOnModifier, Src 0 85 86); (DSlotSelectors, Src 0 99 100); (DSlotSpread, Src 0 104 109);
   (DSlotDirective "on", Src 0 110 112); (DSlotPath, Src 0 121 path_end)].
(** On nightly Rust the path [A::B] is marked, on stable Rust its first
    segment. *)
Example C51_case :
  (wf (erases (slex faulty_view)) /\
   children_phrase (s_env SE1) (erases (slex faulty_view)) (map echild (spelled SE1 (slex faulty_view))) /\
   sp_children SE1 (slex faulty_view) (spelled SE1 (slex faulty_view))) /\
  smview SE1 (slex faulty_view) = SErrors (faulty_reports 125) /\
  placed_reports SE1 (spelled SE1 (slex faulty_view)) = faulty_reports 125 /\
  smview SE0 (slex faulty_view) = SErrors (faulty_reports 122) /\
  (exists ts, smview_nightly SE1 (slex faulty_view) = SGave ts (faulty_reports 125)).
Proof.
  split; [apply spelled_ok; [exact SE1_ok|reflexivity| |]; vm_compute; reflexivity|].
  split; [vm_compute; reflexivity|]. split; [vm_compute; reflexivity|]. split; [vm_compute; reflexivity|].
  eexists. vm_compute. reflexivity.
Qed.
Example C51_root_slot_case :
  smview SE0 (slex "p; slot:A::B; slot:C;") = SErrors [(DRootSlot, Src 0 8 9)] /\
  placed_reports SE0 (spelled SE0 (slex "p; slot:A::B; slot:C;")) = [(DRootSlot, Src 0 8 9)] /\
  smview SE0 (slex "slot:A::B;") = SErrors [(DRootSlot, Src 0 0 4)].
Proof. repeat split; vm_compute; reflexivity. Qed.
