(** Theorem C60: which views have the same expansion.  And a converse of C43: every
    code that the description allows is written, for some order of the slots. *)
From Verif Require Import PropFacts1 ElementFacts Inv Fuel ExampleFacts Properties1 OrderFacts Lex.
From Verif Require Import SpecStr SpecGrammar SpecOut SpecEqual ExpandFacts2 EqualFacts EqualFacts2 EqualFacts3 OrderAll.
From Coq Require Import Permutation.
Open Scope list_scope.
Close Scope expand_scope.

(** ** C43: every meaning is an expansion *)

(** The orders in which hash maps of slots may be walked through are all the freedom
    that the description of the emitted code leaves. *)
Theorem C43_every_meaning E input out : env_ok E -> wf input -> mview_spec E input out ->
  exists E', generic_args E' = generic_args E /\ env_ok E' /\ mview E' input = Expanded out.
Proof.
  intros HE Hw (cs & Hc & Hr). destruct (root_reached (generic_args E) cs out Hr) as (o & Ho & Hx).
  exists (Env (generic_args E) o). split; [reflexivity|].
  assert (HE' : env_ok (Env (generic_args E) o)) by (destruct HE as (H1 & H2 & _); split; [|split]; assumption).
  split; [exact HE'|]. unfold mview.
  assert (Hp : parse_children E (S (size input)) input = PR (Ret cs) [] []) by (apply C03_accepts_grammar; auto).
  rewrite (children_order E (Env (generic_args E) o) (fun _ => eq_refl)) in Hp. rewrite Hp, Hx. reflexivity.
Qed.
Print Assumptions C43_every_meaning.

Lemma same_phrase E E' input cs : (forall ts, generic_args E ts = generic_args E' ts) -> env_ok E -> env_ok E' -> wf input ->
  children_phrase E input cs -> children_phrase E' input cs.
Proof.
  intros Hg HE HE' Hw Hc.
  apply (C03_accepts_grammar E input _ cs HE Hw (Nat.lt_succ_diag_r _)) in Hc.
  rewrite (children_order E E' Hg) in Hc.
  now apply (C02_accepts_only_grammar E' input _ cs [] HE' Hw (Nat.lt_succ_diag_r _)) in Hc.
Qed.
Lemma same_meaning E E' input out : (forall ts, generic_args E ts = generic_args E' ts) -> env_ok E -> env_ok E' -> wf input ->
  mview_spec E input out -> mview_spec E' input out.
Proof.
  intros Hg HE HE' Hw (cs & Hc & Hr). exists cs. split; [|exact Hr]. eapply same_phrase; [exact Hg|exact HE|exact HE'|exact Hw|exact Hc].
Qed.
(** Four slots of two components: both orders of either are written. *)
Definition two_pairs : list tt := lex "C { slot:Ab; slot:Cd; } D { slot:Ab; slot:Cd; }".
Definition flip (l : list ident) : list ident := rev l.
Definition flip_first : env := Env (generic_args E0) (fun at_ => match at_ with [0] => flip | _ => fun l => l end).
Definition flip_second : env := Env (generic_args E0) (fun at_ => match at_ with [1] => flip | _ => fun l => l end).
Example C43_orders_case :
  env_ok flip_first /\ env_ok flip_second /\ wf two_pairs /\
  exists out out', mview flip_first two_pairs = Expanded out /\ mview flip_second two_pairs = Expanded out' /\ out <> out' /\
    mview_spec E0 two_pairs out /\ mview_spec E0 two_pairs out'.
Proof.
  assert (Hw : wf two_pairs) by (apply wfb_ok; vm_compute; reflexivity).
  assert (H1 : env_ok flip_first).
  { destruct E0_ok as (H1 & H2 & _). split; [exact H1|]. split; [exact H2|].
    intros [|[|n] [|m at_]] ks; cbn; try reflexivity. apply Permutation_rev. }
  assert (H2 : env_ok flip_second).
  { destruct E0_ok as (H3 & H2 & _). split; [exact H3|]. split; [exact H2|].
    intros [|[|[|n]] [|m at_]] ks; cbn; try reflexivity. apply Permutation_rev. }
  split; [exact H1|]. split; [exact H2|]. split; [exact Hw|].
  assert (Hx : exists out out', mview flip_first two_pairs = Expanded out /\ mview flip_second two_pairs = Expanded out' /\ out <> out').
  { vm_compute. do 2 eexists. repeat split. discriminate. }
  destruct Hx as (out & out' & Hx & Hx' & Hne). exists out, out'. split; [exact Hx|]. split; [exact Hx'|]. split; [exact Hne|].
  assert (S1 := mview_sound _ _ _ H1 Hw Hx). assert (S2 := mview_sound _ _ _ H2 Hw Hx').
  split; [exact (same_meaning flip_first E0 _ _ (fun _ => eq_refl) H1 E0_ok Hw S1)|exact (same_meaning flip_second E0 _ _ (fun _ => eq_refl) H2 E0_ok Hw S2)].
Qed.

(** ** C60: when two views have the same expansion *)

Lemma rendered_not_fragment a b : rendered a <> fragment b.
Proof. discriminate. Qed.
Lemma one_rendered c code : (forall e, c <> CSlot e) -> nodes_code [c] [code] -> exists ts, code = rendered ts.
Proof. intros Hc H. destruct c as [v|e|e]; [| |exfalso; now apply (Hc e)]; inversion H; subst; eauto. Qed.
Lemma root_frame_inj a b : root_frame a = root_frame b -> a = b.
Proof. intros H. now injection H. Qed.

Theorem C60_told_apart E E' a b out : env_ok E -> env_ok E' -> wf a -> wf b ->
  mview E a = Expanded out -> mview E' b = Expanded out ->
  exists cs cs', children_phrase E a cs /\ children_phrase E' b cs' /\ equal_nodes cs cs'.
Proof.
  intros HE HE' Hw Hw' H H'. apply mview_sound in H; auto. apply mview_sound in H'; auto.
  destruct H as (cs & Hc & Hr). destruct H' as (cs' & Hc' & Hr'). exists cs, cs'. split; [exact Hc|]. split; [exact Hc'|].
  destruct code_inj as (_ & _ & Hn & _).
  remember out as out' eqn:Eo in Hr'. destruct Hr as [c code Hs Hco|cs codes Hl Hs Hco]; destruct Hr' as [c' code' Hs' Hco'|cs' codes' Hl' Hs' Hco'];
    apply root_frame_inj in Eo.
  - subst. eapply Hn; eassumption.
  - destruct (one_rendered _ _ Hs Hco) as (ts & Et). exfalso. apply (rendered_not_fragment ts codes'). congruence.
  - destruct (one_rendered _ _ Hs' Hco') as (ts & Et). exfalso. apply (rendered_not_fragment ts codes). congruence.
  - apply fragment_inj in Eo; try (eapply nodes_no_comma; eassumption). subst. eapply Hn; eassumption.
Qed.
Print Assumptions C60_told_apart.

Lemma equal_length cs cs' : equal_nodes cs cs' -> (forall e, ~ In (CSlot e) cs) -> (forall e, ~ In (CSlot e) cs') ->
  List.length cs = List.length cs'.
Proof.
  induction 1 as [|v l l' H IH|e e' l l' He H IH|e l l' H IH|e l l' H IH]; intros Hs Hs'; cbn; auto.
  - f_equal. apply IH; intros x Hx; [apply (Hs x)|apply (Hs' x)]; now right.
  - f_equal. apply IH; intros x Hx; [apply (Hs x)|apply (Hs' x)]; now right.
  - exfalso. apply (Hs e). now left.
  - exfalso. apply (Hs' e). now left.
Qed.
Lemma root_facts cs out : root_code cs out -> (forall e, ~ In (CSlot e) cs) /\ exists codes, nodes_code cs codes.
Proof.
  intros [c code Hs Hn|cs0 codes Hl Hs Hn]; [|eauto]. split; [|eauto]. intros e [H|[]]. now apply (Hs e).
Qed.
Lemma root_same cs cs' out out' : equal_nodes cs cs' -> root_code cs out -> root_code cs' out' -> root_code cs' out.
Proof.
  intros Q H H'. destruct (root_facts _ _ H) as (S1 & codes1 & C1). destruct (root_facts _ _ H') as (S2 & codes2 & C2).
  assert (L := equal_length _ _ Q S1 S2). destruct code_same as (_ & _ & Hn & _).
  inversion H as [c code Hs Hco|cs0 codes Hl Hs Hco]; subst.
  - destruct cs' as [|c' [|]]; try discriminate L. apply rc_one; [intros e ->; apply (S2 e); now left|]. eapply Hn; eassumption.
  - apply rc_many; [congruence|exact S2|]. eapply Hn; eassumption.
Qed.

(** Views of equal trees have the same expansions, each for suitable orders of the
    slots. *)
Theorem C60_equal E E' a b cs cs' out out' : env_ok E -> env_ok E' -> wf a -> wf b ->
  children_phrase E a cs -> children_phrase E' b cs' -> equal_nodes cs cs' ->
  mview E a = Expanded out -> mview E' b = Expanded out' ->
  exists E'', generic_args E'' = generic_args E' /\ env_ok E'' /\ mview E'' b = Expanded out.
Proof.
  intros HE HE' Hw Hw' Hc Hc' Q H H'. apply mview_sound in H; auto. apply mview_sound in H'; auto.
  destruct H as (cs0 & Hc0 & Hr). destruct H' as (cs0' & Hc0' & Hr').
  rewrite (C04_grammar_unambiguous E a cs0 cs HE Hw Hc0 Hc) in Hr.
  rewrite (C04_grammar_unambiguous E' b cs0' cs' HE' Hw' Hc0' Hc') in Hr'.
  apply C43_every_meaning; auto. exists cs'. split; [exact Hc'|]. eapply root_same; eassumption.
Qed.
Print Assumptions C60_equal.

(** The ids of a component become one text.  Names without spaces can be read back
    from it, so equal items mean the same ids in the same order. *)
Fixpoint has_space (s : string) : bool :=
  match s with EmptyString => false | String c r => Ascii.eqb c " " || has_space r end.
Lemma spaced_cons s r : r <> [] -> spaced (s :: r) = (s ++ String " " (spaced r))%string.
Proof. destruct r; [easy|reflexivity]. Qed.
Lemma no_space_split a b x y : has_space a = false -> has_space b = false ->
  (a ++ String " " x = b ++ String " " y)%string -> a = b /\ x = y.
Proof.
  revert b. induction a as [|c a IH]; intros [|d b] Ha Hb H; cbn in *.
  - now injection H.
  - injection H as <- _. discriminate.
  - injection H as -> _. discriminate.
  - injection H as -> H. apply orb_false_elim in Ha as [_ Ha]. apply orb_false_elim in Hb as [_ Hb].
    destruct (IH b Ha Hb H) as [-> ->]. auto.
Qed.
Lemma no_space_end a b x : has_space a = false -> a <> (b ++ String " " x)%string.
Proof.
  revert a. induction b as [|d b IH]; intros [|c a] Ha H; cbn in *; try discriminate.
  - injection H as -> _. discriminate.
  - injection H as -> H. apply orb_false_elim in Ha as [_ Ha]. exact (IH a Ha H).
Qed.
Theorem C60_ids l l' : Forall (fun s => has_space s = false /\ s <> ""%string) (l ++ l') -> spaced l = spaced l' -> l = l'.
Proof.
  intros H. apply Forall_app in H as [H H']. revert l' H'. induction H as [|s r [Hs Hn] Hr IH]; intros l' H' Q.
  - destruct H' as [|s' r' [_ Hn'] _]; [reflexivity|]. exfalso. destruct r'; [now apply Hn'|].
    rewrite spaced_cons in Q by discriminate. now destruct s'.
  - destruct H' as [|s' r' [Hs' Hn'] Hr'].
    + exfalso. destruct r; [now apply Hn|]. rewrite spaced_cons in Q by discriminate. now destruct s.
    + destruct r as [|s1 r], r' as [|s1' r'].
      * now cbn in Q; subst.
      * exfalso. rewrite (spaced_cons s') in Q by discriminate. exact (no_space_end _ _ _ Hs Q).
      * exfalso. rewrite (spaced_cons s) in Q by discriminate. exact (no_space_end _ _ _ Hs' (eq_sym Q)).
      * rewrite !spaced_cons in Q by discriminate. destruct (no_space_split _ _ _ _ Hs Hs' Q) as [-> Q'].
        f_equal. now apply IH.
Qed.
Print Assumptions C60_ids.
Example C60_ids_case :
  Forall (fun s => has_space s = false /\ s <> ""%string) (["a"; "bc"]%string ++ ["ab"; "c"]%string) /\
  spaced ["a"; "bc"]%string <> spaced ["ab"; "c"]%string.
Proof. split; [repeat constructor; discriminate|discriminate]. Qed.

(** Two views that are written differently all over, with the same expansion. *)
Definition view_one : list tt :=
  lex "div.a #b aria-label=1 on:my-ev={f} class:x={c}; C.a #b #c a-b=2 class:y clone:z { slot:Ab; slot:Cd; }".
Definition view_two : list tt :=
  lex "div #b.a on:my_ev={f} class:'x'={c} aria_label=1 {} C class:a=true attr:id='b c' a_b=2 class:'y' |q| { slot:Ab; slot:Cd; }".
Definition expanded_to (r : result) : list tt := match r with Expanded out => out | _ => [] end.
Example C60_case : wf view_one /\ wf view_two /\
  mview E0 view_one = Expanded (expanded_to (mview E0 view_one)) /\
  mview E0 view_two = Expanded (expanded_to (mview E0 view_one)) /\
  exists cs cs', children_phrase E0 view_one cs /\ children_phrase E0 view_two cs' /\ cs <> cs' /\ equal_nodes cs cs'.
Proof.
  assert (Hw : wf view_one) by (apply wfb_ok; vm_compute; reflexivity).
  assert (Hw' : wf view_two) by (apply wfb_ok; vm_compute; reflexivity).
  assert (H : mview E0 view_one = Expanded (expanded_to (mview E0 view_one))) by (vm_compute; reflexivity).
  assert (H' : mview E0 view_two = Expanded (expanded_to (mview E0 view_one))) by (vm_compute; reflexivity).
  assert (Hne : parse_children E0 (S (size view_one)) view_one <> parse_children E0 (S (size view_two)) view_two) by (vm_compute; discriminate).
  split; [exact Hw|]. split; [exact Hw'|]. split; [exact H|]. split; [exact H'|].
  destruct (C60_told_apart _ _ _ _ _ E0_ok E0_ok Hw Hw' H H') as (cs & cs' & Hc & Hc' & Q).
  exists cs, cs'. split; [exact Hc|]. split; [exact Hc'|]. split; [|exact Q]. intros ->. apply Hne.
  apply (C03_accepts_grammar E0 view_one _ cs' E0_ok Hw (Nat.lt_succ_diag_r _)) in Hc.
  apply (C03_accepts_grammar E0 view_two _ cs' E0_ok Hw' (Nat.lt_succ_diag_r _)) in Hc'.
  exact (eq_trans Hc (eq_sym Hc')).
Qed.

(** Slots and children that are mixed differently: for one order of the slots the
    expansions differ, but each is an expansion of the other view for some order. *)
Definition mixed_one : list tt := lex "C { slot:Ab b=1; 'x' slot:Cd; slot:Ab; }".
Definition mixed_two : list tt := lex "C { slot:Cd; slot:Ab b=1; slot:Ab; 'x' }".
Definition flip_all : env := Env (generic_args E0) (fun _ => flip).
Example C60_slots_case : wf mixed_one /\ wf mixed_two /\
  mview E0 mixed_one <> mview E0 mixed_two /\
  mview E0 mixed_one = Expanded (expanded_to (mview E0 mixed_one)) /\
  mview flip_all mixed_two = mview E0 mixed_one /\
  exists cs cs', children_phrase E0 mixed_one cs /\ children_phrase E0 mixed_two cs' /\ equal_nodes cs cs'.
Proof.
  assert (Hw : wf mixed_one) by (apply wfb_ok; vm_compute; reflexivity).
  assert (Hw' : wf mixed_two) by (apply wfb_ok; vm_compute; reflexivity).
  assert (H : mview E0 mixed_one = Expanded (expanded_to (mview E0 mixed_one))) by (vm_compute; reflexivity).
  assert (H' : mview flip_all mixed_two = mview E0 mixed_one) by (vm_compute; reflexivity).
  assert (HE : env_ok flip_all).
  { destruct E0_ok as (H1 & H2 & _). split; [exact H1|]. split; [exact H2|]. intros at_ ks. apply Permutation_rev. }
  split; [exact Hw|]. split; [exact Hw'|]. split; [vm_compute; discriminate|]. split; [exact H|]. split; [exact H'|].
  rewrite H in H'.
  destruct (C60_told_apart _ _ _ _ _ E0_ok HE Hw Hw' H H') as (cs & cs' & Hc & Hc' & Q).
  exists cs, cs'. split; [exact Hc|]. split; [|exact Q].
  exact (same_phrase flip_all E0 _ _ (fun _ => eq_refl) HE E0_ok Hw' Hc').
Qed.

(** A spread of a component can say what a class says; on the other hand, a text is
    not an expression of that text, and classes of HTML elements come in an order. *)
Definition spread_view : list tt := lex "C {..::leptos::tachys::html::class::class(('a', true))};".
Definition differ (a b : string) : Prop :=
  match mview E0 (lex a), mview E0 (lex b) with Expanded x, Expanded y => x <> y | _, _ => False end.
Example C60_spread_case :
  mview E0 spread_view = mview E0 (lex "C.a;") /\ (exists out, mview E0 spread_view = Expanded out) /\
  differ "div class:a={true};" "div.a;" /\
  differ "div.a.b;" "div.b.a;" /\
  differ "div a={'x'};" "div a='x';" /\
  differ "circle aria-x=1;" "circle aria_x=1;".
Proof. split; [vm_compute; reflexivity|]. split; [vm_compute; eauto|]. do 3 (split; [vm_compute; discriminate|]). vm_compute. discriminate. Qed.
