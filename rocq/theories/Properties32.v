(** Theorem C66: what the macro does while a view is being typed. *)
From Verif Require Import SpecStr SpecGrammar SpecContext SpecTyped TypedFacts TypedFacts2 TypedFacts3 TypedFacts4.
From Verif Require Import Nightly Context Inv Fuel TreeInv Report Monad ExampleFacts Properties1 Properties13.
From Coq Require Import Lia.
Open Scope string_scope.
Open Scope list_scope.

(** ** C66: reading *)

(** Whatever view is being typed and wherever one stops, what is read is the
    finished view's tree up to there, with at most the reports of one
    unfinished thing.  Nothing is read only right after a directive's colon,
    or if the name just typed cannot be made an identifier. *)
Theorem C66_reading E x cs y : env_ok E -> unfinished_generics E -> wf x -> children_phrase E x cs -> cut x y ->
  (exists cs' ds, parse_children E (S (size y)) y = PR (Ret cs') [] ds /\ started E y cs cs' ds) \/
  (exists r e, parse_children E (S (size y)) y = PR Abort r [DAbortParse e] /\ after_colon y) \/
  (exists n r ds, parse_children E (S (size y)) y = PR (Panic (PNewRaw n)) r ds /\
     In n ("" :: reserved_words) /\ stops_at y n).
Proof.
  intros HE HG Hw Hp Hc. destruct (typed_children E x cs y HE HG Hw Hp Hc) as [cs' ds H1 H2|r e H1 H2|n r ds H1 H2 H3].
  - left. exists cs', ds. now split.
  - right. left. exists r, e. now split.
  - right. right. exists n, r, ds. split; [exact H1|]. now split.
Qed.
Print Assumptions C66_reading.

(** ** C66: the code of the unfinished view *)

Lemma as_child_slot slot e : is_slot (as_child slot e) = match slot with Some _ => true | None => false end.
Proof. now destruct slot. Qed.
Lemma begun_slot E y c c' ds : begun E y c c' ds -> is_slot c = false -> is_slot c' = false.
Proof. intros []; rewrite ?as_child_slot; auto. Qed.
Lemma started_no_slot E y cs cs' ds : started E y cs cs' ds -> existsb is_slot cs = false -> existsb is_slot cs' = false.
Proof.
  intros [| |u v b c c' a ds' Hu Hb]; rewrite !existsb_app; cbn [existsb]; rewrite ?orb_false_iff; [tauto|tauto|].
  intros (H1 & H2 & H3). split; [exact H1|]. split; [|reflexivity]. exact (begun_slot _ _ _ _ _ Hb H2).
Qed.

(** With the feature [nightly], where code is made even if there are reports
    (for the editor): unless one is right after a colon, the view's code is made from the
    tree of what is there, or the macro panics. *)
Theorem C66_code E x cs y : env_ok E -> unfinished_generics E -> wf x -> children_phrase E x cs -> cut x y ->
  existsb is_slot cs = false -> ~ after_colon y ->
  (exists cs' ds ts ds', started E y cs cs' ds /\ root_tokens E cs' = XR (XRet ts) ds' /\
     mview_nightly E y = Gave ts (ds ++ ds')) \/
  (exists w, mview_nightly E y = Crashed w).
Proof.
  intros HE HG Hw Hp Hc Hs Hn.
  destruct (C66_reading E x cs y HE HG Hw Hp Hc) as [(cs' & ds & H1 & H2)|[(r & e & _ & H)|(n & r & ds & H1 & _)]].
  - assert (Hpl := parsed_plain _ _ _ _ _ _ HE (Nat.lt_succ_diag_r _) H1).
    assert (Hn' : no_root_slot cs').
    { intros e He. assert (existsb is_slot cs' = true) by (apply existsb_exists; eexists; split; [exact He|reflexivity]).
      rewrite (started_no_slot _ _ _ _ _ H2 Hs) in *. discriminate. }
    assert (Ha := root_noabort E cs' Hpl Hn'). unfold mview_nightly. rewrite H1.
    destruct (root_tokens E cs') as [[ts| |w] ds'] eqn:Hr; [|now destruct Ha|right; now exists w].
    left. exists cs', ds, ts, ds'. now repeat split.
  - now destruct Hn.
  - right. exists (PNewRaw n). unfold mview_nightly. now rewrite H1.
Qed.
Print Assumptions C66_code.

(** On stable the reading contributes at most three reports. *)
Theorem C66_few_reports E x cs y : env_ok E -> unfinished_generics E -> wf x -> children_phrase E x cs -> cut x y ->
  exists o r ds, parse_children E (S (size y)) y = PR o r ds /\
  ((forall w, o <> Panic w) -> (typing_reports ds \/ exists e, ds = [DAbortParse e]) /\ List.length ds <= 3).
Proof.
  intros HE HG Hw Hp Hc.
  destruct (C66_reading E x cs y HE HG Hw Hp Hc) as [(cs' & ds & H1 & H2)|[(r & e & H1 & H)|(n & r & ds & H1 & _)]].
  - exists (Ret cs'), [], ds. split; [exact H1|]. intros _. assert (H3 := proj1 (started_reports E) _ _ _ _ H2). split; [now left|]. destruct H3; cbn; lia.
  - exists Abort, r, [DAbortParse e]. split; [exact H1|]. intros _. split; [right; now exists e|]. cbn. lia.
  - exists (Panic (PNewRaw n)), r, ds. split; [exact H1|]. intros H. now destruct (H (PNewRaw n)).
Qed.
Print Assumptions C66_few_reports.

(** ** Cases *)

(** A parser of generic arguments as assumed, which reads all there is before it fails. *)
Definition E2 : env :=
  Env (fun ts => match scan_args ts with inl x => inl x | inr _ => inr [] end) (fun _ ks => ks).
Lemma E2_ok : env_ok E2.
Proof.
  destruct E0_ok as (H1 & H2 & H3). split; [|split; [|exact H3]].
  - intros ts g r H. cbn [generic_args E0 E2] in *. destruct (scan_args ts) as [[g' r']|] eqn:Hs; [|discriminate].
    injection H as -> ->. destruct (H1 _ _ _ Hs) as (Ha & Hb & Hc). split; [exact Ha|]. split; [exact Hb|].
    intros r'. now rewrite Hc.
  - intros ts r H. cbn [generic_args E0 E2] in *. destruct (scan_args ts); [discriminate|]. injection H as <-.
    exists ts. now rewrite app_nil_r.
Qed.
Lemma scan_cut g : forall d y, scan d g = Some (g, []) -> cut g y -> y <> g -> scan d y = None.
Proof.
  induction g as [|t g IH]; intros d y H Hc Hn; [discriminate|].
  assert (Hg : forall d', match scan d' g with Some (u, r') => Some (t :: u, r') | None => None end = Some (t :: g, []) ->
    scan d' g = Some (g, [])).
  { intros d' H'. destruct (scan d' g) as [[u r']|]; [|discriminate]. now injection H' as -> ->. }
  destruct (cut_cons_inv _ _ _ Hc) as [->|[(y' & -> & Hy)|(dl & z & z' & -> & -> & Hz)]]; [reflexivity| |].
  - assert (Hn' : y' <> g) by congruence.
    assert (Hi : forall d', scan d' g = Some (g, []) -> scan d' y' = None) by (intros d' H'; exact (IH d' y' H' Hy Hn')).
    destruct t as [i|c sp|k s|dl l]; cbn [scan] in *; try (now rewrite (Hi _ (Hg _ H))).
    destruct (Ascii.eqb c "<"); [now rewrite (Hi _ (Hg _ H))|]. destruct (Ascii.eqb c ">"); [|now rewrite (Hi _ (Hg _ H))].
    destruct d as [|[|d]]; [reflexivity| |now rewrite (Hi _ (Hg _ H))].
    assert (g = []) by congruence. subst g. apply cut_nil in Hy. now subst.
  - reflexivity.
Qed.
Lemma E2_unfinished : unfinished_generics E2.
Proof.
  intros g y H Hc Hn Hne. exists []. split; [|intros Hx; now destruct Hx]. cbn [generic_args E2] in *.
  destruct (scan_args g) as [[g' r']|] eqn:Hs; [|discriminate]. injection H as -> ->.
  unfold scan_args in *. destruct g as [|[i|c sp|k s|dl l] g]; try discriminate.
  destruct (Ascii.eqb c "<") eqn:Hc'; [|discriminate]. destruct (scan 1 g) as [[u r']|] eqn:Hu; [|discriminate].
  injection Hs as -> ->. destruct (cut_cons_inv _ _ _ Hc) as [->|[(y' & -> & Hy)|(? & ? & ? & [=] & _)]]; [easy|].
  rewrite Hc'. rewrite (scan_cut g 1 y' Hu Hy); [reflexivity|]. congruence.
Qed.

(** All the places in a view (with enough fuel). *)
Fixpoint cuts (n : nat) (x : list tt) : list (list tt) :=
  match n, x with
  | S n, t :: r =>
      [] :: match t with TGroup d g => map (fun y => [TGroup d y]) (cuts n g) | _ => [] end ++ map (cons t) (cuts n r)
  | _, _ => [[]]
  end.
Lemma cut_cons t x y : cut x y -> cut (t :: x) (t :: y).
Proof. intros [a b|a d x' y' b H]; [apply (cut_here (t :: a))|now apply (cut_in (t :: a))]. Qed.
Lemma cuts_ok n : forall x y, In y (cuts n x) -> cut x y.
Proof.
  induction n as [|n IH]; intros x y H; [destruct H as [<-|[]]; apply (cut_here [])|].
  destruct x as [|t r]; [destruct H as [<-|[]]; apply (cut_here [])|].
  destruct H as [<-|H]; [apply (cut_here [])|]. apply in_app_or in H as [H|H].
  - destruct t as [i|c sp|k s|d g]; try contradiction. apply in_map_iff in H as (z & <- & H). apply (cut_in []). now apply IH.
  - apply in_map_iff in H as (z & <- & H). apply cut_cons. now apply IH.
Qed.

(** What is reported at each place of two views. *)
Definition said {A} (m : pres A) : list diag + (perr + panic) :=
  match m with
  | PR (Ret _) _ ds => inl ds
  | PR (Panic w) _ _ => inr (inr w)
  | PR _ _ (DAbortParse e :: _) => inr (inl e)
  | PR _ _ ds => inl ds
  end.
Definition typing (x : list tt) := map (fun y => said (parse_children E2 (S (size y)) y)) (cuts (size x) x).
Definition typed_view : list tt := lex "My::Comp<T> .a b={c} on:click={f} |x| { p { span; } f['x'] }".
Definition typed_slots : list tt := lex "A { slot:B; slot: ::C; } true[a] self::D;".
Lemma typed_view_ok : wf typed_view /\ exists cs, children_phrase E2 typed_view cs.
Proof.
  assert (Hw : wf typed_view) by (apply wfb_ok; vm_compute; reflexivity). split; [exact Hw|].
  eexists. refine (proj2 (C02_accepts_only_grammar E2 typed_view _ _ [] E2_ok Hw (Nat.lt_succ_diag_r _) _)).
  vm_compute. reflexivity.
Qed.
Lemma typed_slots_ok : wf typed_slots /\ exists cs, children_phrase E2 typed_slots cs.
Proof.
  assert (Hw : wf typed_slots) by (apply wfb_ok; vm_compute; reflexivity). split; [exact Hw|].
  eexists. refine (proj2 (C02_accepts_only_grammar E2 typed_slots _ _ [] E2_ok Hw (Nat.lt_succ_diag_r _) _)).
  vm_compute. reflexivity.
Qed.
Example C66_case : env_ok E2 /\ unfinished_generics E2 /\
  (wf typed_view /\ exists cs, children_phrase E2 typed_view cs) /\
  (forall y, In y (cuts (size typed_view) typed_view) -> cut typed_view y) /\
  typing typed_view =
    [ inl [] (* nothing *)
    ; inl [DUnterminated] (* My *)
    ; inl [DUnknownAttr; DNoChildElements; DParse EChild] (* My: *)
    ; inl [DParse (EIdent AtEnd)] (* My:: *)
    ; inl [DUnterminated] (* My::Comp *)
    ; inl [DParse EGenerics]; inl [DParse EGenerics] (* My::Comp<T *)
    ; inl [DUnterminated] (* > *)
    ; inl [DUnknownAttr; DNoChildElements; DParse EChild] (* . *)
    ; inl [DUnterminated]; inl [DUnterminated] (* .a b *)
    ; inl [DExpectedValue false; DUnterminated] (* b= *)
    ; inl [DUnterminated]; inl [DUnterminated]; inl [DUnterminated] (* b={c} *)
    ; inl [DUnterminated] (* on *)
    ; inr (inl (EKebab AtEnd)) (* on: *)
    ; inl [DUnterminated] (* on:click *)
    ; inl [DExpectedValue false; DUnterminated]
    ; inl [DUnterminated]; inl [DUnterminated]; inl [DUnterminated] (* on:click={f} *)
    ; inl [DParse EClosure]; inl [DParse EClosure] (* |x *)
    ; inl [DNoChildrenAfterArgs] (* |x| *)
    ; inl [] (* |x| {} *)
    ; inl [DUnterminated] (* p *)
    ; inl [] (* p {} *)
    ; inl [DUnterminated] (* p { span } *)
    ; inl []; inl []
    ; inl [DUnterminated] (* f *)
    ; inl []; inl []; inl []; inl [] ].
Proof.
  split; [exact E2_ok|]. split; [exact E2_unfinished|]. split; [exact typed_view_ok|]. split; [intros y; apply cuts_ok|].
  vm_compute. reflexivity.
Qed.
Example C66_slots_case : (wf typed_slots /\ exists cs, children_phrase E2 typed_slots cs) /\
  typing typed_slots =
    [ inl []; inl [DUnterminated]; inl [] (* A {} *)
    ; inl [DUnterminated] (* slot *)
    ; inl [DParse (EKebab AtEnd)] (* slot: *)
    ; inl [DUnterminated]; inl [] (* slot:B; *)
    ; inl [DUnterminated]; inl [DParse (EKebab AtEnd)]
    ; inl [DParse (EKebab AtOther)] (* slot: : *)
    ; inl [DParse (EIdent AtEnd)] (* slot: :: *)
    ; inl [DUnterminated]; inl []; inl []
    ; inl [DNonStrChild] (* true *)
    ; inl []; inl []; inl [] (* true[a] *)
    ; inr (inr (PNewRaw "self")); inr (inr (PNewRaw "self")) (* self, self: *)
    ; inl [DParse (EIdent AtEnd)] (* self:: *)
    ; inl [DUnterminated]; inl [] ].
Proof. split; [exact typed_slots_ok|]. vm_compute. reflexivity. Qed.

(** In [p { span ..]: as long as there is only [p { span }], that is an attribute
    (its key and value are [span]), so the code is not about a [span] in a [p]. *)
Example C66_span_case : cut (lex "p { span; }") (lex "p { span }") /\
  parse_children E2 10 (lex "p { span }") =
    PR (Ret [CElement (Element (TagHtml (Id true "p")) []
              [AKv (KvAttr (Kebab "span" 1) (VBlock [TIdent (Id true "span")]))] None None)]) [] [DUnterminated].
Proof. split; [exact (cut_in [TIdent (Id false "p")] Brace _ _ [] (cut_here [TIdent (Id false "span")] _))|]. vm_compute. reflexivity. Qed.
