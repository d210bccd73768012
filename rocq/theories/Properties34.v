(** Theorem C68: white space in a view. *)
From Verif Require Import SpecWhite White2 Properties1 ExampleFacts Lex SpecRespaced Respaced SpanExamples SLex.
From Verif Require Blind.
Open Scope string_scope.
Open Scope list_scope.

(** ** C68: white space does not matter *)

(** Views that differ only in white space are treated alike: the same errors, or
    the same panic, or expansions that differ only in the white space of the code
    that is passed on.  The white space that is excepted is that between the two
    characters of [::] and [..] (a path, a spread), of [<<] and [<=], and after
    the quote of a lifetime. *)
Theorem C68_white_space E input input' : env_ok E -> same_text input input' -> plain_generics E input ->
  same_result (mview E input) (mview E input').
Proof.
  intros HE Hs Hg. pose proof (r_children E HE (S (size input)) input input' (conj Hs Hg)) as Hr.
  destruct (C01_fuel_irrelevant E input (S (size input)) HE (Nat.lt_succ_diag_r _)) as (_ & Hf).
  unfold mview. rewrite <- (same_size _ _ Hs). destruct Hr as [cs cs' r r' d Hcs _|e r r' d _|r r' d _|w r r' d _|r r' d _]; try reflexivity.
  - destruct (x_trees E cs cs' Hcs) as [a b d' Hab|d'|w d']; try reflexivity. destruct (d ++ d'); [exact Hab|reflexivity].
  - now destruct Hf.
Qed.
Print Assumptions C68_white_space.

Theorem C68_white_space_nightly E input input' : env_ok E -> same_text input input' -> plain_generics E input ->
  same_answer (mview_nightly E input) (mview_nightly E input').
Proof.
  intros HE Hs Hg. pose proof (r_children E HE (S (size input)) input input' (conj Hs Hg)) as Hr.
  destruct (C01_fuel_irrelevant E input (S (size input)) HE (Nat.lt_succ_diag_r _)) as (_ & Hf).
  unfold mview_nightly. rewrite <- (same_size _ _ Hs).
  destruct Hr as [cs cs' r r' d Hcs _|e r r' d _|r r' d _|w r r' d _|r r' d _]; try (split; reflexivity); try reflexivity.
  - destruct (x_trees E cs cs' Hcs) as [a b d' Hab|d'|w d']; try reflexivity; split; try reflexivity. exact Hab.
  - now destruct Hf.
Qed.
Print Assumptions C68_white_space_nightly.

(** The reports are where they were: with white space put into a view (or taken
    out), the spans of its tokens move, and the span of every report, and of every
    token of the expansion, moves along. *)
Theorem C68_spans f E E' input input' : senv_ok E -> senv_ok E' -> respacing f E E' input ->
  respaced f input input' -> respaced_result f (smview E input) (smview E' input').
Proof.
  intros HE HE' HR H.
  assert (Hf : smview E input <> SNoFuelLeft).
  { unfold smview. destruct HE as (He & Hg & _). pose proof (Blind.enough E input Call) as Hn.
    destruct (SParse.sparse_children E _ Call _) as [[cs|e s| |w|] x d]; try discriminate.
    - destruct (sroot_tokens E cs) as [[]]; try discriminate. destruct (d ++ _); discriminate.
    - intros _. now apply (Hn x d He Hg). }
  destruct (result_w f E E' input HE HE' HR input' H) as [ts ts' Ht|d d' Hd|w|]; cbn; [|now apply diags_w|reflexivity|now destruct Hf].
  now apply outs_w.
Qed.
Print Assumptions C68_spans.

Theorem C68_spans_nightly f E E' input input' : senv_ok E -> senv_ok E' -> respacing f E E' input ->
  respaced f input input' -> respaced_answer f (smview_nightly E input) (smview_nightly E' input').
Proof.
  intros HE HE' HR H.
  assert (Hf : smview_nightly E input <> SOutOfFuel).
  { unfold smview_nightly. destruct HE as (He & Hg & _). pose proof (Blind.enough E input Call) as Hn.
    destruct (SParse.sparse_children E _ Call _) as [[cs|e s| |w|] x d]; try discriminate.
    - destruct (sroot_tokens E cs) as [[]]; discriminate.
    - intros _. now apply (Hn x d He Hg). }
  destruct (answer_w f E E' input HE HE' HR input' H) as [ts ts' d d' Ht Hd|w|]; cbn; [|reflexivity|now destruct Hf].
  split; [now apply outs_w|now apply diags_w].
Qed.
Print Assumptions C68_spans_nightly.

(** The scanner of the examples looks at no white space, so the hypothesis on
    generic arguments holds for every view. *)
Lemma scan_plain ts ts' : same_text ts ts' -> forall n,
  match scan n ts, scan n ts' with
  | Some (_, r), Some (_, r') => List.length r = List.length r'
  | None, None => True
  | _, _ => False
  end.
Proof.
  induction 1 as [|i ts ts' _ IH|k s ts ts' _ IH|c sp sp' ts ts' _ H IH|d g g' ts ts' _ _ _ IH]; intros n; cbn [scan]; auto;
    try (specialize (IH n); destruct (scan n ts) as [[]|], (scan n ts') as [[]|]; auto; fail).
  destruct (Ascii.eqb c "<"); [specialize (IH (S n)); destruct (scan (S n) ts) as [[]|], (scan (S n) ts') as [[]|]; auto; fail|].
  destruct (Ascii.eqb c ">").
  - destruct n as [|[|n]]; auto; [now apply same_length|].
    specialize (IH (S n)); destruct (scan (S n) ts) as [[]|], (scan (S n) ts') as [[]|]; auto.
  - specialize (IH n); destruct (scan n ts) as [[]|], (scan n ts') as [[]|]; auto.
Qed.
Example E0_plain ts : plain_generics E0 ts.
Proof.
  intros u _ u' H. cbn [generic_args E0]. unfold scan_args.
  destruct H as [|i ts1 ts' H|k s ts1 ts' H|c sp sp' ts1 ts' _ H|d g g' ts1 ts' _ H]; try (cbn; now rewrite (same_length _ _ H)); auto.
  destruct (Ascii.eqb c "<").
  - pose proof (scan_plain ts1 ts' H 1) as Hn. destruct (scan 1 ts1) as [[]|], (scan 1 ts') as [[]|]; try exact Hn. now apply same_length.
  - cbn. now rewrite (same_length _ _ H).
Qed.

(** ** Cases *)
Ltac no_matter :=
  let d := fresh in let Hs := fresh in let Hin := fresh in
  intros [Hs|(d & ? & ? & Hs & Hin)]; [discriminate Hs|];
  try discriminate Hs; injection Hs; intros; subst d; destruct Hin as [Hin|[Hin|[Hin|[Hin|Hin]]]]; first [discriminate Hin|destruct Hin].
Ltac same_text := vm_compute; repeat first [exact st_nil|apply st_ident|apply st_lit|apply st_group|apply st_punct; [first [intros _; exact eq_refl|no_matter]|]].

(** A view written with and without white space. *)
Definition tight := "p.c data-x={1} on:click={f} class:a-b=[g()] {'t'} Foo<A,B> b=f['{}',y] |z| { {1+=2} slot:Bar a=1 ; } a::B {..c};".
Definition airy := "p . c data - x = {1} on : click = { f } class : a - b = [ g ( ) ] { 't' } Foo < A , B > b = f [ '{}' , y ] | z | { {1 + = 2} slot : Bar a = 1 ; } a :: B { ..c } ;".
Example C68_same : same_text (lex airy) (lex tight).
Proof. same_text. Qed.
Example C68_expands : exists ts, mview E0 (lex tight) = Expanded ts.
Proof. eexists. vm_compute. reflexivity. Qed.
Example C68_case : lex airy <> lex tight /\ mview E0 (lex airy) <> mview E0 (lex tight) /\
  same_result (mview E0 (lex airy)) (mview E0 (lex tight)).
Proof.
  split; [vm_compute; discriminate|]. split; [vm_compute; discriminate|].
  exact (C68_white_space E0 _ _ E0_ok C68_same (E0_plain _)).
Qed.
(** Views with mistakes. *)
Example C68_mistakes : same_text (lex "p a= ; q:r {'x';} .c-") (lex "p a = ; q : r { 'x' ; } . c -") /\
  mview E0 (lex "p a= ; q:r {'x';} .c-") = mview E0 (lex "p a = ; q : r { 'x' ; } . c -") /\
  exists d ds, mview E0 (lex "p a= ; q:r {'x';} .c-") = Errors (d :: ds).
Proof. split; [same_text|]. split; [vm_compute; reflexivity|]. do 2 eexists. vm_compute. reflexivity. Qed.

(** White space does matter where it is excepted. *)
Definition differ (x y : string) : Prop :=
  map loose (lex x) = map loose (lex y) /\ ~ same_result (mview E0 (lex x)) (mview E0 (lex y)).
Example C68_colons : differ "a::B;" "a: :B;".
Proof. split; [vm_compute; reflexivity|]. vm_compute. exact (fun H => H). Qed.
Example C68_dots : differ "p {..a};" "p {. .a};".
Proof. split; [vm_compute; reflexivity|]. vm_compute. exact (fun H => H). Qed.
Example C68_less_equal : differ "A<=B>;" "A< =B>;".
Proof. split; [vm_compute; reflexivity|]. vm_compute. exact (fun H => H). Qed.

(** Spans, when the white space at some positions is taken out. *)
Fixpoint squeeze (gap : nat -> bool) (p : nat) : nat :=
  match p with 0 => 0 | S p => if gap p then squeeze gap p else S (squeeze gap p) end.
Definition squeezed (gap : nat -> bool) (s : span) : span :=
  match s with Call => Call | Src f lo hi => Src f (squeeze gap lo) (squeeze gap hi) end.
Lemma squeeze_le gap a b : a <= b -> squeeze gap a <= squeeze gap b.
Proof. induction 1 as [|b _ IH]; [constructor|]. cbn [squeeze]. destruct (gap b); lia. Qed.
Lemma squeeze_min gap a b : squeeze gap (Nat.min a b) = Nat.min (squeeze gap a) (squeeze gap b).
Proof.
  destruct (Nat.le_ge_cases a b) as [H|H]; pose proof (squeeze_le gap _ _ H);
    [rewrite !Nat.min_l by assumption|rewrite !Nat.min_r by assumption]; reflexivity.
Qed.
Lemma squeeze_max gap a b : squeeze gap (Nat.max a b) = Nat.max (squeeze gap a) (squeeze gap b).
Proof.
  destruct (Nat.le_ge_cases a b) as [H|H]; pose proof (squeeze_le gap _ _ H);
    [rewrite !Nat.max_r by assumption|rewrite !Nat.max_l by assumption]; reflexivity.
Qed.
Lemma here_loose f sc : forall u u', map sloose u' = map sloose (respans f u) -> here (f sc) u' = f (here sc u).
Proof.
  intros [|t u] [|t' u'] H; try discriminate; [reflexivity|]. cbn in H. injection H as H _.
  destruct t, t'; try discriminate H; cbn in H; injection H; intros; subst; reflexivity.
Qed.
Lemma E0_respacing gap ts : respacing (squeezed gap) SE1 SE1 ts.
Proof.
  split; [reflexivity|]. split; [reflexivity|]. split.
  - intros [|f lo hi] [|f' lo' hi']; cbn; try reflexivity. destruct (Nat.eqb f f'); cbn; [|reflexivity].
    now rewrite squeeze_min, squeeze_max.
  - intros u _ u' [Ht Hl] sc. cbn. pose proof (E0_plain (erases u) (erases u) (po_all _) (erases u') Ht) as Hg. cbn in Hg.
    assert (HL : List.length u = List.length u').
    { apply (f_equal (@List.length _)) in Hl. unfold respans in Hl. rewrite !map_length in Hl. congruence. }
    destruct E0_ok as (Hs & _). cbn in Hs.
    destruct (scan_args (erases u)) as [[g r]|r] eqn:E1, (scan_args (erases u')) as [[g' r']|r'] eqn:E2; try contradiction.
    + destruct (Hs _ _ _ E1) as [H1 _], (Hs _ _ _ E2) as [H2 _]. apply (f_equal (@List.length _)) in H1, H2. unfold erases in H1, H2.
      rewrite app_length, map_length in H1, H2. rewrite !firstn_length. lia.
    + rewrite Hg, HL. split; [now rewrite !skipn_length, HL|]. apply here_loose. unfold respans. rewrite <- !skipn_map. now rewrite Hl.
Qed.
Definition gaps (p : nat) : bool := existsb (Nat.eqb p) [3; 5; 7; 9; 11; 13; 15; 19; 21; 23].
Definition wrong_airy : string := "p a = ; q : r = {1} { 3 }".
Definition wrong_tight : string := "p a=;q:r={1}{3}".
Example C68_spans_case :
  respaced (squeezed gaps) (slex wrong_airy) (slex wrong_tight) /\
  smview SE1 (slex wrong_airy) = SErrors [(DExpectedValue false, Src 0 6 7); (DUnknownAttr, Src 0 10 11); (DNoChildElements, Src 0 8 11); (DParse EChild, Src 0 10 11)] /\
  smview SE1 (slex wrong_tight) = SErrors [(DExpectedValue false, Src 0 4 5); (DUnknownAttr, Src 0 6 7); (DNoChildElements, Src 0 5 7); (DParse EChild, Src 0 6 7)] /\
  respaced_result (squeezed gaps) (smview SE1 (slex wrong_airy)) (smview SE1 (slex wrong_tight)).
Proof.
  assert (H : respaced (squeezed gaps) (slex wrong_airy) (slex wrong_tight)) by (split; [same_text|vm_compute; reflexivity]).
  split; [exact H|]. split; [vm_compute; reflexivity|]. split; [vm_compute; reflexivity|].
  exact (C68_spans _ SE1 SE1 _ _ SE1_ok SE1_ok (E0_respacing gaps _) H).
Qed.
