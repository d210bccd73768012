(** Theorems C01-C04, C06, C07, C14, C15, C43: termination, the grammar, errors,
    panics, tags and names, and the meaning of the whole macro. *)
From Verif Require Import PropFacts1 ParseInv ExpandInv ExpandFacts2 ElementFacts Inv Fuel ExampleFacts.
From Verif Require Import SpecStr SpecGrammar SpecOut SpecPanic.
From Coq Require Import Lia.
Open Scope list_scope.

(** ** C01: the macro always terminates with a definite outcome *)

Theorem C01_definite_outcome E input : env_ok E ->
  (exists ts, mview E input = Expanded ts) \/
  (exists d ds, mview E input = Errors (d :: ds)) \/
  (exists w, mview E input = Panicked w).
Proof.
  intros HE. unfold mview.
  destruct (fine_children E HE (S (size input)) input (Nat.lt_succ_diag_r _)) as ([_ Hf Ha] & _ & Hfail).
  destruct (parse_children E (S (size input)) input) as [[cs|e| |w|] r ds].
  - pose proof (root_fine E cs HE) as [Hx _].
    destruct (root_tokens E cs) as [[ts| |w] ds'].
    + destruct (ds ++ ds') eqn:H; eauto.
    + right. left. specialize (Hx eq_refl). cbn in Hx. destruct ds as [|d ds]; cbn; [|eauto].
      destruct ds'; [congruence|eauto].
    + eauto.
  - destruct (Hfail e r ds eq_refl).
  - right. left. specialize (Ha eq_refl). cbn in Ha. destruct ds; [congruence|eauto].
  - eauto.
  - destruct (Hf eq_refl).
Qed.
Print Assumptions C01_definite_outcome.

(** The step bound the model recurses on is irrelevant: with any larger bound
    the parser does the same, so no loop was cut short. *)
Theorem C01_fuel_irrelevant E input n : env_ok E -> size input < n ->
  parse_children E n input = parse_children E (S (size input)) input /\
  p_out (parse_children E n input) <> NoFuel.
Proof.
  intros HE Hn. split.
  - apply parse_children_fuel; auto.
  - now destruct (fine_children E HE n input Hn) as ([_ Hf _] & _).
Qed.
Print Assumptions C01_fuel_irrelevant.

Example C01_expands : exists ts, mview E0 (lex "div.a { 'x' }") = Expanded ts.
Proof. eexists. vm_compute. reflexivity. Qed.
Example C01_errors : exists ds, mview E0 (lex "div a= ; ; | ") = Errors ds.
Proof. eexists. vm_compute. reflexivity. Qed.
Example C01_panics : exists w, mview E0 (lex "self;") = Panicked w.
Proof. eexists. vm_compute. reflexivity. Qed.

(** ** C02-C04: the parser accepts exactly the grammar, which is unambiguous *)

Theorem C02_accepts_only_grammar E input n cs r : env_ok E -> wf input -> size input < n ->
  parse_children E n input = PR (Ret cs) r [] -> r = [] /\ children_phrase E input cs.
Proof. intros HE Hw Hn. apply (parse_children_ok E HE n input cs r Hw Hn). Qed.
Print Assumptions C02_accepts_only_grammar.

Theorem C03_accepts_grammar E input n cs : env_ok E -> wf input -> size input < n ->
  children_phrase E input cs -> parse_children E n input = PR (Ret cs) [] [].
Proof. intros HE Hw Hn H. apply (parse_children_ok E HE n input cs [] Hw Hn). auto. Qed.
Print Assumptions C03_accepts_grammar.

Theorem C04_grammar_unambiguous E input cs cs' : env_ok E -> wf input ->
  children_phrase E input cs -> children_phrase E input cs' -> cs = cs'.
Proof.
  intros HE Hw H H'.
  assert (Hn := Nat.lt_succ_diag_r (size input)).
  apply (C03_accepts_grammar E input _ _ HE Hw Hn) in H.
  apply (C03_accepts_grammar E input _ _ HE Hw Hn) in H'. congruence.
Qed.
Print Assumptions C04_grammar_unambiguous.

(** A view with every construct, and the tree the grammar assigns to it. *)
Definition sample_view : list tt :=
  lex "'t' {x} f['a'] div.a-b #c k={1} --d=2 on:e:m={g} {k-2} {..s} ( p {v}; My<T> |q| { slot:S; a::B; } )".
Definition sample_tree : list child :=
  [ CValue (VLit (LitTok LkStr "t"));
    CValue (VBlock (lex "x"));
    CValue (VBracket (Some (Id false "f")) (lex "'a'"));
    CElement (Element (TagHtml (Id true "div"))
      [SelClass (Kebab "a-b" 2); SelId (Kebab "c" 1)]
      [AKv (KvAttr (Kebab "k" 1) (VBlock (lex "1")));
       AKv (KvAttr (Kebab "--d" 2) (VLit (LitTok LkInt "2")));
       ADir (Directive (Id false "on") (KKebab (Kebab "e" 1)) (Some (Id false "m")) (Some (VBlock (lex "g"))));
       AKv (KvAttr (Kebab "k-2" 2) (VBlock [TIdent (Id true "k_2")]));
       ASpread (lex "s")]
      None
      (Some
        [ CElement (Element (TagHtml (Id true "p")) []
            [AKv (KvAttr (Kebab "v" 1) (VBlock [TIdent (Id true "v")]))] None None);
          CElement (Element (TagComponent (Path false [PSeg (Id false "My") (PAngle false (lex "<T>"))])) []
            [] (Some (lex "|q|"))
            (Some
              [ CSlot (Element (TagComponent (Path false [PSeg (Id false "S") PNone])) [] [] None None);
                CElement (Element (TagComponent
                  (Path false [PSeg (Id false "a") PNone; PSeg (Id false "B") PNone])) [] [] None None) ])) ])) ].
Example C02_C03_C04_case : wf sample_view /\ size sample_view < 100 /\
  parse_children E0 100 sample_view = PR (Ret sample_tree) [] [] /\
  children_phrase E0 sample_view sample_tree.
Proof.
  assert (Hw : wf sample_view) by (apply wfb_ok; vm_compute; reflexivity).
  assert (Hn : size sample_view < 100) by (apply Nat.ltb_lt; vm_compute; reflexivity).
  assert (H : parse_children E0 100 sample_view = PR (Ret sample_tree) [] []) by (vm_compute; reflexivity).
  repeat split; auto. eapply C02_accepts_only_grammar; eauto. apply E0_ok.
Qed.

(** ** C06: errors are atomic *)

(** Everything that is reported during an invocation, in order. *)
Definition reported (E : env) (input : list tt) : list diag :=
  let x := parse_children E (S (size input)) input in
  p_diags x ++ match p_out x with Ret cs => x_diags (root_tokens E cs) | _ => [] end.

Theorem C06_errors_are_atomic E input : env_ok E ->
  match mview E input with
  | Expanded _ => reported E input = []
  | Errors ds => ds = reported E input /\ ds <> []
  | Panicked _ => True
  | NoFuelLeft => False
  end.
Proof.
  intros HE. unfold mview, reported.
  destruct (fine_children E HE (S (size input)) input (Nat.lt_succ_diag_r _)) as ([_ Hf Ha] & _ & Hfail).
  destruct (parse_children E (S (size input)) input) as [[cs|e| |w|] r ds]; cbn [p_out p_diags].
  - pose proof (root_fine E cs HE) as [Hx _].
    destruct (root_tokens E cs) as [[ts| |w] ds']; cbn [x_diags].
    + destruct (ds ++ ds'); [reflexivity|]. split; [reflexivity|discriminate].
    + split; [reflexivity|]. specialize (Hx eq_refl). cbn in Hx. destruct ds; cbn; [auto|discriminate].
    + exact I.
  - destruct (Hfail e r ds eq_refl).
  - rewrite app_nil_r. split; [reflexivity|]. exact (Ha eq_refl).
  - exact I.
  - exact (Hf eq_refl).
Qed.
Print Assumptions C06_errors_are_atomic.

(** An expansion is the code of a tree that was read without any report. *)
Theorem C06_expansion_is_complete E input out : env_ok E -> mview E input = Expanded out ->
  exists cs, parse_children E (S (size input)) input = PR (Ret cs) [] [] /\
             root_tokens E cs = XR (XRet out) [].
Proof.
  intros HE H. pose proof (C06_errors_are_atomic E input HE) as H1. rewrite H in H1.
  unfold mview in H. unfold reported in H1.
  destruct (fine_children E HE (S (size input)) input (Nat.lt_succ_diag_r _)) as (_ & Hr & _).
  destruct (parse_children E (S (size input)) input) as [[cs|e| |w|] r ds]; try discriminate.
  rewrite (Hr cs r ds eq_refl). cbn [p_out p_diags] in H1.
  destruct (root_tokens E cs) as [[ts| |w] ds'] eqn:Hx; try discriminate. cbn [x_diags] in H1.
  apply app_eq_nil in H1. destruct H1 as [-> ->]. cbn in H. inversion H; subst. exists cs. auto.
Qed.
Print Assumptions C06_expansion_is_complete.

(** One report anywhere, however deep, and nothing is expanded. *)
Example C06_case : exists ds, mview E0 (lex "div { 'ok' p { 'ok' span { 1 } } }") = Errors ds /\
  reported E0 (lex "div { 'ok' p { 'ok' span { 1 } } }") = ds /\ ds = [DNonStrChild].
Proof. eexists. vm_compute. repeat split. Qed.

(** ** C07: panics *)

Theorem C07_panics_confined E input w : env_ok E -> wf input ->
  mview E input = Panicked w -> can_panic input.
Proof. apply panic_cause. Qed.
Print Assumptions C07_panics_confined.

(** Each kind does panic. *)
Theorem C07_each_kind_panics :
  (forall s, In s ["self"; "Self"; "super"; "crate"; "_"] ->
     mview E0 [TIdent (Id false s); TPunct ";" Alone] = Panicked (PNewRaw s) /\
     mview E0 (lex "div " ++ [TIdent (Id false s); TPunct ";" Alone]) = Panicked (PNewRaw s) /\
     mview E0 (lex "div " ++ [TGroup Brace [TIdent (Id false s)]; TPunct ";" Alone]) = Panicked (PNewRaw s)) /\
  mview E0 (lex "Foo {a} - ;") = Panicked (PNewRaw "_") /\
  (forall s, In s ["Super"; "Crate"] ->
     mview E0 [TIdent (Id false "Foo"); TGroup Brace
       [TIdent (Id false "slot"); TPunct ":" Alone; TIdent (Id false s); TPunct ";" Alone]]
       = Panicked (PNewRaw (if String.eqb s "Super" then "super" else "crate"))) /\
  mview E0 (lex "Foo { slot:div; }") = Panicked PSlotTag.
Proof.
  split; [|split; [vm_compute; reflexivity|split; [|vm_compute; reflexivity]]].
  - intros s [<-|[<-|[<-|[<-|[<-|[]]]]]]; vm_compute; auto.
  - intros s [<-|[<-|[]]]; vm_compute; auto.
Qed.
Print Assumptions C07_each_kind_panics.

(** An input with trouble, and an ordinary view, which has none. *)
Example C07_case : can_panic (lex "div { self; }") /\ ~ can_panic (lex "p k='v' { 'a' }").
Proof.
  split.
  - exists (lex "self;"). split.
    + eapply level_in with (d := Brace) (outer := lex "div { self; }"); [apply level_here|].
      vm_compute. auto.
    + apply (tr_name [] (TIdent (Id false "self")) (lex ";")).
      * apply bad_word. cbn. auto.
      * vm_compute. intros H. inversion H. inversion H1; subst; inversion H3.
  - intros (ts & Hl & Ht).
    apply (level_two _ (lex "'a'") Brace (lex "p k='v'") []) in Hl; [|..|reflexivity].
    2, 3: intros x Hin d l ->; vm_compute in Hin; intuition discriminate.
    destruct Hl as [-> | ->]; vm_compute in Ht;
      match type of Ht with trouble ?l => remember l as ts eqn:He end;
      destruct Ht as [pre t post Hb Hn|pre sp i post Hb|pre sp n post Hb Hn Hu];
      repeat (destruct pre as [|? pre]; try discriminate He; injection He; clear He; intros He; intros; subst;
              try (inversion Hb as [w Hw|sp0]; subst; vm_compute in Hw; intuition discriminate));
      try discriminate.
Qed.

(** ** C14: tags *)

Theorem C14_classification s k : tag_kind_from s = k <-> tag_kind_spec s k.
Proof. apply tag_kind_iff. Qed.
Print Assumptions C14_classification.

(** What that means for a tag that is read (even if the tag gives a diagnostic):
    a path is always a component, otherwise the text of the name decides. *)
Theorem C14_tags E ts t r d : wf ts -> parse_tag E ts = PR (Ret t) r d ->
  (path_follows ts -> kind_of t = KComponent) /\
  (~ path_follows ts -> exists n, ts = n ++ r /\ name_phrase n /\ name_ends n r /\
                                  tag_kind_spec (name_text n) (kind_of t)).
Proof. apply tag_kinds. Qed.
Print Assumptions C14_tags.

Example C14_case :
  tag_kind_spec "My-div" KComponent /\ tag_kind_spec "linearGradient" KSvg /\
  tag_kind_spec "font-face" KWeb /\ tag_kind_spec "mrow" KMath /\ tag_kind_spec "div" KHtml /\
  tag_kind_spec "annotation-xml" KWeb /\ tag_kind_spec "" KHtml.
Proof. rewrite <- !tag_kind_iff. vm_compute. repeat split. Qed.
Example C14_paths : exists p q r d r' d',
  parse_tag E0 (lex "a::b;") = PR (Ret (TagComponent p)) r d /\
  parse_tag E0 (lex "div<T>;") = PR (Ret (TagComponent q)) r' d' /\
  path_follows (lex "a::b;") /\ path_follows (lex "div<T>;").
Proof.
  repeat eexists; try (vm_compute; reflexivity).
  - right. left. exists Alone. eexists. vm_compute. reflexivity.
  - right. right. eexists. vm_compute. reflexivity.
Qed.

(** ** C15: kebab-case names *)

(** Reading a name succeeds exactly with the longest run, and the name is its text. *)
Theorem C15_longest_name ts k r d : wf ts ->
  parse_kebab ts = PR (Ret k) r d <->
  exists used, ts = used ++ r /\ name_phrase used /\ name_ends used r /\
               k_repr k = name_text used /\ k_spans k = section_count used /\
               d = raw_reports (tl used).
Proof. apply kebab_longest. Qed.
Print Assumptions C15_longest_name.

(** No longer prefix of the stream is a name either. *)
Theorem C15_no_longer_name ts k r d n r' : wf ts -> parse_kebab ts = PR (Ret k) r d ->
  ts = n ++ r' -> name_phrase n -> List.length r <= List.length r'.
Proof. apply kebab_maximal. Qed.
Print Assumptions C15_no_longer_name.

(** It fails exactly when the next token is neither an identifier nor [-], and
    then consumes nothing. *)
Theorem C15_failure ts : wf ts ->
  (~ next_ident ts /\ ~ next_punct "-" ts ->
     exists e, parse_kebab ts = PR (Fail e) ts []) /\
  (next_ident ts \/ next_punct "-" ts -> exists k r d, parse_kebab ts = PR (Ret k) r d).
Proof. apply kebab_failure. Qed.
Print Assumptions C15_failure.

(** Spacing does not matter: streams that differ only in it give the same name
    and the same diagnostics, and stop at the same token. *)
Theorem C15_spacing_irrelevant ts ts' : wf ts -> Forall2 same_but_spacing ts ts' ->
  p_out (parse_kebab ts) = p_out (parse_kebab ts') /\
  p_diags (parse_kebab ts) = p_diags (parse_kebab ts') /\
  Forall2 same_but_spacing (p_rest (parse_kebab ts)) (p_rest (parse_kebab ts')).
Proof. apply kebab_spacing. Qed.
Print Assumptions C15_spacing_irrelevant.

Example C15_case :
  parse_kebab (lex "r#type-b--3-x = 1") = PR (Ret (Kebab "type-b--3-x" 4)) (lex "= 1") [] /\
  parse_kebab (lex "-a - b c") = PR (Ret (Kebab "-a-b" 3)) (lex "c") [] /\
  parse_kebab (lex "a-r#b c") = PR (Ret (Kebab "a-b" 2)) (lex "c") [DRawInKebab] /\
  wf (lex "r#type-b--3-x = 1").
Proof. repeat split; try (vm_compute; reflexivity). apply wfb_ok. vm_compute. reflexivity. Qed.

(** ** C43: the meaning of the whole macro *)

(** [mview!] expands exactly the inputs that have a meaning according to the
    grammar and the description of the emitted code, and to such a meaning. *)
Theorem C43_expansion_is_meaning E input out : env_ok E -> wf input ->
  mview E input = Expanded out -> mview_spec E input out.
Proof. apply mview_sound. Qed.
Print Assumptions C43_expansion_is_meaning.

Theorem C43_meaning_is_expanded E input out : env_ok E -> wf input ->
  mview_spec E input out -> exists out', mview E input = Expanded out' /\ mview_spec E input out'.
Proof.
  intros HE Hw H. destruct (mview_total E input out HE Hw H) as (out' & Ho). exists out'.
  split; [exact Ho|]. now apply mview_sound.
Qed.
Print Assumptions C43_meaning_is_expanded.

Example C43_case : exists out, mview E0 (lex "p.a k=1 class:x={c} { 'b' My {..s} |q| { slot:S; 'd' } }") = Expanded out /\
  wf (lex "p.a k=1 class:x={c} { 'b' My {..s} |q| { slot:S; 'd' } }") /\
  mview_spec E0 (lex "p.a k=1 class:x={c} { 'b' My {..s} |q| { slot:S; 'd' } }") out.
Proof.
  assert (Hw : wf (lex "p.a k=1 class:x={c} { 'b' My {..s} |q| { slot:S; 'd' } }"))
    by (apply wfb_ok; vm_compute; reflexivity).
  eexists. split; [vm_compute; reflexivity|]. split; [exact Hw|].
  apply C43_expansion_is_meaning; [apply E0_ok|exact Hw|vm_compute; reflexivity].
Qed.
