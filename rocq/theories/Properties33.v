(** Theorem C67: the code embedded in a view. *)
From Verif Require Import SpecBlind Holes Properties1 ExampleFacts Properties17 SLex SpanExamples SMacro Lex.
Open Scope string_scope.
Open Scope list_scope.

(** ** C67: embedded code is only carried along *)

(** What is in brackets is not looked at.  For a view with holes in brackets,
    right or wrong, there is one result: the same errors, or the same panic, or
    the same expansion, in which only the contents of groups are left open.
    That is what the macro does with it, whatever is put into the holes. *)
Theorem C67_brackets E T : senv_ok E -> blind E T -> Forall in_brackets T ->
  exists r, forall f, smview E (fills f T) = fill_result f r.
Proof.
  intros HE Hb Hi.
  exists (match smview E (fills (mark (top T)) T) with
          | SExpanded ts => OExpanded (map (unmark (top T)) ts)
          | SErrors ds => OErrors ds
          | SPanicked w => OPanicked w
          | SNoFuelLeft => OErrors []
          end).
  intros f. pose proof (blind_result E T f HE Hb Hi) as Hr.
  assert (Hf : smview E (fills f T) <> SNoFuelLeft).
  { unfold smview. destruct HE as (He & Hg & _). pose proof (enough E (fills f T) Call) as Hn.
    destruct (sparse_children E _ Call _) as [[cs|e s| |w|] x d]; try discriminate.
    - destruct (sroot_tokens E cs) as [[]]; try discriminate. destruct (d ++ _); discriminate.
    - intros _. now apply (Hn x d He Hg). }
  destruct Hr as [ts ts' Hts|d d' Hd|w|]; cbn; [| |reflexivity|now destruct Hf].
  - f_equal. now apply unmarks_fill.
  - f_equal. now apply diags_same.
Qed.
Print Assumptions C67_brackets.

Theorem C67_brackets_nightly E T : senv_ok E -> blind E T -> Forall in_brackets T ->
  exists r, forall f, smview_nightly E (fills f T) = fill_gift f r.
Proof.
  intros HE Hb Hi.
  exists (match smview_nightly E (fills (mark (top T)) T) with
          | SGave ts ds => OGave (map (unmark (top T)) ts) ds
          | SCrashed w => OCrashed w
          | SOutOfFuel => OGave [] []
          end).
  intros f. pose proof (blind_answer E T f HE Hb Hi) as Hr.
  assert (Hf : smview_nightly E (fills f T) <> SOutOfFuel).
  { unfold smview_nightly. destruct HE as (He & Hg & _). pose proof (enough E (fills f T) Call) as Hn.
    destruct (sparse_children E _ Call _) as [[cs|e s| |w|] x d]; try discriminate.
    - destruct (sroot_tokens E cs) as [[]]; discriminate.
    - intros _. now apply (Hn x d He Hg). }
  destruct Hr as [ts ts' d d' Hts Hd|w|]; cbn; [|reflexivity|now destruct Hf].
  f_equal; [now apply unmarks_fill|now apply diags_same].
Qed.
Print Assumptions C67_brackets_nightly.

(** So the errors do not depend on what is in brackets. *)
Corollary C67_reports E T : senv_ok E -> blind E T -> Forall in_brackets T -> forall f f' ds,
  smview E (fills f T) = SErrors ds -> smview E (fills f' T) = SErrors ds.
Proof.
  intros HE Hb Hi f f' ds. destruct (C67_brackets E T HE Hb Hi) as (r & Hr). rewrite !Hr. now destruct r.
Qed.
Print Assumptions C67_reports.

(** In a view that is correct, the code in blocks is not looked at either: for
    a tree there is one result, and it is what the macro does with every view
    of which the tree is this one with other code in the values. *)
Theorem C67_code E cs : env_ok E -> exists r, forall f input, wf input ->
  children_phrase E input (map (recode f) cs) -> mview E input = ufill_result f r.
Proof.
  intros HE. set (x := sroot_tokens (with_spans E no_join) (map (lchild code_mark) cs)).
  exists (match x with
          | SXR (XRet ts) [] => UExpanded (map uncode ts)
          | SXR (XPanic w) _ => UPanicked w
          | SXR _ ds => UErrors (map fst ds)
          end).
  intros f input Hw Hp.
  assert (Hs : exists ss, map (recode f) cs = map echild ss).
  { assert (HS : senv_ok (with_spans E no_join)) by (apply with_spans_ok; [exact HE|discriminate]).
    destruct (read_tree (with_spans E no_join) (map lt input) (map (recode f) cs) HS) as (ss & _ & Hss & _); rewrite ?erases_lt; auto.
    now exists ss. }
  destruct Hs as (ss & Hs). unfold mview.
  rewrite (C03_accepts_grammar E input _ _ HE Hw (Nat.lt_succ_diag_r _) Hp), (code_root E f cs ss Hs). fold x.
  destruct x as [[ts| |w] [|d ds]]; cbn; try reflexivity. now rewrite map_map.
Qed.
Print Assumptions C67_code.

Theorem C67_code_nightly E cs : env_ok E -> exists r, forall f input, wf input ->
  children_phrase E input (map (recode f) cs) -> mview_nightly E input = ufill_gift f r.
Proof.
  intros HE. set (x := sroot_tokens (with_spans E no_join) (map (lchild code_mark) cs)).
  exists (match x with
          | SXR (XRet ts) ds => UGave (map uncode ts) (map fst ds)
          | SXR (XPanic w) _ => UCrashed w
          | SXR XAbort ds => UGave [UGroup Paren []] (map fst ds)
          end).
  intros f input Hw Hp.
  assert (Hs : exists ss, map (recode f) cs = map echild ss).
  { assert (HS : senv_ok (with_spans E no_join)) by (apply with_spans_ok; [exact HE|discriminate]).
    destruct (read_tree (with_spans E no_join) (map lt input) (map (recode f) cs) HS) as (ss & _ & Hss & _); rewrite ?erases_lt; auto.
    now exists ss. }
  destruct Hs as (ss & Hs). unfold mview_nightly.
  rewrite (C03_accepts_grammar E input _ _ HE Hw (Nat.lt_succ_diag_r _) Hp), (code_root E f cs ss Hs). fold x.
  destruct x as [[ts| |w] ds]; cbn; try reflexivity. now rewrite map_map.
Qed.
Print Assumptions C67_code_nightly.

(** ** Cases *)

(** The environment of the examples meets [blind]. *)
Definition scanned (a b : option (list tt * list tt)) : Prop :=
  match a, b with
  | Some (u, r), Some (u', r') => List.length u = List.length u' /\ List.length r = List.length r'
  | None, None => True
  | _, _ => False
  end.
Lemma scan_step t t' a b : scanned a b ->
  scanned (match a with Some (u, r) => Some (t :: u, r) | None => None end)
          (match b with Some (u, r) => Some (t' :: u, r) | None => None end).
Proof. destruct a as [[]|], b as [[]|]; cbn; intuition. Qed.
Lemma scan_holes f f' u : forall n, scanned (scan n (erases (fills f u))) (scan n (erases (fills f' u))).
Proof.
  induction u as [|p u IH]; intros n; cbn; [exact I|].
  assert (Hl : List.length (erases (fills f u)) = List.length (erases (fills f' u))).
  { unfold erases, fills. now rewrite !map_length. }
  destruct p as [[s i|s c sp|s k v|s d g]|s d g|s d m]; cbn; try (apply scan_step, IH).
  destruct (Ascii.eqb c "<"); [apply scan_step, IH|]. destruct (Ascii.eqb c ">"); [|apply scan_step, IH].
  destruct n as [|[|n]]; [exact I|cbn; auto|apply scan_step, IH].
Qed.
Lemma here_holes f f' sc u n : here sc (skipn n (fills f u)) = here sc (skipn n (fills f' u)).
Proof.
  unfold fills. rewrite !skipn_map. destruct (skipn n u) as [|p r]; [reflexivity|]. now destruct p.
Qed.
Lemma SE_blind j T : blind (with_spans E0 j) T.
Proof.
  intros u _ sc f f'. cbn [s_generic with_spans].
  assert (Hl : List.length (fills f u) = List.length (fills f' u)) by (unfold fills; now rewrite !map_length).
  assert (Hle : List.length (erases (fills f u)) = List.length (erases (fills f' u))) by (unfold erases; now rewrite !map_length).
  assert (Hsame : forall r r' : list tt, List.length r = List.length r' ->
    List.length (skipn (List.length (fills f u) - List.length r) (fills f u)) =
    List.length (skipn (List.length (fills f' u) - List.length r') (fills f' u)) /\
    here sc (skipn (List.length (fills f u) - List.length r) (fills f u)) =
    here sc (skipn (List.length (fills f' u) - List.length r') (fills f' u))).
  { intros r r' H. rewrite <- H, <- Hl. split; [rewrite !skipn_length; congruence|apply here_holes]. }
  cbn [generic_args E0]. destruct u as [|p u]; [apply (Hsame [] []); reflexivity|].
  assert (Hn := scan_holes f f' u 1).
  assert (Hl' : List.length (erases (fills f u)) = List.length (erases (fills f' u))).
  { cbn in Hle. now injection Hle. }
  destruct p as [[s i|s c sp|s k v|s d g]|s d g|s d m];
    try (unfold scan_args; cbn [fills map fill erases erase]; apply Hsame; exact Hle).
  unfold scan_args; cbn [fills map fill erases erase]. fold (fills f u) (fills f' u). fold (erases (fills f u)) (erases (fills f' u)).
  destruct (Ascii.eqb c "<"); [|apply Hsame; exact Hle].
  unfold scanned in Hn. destruct (scan 1 (erases (fills f u))) as [[a b]|], (scan 1 (erases (fills f' u))) as [[a' b']|]; try contradiction.
  - destruct Hn as [Hn _]. assert (Hlu : List.length (fills f u) = List.length (fills f' u)) by (unfold fills; now rewrite !map_length).
    rewrite !firstn_length. cbn [List.length]. now rewrite Hn, Hlu.
  - apply Hsame. exact Hl'.
Qed.

(** A view of which all brackets are holes, numbered by their place. *)
Definition offset (s : STokens.span) : nat := match s with Src _ lo _ => lo | Call => 0 end.
Fixpoint open_brackets (t : stt) : tpl :=
  match t with
  | SGroup s Bracket _ => PHole s Bracket (offset (d_open s))
  | SGroup s d ts => PGroup s d (map open_brackets ts)
  | _ => PTok t
  end.
Lemma open_in t : in_brackets (open_brackets t).
Proof.
  induction t as [| | |s d ts IH] using stt_ind2; try constructor. destruct d; cbn; constructor.
  all: induction IH; cbn; constructor; auto.
Qed.
Lemma opens_in ts : Forall in_brackets (map open_brackets ts).
Proof. induction ts; cbn; constructor; auto using open_in. Qed.

Definition bracket_view : string := "p a=[x] { f[y] }".
Definition bracket_tpl : list tpl := map open_brackets (slex bracket_view).
Definition put (a b : string) (n : nat) : list stt := if Nat.eqb n 4 then slex a else slex b.
Definition given (f : nat -> list stt) : string :=
  match smview SE1 (fills f bracket_tpl) with SExpanded ts => show (erases ts) | _ => "" end.
Example C67_brackets_case :
  blind SE1 bracket_tpl /\ Forall in_brackets bracket_tpl /\
  erases (fills (put "x" "y") bracket_tpl) = erases (slex bracket_view) /\
  given (put "x" "y") =
    "{ # [ allow ( unused_braces ) ] :: leptos :: prelude :: IntoRender :: into_render ( :: leptos :: tachys :: html :: element :: r#p ( ) . r#a ( move || { x } ) . child ( :: leptos :: prelude :: IntoRender :: into_render ( move || :: std :: format ! ( y ) ) ) ) } " /\
  given (put "; = 3 | ;" "") =
    "{ # [ allow ( unused_braces ) ] :: leptos :: prelude :: IntoRender :: into_render ( :: leptos :: tachys :: html :: element :: r#p ( ) . r#a ( move || { ; = 3 | ; } ) . child ( :: leptos :: prelude :: IntoRender :: into_render ( move || :: std :: format ! ( ) ) ) ) } ".
Proof.
  split; [apply SE_blind|]. split; [apply opens_in|]. do 2 (split; [vm_compute; reflexivity|]). vm_compute. reflexivity.
Qed.

(** A view with five errors: they are the same whatever is in the brackets. *)
Definition wrong_brackets : string := "p b:c=[x] g[y]; q { 3 }".
Example C67_reports_case f :
  smview SE1 (fills f (map open_brackets (slex wrong_brackets))) =
  SErrors [(DUnknownAttr, Src 0 11 12); (DNoChildElements, Src 0 0 12); (DExtraSemi, Src 0 14 15);
           (DNonStrChild, Src 0 20 21); (DUnknownDirective, Src 0 2 3)].
Proof.
  refine (C67_reports SE1 (map open_brackets (slex wrong_brackets)) SE1_ok (SE_blind range_join _) (opens_in _) (fun _ => []) f _ _).
  vm_compute. reflexivity.
Qed.

(** Braces are looked at: what is in them decides what is read. *)
Definition braces_tpl : list tpl :=
  [PTok (SIdent Call (Id false "p")); PHole (same_span Call) Brace 0; PTok (SPunct Call ";" Alone)].
Example C67_not_in_braces : ~ exists r, forall f, smview SE1 (fills f braces_tpl) = fill_result f r.
Proof.
  assert (H1 : exists ts, smview SE1 (fills (fun _ => slex "x") braces_tpl) = SExpanded ts) by (eexists; vm_compute; reflexivity).
  assert (H2 : exists ds, smview SE1 (fills (fun _ => slex "3") braces_tpl) = SErrors ds) by (eexists; vm_compute; reflexivity).
  intros (r & Hr). destruct H1 as (ts & H1), H2 as (ds & H2). rewrite Hr in H1, H2. now destruct r.
Qed.

(** Code in blocks and in brackets. *)
Definition code_tree : list child :=
  match parse_children E0 99 (lex "Foo a={1} on:b=[2] { {3} p { f[4] } }") with PR (Ret cs) _ _ => cs | _ => [] end.
Definition other (c : list tt) : list tt :=
  match c with [TLit _ "1"] => lex "x ; = y" | [TLit _ "2"] => lex "" | [TLit _ "3"] => lex "z" | _ => lex "'{}' , w" end.
Definition code_view : list tt := lex "Foo a={x ; = y} on:b=[] { {z} p { f['{}' , w] } }".
Example C67_code_case :
  List.length code_tree = 1 /\ wf code_view /\ children_phrase E0 code_view (map (recode other) code_tree) /\
  exists ts, mview E0 code_view = Expanded ts.
Proof.
  assert (Hw : wf code_view) by (apply wfb_ok; vm_compute; reflexivity).
  split; [vm_compute; reflexivity|]. split; [exact Hw|]. split.
  - apply (C02_accepts_only_grammar E0 code_view _ _ [] E0_ok Hw (Nat.lt_succ_diag_r _)). vm_compute. reflexivity.
  - eexists. vm_compute. reflexivity.
Qed.
