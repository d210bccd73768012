(** Theorem C58: how many reports are made about a view. *)
From Verif Require Import PropFacts1 Properties1 Properties13 ExampleFacts SizeFacts SpecSize BoundFacts SpanExamples SLex.
From Verif Require Import SpecStr SpecGrammar SpecReports SpecSpan SpecSpell SpecBroken SpecStop STokens.
From Verif Require Import Properties15 Properties20 Properties21 Properties23 Tokens.
From Coq Require Import Lia.
Open Scope list_scope.
Close Scope sparse_scope.
Close Scope sexpand_scope.
Close Scope expand_scope.

(** ** Any tokens, with spans *)

Fixpoint marked (t : tt) : stt :=
  match t with
  | TIdent i => SIdent Call i
  | TPunct c sp => SPunct Call c sp
  | TLit k s => SLit Call k s
  | TGroup d ts => SGroup (DSpan Call Call Call) d (map marked ts)
  end.
Lemma marked_erases ts : erases (map marked ts) = ts.
Proof.
  assert (H : forall n ts, T ts <= n -> erases (map marked ts) = ts).
  { induction n as [|n IH]; intros [|t l] Hn; auto; rewrite T_cons in Hn; assert (Hp := t_pos t); [lia|].
    cbn [map]. change (erases (marked t :: map marked l)) with (erase (marked t) :: erases (map marked l)).
    rewrite IH by lia. f_equal. destruct t as [i|c sp|k s|d inner]; try reflexivity.
    cbn [marked erase]. f_equal. rewrite t_group in Hn. apply IH. lia. }
  exact (H _ ts (le_n _)).
Qed.
Definition marks (E : env) : senv := with_spans E (fun _ _ => None).
Lemma marks_ok E : env_ok E -> senv_ok (marks E).
Proof. intros H. apply with_spans_ok; [exact H|discriminate]. Qed.

Lemma sbound E input : senv_ok E -> wf (erases input) ->
  (forall ds, smview E input = SErrors ds -> 2 * len ds <= 3 * W input) /\
  (forall out ds, smview_nightly E input = SGave out ds -> 2 * len ds <= 3 * W input).
Proof.
  intros HE Hw. destruct (C54_described E input HE Hw) as [(cs & ds & H)|([w|] & ds & H)].
  - assert (H1 := C54_reports _ _ _ _ HE Hw H). assert (H2 := C54_reports_nightly _ _ _ _ HE Hw H).
    destruct (rd_bounds E HE Call) as (Hb & _). apply Hb in H. assert (Hp := placed_len E cs).
    assert (Hl : 2 * len (ds ++ placed_reports E cs) <= 3 * W input) by (rewrite app_length; lia).
    split.
    + intros ds' He. rewrite He in H1. destruct H1 as [-> _]. exact Hl.
    + intros out ds' He. rewrite He in H2. subst. exact Hl.
  - destruct (C54_panics _ _ _ _ HE Hw H) as [H1 H2]. split; intros; congruence.
  - destruct (C54_aborts _ _ _ HE Hw H) as (H1 & H2 & _). destruct (ab_bounds E HE Call) as (Hb & _). apply Hb in H.
    split; [intros ds' He; assert (ds' = ds) as -> by congruence|intros out ds' He; assert (ds' = ds) as -> by congruence]; lia.
Qed.

(** ** The views with the most reports *)

Definition wrong_tree : list schild :=
  [SCElement (SElement (STagHtml (SId Call (Id true "p"))) [] [] None None);
   SCValue (SVLit (SLitTok Call LkStr ""))].
Definition wrong_reports : list sdiag := [(DUnknownAttr, Call); (DNoChildElements, Call); (DNonStrChild, Call)].
Fixpoint times {A} (n : nat) (l : list A) : list A := match n with 0 => [] | S n => l ++ times n l end.
Lemma times_len {A} n (l : list A) : len (times n l) = n * len l.
Proof. induction n; auto. cbn [times]. rewrite app_length. cbn. lia. Qed.
Lemma wrong_T n : T (wrong n) = 2 * n.
Proof. induction n; auto. cbn [wrong]. rewrite !T_cons, t_ident, t_lit. lia. Qed.
Lemma wrong_wf n : wf (wrong n).
Proof.
  induction n as [|n IH]; [constructor|]. cbn [wrong]. apply wf_cons. split.
  - split; [now apply lexb_iff|discriminate].
  - apply wf_cons. split; [|exact IH].
    assert (H : wf [TLit LkInt "1"]) by (apply wfb_ok; reflexivity). apply wf_cons in H. exact (proj1 H).
Qed.
Lemma wrong_reads E n : rd_children (marks E) Call (map marked (wrong n)) (times n wrong_tree) (times n wrong_reports).
Proof.
  induction n as [|n IH]; [constructor|]. cbn [wrong map marked times wrong_tree wrong_reports app].
  set (r := map marked (wrong n)) in *.
  change [(DUnknownAttr, Call); (DNoChildElements, Call); (DNonStrChild, Call)] with ([(DUnknownAttr, Call); (DNoChildElements, Call)] ++ [(DNonStrChild, Call)] ++ []).
  apply (rdc_cons (marks E) Call [SIdent Call (Id false "p")] _ [(DUnknownAttr, Call); (DNoChildElements, Call)] (SLit Call LkInt "1" :: r) _ ((DNonStrChild, Call) :: times n wrong_reports)).
  - apply rdch_element.
    + apply (rde (marks E) Call [SIdent Call (Id false "p")] _ [] [] [] [] None None [(DUnknownAttr, Call); (DNoChildElements, Call)]).
      * apply (rdh (marks E) [SIdent Call (Id false "p")] _ [] [] [] [] [] [] []).
        -- apply (rdt_name _ _ (SKebab "p" [Call])).
           ++ intros [(sp & x & H)|[(sp & x & H)|[sp H]]]; discriminate.
           ++ split; [|split; [|reflexivity]].
              ** apply (spn (marks E) (SIdent Call (Id false "p")) []). eapply name_ident. constructor.
              ** intros H. inversion H as [i x e Hx|]; subst. inversion Hx.
           ++ apply nt_html; [apply tag_kind_iff; reflexivity|]. split; [|reflexivity]. split; [|reflexivity]. cbn. intuition discriminate.
        -- constructor. split; [|reflexivity]. intros [[sp H]|[sp H]]; discriminate.
        -- constructor. reflexivity.
      * apply (rdd_unknown (marks E) Call (STagHtml (SId Call (Id true "p"))) (SLit Call LkInt "1" :: r) Call); [exact (fun H => H)|reflexivity].
    + exact I.
    + intros (sp & x & H & _). discriminate.
    + intros (u & v & x & H & Hv). inversion Hv; subst; inversion H.
  - apply (rdc_cons (marks E) Call [SLit Call LkInt "1"] _ [(DNonStrChild, Call)] r); [|exact IH].
    apply (rdch_literal (marks E) Call [SLit Call LkInt "1"] (SLitTok Call LkInt "1")); [|discriminate].
    split; constructor.
Qed.
Lemma wrong_placed E n : placed_reports (marks E) (times n wrong_tree) = [].
Proof.
  assert (Hs : filter (fun c => match c with SCSlot _ _ => true | _ => false end) (times n wrong_tree) = []) by (induction n; auto).
  assert (Hf : flat_map (p_child (marks E)) (times n wrong_tree) = []) by (clear Hs; induction n; auto).
  unfold placed_reports. rewrite Hs, Hf. destruct n; reflexivity.
Qed.
Lemma wrong_runs E n w : env_ok E -> ~ panics_with (marks E) (map marked (wrong n)) w.
Proof.
  intros HE. assert (HS := marks_ok E HE). assert (Hw : wf (erases (map marked (wrong n)))) by (rewrite marked_erases; apply wrong_wf).
  destruct (C54_once _ _ HS Hw) as (H1 & _ & H3). intros [(ds & H)|(cs & ds & H & Hv)].
  - exact (H3 _ _ _ _ (wrong_reads E n) H).
  - destruct (H1 _ _ _ _ H (wrong_reads E n)) as [-> _]. destruct Hv as (_ & e & Hin & He). clear - Hin He.
    assert (Hx : e = Element (TagHtml (Id true "p")) [] [] None None).
    { induction n as [|n IH]; [destruct Hin|]. cbn in Hin. destruct Hin as [Hin|[Hin|Hin]]; [congruence|discriminate|auto]. }
    subst. inversion He; subst; cbn in *; try tauto; discriminate.
Qed.

(** ** C58: the number of reports *)

(** At most three reports are made about every two tokens. *)
Theorem C58_bound E input ds n : env_ok E -> wf input -> counts input n ->
  mview E input = Errors ds -> 2 * len ds <= 3 * n.
Proof.
  intros HE Hw Hn H. apply counts_T in Hn. subst. assert (HS := marks_ok E HE).
  rewrite <- (marked_erases input) in H, Hw |- *. destruct (C49_model (marks E) (map marked input) (proj1 (proj2 HS))) as [Hm _].
  change (s_env (marks E)) with E in Hm. rewrite <- Hm in H. destruct (smview (marks E) (map marked input)) as [ts|ds'|w|] eqn:He; try discriminate. injection H as <-.
  rewrite map_length. now apply (sbound _ _ HS Hw).
Qed.
Print Assumptions C58_bound.

Theorem C58_bound_nightly E input out ds n : env_ok E -> wf input -> counts input n ->
  mview_nightly E input = Gave out ds -> 2 * len ds <= 3 * n.
Proof.
  intros HE Hw Hn H. apply counts_T in Hn. subst. assert (HS := marks_ok E HE).
  rewrite <- (marked_erases input) in H, Hw |- *. destruct (C49_model (marks E) (map marked input) (proj1 (proj2 HS))) as [_ Hm].
  change (s_env (marks E)) with E in Hm. rewrite <- Hm in H. destruct (smview_nightly (marks E) (map marked input)) as [ts ds'|w|] eqn:He; try discriminate. injection H as _ <-.
  rewrite map_length. now apply (sbound _ _ HS Hw) in He.
Qed.
Print Assumptions C58_bound_nightly.

(** No smaller bound holds: three reports are made about every [p 1]. *)
Theorem C58_reached E k : env_ok E -> exists ds, wf (wrong (S k)) /\ counts (wrong (S k)) (2 * S k) /\
  mview E (wrong (S k)) = Errors ds /\ (exists out, mview_nightly E (wrong (S k)) = Gave out ds) /\ len ds = 3 * S k.
Proof.
  intros HE. assert (HS := marks_ok E HE). assert (Hwf := wrong_wf (S k)).
  assert (Hw : wf (erases (map marked (wrong (S k))))) by now rewrite marked_erases.
  assert (Hr := wrong_reads E (S k)). assert (Hp := wrong_placed E (S k)).
  assert (Hl : len (times (S k) wrong_reports) = S k * 3) by apply times_len.
  assert (Hne : times (S k) wrong_reports <> []) by discriminate.
  assert (Hc : T (wrong (S k)) = 2 * S k) by apply wrong_T.
  assert (Hpan := fun w => wrong_runs E (S k) w HE). assert (Hm := marked_erases (wrong (S k))).
  generalize dependent (times (S k) wrong_reports). generalize dependent (times (S k) wrong_tree).
  generalize dependent (wrong (S k)). intros input Hwf Hw Hc Hpan Hm cs Hp ds Hr Hl Hne.
  destruct (C49_model (marks E) (map marked input) (proj1 (proj2 HS))) as [H1 H2]. rewrite Hm in H1, H2.
  assert (H3 := C54_reports _ _ _ _ HS Hw Hr). assert (H4 := C54_reports_nightly _ _ _ _ HS Hw Hr).
  rewrite Hp, app_nil_r in H3, H4.
  destruct (C55_panics _ _ HS Hw) as [H5 _]. destruct (C55_panics_nightly _ _ HS Hw) as [H6 _].
  change (s_env (marks E)) with E in H1, H2.
  exists (map fst ds). split; [exact Hwf|]. split; [apply counts_T; now rewrite Hc|].
  split; [|split].
  - rewrite <- H1. destruct (smview (marks E) (map marked input)) as [ts|ds'|w|]; [destruct H3; congruence|destruct H3 as [-> _]; reflexivity| |destruct H3].
    destruct (Hpan _ (H5 _ eq_refl)).
  - rewrite <- H2. destruct (smview_nightly (marks E) (map marked input)) as [ts ds'|w|]; [subst ds'; cbn [eanswer]; eauto| |destruct H4].
    destruct (Hpan _ (H6 _ eq_refl)).
  - assert (Hx : len (map fst ds) = len ds) by apply map_length. lia.
Qed.
Print Assumptions C58_reached.

(** 6 reports about 10 tokens; and a name that is read twice. *)
Example C58_case :
  mview E0 (lex "p a=; 1 q x:y 2 ") = Errors [DExpectedValue false; DNonStrChild; DUnknownAttr; DNoChildElements; DNonStrChild; DUnknownDirective] /\
  counts (lex "p a=; 1 q x:y 2 ") 10.
Proof. split; [vm_compute; reflexivity|]. apply counts_T; vm_compute; reflexivity. Qed.
Example C58_twice_case :
  mview E0 (lex "p { a-r#b-r#c; }") = Errors [DRawInKebab; DRawInKebab; DRawInKebab; DRawInKebab] /\
  counts (lex "p { a-r#b-r#c; }") 8.
Proof. split; [vm_compute; reflexivity|]. apply counts_T; vm_compute; reflexivity. Qed.
