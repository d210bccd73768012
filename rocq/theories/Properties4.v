(** Theorems C05, C18-C22, C36, C37, C40, C42: rewriting one piece of a view.
    They speak about any place in a view ([SpecContext]): everything before the
    place is well-formed, what follows is arbitrary. *)
From Verif Require Import PlaceFacts Swap Report ExpandFacts2 ElementFacts GrammarFacts Inv Fuel ExampleFacts.
From Verif Require Import SpecStr SpecGrammar SpecOut SpecRead SpecContext.
From Coq Require Import Lia.
Open Scope list_scope.

(** ** C05: siblings *)

Theorem C05_siblings E n a cs m b : env_ok E -> wf (a ++ b) ->
  size a < n -> parse_children E n a = PR (Ret cs) [] [] ->
  size (a ++ b) < m ->
  parse_children E m (a ++ b) =
  match parse_children E m b with
  | PR (Ret cs') r d => PR (Ret (cs ++ cs')) r d
  | PR o r d => PR o r d
  end.
Proof.
  intros HE Hwf Hn Ha Hm. assert (Hwf2 := Hwf). apply wf_app in Hwf2.
  apply parse_children_ok in Ha; try tauto. rewrite size_app in Hm.
  rewrite !children_of_fuel by (rewrite ?size_app; auto; lia).
  rewrite (children_app E a cs b); try tauto. now destruct (children_of E b) as [[]].
Qed.
Print Assumptions C05_siblings.

(** If the first part is read without diagnostics, the whole is accepted if
    and only if each part is. *)
Lemma nodes_code_app l l' codes codes' : nodes_code l codes -> nodes_code l' codes' -> nodes_code (l ++ l') (codes ++ codes').
Proof. intros H H'. induction H; cbn; auto; now constructor. Qed.
Lemma nodes_code_split l l' codes : nodes_code (l ++ l') codes ->
  exists c c', nodes_code l c /\ nodes_code l' c'.
Proof.
  revert codes. induction l as [|x l IH]; intros codes H; cbn in H.
  - exists [], codes. split; auto. constructor.
  - inversion H; subst;
      match goal with Hr : nodes_code (l ++ l') _ |- _ => destruct (IH _ Hr) as (c & c' & Hl & Hl') end;
      eexists _, c'; (split; [econstructor; eauto|exact Hl']).
Qed.
Lemma root_coded cs : (exists out, root_code cs out) <->
  (forall e, ~ In (CSlot e) cs) /\ exists codes, nodes_code cs codes.
Proof.
  split.
  - intros (out & []).
    + split; [|eauto]. intros e [He|[]]. now apply (H e).
    + split; eauto.
  - intros (Hs & codes & Hc). destruct cs as [|c [|c' cs]].
    + eexists. apply rc_many; [discriminate|auto|exact Hc].
    + assert (Hc1 : forall e, c <> CSlot e) by (intros e ->; apply (Hs e); now left).
      destruct codes as [|code [|]]; [inversion Hc; subst; exfalso; now apply (Hc1 e)| |].
      * eexists. apply rc_one; [exact Hc1|exact Hc].
      * exfalso. inversion Hc; subst; try (now apply (Hc1 e)); match goal with H : nodes_code [] _ |- _ => inversion H end.
    + eexists. apply rc_many; [discriminate|auto|exact Hc].
Qed.
Theorem C05_accepted E a cs b : env_ok E -> wf (a ++ b) -> children_phrase E a cs ->
  (exists out, mview E (a ++ b) = Expanded out) <->
  (exists out, mview E a = Expanded out) /\ (exists out, mview E b = Expanded out).
Proof.
  intros HE Hwf Ha. assert (Hwf2 := Hwf). apply wf_app in Hwf2. destruct Hwf2 as [Hwa Hwb].
  assert (Hspec : forall x, wf x -> (exists out, mview E x = Expanded out) <->
                  exists c, children_of E x = PR (Ret c) [] [] /\ exists out, root_code c out).
  { intros x Hx. split.
    - intros (out & H). apply mview_sound in H; auto. destruct H as (c & Hc & Hr). exists c. split; [|eauto].
      apply children_of_ok; auto.
    - intros (c & Hc & out & Hr). apply children_of_ok in Hc; auto. destruct Hc as [_ Hc].
      destruct (mview_total E x out) as (out' & Hout); auto; [|eauto]. exists c. auto. }
  rewrite !Hspec; auto.
  assert (Hca : children_of E a = PR (Ret cs) [] []) by (apply children_of_ok; auto).
  rewrite (children_app E a cs b); auto. rewrite Hca.
  split.
  - intros (c & Hc & Hr). destruct (children_of E b) as [[cb| | | |] r d]; try discriminate. cbn in Hc. inversion Hc; subst.
    rewrite root_coded in Hr. destruct Hr as (Hs & codes & Hn). destruct (nodes_code_split _ _ _ Hn) as (c1 & c2 & H1 & H2).
    split; [exists cs|exists cb]; (split; [reflexivity|]); rewrite root_coded; (split; [|eauto]); intros e He; apply (Hs e), in_or_app; auto.
  - intros [(c & Hc & Hr) (c' & Hc' & Hr')]. inversion Hc; subst c. rewrite Hc'. cbn. exists (cs ++ c'). split; [reflexivity|].
    rewrite root_coded in *. destruct Hr as (Hs & codes & Hn), Hr' as (Hs' & codes' & Hn').
    split; [|eexists; eapply nodes_code_app; eauto]. intros e He. apply in_app_or in He. destruct He; [now apply (Hs e)|now apply (Hs' e)].
Qed.
Print Assumptions C05_accepted.

Example C05_case :
  let a := lex "p { 'x' } My a=1;" in let b := lex "; b { 2 } q" in
  env_ok E0 /\ wf (a ++ b) /\
  (exists cs, parse_children E0 (S (size a)) a = PR (Ret cs) [] [] /\ List.length cs = 2) /\
  p_diags (parse_children E0 (S (size (a ++ b))) b) = [DExtraSemi; DNonStrChild; DUnterminated].
Proof.
  split; [apply E0_ok|]. split; [apply wfb_ok; vm_compute; reflexivity|].
  split; [eexists; split; vm_compute; reflexivity|vm_compute; reflexivity].
Qed.
(** Without diagnostics is needed: an unterminated first part swallows what follows. *)
Example C05_boundary :
  let a := lex "p" in let b := lex "'x'" in
  p_diags (parse_children E0 9 a) = [DUnterminated] /\
  p_diags (parse_children E0 9 (a ++ b)) = [DUnknownAttr; DNoChildElements].
Proof. split; vm_compute; reflexivity. Qed.

(** ** C18: a bare attribute *)

Lemma name_ends_punct ts c sp r : c <> "-"%char -> name_ends ts (TPunct c sp :: r).
Proof. intros Hc. cbn. apply name_last_stop. exact Hc. Qed.
Lemma name_ends_group ts d x r : name_ends ts (TGroup d x :: r).
Proof. cbn. now apply name_last_stop. Qed.
Lemma name_colon ts k f : name ts k f -> next_ident ts -> ~ next_punct ":" f -> ~ next_punct ":" (tl ts ++ f).
Proof.
  intros (Hn & _) Hi Hf. destruct Hn as [i r e Hr|]; [|contradiction]. cbn.
  inversion Hr; subst; auto; cbn; intros [? ?]; discriminate.
Qed.
Lemma name_start_of ts k f : name ts k f -> exists x r, ts = x :: r /\ name_start x.
Proof. intros H. destruct (name_head _ _ _ H) as (t & r & -> & Ht). eauto. Qed.

Lemma name_before_punct ts k f c sp r : name ts k f -> c <> "-"%char -> name ts k (TPunct c sp :: r).
Proof. intros (H1 & _ & H3) Hc. split; [|split]; auto. now apply name_ends_punct. Qed.
Lemma true_wf : wf_ident (Id false "true").
Proof. assert (H : wf [TIdent (Id false "true")]) by (apply wfb_ok; vm_compute; reflexivity). now inversion H. Qed.
Ltac wfs := repeat first [rewrite wf_app in * | rewrite wf_cons in * | rewrite wf_group in *]; cbn [wf_tt] in *;
  repeat match goal with |- _ /\ _ => split end; try tauto; try apply true_wf; try exact (Forall_nil _).

Theorem C18_bare_is_true E k pre slot u key kk rest sp : env_ok E ->
  wf (attr_place k pre slot u (key ++ rest)) ->
  at_attr E k pre slot u (key ++ rest) ->
  name key kk rest -> ~ next_punct "=" rest -> ~ next_punct ":" rest -> ~ next_group Bracket rest ->
  mview E (attr_place k pre slot u (key ++ rest)) =
  mview E (attr_place k pre slot u (key ++ TPunct "=" sp :: TIdent (Id false "true") :: rest)).
Proof.
  intros HE Hwf Hat Hk Heq Hc Hb.
  destruct (name_start_of _ _ _ Hk) as (x & r & -> & Hx). cbn [app] in *.
  destruct (at_attr_break E k pre slot u x r rest (TPunct "=" sp) (TIdent (Id false "true") :: rest))
    as [Hat' (t & sels & attrs & Hh & Hh')]; auto; [discriminate|].
  assert (Hwf2 := place_inner _ _ _ _ _ Hwf).
  assert (Hwf' : wf (x :: r ++ TPunct "=" sp :: TIdent (Id false "true") :: rest)).
  { clear - Hwf2. wfs. }
  apply mview_sim; auto.
  eapply (swap_one E [] k pre slot u (x :: r ++ rest) _ t sels attrs _ rest); eauto using place_wf.
  - apply parse_attr_ok; auto. exists (x :: r). split; [reflexivity|]. rewrite <- (app_nil_r (x :: r)).
    apply (at_kv (x :: r) kk [] None); auto; [now constructor|]. intros Hi. cbn [app]. now apply name_colon with kk.
  - apply parse_attr_ok; auto. exists ((x :: r) ++ [TPunct "=" sp; TIdent (Id false "true")]).
    rewrite <- app_assoc. split; [reflexivity|].
    assert (Hk' : name (x :: r) kk (TPunct "=" sp :: TIdent (Id false "true") :: rest)) by (eapply name_before_punct; eauto; discriminate).
    apply (at_kv (x :: r) kk _ (Some (VLit (LitBool true)))); auto.
    + constructor. now constructor.
    + intros Hi. apply name_colon with kk; auto. intros [? ?]; discriminate.
Qed.
Print Assumptions C18_bare_is_true.

Example C18_case :
  let k := deep (lex "'z'") (lex "p;") in let pre := lex "p; 'y'" in let u := lex "My.c a=2" in let rest := lex "b=3 { x };" in
  let key := lex "data-x" in let v := attr_place k pre None u (key ++ rest) in
  env_ok E0 /\ wf v /\ at_attr E0 k pre None u (key ++ rest) /\
  name key (Kebab "data-x" 2) rest /\ ~ next_punct "=" rest /\ ~ next_punct ":" rest /\ ~ next_group Bracket rest /\
  exists out, mview E0 v = Expanded out.
Proof.
  cbv zeta. split; [apply E0_ok|].
  destruct (at_attrb_ok E0 (deep (lex "'z'") (lex "p;")) (lex "p; 'y'") None (lex "My.c a=2") (lex "data-x" ++ lex "b=3 { x };"))
    as [Hwf Hat]; [apply E0_ok|vm_compute; reflexivity|]. split; [exact Hwf|]. split; [exact Hat|].
  split; [apply name_by; vm_compute; reflexivity|].
  repeat (split; [intros H; vm_compute in H; now try destruct H|]). eexists. vm_compute. reflexivity.
Qed.
(** The last condition is needed: [key [..]] ends the attributes, but [true [..]]
    is a value. *)
Example C18_boundary :
  mview E0 (lex "p key [x];") = Errors [DUnknownAttr; DNoChildElements; DExtraSemi] /\
  mview E0 (lex "p key=true [x];") = Errors [DPrefix].
Proof. split; vm_compute; reflexivity. Qed.

(** ** C19: the shorthand *)

Lemma shorthand_var inner kk v : shorthand inner kk v -> exists ts i, inner = [TGroup Brace ts] /\ name ts kk [] /\ v = VBlock [TIdent i] /\ name_ident_ok kk i.
Proof. intros []. eauto 8. Qed.

Theorem C19_shorthand E k pre slot u key kk i rest sp : env_ok E ->
  let long := key ++ [TPunct "=" sp; TGroup Brace [TIdent i]] ++ rest in
  let short := TGroup Brace key :: rest in
  wf (attr_place k pre slot u long) -> at_attr E k pre slot u long ->
  name key kk [] -> name_ident_ok kk i ->
  mview E (attr_place k pre slot u short) = mview E (attr_place k pre slot u long).
Proof.
  intros HE long short Hwf Hat Hk Hi. symmetry.
  destruct (name_start_of _ _ _ Hk) as (x & r & -> & Hx).
  destruct (at_attr_group E k pre slot u x (r ++ [TPunct "=" sp; TGroup Brace [TIdent i]] ++ rest) (x :: r) rest)
    as [Hat' (t & sels & attrs & Hh & Hh')]; auto.
  assert (Hwf2 := place_inner _ _ _ _ _ Hwf).
  assert (Hwf' : wf short).
  { clear - Hwf2. unfold long, short in *. wfs. }
  apply mview_sim; auto.
  eapply (swap_one E [] k pre slot u long short t sels attrs _ rest); eauto using place_wf.
  - apply parse_attr_ok; auto. exists ((x :: r) ++ [TPunct "=" sp; TGroup Brace [TIdent i]]).
    unfold long. rewrite <- app_assoc. split; [reflexivity|].
    assert (Hk' : name (x :: r) kk (TPunct "=" sp :: TGroup Brace [TIdent i] :: rest)) by (eapply name_before_punct; eauto; discriminate).
    apply (at_kv (x :: r) kk _ (Some (VBlock [TIdent i]))); auto.
    + constructor. constructor.
    + intros Hn. apply name_colon with kk; auto. intros [? ?]; discriminate.
  - apply parse_attr_ok; auto. exists [TGroup Brace (x :: r)]. split; [reflexivity|].
    apply at_short. now constructor.
Qed.
Print Assumptions C19_shorthand.

(** The same for directives, whose modifier comes after the key. *)
Theorem C19_directive E k pre slot u dir sp0 key kk i ms m rest sp : env_ok E ->
  let long := TIdent dir :: TPunct ":" sp0 :: key ++ ms ++ [TPunct "=" sp; TGroup Brace [TIdent i]] ++ rest in
  let short := TIdent dir :: TPunct ":" sp0 :: TGroup Brace key :: ms ++ rest in
  wf (attr_place k pre slot u long) -> at_attr E k pre slot u long ->
  name key kk [] -> name_ident_ok kk i -> opt_modifier ms m rest ->
  mview E (attr_place k pre slot u short) = mview E (attr_place k pre slot u long).
Proof.
  intros HE long short Hwf Hat Hk Hi Hm. symmetry.
  destruct (at_attr_break E k pre slot u (TIdent dir) [] (TPunct ":" sp0 :: key ++ ms ++ [TPunct "=" sp; TGroup Brace [TIdent i]] ++ rest)
    (TPunct ":" sp0) (TGroup Brace key :: ms ++ rest))
    as [Hat' (t & sels & attrs & Hh & Hh')]; auto; [now left|discriminate|].
  assert (Hwf2 := place_inner _ _ _ _ _ Hwf).
  assert (Hwf' : wf short).
  { clear - Hwf2. unfold long, short in *. wfs. }
  apply mview_sim; auto.
  eapply (swap_one E [] k pre slot u long short t sels attrs _ rest); eauto using place_wf.
  - apply parse_attr_ok; auto. exists (TIdent dir :: TPunct ":" sp0 :: key ++ ms ++ [TPunct "=" sp; TGroup Brace [TIdent i]]).
    split; [unfold long; repeat (rewrite <- ?app_assoc; cbn [app]); reflexivity|].
    apply (at_dir dir sp0 key (KKebab kk) ms m [TPunct "=" sp; TGroup Brace [TIdent i]] (Some (VBlock [TIdent i])) rest).
    + constructor. inversion Hm; subst; eapply name_before_punct; eauto; discriminate.
    + inversion Hm; subst; constructor. intros [? ?]; discriminate.
    + constructor. constructor.
  - apply parse_attr_ok; auto. exists (TIdent dir :: TPunct ":" sp0 :: [TGroup Brace key] ++ ms).
    split; [unfold short; repeat (rewrite <- ?app_assoc; cbn [app]); reflexivity|].
    apply at_dir_short; auto. now constructor.
Qed.
Print Assumptions C19_directive.

Example C19_case :
  let k := deep (lex "'z'") (lex "p;") in let pre := lex "p; 'y'" in let u := lex "My.c a=2" in let rest := lex "b=3 { x };" in
  let key := lex "data-x" in let i := Id true "data_x" in
  let long := key ++ [TPunct "=" Alone; TGroup Brace [TIdent i]] ++ rest in
  env_ok E0 /\ wf (attr_place k pre None u long) /\ at_attr E0 k pre None u long /\
  name key (Kebab "data-x" 2) [] /\ name_ident_ok (Kebab "data-x" 2) i /\
  exists out, mview E0 (attr_place k pre None u long) = Expanded out.
Proof.
  cbv zeta. split; [apply E0_ok|].
  rewrite <- and_assoc. split; [apply at_attrb_ok; [apply E0_ok|vm_compute; reflexivity]|].
  split; [apply name_by; vm_compute; reflexivity|].
  split; [split; [intros H; vm_compute in H; intuition discriminate|reflexivity]|].
  eexists. vm_compute. reflexivity.
Qed.
Example C19_directive_case :
  let k := deep (lex "'z'") (lex "p;") in let pre := lex "p; 'y'" in let u := lex "p.c a=2" in let rest := lex "b=3 { x };" in
  let key := lex "click" in let i := Id true "click" in let ms := lex ":undelegated" in
  let long := TIdent (Id false "on") :: TPunct ":" Alone :: key ++ ms ++ [TPunct "=" Alone; TGroup Brace [TIdent i]] ++ rest in
  env_ok E0 /\ wf (attr_place k pre None u long) /\ at_attr E0 k pre None u long /\
  name key (Kebab "click" 1) [] /\ name_ident_ok (Kebab "click" 1) i /\
  opt_modifier ms (Some (Id false "undelegated")) rest /\
  exists out, mview E0 (attr_place k pre None u long) = Expanded out.
Proof.
  cbv zeta. split; [apply E0_ok|].
  rewrite <- and_assoc. split; [apply at_attrb_ok; [apply E0_ok|vm_compute; reflexivity]|].
  split; [apply name_by; vm_compute; reflexivity|].
  split; [split; [intros H; vm_compute in H; intuition discriminate|reflexivity]|].
  split; [constructor|]. eexists. vm_compute. reflexivity.
Qed.
(** The hypothesis is about the long form: after a tag ending in a dash, the
    long form is another tag. *)
Example C19_boundary :
  run_mview "my- a={r#a};" <> run_mview "my- {a};".
Proof. vm_compute. discriminate. Qed.

(** ** C36: stray semicolons *)

Lemma semi_here E sp post : env_ok E ->
  children_of E (TPunct ";" sp :: post) = prepend [DExtraSemi] (children_of E post).
Proof.
  intros HE. rewrite children_of_step by auto.
  assert (parse_child E (children_of E) (TPunct ";" sp :: post) = PR (Fail EChild) (TPunct ";" sp :: post) []) as ->; [|reflexivity].
  rewrite parse_child_step. destruct (parse_value_cases (TPunct ";" sp :: post)) as [(v & u & r & Hu & Hv & _)|[_ ->]].
  - exfalso. inversion Hv; subst; inversion Hu.
  - reflexivity.
Qed.
Lemma child_block E pre x z r : (exists cs, children_phrase E pre cs) -> breaks_name z -> ~ punct "." z ->
  children_block (pre ++ x) -> children_block (pre ++ z :: r).
Proof.
  intros (cs & Hp) Hz Hd H. apply (block_break _ x); auto. right.
  destruct pre as [|y pre]; [exact Hd|].
  destruct (children_start _ _ _ Hp) as (y' & r' & Heq & Hy); [discriminate|]. inversion Heq; subst. exact Hy.
Qed.
Lemma fits_block E k x : fits E k x -> bare_brace k -> children_block x.
Proof.
  destruct k as [|k pre' slot' u' [[[]]|] d' post']; try contradiction. destruct d'; try contradiction.
  intros (_ & (t' & sels' & attrs' & Hh2) & _) _. apply head_open in Hh2. apply Hh2.
Qed.
Lemma at_child_break E k pre x z r : env_ok E -> breaks_name z -> ~ punct "." z ->
  at_child E k pre x -> at_child E k pre (z :: r).
Proof.
  intros HE Hz Hd (Hp & Hf). split; auto. eapply fits_swap; [auto|exact Hf|].
  intros Hb. apply (child_block E pre x z r); auto. now apply (fits_block E k).
Qed.
Lemma child_wf k pre x x' : wf (child_place k pre x) -> wf x' -> wf (child_place k pre x').
Proof.
  unfold child_place. intros H Hx. eapply plug_wf_iff; [exact H|]. apply plug_wf in H. rewrite !wf_app in *. tauto.
Qed.
Lemma child_inner k pre x : wf (child_place k pre x) -> wf x.
Proof. unfold child_place. intros H. apply plug_wf in H. rewrite !wf_app in H. tauto. Qed.
Lemma child_sim E extra k pre x x' : env_ok E -> at_child E k pre x -> at_child E k pre x' ->
  wf (child_place k pre x) -> wf (child_place k pre x') ->
  sim E extra (children_of E x) (children_of E x') ->
  sim E extra (children_of E (child_place k pre x)) (children_of E (child_place k pre x')).
Proof.
  intros HE ((cs & Hp) & Hf) (_ & Hf') Hwf Hwf' Hs. unfold child_place in *. apply plug_sim; auto.
  rewrite !(children_app E pre cs); auto; try now apply plug_wf in Hwf, Hwf'. now apply sim_append.
Qed.
Lemma child_reports E k pre x dg : env_ok E -> at_child E k pre x -> wf (child_place k pre x) ->
  In dg (p_diags (children_of E x)) -> reports E (child_place k pre x) dg.
Proof.
  intros HE ((cs & Hp) & Hf) Hwf Hin. unfold child_place in *. apply mview_reports; auto.
  rewrite (children_app E pre cs); auto; [|now apply plug_wf in Hwf]. now destruct (children_of E x) as [[]].
Qed.

Lemma semicolon_sim E k pre sp post : env_ok E ->
  wf (child_place k pre post) -> at_child E k pre post ->
  sim E [DExtraSemi] (children_of E (child_place k pre post)) (children_of E (child_place k pre (TPunct ";" sp :: post))).
Proof.
  intros HE Hwf Hat. apply child_sim; auto; try discriminate.
  - eapply at_child_break; eauto; [discriminate|]. intros [? ?]; discriminate.
  - eapply child_wf; eauto. apply child_inner in Hwf. wfs.
  - rewrite semi_here by auto. now apply sim_here.
Qed.
Theorem C36_semicolon E k pre sp post : env_ok E ->
  wf (child_place k pre post) -> at_child E k pre post ->
  more [DExtraSemi] (mview E (child_place k pre post)) (mview E (child_place k pre (TPunct ";" sp :: post))).
Proof. intros HE Hwf Hat. apply mview_more; [auto|discriminate|]. now apply semicolon_sim. Qed.
Print Assumptions C36_semicolon.
(** Where the semicolon makes the difference between a block of children and
    an attribute ([p { ; x }] and [p { x }]), there still is the report. *)
Theorem C36_reported E k pre sp post : env_ok E ->
  wf (child_place k pre (TPunct ";" sp :: post)) -> at_child E k pre (TPunct ";" sp :: post) ->
  match mview E (child_place k pre (TPunct ";" sp :: post)) with
  | Errors ds => In DExtraSemi ds
  | Panicked _ => True
  | _ => False
  end.
Proof.
  intros HE Hwf Hat. apply child_reports; auto. rewrite semi_here by auto. left. reflexivity.
Qed.
Print Assumptions C36_reported.

Example C36_case :
  let k := deep (lex "'z'") (lex "p;") in let pre := lex "p; 'y'" in let post := lex "; b { 'c' } 'd'" in
  env_ok E0 /\ wf (child_place k pre post) /\ at_child E0 k pre post /\
  mview E0 (child_place k pre post) = Errors [DExtraSemi] /\
  mview E0 (child_place k pre (TPunct ";" Alone :: post)) = Errors [DExtraSemi; DExtraSemi].
Proof.
  cbv zeta. split; [apply E0_ok|]. rewrite <- and_assoc.
  split; [apply at_childb_ok; [apply E0_ok|vm_compute; reflexivity]|]. split; vm_compute; reflexivity.
Qed.
Example C36_boundary :
  let k := Inside Hole [] None (lex "p") None Brace [] in
  at_child E0 k [] (lex "; x") /\
  mview E0 (child_place k [] (lex "; x")) = Errors [DExtraSemi; DUnterminated] /\
  mview E0 (child_place k [] (lex "x")) = Errors [DUnterminated].
Proof.
  cbv zeta. split; [apply at_childb_ok; [apply E0_ok|vm_compute; reflexivity]|]. split; vm_compute; reflexivity.
Qed.

(** ** C40: literal children that are not strings *)

Definition not_string (l : lit) : Prop := forall s, l <> LitTok LkStr s.
Lemma value_first ts v f : value_phrase ts v f -> exists x r, ts = x :: r /\ ~ punct "." x.
Proof. intros H. inversion H; subst; eexists _, _; (split; [reflexivity|]); intros [? ?]; discriminate. Qed.
Lemma lit_here E ts l post : env_ok E -> wf (ts ++ post) -> value_phrase ts (VLit l) post -> not_string l ->
  children_of E (ts ++ post) = prepend [DNonStrChild] (children_of E (TLit LkStr "" :: post)).
Proof.
  intros HE Hwf Hv Hl. destruct (value_first _ _ _ Hv) as (x & r & -> & _). cbn [app] in *.
  rewrite children_of_step, (children_of_step E (TLit LkStr "")) by auto.
  assert (Hp : parse_value on (x :: r ++ post) >> VLit l, post) by (apply parse_value_ok; exists (x :: r); auto).
  rewrite parse_child_step, Hp. destruct l as [[] s|]; try reflexivity. exfalso. now apply (Hl s).
Qed.
Lemma literal_sim E k pre ts l post : env_ok E ->
  wf (child_place k pre (ts ++ post)) -> at_child E k pre (ts ++ post) ->
  value_phrase ts (VLit l) post -> not_string l ->
  sim E [DNonStrChild] (children_of E (child_place k pre (TLit LkStr "" :: post))) (children_of E (child_place k pre (ts ++ post))).
Proof.
  intros HE Hwf Hat Hv Hl. assert (Hi := child_inner _ _ _ Hwf). apply child_sim; auto; try discriminate.
  - eapply at_child_break; eauto; [discriminate|]. intros [? ?]; discriminate.
  - eapply child_wf; eauto. wfs.
  - rewrite (lit_here E ts l) by auto. now apply sim_here.
Qed.
Theorem C40_literal_child E k pre ts l post : env_ok E ->
  wf (child_place k pre (ts ++ post)) -> at_child E k pre (ts ++ post) ->
  value_phrase ts (VLit l) post -> not_string l ->
  more [DNonStrChild] (mview E (child_place k pre (TLit LkStr "" :: post))) (mview E (child_place k pre (ts ++ post))) /\
  (forall out, mview E (child_place k pre (ts ++ post)) <> Expanded out).
Proof.
  intros HE Hwf Hat Hv Hl.
  assert (H : more [DNonStrChild] (mview E (child_place k pre (TLit LkStr "" :: post))) (mview E (child_place k pre (ts ++ post)))).
  { apply mview_more; [auto|discriminate|]. now apply (literal_sim E k pre ts l). }
  split; [exact H|]. intros out Ho. rewrite Ho in H. inversion H.
Qed.
Print Assumptions C40_literal_child.

Example C40_case :
  let k := deep (lex "'z'") (lex "p;") in let pre := lex "p; 'y'" in let post := lex "b { 'c' } 'd'" in
  env_ok E0 /\
  (wf (child_place k pre (lex "-5" ++ post)) /\ at_child E0 k pre (lex "-5" ++ post)) /\
  value_phrase (lex "-5") (VLit (LitTok LkInt "-5")) post /\ not_string (LitTok LkInt "-5") /\
  mview E0 (child_place k pre (lex "-5" ++ post)) = Errors [DNonStrChild].
Proof.
  cbv zeta. split; [apply E0_ok|].
  split; [apply at_childb_ok; [apply E0_ok|vm_compute; reflexivity]|].
  split; [apply val_neg; auto|]. split; [discriminate|]. vm_compute. reflexivity.
Qed.

(** ** C42: elements that run into the end of their block *)

Lemma unterminated_sim E k pre slot u t sels attrs sp : env_ok E ->
  let cut := slot_tokens slot ++ u in
  wf (child_place k pre cut) -> at_child E k pre cut ->
  opens slot u -> elem_head E u t sels attrs [] ->
  sim E [DUnterminated] (children_of E (child_place k pre (cut ++ [TPunct ";" sp]))) (children_of E (child_place k pre cut)).
Proof.
  intros HE cut Hwf Hat Ho Hh. assert (Hi := child_inner _ _ _ Hwf).
  assert (Hup : upto Narrow u (u ++ [TPunct ";" sp])).
  { rewrite <- (app_nil_r u) at 1. apply upto_app. apply up_end. }
  assert (Ho' := upto_opens slot _ _ Hup Ho).
  assert (Hh' : elem_head E u t sels attrs [TPunct ";" sp]).
  { eapply (upto_head (m := Narrow)); [auto|discriminate|apply up_end| | |exact Hh]; [intros (? & ? & ?); discriminate|intros _ H; discriminate]. }
  assert (Hat' : at_child E k pre (cut ++ [TPunct ";" sp])).
  { destruct Hat as ((cs & Hp) & Hf). split; [eauto|]. eapply fits_swap; [auto|exact Hf|]. intros Hb.
    rewrite app_assoc. apply (block_break _ []); [discriminate| |rewrite app_nil_r; now apply (fits_block E k)].
    right. unfold cut. now apply (place_start E pre cs). }
  assert (Hwf' : wf (child_place k pre (cut ++ [TPunct ";" sp]))).
  { eapply child_wf; eauto. unfold cut in *. wfs. }
  apply child_sim; auto; try discriminate.
  unfold cut in *. rewrite <- app_assoc in *.
  assert (Hn := fun ts => at_element E [] [] slot ts HE).
  assert (Hc : children_of E (slot_tokens slot ++ u ++ [TPunct ";" sp]) = PR (Ret [as_child slot (Element t sels attrs None None)]) [] []).
  { pose proof (Hn (u ++ [TPunct ";" sp])) as H. cbn [app] in H. rewrite H; auto; [|wfs|constructor].
    rewrite (bind_run0 _ _ _ (Element t sels attrs None None) []); [reflexivity|].
    rewrite (element_head E _ u t sels attrs); auto. wfs. }
  assert (Hc' : children_of E (slot_tokens slot ++ u) = PR (Ret [as_child slot (Element t sels attrs None None)]) [] [DUnterminated]).
  { pose proof (Hn u) as H. cbn [app] in H. rewrite H; auto; [|constructor].
    rewrite (bind_run _ _ _ (Element t sels attrs None None) [] [DUnterminated]); [reflexivity|].
    rewrite <- (app_nil_r u). rewrite (element_head E _ u t sels attrs); auto. wfs. }
  rewrite Hc, Hc'. apply (sim_ret E [DUnterminated] _ _ [] []), same_list_refl.
Qed.
Theorem C42_unterminated E k pre slot u t sels attrs sp : env_ok E ->
  let cut := slot_tokens slot ++ u in
  wf (child_place k pre cut) -> at_child E k pre cut ->
  opens slot u -> elem_head E u t sels attrs [] ->
  more [DUnterminated] (mview E (child_place k pre (cut ++ [TPunct ";" sp]))) (mview E (child_place k pre cut)).
Proof.
  intros HE cut Hwf Hat Ho Hh. apply mview_more; [auto|discriminate|]. now apply (unterminated_sim E k pre slot u t sels attrs).
Qed.
Print Assumptions C42_unterminated.

Example C42_case :
  let k := deep (lex "'z'") (lex "p;") in let pre := lex "p; 'y'" in let u := lex "My.c a=1 on:x" in
  env_ok E0 /\ (wf (child_place k pre u) /\ at_child E0 k pre u) /\
  opens None u /\ (exists t sels attrs, elem_head E0 u t sels attrs []) /\
  mview E0 (child_place k pre u) = Errors [DUnterminated].
Proof.
  cbv zeta. split; [apply E0_ok|].
  split; [apply at_childb_ok; [apply E0_ok|vm_compute; reflexivity]|].
  split; [apply opensb_ok; vm_compute; reflexivity|].
  split; [apply elem_headb_ok; [apply E0_ok|apply wfb_ok; vm_compute; reflexivity|vm_compute; reflexivity]|].
  vm_compute. reflexivity.
Qed.

(** ** C37: missing attribute values *)

(** The placeholder [{::leptos_mview::MissingValueAfterEq}]. *)
Definition missing_block : tt :=
  TGroup Brace [TPunct ":" Joint; TPunct ":" Alone; TIdent (Id false "leptos_mview");
                TPunct ":" Joint; TPunct ":" Alone; TIdent (Id false "MissingValueAfterEq")].
Definition no_value (rest : list tt) : Prop := forall ts v r, rest = ts ++ r -> ~ value_phrase ts v r.

Lemma missing_here rest : no_value rest -> exists help,
  parse_or_emit_err rest = PR (Ret missing_value) rest [DExpectedValue help].
Proof.
  intros Hn. exists (peek_ident rest). unfold parse_or_emit_err.
  destruct (parse_value_cases rest) as [(u & v & r & Hu & Hv & _)|[_ Hf]]; [exfalso; eapply Hn; eauto|].
  rewrite (bind_run0 _ _ _ None rest); [reflexivity|]. unfold rollback_err. now rewrite Hf.
Qed.
Lemma missing_there rest : parse_or_emit_err (missing_block :: rest) = PR (Ret missing_value) rest [].
Proof. apply parse_or_emit_ok. exists [missing_block]. split; [reflexivity|apply val_block]. Qed.
Lemma bind_run_d {A B} (m : P A) (f : A -> P B) ts a r d d' b r' : m ts = PR (Ret a) r d -> f a r = PR (Ret b) r' d' ->
  bind m f ts = PR (Ret b) r' (d ++ d').
Proof. intros H H'. now rewrite (bind_run _ _ _ _ _ _ H), H'. Qed.

(** [parse_attr] up to the [=] of [key=]. *)
Lemma attr_eq key kk sp rest v r d : wf (key ++ TPunct "=" sp :: rest) -> name key kk [] ->
  parse_or_emit_err rest = PR (Ret v) r d ->
  parse_attr (key ++ TPunct "=" sp :: rest) = PR (Ret (AKv (KvAttr kk v))) r d.
Proof.
  intros Hwf Hk Hv.
  assert (Hk' : name key kk (TPunct "=" sp :: rest)) by (eapply name_before_punct; eauto; discriminate).
  assert (Hn : parse_kebab on (key ++ TPunct "=" sp :: rest) >> kk, TPunct "=" sp :: rest).
  { apply parse_kebab_ok; [now apply wf_wf_head|]. eauto. }
  assert (Hkv : parse_kv (key ++ TPunct "=" sp :: rest) = PR (Ret (KvAttr kk v)) r d).
  { unfold parse_kv. rewrite (bind_run0 _ _ _ (peek_group Brace (key ++ TPunct "=" sp :: rest)) _ eq_refl).
    assert (peek_group Brace (key ++ TPunct "=" sp :: rest) = false) as ->.
    { destruct (name_start_of _ _ _ Hk) as (x & q & -> & Hx). destruct Hx as [Hx|[? ->]]; [destruct x; try contradiction|]; reflexivity. }
    rewrite (bind_run0 _ _ _ _ _ Hn). rewrite (bind_run0 _ _ _ (Some Datatypes.tt) rest) by reflexivity.
    rewrite (bind_run _ _ _ _ _ _ Hv). cbn. now rewrite app_nil_r. }
  rewrite parse_attr_step.
  assert (peek_any (key ++ TPunct "=" sp :: rest) && peek2 (peek_punct ":") (key ++ TPunct "=" sp :: rest) = false) as ->.
  { apply dir_test_f. intros Hi. destruct (name_start_of _ _ _ Hk) as (x & q & -> & Hx).
    apply (name_colon _ _ _ Hk'); auto. intros [? ?]; discriminate. }
  assert (Hr : rollback_err parse_kv (key ++ TPunct "=" sp :: rest) = PR (Ret (Some (KvAttr kk v))) r d) by (unfold rollback_err; now rewrite Hkv).
  destruct (peek_ident _); [rewrite (bind_run _ _ _ _ _ _ Hkv)|rewrite (bind_run _ _ _ _ _ _ Hr)]; cbn; now rewrite app_nil_r.
Qed.

Lemma missing_value_sim E k pre slot u key kk sp rest : env_ok E ->
  let x := key ++ TPunct "=" sp :: rest in
  wf (attr_place k pre slot u x) -> at_attr E k pre slot u x ->
  name key kk [] -> no_value rest ->
  exists help, sim E [DExpectedValue help]
    (children_of E (attr_place k pre slot u (key ++ TPunct "=" sp :: missing_block :: rest)))
    (children_of E (attr_place k pre slot u x)).
Proof.
  intros HE x Hwf Hat Hk Hn. destruct (missing_here rest Hn) as (help & Hv). exists help.
  destruct (name_start_of _ _ _ Hk) as (y & r & -> & Hy).
  destruct (at_attr_break E k pre slot u y r (TPunct "=" sp :: rest) (TPunct "=" sp) (missing_block :: rest))
    as [Hat' (t & sels & attrs & Hh & Hh')]; auto; [discriminate|].
  assert (Hwf2 := place_inner _ _ _ _ _ Hwf).
  assert (Hwf' : wf ((y :: r) ++ TPunct "=" sp :: missing_block :: rest)).
  { clear - Hwf2. unfold x in *. assert (Hm : wf_tt missing_block) by (assert (Hm : wf [missing_block]) by (apply wfb_ok; vm_compute; reflexivity); now inversion Hm).
    wfs. }
  eapply (swap_one E _ k pre slot u _ x t sels attrs _ rest); eauto using place_wf.
  - apply attr_eq; [exact Hwf'|exact Hk|apply missing_there].
  - now apply attr_eq.
Qed.
Theorem C37_missing_value E k pre slot u key kk sp rest : env_ok E ->
  let x := key ++ TPunct "=" sp :: rest in
  wf (attr_place k pre slot u x) -> at_attr E k pre slot u x ->
  name key kk [] -> no_value rest ->
  exists help, more [DExpectedValue help]
    (mview E (attr_place k pre slot u (key ++ TPunct "=" sp :: missing_block :: rest)))
    (mview E (attr_place k pre slot u x)).
Proof.
  intros HE x Hwf Hat Hk Hn. destruct (missing_value_sim E k pre slot u key kk sp rest HE Hwf Hat Hk Hn) as (help & H).
  exists help. apply mview_more; [auto|discriminate|exact H].
Qed.
Print Assumptions C37_missing_value.

(** The same for directives. *)
Lemma dir_eq dir sp0 ks kd ms m sp rest v r d : let x := TIdent dir :: TPunct ":" sp0 :: ks ++ ms ++ TPunct "=" sp :: rest in
  wf x -> key_phrase ks kd (ms ++ TPunct "=" sp :: rest) -> opt_modifier ms m (TPunct "=" sp :: rest) ->
  parse_or_emit_err rest = PR (Ret v) r d ->
  parse_attr x = PR (Ret (ADir (Directive dir kd m (Some v)))) r d.
Proof.
  intros x Hwf Hk Hm Hv. unfold x in *.
  rewrite parse_attr_step. assert (Ht := proj2 (dir_test (TIdent dir :: TPunct ":" sp0 :: ks ++ ms ++ TPunct "=" sp :: rest))).
  rewrite Ht by eauto. clear Ht.
  assert (Hd : parse_directive (TIdent dir :: TPunct ":" sp0 :: ks ++ ms ++ TPunct "=" sp :: rest) = PR (Ret (Directive dir kd m (Some v))) r d).
  { unfold parse_directive. rewrite (bind_run0 _ _ _ dir (TPunct ":" sp0 :: ks ++ ms ++ TPunct "=" sp :: rest)) by reflexivity.
    rewrite (bind_run0 _ _ _ Datatypes.tt (ks ++ ms ++ TPunct "=" sp :: rest)) by reflexivity.
    rewrite (bind_run0 _ _ _ (peek_group Brace (ks ++ ms ++ TPunct "=" sp :: rest)) _ eq_refl).
    assert (peek_group Brace (ks ++ ms ++ TPunct "=" sp :: rest) = false) as ->.
    { inversion Hk as [|? kk ? Hn]; subst; [reflexivity|].
      destruct (name_start_of _ _ _ Hn) as (y & q & -> & Hx). destruct Hx as [Hx|[? ->]]; [destruct y; try contradiction|]; reflexivity. }
    rewrite (bind_run0 _ _ _ kd (ms ++ TPunct "=" sp :: rest)).
    2:{ apply parse_kebab_or_str_ok; eauto. apply wf_wf_head. wfs. }
    rewrite (bind_run0 _ _ _ m (TPunct "=" sp :: rest)) by (apply try_parse_modifier_ok; eauto).
    rewrite (bind_run0 _ _ _ (Some Datatypes.tt) rest) by reflexivity.
    rewrite (bind_run _ _ _ _ _ _ Hv). cbn. now rewrite app_nil_r. }
  rewrite (bind_run _ _ _ (Directive dir kd m (Some v)) r d); [cbn; now rewrite app_nil_r|].
  unfold unwrap_or_abort. now rewrite Hd.
Qed.
Lemma missing_directive_sim E k pre slot u dir sp0 ks kd ms m sp rest : env_ok E ->
  let start := TIdent dir :: TPunct ":" sp0 :: ks ++ ms ++ [TPunct "=" sp] in
  wf (attr_place k pre slot u (start ++ rest)) -> at_attr E k pre slot u (start ++ rest) ->
  key_phrase ks kd (ms ++ TPunct "=" sp :: rest) -> opt_modifier ms m (TPunct "=" sp :: rest) ->
  no_value rest ->
  exists help, sim E [DExpectedValue help]
    (children_of E (attr_place k pre slot u (start ++ missing_block :: rest)))
    (children_of E (attr_place k pre slot u (start ++ rest))).
Proof.
  intros HE start Hwf Hat Hk Hm Hn. destruct (missing_here rest Hn) as (help & Hv). exists help.
  assert (Heq : forall q, start ++ q = TIdent dir :: TPunct ":" sp0 :: ks ++ ms ++ TPunct "=" sp :: q)
    by (intros q; unfold start; cbn [app]; now rewrite <- !app_assoc).
  destruct (at_attr_break E k pre slot u (TIdent dir) [] (TPunct ":" sp0 :: ks ++ ms ++ TPunct "=" sp :: rest) (TPunct ":" sp0)
     (ks ++ ms ++ TPunct "=" sp :: missing_block :: rest))
    as [Hat' (t & sels & attrs & Hh & Hh')]; auto; [now left|discriminate|cbn [app]; rewrite <- Heq; exact Hat|].
  cbn [app] in Hat', Hh, Hh'. rewrite <- Heq in Hat', Hh, Hh'.
  assert (Hwf2 := place_inner _ _ _ _ _ Hwf).
  assert (Hwf' : wf (start ++ missing_block :: rest)).
  { clear - Hwf2. assert (Hm : wf_tt missing_block) by (assert (Hm : wf [missing_block]) by (apply wfb_ok; vm_compute; reflexivity); now inversion Hm).
    unfold start in *. wfs. }
  eapply (swap_one E _ k pre slot u _ _ t sels attrs _ rest); eauto using place_wf.
  - rewrite Heq in *. apply (dir_eq dir sp0 ks kd ms m sp _ missing_value rest []); [exact Hwf'| | |apply missing_there].
    + inversion Hk; subst; constructor. inversion Hm; subst; eapply name_before_punct; eauto; discriminate.
    + inversion Hm; subst; constructor. intros [? ?]; discriminate.
  - rewrite Heq in *. now apply dir_eq.
Qed.
Theorem C37_directive E k pre slot u dir sp0 ks kd ms m sp rest : env_ok E ->
  let start := TIdent dir :: TPunct ":" sp0 :: ks ++ ms ++ [TPunct "=" sp] in
  wf (attr_place k pre slot u (start ++ rest)) -> at_attr E k pre slot u (start ++ rest) ->
  key_phrase ks kd (ms ++ TPunct "=" sp :: rest) -> opt_modifier ms m (TPunct "=" sp :: rest) ->
  no_value rest ->
  exists help, more [DExpectedValue help]
    (mview E (attr_place k pre slot u (start ++ missing_block :: rest)))
    (mview E (attr_place k pre slot u (start ++ rest))).
Proof.
  intros HE start Hwf Hat Hk Hm Hn. destruct (missing_directive_sim E k pre slot u dir sp0 ks kd ms m sp rest HE Hwf Hat Hk Hm Hn) as (help & H).
  exists help. apply mview_more; [auto|discriminate|exact H].
Qed.
Print Assumptions C37_directive.

Example C37_case :
  let k := deep (lex "'z'") (lex "p;") in let pre := lex "p; 'y'" in let u := lex "My.c a=2" in let rest := lex "b=3 { x };" in
  let key := lex "data-x" in let x := key ++ TPunct "=" Alone :: rest in
  env_ok E0 /\ (wf (attr_place k pre None u x) /\ at_attr E0 k pre None u x) /\
  name key (Kebab "data-x" 2) [] /\ no_value rest /\
  mview E0 (attr_place k pre None u x) = Errors [DExpectedValue true].
Proof.
  cbv zeta. split; [apply E0_ok|].
  split; [apply at_attrb_ok; [apply E0_ok|vm_compute; reflexivity]|].
  split; [apply name_by; vm_compute; reflexivity|].
  split; [|vm_compute; reflexivity].
  intros ts v r Heq Hv. assert (Hp : parse_value on lex "b=3 { x };" >> v, r) by (apply parse_value_ok; eauto).
  vm_compute in Hp. discriminate.
Qed.
Example C37_directive_case :
  let k := deep (lex "'z'") (lex "p;") in let pre := lex "p; 'y'" in let u := lex "p.c a=2" in let rest := lex "; 'w'" in
  let ks := lex "click" in let ms := lex ":undelegated" in
  let x := (TIdent (Id false "on") :: TPunct ":" Alone :: ks ++ ms ++ [TPunct "=" Alone]) ++ rest in
  env_ok E0 /\ (wf (attr_place k pre None u x) /\ at_attr E0 k pre None u x) /\
  key_phrase ks (KKebab (Kebab "click" 1)) (ms ++ TPunct "=" Alone :: rest) /\
  opt_modifier ms (Some (Id false "undelegated")) (TPunct "=" Alone :: rest) /\ no_value rest /\
  mview E0 (attr_place k pre None u x) = Errors [DExpectedValue false].
Proof.
  cbv zeta. split; [apply E0_ok|].
  split; [apply at_attrb_ok; [apply E0_ok|vm_compute; reflexivity]|].
  split; [constructor; apply name_by; vm_compute; reflexivity|].
  split; [constructor|]. split; [|vm_compute; reflexivity].
  intros ts v r Heq Hv. assert (Hp : parse_value on lex "; 'w'" >> v, r) by (apply parse_value_ok; eauto).
  vm_compute in Hp. discriminate.
Qed.

(** ** C20: parentheses and braces around children *)

(** Well-formed children are never taken for an attribute. *)
Lemma name_longest ts1 k f ts r : name ts1 k f -> ts1 ++ f = ts ++ r -> name_phrase ts -> exists x, ts1 = ts ++ x.
Proof.
  intros (Hn & He & _) Heq Hp. apply app_eq_cases in Heq. destruct Heq as [(x & -> & ->)|(x & -> & ->)]; [|eauto].
  destruct x as [|t x]; [exists []; now rewrite !app_nil_r|]. exfalso. cbn in He. apply He.
  change (t :: x) with ([t] ++ x) in Hp. rewrite app_assoc in Hp. eapply phrase_prefix; eauto. destruct ts1; discriminate.
Qed.
Lemma tag_prefix E ts1 t f ts r : tag_phrase E ts1 t f -> next_ident ts1 -> ts1 ++ f = ts ++ r -> name_phrase ts ->
  Forall (fun t => ~ raw_token t) (tl ts).
Proof.
  intros Ht Hi Heq Hp.
  assert (Hname : forall k, name ts1 k f -> Forall (fun t => ~ raw_token t) (tl ts)).
  { intros k Hn. destruct (name_longest _ _ _ _ _ Hn Heq Hp) as [x ->]. destruct Hn as (_ & _ & Hr & _).
    destruct ts; [constructor|]. cbn in *. now apply Forall_app in Hr. }
  destruct Ht as [ts1 p f Hf _| | | | |]; eauto.
  destruct ts1 as [|[i| | |] ts1]; try contradiction. clear Hname. cbn in Heq.
  destruct Hf as [(? & ? & Hf)|Hf]; [discriminate|]. cbn in Hf.
  assert (Hz : exists z q, ts1 ++ f = z :: q /\ breaks_name z).
  { destruct Hf as [(sp & q & Hq)|Hf].
    - eexists _, _. split; [exact Hq|discriminate].
    - destruct (ts1 ++ f) as [|z q]; [contradiction|]. destruct Hf as [sp ->]. eexists _, _. split; [reflexivity|discriminate]. }
  destruct Hz as (z & q & Hq & Hz). rewrite Hq in Heq.
  destruct (name_before z [TIdent i] q ts r Hz Heq Hp) as [l Hl]. 
  destruct ts as [|y ts]; [constructor|]. inversion Hl. destruct ts; [constructor|discriminate].
Qed.
Lemma clean_block E x cs : children_phrase E x cs -> children_block x.
Proof.
  intros H. assert (Hop : ~ next_op "." "." x).
  { destruct x as [|y x]; [intros (? & ? & ?); discriminate|].
    destruct (children_start _ _ _ H) as (y' & r & Heq & Hy); [discriminate|]. inversion Heq; subst.
    intros (? & ? & Hs). inversion Hs; subst. apply Hy. now eexists. }
  inversion H as [|ts c ts' cs' Hc Hcs]; subst.
  { split; [intros Hn; inversion Hn|]. split; auto. intros ts r Heq Hn. symmetry in Heq. apply app_eq_nil in Heq. destruct Heq; subst. inversion Hn. }
  assert (Hb : exists a z r, ts = a ++ z :: r /\ breaks_name z /\
     forall u r', ts ++ ts' = u ++ r' -> name_phrase u -> (exists l, a = u ++ l) -> Forall (fun t => ~ raw_token t) (tl u)).
  { assert (Hshort : forall (a u l : list tt), (a = [] \/ exists y, a = [y]) -> a = u ++ l -> Forall (fun t => ~ raw_token t) (tl u)).
    { intros a u l [->|[y ->]] Heq.
      - destruct u; [constructor|discriminate].
      - destruct u as [|? u]; [constructor|]. inversion Heq. destruct u; [constructor|discriminate]. }
    inversion Hc; subst.
    - inversion H0; subst.
      + destruct (H1 _ eq_refl) as [s' Hs]. inversion Hs; subst.
        exists [], (TLit LkStr s'), []. split; [reflexivity|]. split; [discriminate|]. intros u r' _ _ (l & Hl). eapply Hshort; [|exact Hl]; eauto.
      + destruct (H1 _ eq_refl) as [s' Hs]. inversion Hs; subst. destruct H2; discriminate.
      + destruct (H1 _ eq_refl) as [s' Hs]. discriminate.
      + destruct (H1 _ eq_refl) as [s' Hs]. discriminate.
      + exists [], (TGroup Brace ts0), []. split; [reflexivity|]. split; [exact I|]. intros u r' _ _ (l & Hl). eapply Hshort; [|exact Hl]; eauto.
      + exists [], (TGroup Bracket ts0), []. split; [reflexivity|]. split; [exact I|]. intros u r' _ _ (l & Hl). eapply Hshort; [|exact Hl]; eauto.
      + exists [TIdent i], (TGroup Bracket ts0), []. split; [reflexivity|]. split; [exact I|]. intros u r' _ _ (l & Hl). eapply Hshort; [|exact Hl]; eauto.
    - inversion H0 as [ts1 t ts2 sels ts3 attrs ts4 args co follow Ht Hs Ha He]; subst.
      assert (Hz : exists z q, ts4 = z :: q /\ breaks_name z).
      { inversion He as [|b cb Hb|]; subst; try inversion Hb; subst; eexists _, _; (split; [reflexivity|]); try exact I; discriminate. }
      destruct Hz as (z & q & -> & Hz). exists (ts1 ++ ts2 ++ ts3), z, q. split; [now rewrite <- !app_assoc|]. split; [exact Hz|].
      intros u r' Heq Hn _. eapply (tag_prefix E ts1); [exact Ht| | |exact Hn].
      + pose proof (tag_nonempty _ _ _ _ Ht) as Hne. destruct ts1; [congruence|]. exact H1.
      + rewrite <- !app_assoc in Heq. cbn [app] in *. rewrite <- !app_assoc in *. exact Heq.
    - exists [TIdent (Id false "slot")], (TPunct ":" sp), ts0. split; [reflexivity|]. split; [discriminate|].
      intros u r' _ _ (l & Hl). eapply Hshort; [|exact Hl]; eauto. }
  destruct Hb as (a & z & r & -> & Hz & Hraw).
  split; [|split; auto].
  - rewrite <- app_assoc. now apply name_breaks.
  - intros u r' Heq Hn. eapply Hraw; eauto. rewrite <- app_assoc in Heq. cbn in Heq. eapply name_before; eauto.
Qed.

Lemma block_delim E k pre slot u args d d' post x : env_ok E -> d' = Brace \/ d' = Paren ->
  (args = None -> d' = Brace -> children_block x) ->
  wf (plug (Inside k pre slot u args d post) x) ->
  fits E (Inside k pre slot u args d post) x ->
  fits E (Inside k pre slot u args d' post) x /\
  mview E (plug (Inside k pre slot u args d post) x) = mview E (plug (Inside k pre slot u args d' post) x).
Proof.
  intros HE Hd' Hb Hwf ((cs & Hp) & (t & sels & attrs & Hh) & Ho & Ha & Hd & Hk).
  cbn [plug] in *.
  assert (Hup : upto Narrow (args_tokens args ++ TGroup d x :: post) (args_tokens args ++ TGroup d' x :: post)).
  { apply upto_app, up_stop, ss_group. destruct Hd, Hd'; subst; split; discriminate. }
  assert (Hh' : elem_head E u t sels attrs (args_tokens args ++ TGroup d' x :: post)).
  { eapply (upto_head (m := Narrow)); [auto|discriminate|exact Hup|apply args_not_op| |exact Hh].
    intros _. destruct args as [[[sp l] sp']|]; [discriminate|]. destruct Hd'; subst; cbn; auto. }
  assert (Ho' : opens slot (u ++ args_tokens args ++ TGroup d' x :: post)).
  { eapply upto_opens; [|exact Ho]. now apply upto_app. }
  assert (Hk' : fits E k (pre ++ slot_tokens slot ++ u ++ args_tokens args ++ TGroup d' x :: post)).
  { eapply fits_swap; [auto|exact Hk|]. intros Hbb. apply fits_block in Hk; auto.
    rewrite !app_assoc in *. apply (block_break _ (TGroup d x :: post)); [exact I| |exact Hk].
    right. rewrite <- !app_assoc. 
    assert (Hs := place_start E pre cs slot _ [] Hp Ho'). rewrite <- !app_assoc in *. rewrite app_nil_r in Hs. intros Hq. apply Hs.
    clear - Hq Ho'. destruct pre; [|exact Hq]. destruct slot; [exact Hq|]. destruct u; [|exact Hq]. cbn in *. destruct args as [[[? ?] ?]|]; exact Hq. }
  split; [repeat (split; eauto)|].
  assert (Hwf1 := plug_wf _ _ Hwf).
  assert (Hwf' : wf (pre ++ slot_tokens slot ++ u ++ args_tokens args ++ TGroup d' x :: post)).
  { rewrite !wf_app, wf_cons, wf_group in *. tauto. }
  apply mview_plug; auto.
  - eapply plug_wf_iff; eauto.
  - rewrite (at_block E pre cs slot u t sels attrs args d x post); auto.
    rewrite (at_block E pre cs slot u t sels attrs args d' x post); auto.
    apply sim_append.
    destruct (children_of_cases E x HE) as [(ci & ds & ->)|[(r & ds & -> & _)|(w & r & ds & ->)]].
    + apply sim_cons; [apply same_refl|now apply sim_refl].
    + apply (sim_abort E [] _ _ [] ds).
    + apply (sim_panic E [] w _ _ [] ds).
Qed.

Theorem C20_same E k pre slot u args post x : env_ok E ->
  let inside d := Inside k pre slot u args d post in
  wf (plug (inside Paren) x) -> fits E (inside Paren) x ->
  args <> None \/ children_block x ->
  mview E (plug (inside Brace) x) = mview E (plug (inside Paren) x).
Proof.
  intros HE inside Hwf Hf Hb. symmetry. eapply (block_delim E k pre slot u args Paren Brace); auto.
  intros Ha _. destruct Hb; auto; congruence.
Qed.
Print Assumptions C20_same.

(** If parentheses are accepted, so are braces. *)
Theorem C20_braces E k pre slot u args post x out : env_ok E ->
  let inside d := Inside k pre slot u args d post in
  wf (plug (inside Paren) x) -> fits E (inside Paren) x ->
  mview E (plug (inside Paren) x) = Expanded out ->
  mview E (plug (inside Brace) x) = Expanded out.
Proof.
  intros HE inside Hwf Hf Hm. rewrite <- Hm. apply C20_same; auto. right.
  destruct (children_of_cases E x HE) as [(c2 & d2 & H2)|[(r2 & d2 & H2 & _)|(w & r2 & d2 & H2)]].
  - destruct d2 as [|d0 d2].
    + apply children_of_ok in H2; auto.
      * destruct H2 as [_ H2]. eapply clean_block; eauto.
      * apply plug_wf in Hwf. exact Hwf.
    + exfalso. eapply (mview_spoiled E (inside Paren) x); eauto. intros cs. rewrite H2. discriminate.
  - exfalso. eapply (mview_spoiled E (inside Paren) x); eauto. intros cs. rewrite H2. discriminate.
  - exfalso. eapply (mview_spoiled E (inside Paren) x); eauto. intros cs. rewrite H2. discriminate.
Qed.
Print Assumptions C20_braces.

Example C20_case :
  let k := deep (lex "'z'") (lex "p;") in
  let inside d := Inside k (lex "p; 'y'") None (lex "My.c a=2 b") None d (lex "p;") in
  let x := lex "b { 'x' } 'w' {e}" in
  env_ok E0 /\ wf (plug (inside Paren) x) /\ fits E0 (inside Paren) x /\ children_block x /\
  exists out, mview E0 (plug (inside Paren) x) = Expanded out.
Proof.
  cbv zeta. split; [apply E0_ok|].
  assert (Hwf : wf (plug (Inside (deep (lex "'z'") (lex "p;")) (lex "p; 'y'") None (lex "My.c a=2 b") None Paren (lex "p;")) (lex "b { 'x' } 'w' {e}")))
    by (apply wfb_ok; vm_compute; reflexivity).
  split; [exact Hwf|].
  split; [apply fitsb_ok; [apply E0_ok|exact Hwf|vm_compute; reflexivity]|].
  split; [|eexists; vm_compute; reflexivity].
  destruct (childrenb_ok E0 (lex "b { 'x' } 'w' {e}")) as [cs Hcs];
    [apply E0_ok|apply wfb_ok; vm_compute; reflexivity|vm_compute; reflexivity|].
  eapply clean_block; eauto.
Qed.
(** The converse fails: [p {x}] is an attribute. *)
Theorem C20_converse_refuted :
  exists u x out, fits E0 (Inside Hole [] None u None Paren (lex ";")) x /\
    mview E0 (u ++ TGroup Brace x :: lex ";") = Expanded out /\
    forall out', mview E0 (u ++ TGroup Paren x :: lex ";") <> Expanded out'.
Proof.
  exists (lex "p"), (lex "x"). eexists. split; [|split; [vm_compute; reflexivity|intros out'; vm_compute; discriminate]].
  apply fitsb_ok; [apply E0_ok|apply wfb_ok; vm_compute; reflexivity|vm_compute; reflexivity].
Qed.
Print Assumptions C20_converse_refuted.
