(** Theorem C46: recovering from errors. *)
From Verif Require Import PropFacts1 CodeFacts ElementFacts Inv Fuel ExampleFacts PlaceFacts.
From Verif Require Import Follow Context Same Swap Properties4.
From Verif Require Import SpecStr SpecGrammar SpecContext SpecRecover Lex.
Open Scope list_scope.

(** ** The two back ends *)

Lemma root_block E cs ts d : root_tokens E cs = XR (XRet ts) d -> exists inner, ts = [TGroup Brace inner].
Proof.
  intros H. unfold root_tokens in H.
  assert (Hm : forall (m : X (list (list tt))) f, xbind m (fun l => xret [TGroup Brace (f l)]) = XR (XRet ts) d -> exists inner, ts = [TGroup Brace inner]).
  { intros [[l| |w] dm] f Hx; cbn in Hx; inversion Hx; eauto. }
  assert (Hm1 : forall (m : X (list tt)) f, xbind m (fun l => xret [TGroup Brace (f l)]) = XR (XRet ts) d -> exists inner, ts = [TGroup Brace inner]).
  { intros [[l| |w] dm] f Hx; cbn in Hx; inversion Hx; eauto. }
  destruct cs as [|c [|c' cs]].
  - apply Hm in H. exact H.
  - destruct c as [v|e|e]; [eapply Hm1; exact H|eapply Hm1; exact H|discriminate].
  - destruct (existsb is_slot (c :: c' :: cs)); [discriminate|]. apply Hm in H. exact H.
Qed.
(** With the nightly back end the macro reports what it reports on stable, and
    expands to the same tokens if there is nothing to report; otherwise the
    result still is one block or [()]. *)
Theorem C46_back_ends E input : env_ok E -> wf input ->
  match mview E input, mview_nightly E input with
  | Expanded ts, Gave ts' ds => ts' = ts /\ ds = []
  | Errors ds, Gave ts' ds' => ds' = ds /\ ds <> [] /\ (ts' = [TGroup Paren []] \/ exists inner, ts' = [TGroup Brace inner])
  | Panicked w, Crashed w' => w' = w
  | _, _ => False
  end.
Proof.
  intros HE Hw. unfold mview, mview_nightly. fold (children_of E input).
  destruct (children_of_cases E input HE) as [(cs & d & ->)|[(r & d & -> & Hd)|(w & r & d & ->)]]; auto.
  destruct (root_tokens E cs) as [[ts| |w] d'] eqn:Hr; auto.
  - destruct (d ++ d') as [|x l]; auto. split; auto. split; [discriminate|]. right.
    eapply root_block; eauto.
  - split; auto. split; auto. assert (Hf := root_fine E cs HE). intros Hd. apply app_eq_nil in Hd. destruct Hd; subst.
    apply (xfine_abort _ _ Hf); now rewrite Hr.
Qed.
Print Assumptions C46_back_ends.

(** ** Recovering *)

Lemma nightly_also E extra a b : env_ok E -> sim E extra (children_of E a) (children_of E b) ->
  also extra (mview_nightly E a) (mview_nightly E b).
Proof.
  intros HE H. unfold mview_nightly. fold (children_of E a). fold (children_of E b).
  inversion H as [cs cs' d d' Hcs| |]; [|constructor|constructor].
  rewrite (root_same E _ _ Hcs). destruct (root_tokens E cs') as [[ts| |w] ds]; [| |constructor].
  - rewrite <- !app_assoc. constructor.
  - rewrite <- !app_assoc. constructor.
Qed.
Lemma sim_recovers E extra a b : env_ok E -> extra <> [] -> sim E extra (children_of E a) (children_of E b) ->
  recovers E extra a b.
Proof. intros HE Hx H. split; [now apply mview_more|now apply nightly_also]. Qed.

(** A stray semicolon is skipped. *)
Theorem C46_semicolon E k pre sp post : env_ok E ->
  wf (child_place k pre post) -> at_child E k pre post ->
  recovers E [DExtraSemi] (child_place k pre post) (child_place k pre (TPunct ";" sp :: post)).
Proof. intros. apply sim_recovers; [auto|discriminate|]. now apply semicolon_sim. Qed.
Print Assumptions C46_semicolon.

(** A literal child that is not a string counts as the empty string. *)
Theorem C46_literal E k pre ts l post : env_ok E ->
  wf (child_place k pre (ts ++ post)) -> at_child E k pre (ts ++ post) ->
  value_phrase ts (VLit l) post -> not_string l ->
  recovers E [DNonStrChild] (child_place k pre (TLit LkStr "" :: post)) (child_place k pre (ts ++ post)).
Proof. intros. apply sim_recovers; [auto|discriminate|]. eapply literal_sim; eauto. Qed.
Print Assumptions C46_literal.

(** An element at the end of its block needs no [;]. *)
Theorem C46_unterminated E k pre slot u t sels attrs sp : env_ok E ->
  let cut := slot_tokens slot ++ u in
  wf (child_place k pre cut) -> at_child E k pre cut ->
  opens slot u -> elem_head E u t sels attrs [] ->
  recovers E [DUnterminated] (child_place k pre (cut ++ [TPunct ";" sp])) (child_place k pre cut).
Proof. intros. apply sim_recovers; [auto|discriminate|]. eapply unterminated_sim; eauto. Qed.
Print Assumptions C46_unterminated.

(** A missing value is replaced by [{::leptos_mview::MissingValueAfterEq}]. *)
Theorem C46_missing_value E k pre slot u key kk sp rest : env_ok E ->
  let x := key ++ TPunct "=" sp :: rest in
  wf (attr_place k pre slot u x) -> at_attr E k pre slot u x ->
  name key kk [] -> no_value rest ->
  exists help, recovers E [DExpectedValue help]
    (attr_place k pre slot u (key ++ TPunct "=" sp :: missing_block :: rest))
    (attr_place k pre slot u x).
Proof.
  intros HE x Hwf Hat Hk Hn. destruct (missing_value_sim E k pre slot u key kk sp rest HE Hwf Hat Hk Hn) as (help & H).
  exists help. apply sim_recovers; [auto|discriminate|exact H].
Qed.
Print Assumptions C46_missing_value.
Theorem C46_missing_directive E k pre slot u dir sp0 ks kd ms m sp rest : env_ok E ->
  let start := TIdent dir :: TPunct ":" sp0 :: ks ++ ms ++ [TPunct "=" sp] in
  wf (attr_place k pre slot u (start ++ rest)) -> at_attr E k pre slot u (start ++ rest) ->
  key_phrase ks kd (ms ++ TPunct "=" sp :: rest) -> opt_modifier ms m (TPunct "=" sp :: rest) ->
  no_value rest ->
  exists help, recovers E [DExpectedValue help]
    (attr_place k pre slot u (start ++ missing_block :: rest))
    (attr_place k pre slot u (start ++ rest)).
Proof.
  intros HE start Hwf Hat Hk Hm Hn. destruct (missing_directive_sim E k pre slot u dir sp0 ks kd ms m sp rest HE Hwf Hat Hk Hm Hn) as (help & H).
  exists help. apply sim_recovers; [auto|discriminate|exact H].
Qed.
Print Assumptions C46_missing_directive.

(** After a token at which no child can start, the rest of the block is
    skipped. *)
Definition no_child (x : list tt) : Prop :=
  x <> [] /\ ~ next_ident x /\ ~ next_punct ";" x /\ no_value x.
Lemma no_child_here E x : env_ok E -> no_child x -> children_of E x = PR (Ret []) [] [DParse EChild].
Proof.
  intros HE (Hx & Hi & Hs & Hv). rewrite children_step by auto.
  assert (parse_child E (children_of E) x = PR (Fail EChild) x []) as ->.
  { rewrite parse_child_step. destruct (parse_value_cases x) as [(u & v & r & Hu & Hv' & _)|[_ ->]]; [exfalso; eapply Hv; eauto|].
    destruct x as [|[] x]; try reflexivity. exfalso. now apply Hi. }
  cbn [child_result]. destruct (peek_punct ";" x) eqn:Hp; [|reflexivity].
  exfalso. apply Hs. apply (peek_punct1 ";"%char); [discriminate|exact Hp].
Qed.
Theorem C46_no_child E k pre x : env_ok E ->
  wf (child_place k pre x) -> at_child E k pre x -> no_child x ->
  recovers E [DParse EChild] (child_place k pre []) (child_place k pre x).
Proof.
  intros HE Hwf Hat Hx. apply sim_recovers; [auto|discriminate|].
  assert (Hat' : at_child E k pre []).
  { destruct Hat as ((cs & Hp) & Hf). split; [eauto|]. eapply fits_swap; eauto. intros _. rewrite app_nil_r. eapply clean_block; eauto. }
  apply child_sim; auto. { eapply child_wf; eauto. constructor. }
  rewrite (no_child_here E x) by auto. exact (sim_ret E [DParse EChild] [] [] [] [] (Forall2_nil _)).
Qed.
Print Assumptions C46_no_child.

(** An element not followed by [;], a block or closure arguments has no
    children. *)
Definition no_end (x : list tt) : Prop :=
  x <> [] /\ ~ next_punct ";" x /\ ~ next_punct "|" x /\ ~ next_group Brace x /\ ~ next_group Paren x.
Lemma no_semi x : ~ next_punct ";" x -> rollback_err (parse_punct ";") x = PR (Ret None) x [].
Proof.
  intros H. apply (peek_punct1_f ";"%char) in H; [|discriminate]. unfold peek_punct in H. unfold rollback_err, parse_punct.
  destruct (take_punct ";" x); [discriminate|reflexivity].
Qed.
Lemma tail_no_end pc t sels attrs x : no_end x ->
  element_tail pc t sels attrs x = PR (Ret (Element t sels attrs None None)) x [DUnknownAttr; DNoChildElements].
Proof.
  intros (Hx & Hs & Hp & Hb & Hq). unfold element_tail. rewrite (bind_run0 _ _ _ _ _ (no_semi x Hs)).
  rewrite (bind_run0 (look (fun ts => ts)) _ _ _ _ eq_refl). destruct x as [|z x]; [congruence|].
  rewrite (proj2 (peek_group_f _ _) Hb), (proj2 (peek_group_f _ _) Hq).
  rewrite (proj2 (peek_punct1_f "|"%char _ ltac:(discriminate)) Hp). reflexivity.
Qed.
(** One child, then the rest. *)
Lemma element_sim E k pre slot u t sels attrs sp y x extra e : env_ok E ->
  let bad := slot_tokens slot ++ u ++ y in
  let good := slot_tokens slot ++ u ++ TPunct ";" sp :: x in
  wf (child_place k pre bad) -> wf x -> at_child E k pre bad ->
  opens slot (u ++ y) -> elem_head E u t sels attrs y ->
  opens slot (u ++ TPunct ";" sp :: x) -> elem_head E u t sels attrs (TPunct ";" sp :: x) ->
  element_tail (children_of E) t sels attrs y = PR (Ret e) x extra ->
  child_same E (as_child slot (Element t sels attrs None None)) (as_child slot e) ->
  sim E extra (children_of E (child_place k pre good)) (children_of E (child_place k pre bad)).
Proof.
  intros HE bad good Hwf Hwx Hat Ho Hh Ho' Hh' Ht Hc. assert (Hi := child_inner _ _ _ Hwf).
  assert (Hw' : wf good). { unfold bad, good in *. wfs. }
  assert (Hat' : at_child E k pre good).
  { destruct Hat as ((cs & Hp) & Hf). split; [eauto|]. eapply fits_swap; [auto|exact Hf|]. intros Hb.
    unfold good. rewrite !app_assoc. apply (block_break _ y); [discriminate| |].
    - right. intros Hx. apply (place_start E pre cs slot (u ++ TPunct ";" sp :: x) [] Hp Ho'). rewrite app_nil_r.
      replace (pre ++ slot_tokens slot ++ u ++ TPunct ";" sp :: x) with (((pre ++ slot_tokens slot) ++ u) ++ TPunct ";" sp :: x) by now rewrite <- !app_assoc.
      clear - Hx. destruct ((pre ++ slot_tokens slot) ++ u); exact Hx.
    - rewrite <- !app_assoc. now apply (fits_block E k). }
  apply child_sim; auto. { eapply child_wf; eauto. }
  assert (Hn := fun ts => at_element E [] [] slot ts HE). cbn [app] in Hn.
  unfold good, bad. rewrite (Hn (u ++ TPunct ";" sp :: x)); auto; [|constructor].
  rewrite (Hn (u ++ y)); auto; [|constructor].
  assert (Hg : (e <- parse_element E (children_of E) ;; ret (as_child slot e))%parse (u ++ TPunct ";" sp :: x) =
    PR (Ret (as_child slot (Element t sels attrs None None))) x []).
  { rewrite (bind_run0 _ _ _ (Element t sels attrs None None) x); [reflexivity|].
    rewrite (element_head E _ u t sels attrs); auto. unfold good in Hw'. wfs. }
  assert (Hg' : (e <- parse_element E (children_of E) ;; ret (as_child slot e))%parse (u ++ y) =
    PR (Ret (as_child slot e)) x extra).
  { rewrite (bind_run _ _ _ e x extra); [cbn; now rewrite app_nil_r|].
    rewrite (element_head E _ u t sels attrs); auto. unfold bad in Hi. wfs. }
  rewrite Hg, Hg'. cbn [child_result]. apply sim_append.
  pose proof (sim_block E extra _ _ [] [] (children_of E x) Hc (sim_refl E x HE)) as Hs. cbn [app] in Hs. rewrite app_nil_r in Hs. exact Hs.
Qed.
Theorem C46_no_end E k pre slot u t sels attrs sp x : env_ok E ->
  let bad := slot_tokens slot ++ u ++ x in
  let good := slot_tokens slot ++ u ++ TPunct ";" sp :: x in
  wf (child_place k pre bad) -> at_child E k pre bad ->
  opens slot (u ++ x) -> elem_head E u t sels attrs x ->
  opens slot (u ++ TPunct ";" sp :: x) -> elem_head E u t sels attrs (TPunct ";" sp :: x) -> no_end x ->
  recovers E [DUnknownAttr; DNoChildElements] (child_place k pre good) (child_place k pre bad).
Proof.
  intros HE bad good Hwf Hat Ho Hh Ho' Hh' Hx. apply sim_recovers; [auto|discriminate|].
  apply (element_sim E k pre slot u t sels attrs sp x x _ (Element t sels attrs None None)); auto.
  - apply child_inner in Hwf. unfold bad in Hwf. wfs.
  - now apply tail_no_end.
  - apply same_refl.
Qed.
Print Assumptions C46_no_end.


(** Closure arguments without a block after them are dropped. *)
Theorem C46_no_block E k pre slot u t sels attrs args sp x : env_ok E ->
  let bad := slot_tokens slot ++ u ++ args_tokens (Some args) ++ x in
  let good := slot_tokens slot ++ u ++ TPunct ";" sp :: x in
  wf (child_place k pre bad) -> at_child E k pre bad ->
  opens slot (u ++ args_tokens (Some args) ++ x) -> elem_head E u t sels attrs (args_tokens (Some args) ++ x) ->
  opens slot (u ++ TPunct ";" sp :: x) -> elem_head E u t sels attrs (TPunct ";" sp :: x) ->
  args_fine (Some args) -> ~ next_group Brace x -> ~ next_group Paren x ->
  recovers E [DNoChildrenAfterArgs] (child_place k pre good) (child_place k pre bad).
Proof.
  intros HE bad good Hwf Hat Ho Hh Ho' Hh' Ha Hb Hp. apply sim_recovers; [auto|discriminate|].
  destruct args as [[sp0 l] sp1].
  apply (element_sim E k pre slot u t sels attrs sp (args_tokens (Some (sp0, l, sp1)) ++ x) x _
    (Element t sels attrs (args_kept (Some (sp0, l, sp1))) None)); auto.
  - apply child_inner in Hwf. unfold bad in Hwf. wfs.
  - unfold element_tail. cbn [args_tokens args_kept app].
    rewrite (bind_run0 (rollback_err (parse_punct ";")) _ (TPunct "|" sp0 :: (l ++ [TPunct "|" sp1]) ++ x) None _ eq_refl).
    rewrite (bind_run0 (look (fun ts => ts)) _ _ _ _ eq_refl). cbn [peek_group].
    change (peek_punct "|" (TPunct "|" sp0 :: (l ++ [TPunct "|" sp1]) ++ x)) with true. cbn iota.
    assert (Hc : parse_closure_args on TPunct "|" sp0 :: (l ++ [TPunct "|" sp1]) ++ x
                 >> (TPunct "|" Alone :: l ++ [TPunct "|" Alone]), x).
    { apply parse_closure_args_ok. exists sp0, l, sp1. rewrite <- app_assoc. auto. }
    rewrite (bind_run0 _ _ _ _ _ Hc).
    rewrite (bind_run0 (look (fun ts => ts)) _ _ _ _ eq_refl).
    rewrite (proj2 (peek_group_f _ _) Hb), (proj2 (peek_group_f _ _) Hp). reflexivity.
  - assert (Hs : forall b, elem_same E b (Element t sels attrs None None) (Element t sels attrs (args_kept (Some (sp0, l, sp1))) None)).
    { intros b p. rewrite !expand_element_eq. reflexivity. }
    destruct slot; [apply same_slot; [now left|auto]|now apply same_element].
Qed.
Print Assumptions C46_no_block.

(** ** Cases *)

Definition rk : ctx := deep (lex "'z'") (lex "p;").
Definition rpre : list tt := lex "p; 'y'".
Ltac placed := apply at_childb_ok; [apply E0_ok|vm_compute; reflexivity].
Lemma head_by E u f t sels attrs r r2 : env_ok E -> wf (u ++ f) ->
  parse_tag E (u ++ f) = PR (Ret t) r [] -> parse_selectors r = PR (Ret sels) r2 [] ->
  parse_attrs r2 = PR (Ret attrs) f [] -> elem_head E u t sels attrs f.
Proof.
  intros HE Hwf Ht Hs Ha.
  apply parse_tag_ok in Ht; auto. destruct Ht as (u1 & Hu1 & Ht). rewrite Hu1 in Hwf. apply wf_app in Hwf. destruct Hwf as [_ Hwf].
  apply parse_selectors_ok in Hs; auto. destruct Hs as (u2 & -> & Hs). apply wf_app in Hwf. destruct Hwf as [_ Hwf].
  apply parse_attrs_ok in Ha; auto. destruct Ha as (u3 & -> & Ha).
  rewrite !app_assoc in Hu1. apply app_inv_tail in Hu1. subst u. exists u1, u2, u3. rewrite <- app_assoc. auto.
Qed.
Ltac heads := eexists _, _, _; split;
  (eapply head_by; [apply E0_ok|apply wfb_ok; vm_compute; reflexivity|vm_compute; reflexivity|vm_compute; reflexivity|vm_compute; reflexivity]).
(** What both back ends do with a view. *)
Definition reported (input : list tt) : result * bool :=
  (mview E0 input, match mview_nightly E0 input with Gave (TGroup Brace _ :: _) _ => true | _ => false end).
Example C46_back_ends_case : reported (lex "p; ; a=?") = (Errors [DExtraSemi; DUnknownAttr; DNoChildElements; DParse EChild], true).
Proof. vm_compute. reflexivity. Qed.
(** The tokens returned with the nightly back end. *)
Definition tokens_of (a : answer) : list tt := match a with Gave ts _ => ts | _ => [] end.
Definition reports_of (a : answer) : list diag := match a with Gave _ ds => ds | _ => [] end.
Definition recovered (good bad : list tt) (extra : list diag) : Prop :=
  mview_nightly E0 bad = Gave (tokens_of (mview_nightly E0 good)) extra /\
  mview E0 good = Expanded (tokens_of (mview_nightly E0 good)).
Example C46_semicolon_case : let post := lex "b(q;)" in
  (wf (child_place rk rpre post) /\ at_child E0 rk rpre post) /\
  recovered (child_place rk rpre post) (child_place rk rpre (TPunct ";" Alone :: post)) [DExtraSemi].
Proof. cbv zeta. split; [placed|]. split; vm_compute; reflexivity. Qed.
Example C46_literal_case : let post := lex "b(q;)" in
  (wf (child_place rk rpre (lex "-5" ++ post)) /\ at_child E0 rk rpre (lex "-5" ++ post)) /\
  value_phrase (lex "-5") (VLit (LitTok LkInt "-5")) post /\ not_string (LitTok LkInt "-5") /\
  recovered (child_place rk rpre (TLit LkStr "" :: post)) (child_place rk rpre (lex "-5" ++ post)) [DNonStrChild].
Proof.
  cbv zeta. split; [placed|]. split; [apply val_neg; auto|]. split; [discriminate|]. split; vm_compute; reflexivity.
Qed.
Example C46_unterminated_case : let u := lex "My.c a=1 on:x" in
  (wf (child_place rk rpre u) /\ at_child E0 rk rpre u) /\
  opens None u /\ (exists t sels attrs, elem_head E0 u t sels attrs []) /\
  recovered (child_place rk rpre (u ++ [TPunct ";" Alone])) (child_place rk rpre u) [DUnterminated].
Proof.
  cbv zeta. split; [placed|]. split; [apply opensb_ok; vm_compute; reflexivity|].
  split; [apply elem_headb_ok; [apply E0_ok|apply wfb_ok; vm_compute; reflexivity|vm_compute; reflexivity]|].
  split; vm_compute; reflexivity.
Qed.
Example C46_missing_value_case : let rest := lex "b=3 (q;);" in let u := lex "My.c a=2" in let key := lex "data-x" in
  let x := key ++ TPunct "=" Alone :: rest in
  (wf (attr_place rk rpre None u x) /\ at_attr E0 rk rpre None u x) /\
  name key (Kebab "data-x" 2) [] /\ no_value rest /\
  mview_nightly E0 (attr_place rk rpre None u x) =
    Gave (tokens_of (mview_nightly E0 (attr_place rk rpre None u (key ++ TPunct "=" Alone :: missing_block :: rest))))
         [DExpectedValue true; DExtraSemi].
Proof.
  cbv zeta. split; [apply at_attrb_ok; [apply E0_ok|vm_compute; reflexivity]|].
  split; [apply name_by; vm_compute; reflexivity|]. split; [|vm_compute; reflexivity].
  intros ts v r Heq Hv. assert (Hp : parse_value on lex "b=3 (q;);" >> v, r) by (apply parse_value_ok; eauto).
  vm_compute in Hp. discriminate.
Qed.
Example C46_missing_directive_case : let rest := lex "; 'w'" in let u := lex "p.c a=2" in
  let ks := lex "click" in let ms := lex ":undelegated" in
  let start := TIdent (Id false "on") :: TPunct ":" Alone :: ks ++ ms ++ [TPunct "=" Alone] in
  (wf (attr_place rk rpre None u (start ++ rest)) /\ at_attr E0 rk rpre None u (start ++ rest)) /\
  key_phrase ks (KKebab (Kebab "click" 1)) (ms ++ TPunct "=" Alone :: rest) /\
  opt_modifier ms (Some (Id false "undelegated")) (TPunct "=" Alone :: rest) /\ no_value rest /\
  recovered (attr_place rk rpre None u (start ++ missing_block :: rest)) (attr_place rk rpre None u (start ++ rest)) [DExpectedValue false].
Proof.
  cbv zeta. split; [apply at_attrb_ok; [apply E0_ok|vm_compute; reflexivity]|].
  split; [constructor; apply name_by; vm_compute; reflexivity|]. split; [exact (om_some Alone (Id false "undelegated") _)|].
  split; [|split; vm_compute; reflexivity].
  intros ts v r Heq Hv. assert (Hp : parse_value on lex "; 'w'" >> v, r) by (apply parse_value_ok; eauto).
  vm_compute in Hp. discriminate.
Qed.
Example C46_no_child_case : let x := lex "? b(q;)" in
  (wf (child_place rk rpre x) /\ at_child E0 rk rpre x) /\ no_child x /\
  recovered (child_place rk rpre []) (child_place rk rpre x) [DParse EChild].
Proof.
  cbv zeta. split; [placed|]. split; [|split; vm_compute; reflexivity].
  split; [discriminate|]. split; [exact id|]. split; [intros [? H]; discriminate H|].
  intros ts v r Heq Hv. assert (Hp : parse_value on lex "? b(q;)" >> v, r) by (apply parse_value_ok; eauto).
  vm_compute in Hp. discriminate.
Qed.
(** [My.c a=1 "hi" p;]: the braces around ["hi"] are missing. *)
Example C46_no_end_case : let u := lex "My.c a=1" in let x := lex "'hi' p;" in
  (wf (child_place rk rpre (u ++ x)) /\ at_child E0 rk rpre (u ++ x)) /\
  opens None (u ++ x) /\ opens None (u ++ TPunct ";" Alone :: x) /\
  (exists t sels attrs, elem_head E0 u t sels attrs x /\ elem_head E0 u t sels attrs (TPunct ";" Alone :: x)) /\ no_end x /\
  recovered (child_place rk rpre (u ++ TPunct ";" Alone :: x)) (child_place rk rpre (u ++ x)) [DUnknownAttr; DNoChildElements].
Proof.
  cbv zeta. split; [placed|]. split; [apply opensb_ok; vm_compute; reflexivity|]. split; [apply opensb_ok; vm_compute; reflexivity|].
  split; [heads|]. split; [|split; vm_compute; reflexivity].
  repeat split; try discriminate; intros H; try exact H; destruct H as [? H]; discriminate H.
Qed.
Example C46_no_block_case : let u := lex "My.c a=1" in let x := lex "'hi' p;" in let args := (Alone, lex "x, y", Alone) in
  (wf (child_place rk rpre (u ++ args_tokens (Some args) ++ x)) /\ at_child E0 rk rpre (u ++ args_tokens (Some args) ++ x)) /\
  opens None (u ++ args_tokens (Some args) ++ x) /\ opens None (u ++ TPunct ";" Alone :: x) /\
  (exists t sels attrs, elem_head E0 u t sels attrs (args_tokens (Some args) ++ x) /\ elem_head E0 u t sels attrs (TPunct ";" Alone :: x)) /\
  args_fine (Some args) /\ ~ next_group Brace x /\ ~ next_group Paren x /\
  recovered (child_place rk rpre (u ++ TPunct ";" Alone :: x)) (child_place rk rpre (u ++ args_tokens (Some args) ++ x)) [DNoChildrenAfterArgs].
Proof.
  cbv zeta. split; [placed|]. split; [apply opensb_ok; vm_compute; reflexivity|]. split; [apply opensb_ok; vm_compute; reflexivity|].
  split; [heads|]. split; [repeat constructor; intros [? H]; discriminate H|]. split; [exact id|]. split; [exact id|].
  split; vm_compute; reflexivity.
Qed.
