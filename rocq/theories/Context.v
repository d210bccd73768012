(** Running the parser on a view with a place in it. *)
From Verif Require Export Follow.

(** ** Repetition, without fuel *)

Lemma many_fuel {A} (m : P A) : (forall ts, eats ts (m ts)) ->
  forall n k ts, List.length ts < n -> List.length ts < k -> many n m ts = many k m ts.
Proof.
  intros He. induction n as [|n IH]; intros k ts Hn Hk; [lia|]. destruct k as [|k]; [lia|].
  cbn [many]. apply bind_ext; auto. intros [a|] r d Hr; auto.
  apply bind_ext; auto. unfold rollback_err in Hr. pose proof (He ts) as He'.
  destruct (m ts) as [[a'|e| |w|] r' d'] eqn:Hm; inversion Hr; subst.
  specialize (He' a eq_refl). cbn in He'. apply IH; lia.
Qed.
Lemma many_eq {A} (m : P A) (all : P (list A)) : (forall ts, eats ts (m ts)) ->
  (forall ts, all ts = many (S (List.length ts)) m ts) -> forall ts,
  all ts =
  (x <- rollback_err m ;;
   match x with
   | Some x => l <- all ;; ret (x :: l)
   | None => ret []
   end)%parse ts.
Proof.
  intros He Hall ts. rewrite Hall. cbn [many]. apply bind_ext; auto. intros [a|] r d Hr; auto.
  apply bind_ext; auto. unfold rollback_err in Hr. pose proof (He ts) as He'.
  destruct (m ts) as [[a'|e| |w|] r' d'] eqn:Hm; inversion Hr; subst.
  specialize (He' a eq_refl). rewrite Hall. apply many_fuel; auto.
Qed.
Lemma attrs_eq ts : parse_attrs ts =
  (x <- rollback_err parse_attr ;;
   match x with Some x => l <- parse_attrs ;; ret (x :: l) | None => ret [] end)%parse ts.
Proof. apply (many_eq parse_attr parse_attrs); [apply eats_attr|reflexivity]. Qed.
Lemma selectors_eq ts : parse_selectors ts =
  (x <- rollback_err parse_selector ;;
   match x with Some x => l <- parse_selectors ;; ret (x :: l) | None => ret [] end)%parse ts.
Proof. apply (many_eq parse_selector parse_selectors); [apply eats_selector|reflexivity]. Qed.

Lemma bind_assoc {A B C} (m : P A) (f : A -> P B) (g : B -> P C) ts :
  bind (bind m f) g ts = bind m (fun a => bind (f a) g) ts.
Proof.
  unfold bind. destruct (m ts) as [[a|e| |w|] r d]; auto.
  destruct (f a r) as [[b|e| |w|] r' d']; cbn; auto. now rewrite app_assoc.
Qed.
Lemma bind_ret {A B} (a : A) (f : A -> P B) ts : bind (ret a) f ts = f a ts.
Proof. unfold bind, ret. cbn. now destruct (f a ts). Qed.

(** Some attributes first. *)
Lemma attrs_after u l r {A} (f : list attr -> P A) : attr_run u l r -> wf (u ++ r) ->
  bind parse_attrs f (u ++ r) = bind parse_attrs (fun l' => f (l ++ l')) r.
Proof.
  intros H. revert f. induction H; intros f Hwf; [reflexivity|].
  rewrite <- app_assoc in *.
  assert (Hp : parse_attr on ts ++ ts' ++ follow >> a, (ts' ++ follow)) by (apply parse_attr_ok; eauto).
  assert (Hwf' : wf (ts' ++ follow)) by (apply wf_app in Hwf; tauto).
  transitivity (bind parse_attrs (fun l' => f (a :: l')) (ts' ++ follow)).
  - assert (Heq : parse_attrs (ts ++ ts' ++ follow) =
                  (l <- parse_attrs ;; ret (a :: l))%parse (ts' ++ follow)).
    { rewrite attrs_eq. now rewrite (bind_run0 _ _ _ _ _ (rollback_nofail _ _ _ _ _ Hp)). }
    transitivity (bind (l <- parse_attrs ;; ret (a :: l))%parse f (ts' ++ follow)).
    + unfold bind at 1. rewrite Heq. reflexivity.
    + rewrite bind_assoc. apply bind_ext; auto. intros l' r' d' _. now rewrite bind_ret.
  - now rewrite (IHattr_run (fun l' => f (a :: l'))).
Qed.
Lemma selectors_after u l r {A} (f : list selector -> P A) : selector_run u l r -> wf (u ++ r) ->
  bind parse_selectors f (u ++ r) = bind parse_selectors (fun l' => f (l ++ l')) r.
Proof.
  intros H. revert f. induction H; intros f Hwf; [reflexivity|].
  rewrite <- app_assoc in *.
  assert (Hp : parse_selector on ts ++ ts' ++ follow >> s, (ts' ++ follow)) by (apply parse_selector_ok; eauto).
  assert (Hwf' : wf (ts' ++ follow)) by (apply wf_app in Hwf; tauto).
  transitivity (bind parse_selectors (fun l' => f (s :: l')) (ts' ++ follow)).
  - assert (Heq : parse_selectors (ts ++ ts' ++ follow) =
                  (l <- parse_selectors ;; ret (s :: l))%parse (ts' ++ follow)).
    { rewrite selectors_eq. now rewrite (bind_run0 _ _ _ _ _ (rollback_nofail _ _ _ _ _ Hp)). }
    transitivity (bind (l <- parse_selectors ;; ret (s :: l))%parse f (ts' ++ follow)).
    + unfold bind at 1. rewrite Heq. reflexivity.
    + rewrite bind_assoc. apply bind_ext; auto. intros l' r' d' _. now rewrite bind_ret.
  - now rewrite (IHselector_run (fun l' => f (s :: l'))).
Qed.

(** ** Inside an element *)

Lemma element_open E pc u t sels attrs r : env_ok E -> wf (u ++ r) -> open_head E u t sels attrs r ->
  parse_element E pc (u ++ r) = (l <- parse_attrs ;; element_tail pc t sels (attrs ++ l))%parse r.
Proof.
  intros HE Hwf (ts1 & ts2 & ts3 & -> & H1 & H2 & H3). rewrite <- !app_assoc in *.
  rewrite parse_element_eq.
  rewrite (bind_run0 _ _ _ t (ts2 ++ ts3 ++ r)) by (apply parse_tag_ok; eauto).
  assert (Hwf2 : wf (ts2 ++ ts3 ++ r)) by (apply wf_app in Hwf; tauto).
  rewrite (bind_run0 _ _ _ sels (ts3 ++ r)) by (apply parse_selectors_ok; eauto).
  apply attrs_after; auto. apply wf_app in Hwf2. tauto.
Qed.
Lemma element_open_tag E pc u t sels r : env_ok E -> wf (u ++ r) -> open_tag E u t sels r ->
  parse_element E pc (u ++ r) =
  (l <- parse_selectors ;; attrs <- parse_attrs ;; element_tail pc t (sels ++ l) attrs)%parse r.
Proof.
  intros HE Hwf (ts1 & ts2 & -> & H1 & H2). rewrite <- !app_assoc in *.
  rewrite parse_element_eq.
  rewrite (bind_run0 _ _ _ t (ts2 ++ r)) by (apply parse_tag_ok; eauto).
  assert (Hwf2 : wf (ts2 ++ r)) by (apply wf_app in Hwf; tauto).
  now rewrite (selectors_after _ _ _ (fun l => attrs <- parse_attrs ;; element_tail pc t l attrs)%parse H2).
Qed.
Lemma attrs_run_end u l r : attrs_phrase u l r <-> attr_run u l r /\ attrs_end r.
Proof.
  split.
  - induction 1; [split; [constructor|auto]|]. destruct IHattrs_phrase. split; auto. now constructor.
  - intros [H He]. induction H; [now apply ats_nil|apply ats_cons; auto].
Qed.
Lemma head_open E u t sels attrs r : elem_head E u t sels attrs r <-> open_head E u t sels attrs r /\ attrs_end r.
Proof.
  split.
  - intros (ts1 & ts2 & ts3 & -> & H1 & H2 & H3). apply attrs_run_end in H3. destruct H3.
    split; auto. exists ts1, ts2, ts3. auto.
  - intros [(ts1 & ts2 & ts3 & -> & H1 & H2 & H3) He]. exists ts1, ts2, ts3.
    split; [|split; [|split]]; auto. now apply attrs_run_end.
Qed.
Lemma attrs_stop r : wf r -> attrs_end r -> parse_attrs on r >> [], r.
Proof. intros Hwf He. apply parse_attrs_ok; auto. exists []. split; auto. now constructor. Qed.
Lemma element_head E pc u t sels attrs r : env_ok E -> wf (u ++ r) -> elem_head E u t sels attrs r ->
  parse_element E pc (u ++ r) = element_tail pc t sels attrs r.
Proof.
  intros HE Hwf Hh. apply head_open in Hh. destruct Hh as [Hh He].
  rewrite (element_open E pc u t sels attrs r); auto.
  apply wf_app in Hwf. rewrite (bind_run0 _ _ _ _ _ (attrs_stop r (proj2 Hwf) He)).
  now rewrite app_nil_r.
Qed.

(** The block of children. *)
Lemma tail_block pc t sels attrs args d x post : args_fine args -> d = Brace \/ d = Paren ->
  element_tail pc t sels attrs (args_tokens args ++ TGroup d x :: post) =
  (c <- delimited d pc ;; ret (Element t sels attrs (args_kept args) (Some c)))%parse
    (TGroup d x :: post).
Proof.
  intros Ha Hd. unfold element_tail. destruct args as [[[sp l] sp']|]; cbn [args_tokens args_kept app].
  - rewrite (bind_run0 (rollback_err (parse_punct ";")) _ (TPunct "|" sp :: (l ++ [TPunct "|" sp']) ++ TGroup d x :: post) None _ eq_refl).
    rewrite (bind_run0 (look (fun ts => ts)) _ _ _ _ eq_refl). cbn [peek_group].
    change (peek_punct "|" (TPunct "|" sp :: (l ++ [TPunct "|" sp']) ++ TGroup d x :: post)) with true.
    cbn iota.
    assert (Hc : parse_closure_args on TPunct "|" sp :: (l ++ [TPunct "|" sp']) ++ TGroup d x :: post
                 >> (TPunct "|" Alone :: l ++ [TPunct "|" Alone]), (TGroup d x :: post)).
    { apply parse_closure_args_ok. exists sp, l, sp'. rewrite <- app_assoc. auto. }
    rewrite (bind_run0 _ _ _ _ _ Hc).
    rewrite (bind_run0 (look (fun ts => ts)) _ _ _ _ eq_refl). cbn [peek_group].
    destruct Hd; subst d; reflexivity.
  - rewrite (bind_run0 (rollback_err (parse_punct ";")) _ (TGroup d x :: post) None _ eq_refl).
    rewrite (bind_run0 (look (fun ts => ts)) _ _ _ _ eq_refl). cbn [peek_group].
    destruct Hd; subst d; reflexivity.
Qed.

(** ** At the start of a child *)

Lemma child_opens E pc slot ts : opens slot ts ->
  parse_child E pc (slot_tokens slot ++ ts) =
  (e <- parse_element E pc ;; ret (as_child slot e))%parse ts.
Proof.
  intros Ho. rewrite parse_child_step. destruct slot as [sp|]; cbn [slot_tokens as_child opens app] in *.
  - assert (Ht := proj2 (slot_test _) Ho). rewrite Ht.
    destruct (parse_value_cases (TIdent (Id false "slot") :: TPunct ":" sp :: ts))
      as [(v & u & r & Hu & Hv & Heq)|[_ Heq]].
    + exfalso. inversion Hv; subst; inversion Hu.
    + now rewrite Heq.
  - destruct Ho as (Hi & Hs & Hv). destruct (parse_value_cases ts) as [(u & v & r & Hu & Hv' & Heq)|[_ Heq]].
    + exfalso. apply Hv. eauto.
    + rewrite Heq. destruct (_ && _ && _) eqn:Hslot; [exfalso; apply Hs; now apply slot_test|].
      destruct ts as [|[] ts]; try contradiction. reflexivity.
Qed.

Definition child_result E (x : pres child) : pres (list child) :=
  match x with
  | PR (Ret c) r d => prepend d (cons_child c (children_of E r))
  | PR (Fail e) r d =>
      if peek_punct ";" r then prepend (d ++ [DExtraSemi]) (children_of E (tl r))
      else prepend (d ++ [DParse e]) (children_of E [])
  | PR Abort r d => PR Abort r d
  | PR (Panic w) r d => PR (Panic w) r d
  | PR NoFuel r d => PR NoFuel r d
  end.
Lemma children_step E ts : env_ok E -> ts <> [] ->
  children_of E ts = child_result E (parse_child E (children_of E) ts).
Proof. intros HE Hts. destruct ts; [congruence|]. now rewrite children_of_step. Qed.
Lemma children_after E pre cs ts : env_ok E -> wf (pre ++ ts) -> children_phrase E pre cs -> ts <> [] ->
  children_of E (pre ++ ts) = append_to cs (child_result E (parse_child E (children_of E) ts)).
Proof. intros HE Hwf Hp Hts. rewrite (children_app E pre cs); auto. now rewrite children_step. Qed.

(** Reading continues at the place. *)
Lemma at_element E pre cs slot ts : env_ok E -> wf (pre ++ slot_tokens slot ++ ts) ->
  children_phrase E pre cs -> opens slot ts ->
  children_of E (pre ++ slot_tokens slot ++ ts) =
  append_to cs (child_result E ((e <- parse_element E (children_of E) ;; ret (as_child slot e))%parse ts)).
Proof.
  intros HE Hwf Hp Ho. rewrite (children_after E pre cs); auto.
  - now rewrite child_opens.
  - destruct slot; [discriminate|]. destruct Ho as [Hi _]. destruct ts; [contradiction|discriminate].
Qed.

(** Children never fail, and use up their stream. *)
Lemma children_of_cases E ts : env_ok E ->
  (exists cs d, children_of E ts = PR (Ret cs) [] d) \/
  (exists r d, children_of E ts = PR Abort r d /\ d <> []) \/
  (exists w r d, children_of E ts = PR (Panic w) r d).
Proof.
  intros HE. destruct (fine_children E HE (S (size ts)) ts) as (Hf & Hr & He); [lia|].
  unfold children_of. destruct (parse_children E (S (size ts)) ts) as [[cs|e| |w|] r d].
  - left. rewrite (Hr cs r d eq_refl). eauto.
  - exfalso. eapply He; eauto.
  - right. left. exists r, d. split; auto. now apply (fine_abort _ _ Hf).
  - right. right. eauto.
  - exfalso. now apply (fine_fuel _ _ Hf).
Qed.

Lemma at_block E pre cs slot u t sels attrs args d x post : env_ok E ->
  wf (pre ++ slot_tokens slot ++ u ++ args_tokens args ++ TGroup d x :: post) ->
  children_phrase E pre cs ->
  elem_head E u t sels attrs (args_tokens args ++ TGroup d x :: post) ->
  opens slot (u ++ args_tokens args ++ TGroup d x :: post) ->
  args_fine args -> d = Brace \/ d = Paren ->
  children_of E (pre ++ slot_tokens slot ++ u ++ args_tokens args ++ TGroup d x :: post) =
  append_to cs
    match children_of E x with
    | PR (Ret inner) _ ds =>
        prepend ds (cons_child (as_child slot (Element t sels attrs (args_kept args) (Some inner)))
                      (children_of E post))
    | PR (Fail e) _ ds => PR NoFuel [] ds
    | PR Abort _ ds => PR Abort (TGroup d x :: post) ds
    | PR (Panic w) _ ds => PR (Panic w) (TGroup d x :: post) ds
    | PR NoFuel _ ds => PR NoFuel (TGroup d x :: post) ds
    end.
Proof.
  intros HE Hwf Hp Hh Ho Ha Hd.
  rewrite (at_element E pre cs); auto. f_equal.
  assert (Hwf' : wf (u ++ args_tokens args ++ TGroup d x :: post)).
  { apply wf_app in Hwf. destruct Hwf as [_ Hwf]. apply wf_app in Hwf. tauto. }
  assert (Heq : parse_element E (children_of E) (u ++ args_tokens args ++ TGroup d x :: post) =
    (c <- delimited d (children_of E) ;; ret (Element t sels attrs (args_kept args) (Some c)))%parse
    (TGroup d x :: post)).
  { rewrite (element_head E _ u t sels attrs); auto. now apply tail_block. }
  unfold bind at 1. rewrite Heq. unfold bind, delimited.
  assert (delim_eqb d d = true) as -> by now destruct d.
  destruct (children_of_cases E x HE) as [(ci & ds & ->)|[(r & ds & -> & _)|(w & r & ds & ->)]]; cbn; auto.
  now rewrite !app_nil_r.
Qed.

(** ** Looking at names and groups *)

Lemma name_no_group ts d x r : ~ name_phrase (ts ++ TGroup d x :: r).
Proof.
  assert (Hr : forall b ts e, run b (ts ++ TGroup d x :: r) e -> False).
  { intros b l. revert b. induction l as [|y l IH]; intros b e H; cbn in H; inversion H; subst; eauto. }
  intros H. destruct ts; cbn in H; inversion H; subst; eauto.
Qed.

Lemma in_group_part (ts r a : list tt) d x x' b : ts ++ r = a ++ TGroup d x :: b -> name_phrase ts ->
  exists r', a ++ TGroup d x' :: b = ts ++ r'.
Proof.
  revert a. intros a Heq Hn. apply app_eq_app in Heq. destruct Heq as (l & [[-> H]|[-> H]]).
  - destruct l as [|y l].
    + exists (TGroup d x' :: b). now rewrite app_nil_r.
    + cbn in H. inversion H; subst. exfalso. eapply name_no_group; eauto.
  - exists (l ++ TGroup d x' :: b). now rewrite <- app_assoc.
Qed.

(** Replacing the content of a later group does not change whether a block is
    one of children. *)
Lemma children_block_inner a d x x' b :
  children_block (a ++ TGroup d x :: b) -> children_block (a ++ TGroup d x' :: b).
Proof.
  intros (H1 & H2 & H3). split; [|split].
  - apply name_no_group.
  - intros H. apply H2. eapply (upto_op (m := Narrow)); [nsc|nsc| |exact H]. apply upto_app, up_stop, ss_group. tauto.
  - intros ts r Heq Hn. symmetry in Heq. destruct (in_group_part ts r a d x' x b Heq Hn) as [r' Hr']. eauto.
Qed.

(** ** Replacing what is at the place *)

Lemma upto_opens slot f f' : upto Narrow f f' -> opens slot f -> opens slot f'.
Proof.
  intros Hu. unfold opens. destruct slot as [sp|].
  - intros H. eapply upto_slot; [|exact H]. now apply upto_app.
  - intros (H1 & H2 & H3). split; [|split].
    + eapply upto_ident; eauto.
    + intros H. apply H2. eapply upto_slot; [|exact H]. now apply narrow_sym.
    + intros H. apply H3. destruct f as [|[i| | |] f]; try contradiction.
      destruct (upto_cons_inv _ _ _ (ident_nonstop _) Hu) as (g & -> & Hu1).
      eapply (ident_value_upto (m := Narrow)); [|exact H]. now apply narrow_sym.
Qed.

Lemma args_not_op args d x post : ~ next_op ":" ":" (args_tokens args ++ TGroup d x :: post).
Proof. destruct args as [[[sp l] sp']|]; intros (? & ? & H); discriminate. Qed.

Lemma fits_swap E k : env_ok E -> forall x x', fits E k x -> (bare_brace k -> children_block x') -> fits E k x'.
Proof.
  intros HE. induction k as [|k IH pre slot u args d post]; intros x x'; cbn [fits]; auto.
  intros (Hp & (t & sels & attrs & Hh) & Ho & Ha & Hd & Hk) Hb.
  assert (Hu : upto Narrow (args_tokens args ++ TGroup d x :: post) (args_tokens args ++ TGroup d x' :: post)).
  { apply upto_app, up_stop, ss_group. tauto. }
  split; auto. split.
  { exists t, sels, attrs. eapply upto_head; [auto| |exact Hu|apply args_not_op| |exact Hh]; [discriminate|].
    destruct args as [[[sp l] sp']|]; cbn; auto. destruct d; auto. }
  split; [eapply upto_opens; [|exact Ho]; now apply upto_app|].
  split; auto. split; auto.
  eapply IH; [exact Hk|]. intros Hbb. destruct k as [|k' pre' slot' u' args' d' post']; [contradiction|].
  destruct args'; [contradiction|]. destruct d'; try contradiction.
  cbn [fits] in Hk. destruct Hk as (_ & (t' & sels' & attrs' & Hh') & _).
  apply head_open in Hh'. destruct Hh' as [_ He']. cbn in He'.
  rewrite !app_assoc in *. eapply children_block_inner. exact He'.
Qed.

(** Diagnostics reported at the place are reported for the whole view, and so
    is a failure to return. *)
Lemma plug_diags E k : env_ok E -> forall x, fits E k x -> wf (plug k x) ->
  (exists more, p_diags (children_of E (plug k x)) = p_diags (children_of E x) ++ more) /\
  (forall cs r d, children_of E (plug k x) = PR (Ret cs) r d ->
     exists cs' r' d', children_of E x = PR (Ret cs') r' d') /\
  (forall w, p_out (children_of E x) = Panic w -> p_out (children_of E (plug k x)) = Panic w).
Proof.
  intros HE. induction k as [|k IH pre slot u args d post]; intros x Hf Hwf; cbn [plug fits] in *.
  { split; [exists []; now rewrite app_nil_r|]. split; eauto. }
  destruct Hf as ((cs & Hp) & (t & sels & attrs & Hh) & Ho & Ha & Hd & Hk).
  destruct (IH _ Hk Hwf) as ((more & IH1) & IH2 & IH3).
  assert (Hwf' : wf (pre ++ slot_tokens slot ++ u ++ args_tokens args ++ TGroup d x :: post)).
  { clear - Hwf. revert Hwf.
    generalize (pre ++ slot_tokens slot ++ u ++ args_tokens args ++ TGroup d x :: post).
    induction k as [|k IH pre' slot' u' args' d' post']; intros y Hwf; cbn [plug] in *; auto.
    apply IH in Hwf. rewrite !wf_app, wf_cons, wf_group in Hwf. tauto. }
  pose proof (at_block E pre cs slot u t sels attrs args d x post HE Hwf' Hp Hh Ho Ha Hd) as Heq.
  rewrite Heq in *.
  destruct (children_of_cases E x HE) as [(ci & ds & Hx)|[(r & ds & Hx & _)|(w & r & ds & Hx)]];
    rewrite Hx in *; cbn [append_to p_diags p_out] in *.
  - split; [|split; eauto; discriminate]. rewrite IH1.
    destruct (children_of E post) as [[c| | | |] r' d']; cbn; rewrite <- app_assoc; eauto.
  - split; [rewrite IH1; eauto|]. split; [|discriminate].
    intros cs0 r0 d0 H0. apply IH2 in H0. destruct H0 as (? & ? & ? & H0). discriminate.
  - split; [rewrite IH1; eauto|]. split; [|intros w' Hw'; inversion Hw'; subst; now apply IH3].
    intros cs0 r0 d0 H0. apply IH2 in H0. destruct H0 as (? & ? & ? & H0). discriminate.
Qed.
Lemma plug_wf k : forall x, wf (plug k x) -> wf x.
Proof.
  induction k as [|k IH pre slot u args d post]; intros x Hwf; cbn [plug] in *; auto.
  apply IH in Hwf. rewrite !wf_app, wf_cons, wf_group in Hwf. tauto.
Qed.
Lemma plug_wf_iff k : forall x x', wf (plug k x) -> wf x' -> wf (plug k x').
Proof.
  induction k as [|k IH pre slot u args d post]; intros x x' Hwf Hx'; cbn [plug] in *; auto.
  eapply IH; [exact Hwf|]. apply plug_wf in Hwf. rewrite !wf_app, wf_cons, wf_group in *. tauto.
Qed.
