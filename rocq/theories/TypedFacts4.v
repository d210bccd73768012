(** Unfinished elements and children (C66). *)
From Verif Require Import SpecStr SpecGrammar SpecContext SpecTyped TypedFacts TypedFacts2 TypedFacts3.
From Verif Require Import Follow Context Swap Inv Fuel GrammarFacts GrammarFacts2 TagFacts ElementFacts Monad.
From Coq Require Import Lia.
Open Scope list_scope.

Lemma after_colon_pre a y : after_colon y -> after_colon (a ++ y).
Proof.
  intros []; rewrite app_assoc.
  - apply ac_end.
  - apply ac_braces.
  - now apply ac_in.
Qed.

Lemma stops_pre a y n : stops_at y n -> stops_at (a ++ y) n.
Proof.
  intros []; rewrite app_assoc.
  - now apply sa_name.
  - now apply sa_colon.
  - now apply sa_in.
Qed.

(** ** What is read, in terms of the parser *)

Definition bad_name (n : string) : Prop := In n (""%string :: reserved_words).
Inductive kids_part (E : env) (R : list child -> list diag -> Prop) (y : list tt) : Prop :=
| kp_read cs ds : children_of E y = PR (Ret cs) [] ds -> R cs ds -> kids_part E R y
| kp_abort r e : children_of E y = PR Abort r [DAbortParse e] -> after_colon y -> kids_part E R y
| kp_panic n r ds : children_of E y = PR (Panic (PNewRaw n)) r ds -> bad_name n -> stops_at y n -> kids_part E R y.

(** A token that starts nothing. *)
Definition stray (r : list tt) : Prop := exists c sp, r = [TPunct c sp] /\ (c = "." \/ c = "#" \/ c = ":")%char.
Inductive el_part (E : env) (Q : element -> list diag -> Prop) (y : list tt) : Prop :=
| ep_read e ds : parse_element E (children_of E) y = PR (Ret e) [] ds -> Q e ds -> el_part E Q y
| ep_stray e r : parse_element E (children_of E) y = PR (Ret e) r [DUnknownAttr; DNoChildElements] ->
    Q e [DUnknownAttr; DNoChildElements; DParse EChild] -> stray r ->
    el_part E Q y
| ep_fail x r : parse_element E (children_of E) y = PR (Fail x) r [] -> unfinished x -> ~ next_punct ";" r -> el_part E Q y
| ep_abort r e : parse_element E (children_of E) y = PR Abort r [DAbortParse e] -> after_colon y -> el_part E Q y
| ep_panic n r ds : parse_element E (children_of E) y = PR (Panic (PNewRaw n)) r ds -> bad_name n -> stops_at y n ->
    el_part E Q y.

Lemma stray_children E r : env_ok E -> stray r -> children_of E r = PR (Ret []) [] [DParse EChild].
Proof. intros HE (c & sp & -> & [->|[->| ->]]); reflexivity. Qed.
Lemma no_children E : children_of E [] = PR (Ret []) [] [].
Proof. reflexivity. Qed.

Lemma element_child E (Q : element -> list diag -> Prop) (R : list child -> list diag -> Prop) slot y : env_ok E -> wf (slot_tokens slot ++ y) ->
  opens slot y -> el_part E Q y -> (forall x, unfinished x -> R [] [DParse x]) -> (forall e ds, Q e ds -> R [as_child slot e] ds) ->
  kids_part E R (slot_tokens slot ++ y).
Proof.
  intros HE Hw Ho H H0 HR.
  assert (Hat := at_element E [] [] slot y HE Hw (ch_nil E) Ho). cbn [app] in Hat.
  destruct H as [e ds He Hq|e r He Hq Hs|x r He Hx Hr|r e He Ha|n r ds He Hn Hst]; unfold bind in Hat; rewrite He in Hat;
    cbn [child_result ret p_out p_rest p_diags app append_to] in Hat.
  - rewrite no_children in Hat. cbn in Hat. rewrite !app_nil_r in Hat. eapply kp_read; eauto.
  - rewrite (stray_children E r HE Hs) in Hat. cbn in Hat. eapply kp_read; [exact Hat|auto].
  - destruct (peek_punct ";" r) eqn:Hp; [exfalso; apply Hr; apply peek_punct1 in Hp; [exact Hp|discriminate]|].
    rewrite no_children in Hat. cbn in Hat. eapply kp_read; [exact Hat|auto].
  - eapply kp_abort; [exact Hat|]. now apply after_colon_pre.
  - eapply kp_panic; [exact Hat|auto|now apply stops_pre].
Qed.

(** ** Elements *)

Lemma attrs_none : parse_attrs [] = PR (Ret []) [] [].
Proof. reflexivity. Qed.
Lemma selectors_none : parse_selectors [] = PR (Ret []) [] [].
Proof. reflexivity. Qed.
Lemma stray_attrs r : stray r -> parse_attrs r = PR (Ret []) r [].
Proof. intros (c & sp & -> & [->|[->| ->]]); reflexivity. Qed.
Lemma stray_selectors r : stray r -> parse_selectors r = PR (Ret []) r [].
Proof. intros (c & sp & -> & [->|[->| ->]]); reflexivity. Qed.
Lemma stray_tail pc t sels attrs r : stray r ->
  element_tail pc t sels attrs r = PR (Ret (Element t sels attrs None None)) r [DUnknownAttr; DNoChildElements].
Proof. intros (c & sp & -> & [->|[->| ->]]); reflexivity. Qed.
Lemma tail_none pc t sels attrs :
  element_tail pc t sels attrs [] = PR (Ret (Element t sels attrs None None)) [] [DUnterminated].
Proof. reflexivity. Qed.

Lemma tag_element E (Q : element -> list diag -> Prop) y : env_ok E -> wf y ->
  (forall u t p ds, y = u ++ p -> tag_phrase E u t p -> dangling p ds -> Q (Element t [] [] None None) ds) ->
  tag_part E y -> el_part E Q y.
Proof.
  intros HE Hw HQ [t r Ht Hr|x r Ht Hx Hr|n r Ht Hn Hst].
  - assert (He := parse_element_eq E (children_of E)). apply (f_equal (fun f => f y)) in He.
    rewrite (bind_run0 _ _ _ _ _ Ht) in He. apply parse_tag_ok in Ht; auto. destruct Ht as (u & Hu & Ht).
    destruct Hr as [->| ->].
    + eapply ep_read; [exact He|]. apply (HQ u t []); auto. constructor.
    + eapply ep_stray; [exact He| |exists ":"%char, Joint; auto]. apply (HQ u t [TPunct ":" Joint]); auto. constructor. auto.
  - eapply ep_fail; eauto. rewrite parse_element_eq. unfold bind. now rewrite Ht.
  - eapply ep_panic; eauto. rewrite parse_element_eq. unfold bind. now rewrite Ht.
Qed.

Lemma selectors_part u l f y : selectors_phrase u l f -> cut u y -> y <> u ->
  exists u' p l1 l2 l3, y = u' ++ p /\ l = l1 ++ l2 /\ selector_run u' (l1 ++ l3) p /\ List.length l3 <= 1 /\ (p = [] \/ stray p).
Proof.
  intros H. revert y. induction H as [f He|ts s ts' l f Hs Hl IH]; intros y Hc Hne.
  { apply cut_nil in Hc. congruence. }
  destruct (cut_app_inv _ _ _ Hc) as [[Hc' Hn']|(y' & -> & Hc')].
  - destruct y as [|t y].
    { exists [], [], [], (s :: l), []. do 2 (split; [reflexivity|]). split; [constructor|]. split; [cbn; lia|auto]. }
    remember (t :: y) as y0 eqn:Hy0.
    assert (Hgo : forall c sp nm k, (c = "." \/ c = "#")%char -> ts = TPunct c sp :: nm -> name nm k (ts' ++ f) ->
              y0 = [TPunct c sp] \/ exists y1 k', y0 = TPunct c sp :: y1 /\ name y1 k' []).
    { intros c sp nm k Hcc -> Hk. destruct (cut_cons_inv _ _ _ Hc') as [Hx|[(y1 & -> & Hy1)|(? & ? & ? & Hx & _)]]; [congruence| |discriminate].
      destruct y1 as [|t1 y1]; [now left|right]. destruct (name_part _ _ _ _ Hk Hy1) as (k' & Hk'); [discriminate|]. eauto. }
    inversion Hs; subst.
    + destruct (Hgo "."%char sp ts0 k) as [Hx|(y1 & k' & Hx & Hk')]; auto; rewrite Hx.
      * exists [], [TPunct "." sp], [], (SelClass k :: l), []. do 2 (split; [reflexivity|]). split; [constructor|]. split; [cbn; lia|].
        right. now eexists _, _; split; [reflexivity|auto].
      * exists (TPunct "." sp :: y1), [], [], (SelClass k :: l), [SelClass k']. split; [now rewrite app_nil_r|]. split; [reflexivity|].
        split; [|split; [cbn; lia|auto]]. rewrite <- (app_nil_r (TPunct "." sp :: y1)). apply sr_cons; [now constructor|constructor].
    + destruct (Hgo "#"%char sp ts0 k) as [Hx|(y1 & k' & Hx & Hk')]; auto; rewrite Hx.
      * exists [], [TPunct "#" sp], [], (SelId k :: l), []. do 2 (split; [reflexivity|]). split; [constructor|]. split; [cbn; lia|].
        right. now eexists _, _; split; [reflexivity|auto].
      * exists (TPunct "#" sp :: y1), [], [], (SelId k :: l), [SelId k']. split; [now rewrite app_nil_r|]. split; [reflexivity|].
        split; [|split; [cbn; lia|auto]]. rewrite <- (app_nil_r (TPunct "#" sp :: y1)). apply sr_cons; [now constructor|constructor].
  - destruct (IH y' Hc') as (u' & p & l1 & l2 & l3 & -> & -> & Hr & Hl3 & Hp); [congruence|].
    exists (ts ++ u'), p, (s :: l1), l2, l3. split; [now rewrite app_assoc|]. split; [reflexivity|].
    split; [|auto]. apply sr_cons; auto. eapply cut_selector; [|exact Hs]. eapply cut_more in Hc'. exact Hc'.
Qed.
Lemma attrs_part u l f y : wf u -> attrs_phrase u l f -> cut u y -> y <> u ->
  exists u' p l1 l2, y = u' ++ p /\ l = l1 ++ l2 /\ attr_run u' l1 p /\ (p = [] \/ attr_part p).
Proof.
  intros Hw H. revert y Hw. induction H as [f He|ts s ts' l f Hs Hl IH]; intros y Hw Hc Hne.
  { apply cut_nil in Hc. congruence. }
  apply wf_app in Hw. destruct Hw as [Hw1 Hw2].
  destruct (cut_app_inv _ _ _ Hc) as [[Hc' Hn']|(y' & -> & Hc')].
  - exists [], y, [], (s :: l). do 2 (split; [reflexivity|]). split; [constructor|].
    destruct y as [|t y]; [auto|]. right. apply (attr_part_ok ts s (ts' ++ f)); auto. discriminate.
  - destruct (IH y' Hw2 Hc') as (u' & p & l1 & l2 & -> & -> & Hr & Hp); [congruence|].
    exists (ts ++ u'), p, (s :: l1), l2. split; [now rewrite app_assoc|]. split; [reflexivity|].
    split; [|auto]. apply ar_cons; auto. eapply cut_attr; [|exact Hs]. eapply cut_more in Hc'. exact Hc'.
Qed.

Lemma name_phrase_dec y : wf y -> name_phrase y \/ ~ name_phrase y.
Proof.
  intros Hw. destruct (parse_kebab_cases y (wf_wf_head _ Hw)) as [(u & r & -> & Hn & He & _)|[Hn _]].
  - destruct r as [|t r]; [left; now rewrite app_nil_r|]. right. intros Hx. apply He.
    apply (phrase_prefix (u ++ [t]) r); [now rewrite <- app_assoc|]. now destruct u.
  - right. intros Hx. apply Hn. apply phrase_starts with (r := []) in Hx. now rewrite app_nil_r in Hx.
Qed.
Lemma cut_after_name x ts r : cut x (ts ++ r) -> name_phrase ts -> exists r', x = ts ++ r'.
Proof.
  intros H Hn. remember (ts ++ r) as z eqn:Hz. destruct H as [a b|a d x y b H].
  - subst. rewrite <- app_assoc. eauto.
  - apply app_eq_app in Hz. destruct Hz as (l & [[-> Hl]|[-> Hl]]).
    + destruct l as [|t l]; [cbn in Hl; rewrite app_nil_r; eauto|].
      cbn in Hl. rewrite <- app_assoc. eauto.
    + destruct l as [|t l]; [rewrite app_nil_r in *; eauto|]. cbn in Hl. inversion Hl; subst.
      exfalso. eapply name_no_group; eauto.
Qed.

(** [{..}] up to some place still is a block, or it looks like an attribute. *)
Lemma block_part g y : wf y -> children_block g -> cut g y -> children_block y \/ attr_part [TGroup Brace y].
Proof.
  intros Hw (H1 & H2 & H3) Hc.
  assert (Hraw : forall ts r, y = ts ++ r -> name_phrase ts -> Forall (fun t => ~ raw_token t) (tl ts)).
  { intros ts r -> Hn. destruct (cut_after_name _ _ _ Hc Hn) as (r' & ->). eapply H3; eauto. }
  destruct (name_phrase_dec y Hw) as [Hn|Hn].
  - right. apply (braces_attr y (Kebab (name_text y) (section_count y)) Hw).
    split; [auto|]. split; [exact I|]. split; [|reflexivity]. apply (Hraw y []); auto. now rewrite app_nil_r.
  - left. split; [auto|]. split; [|auto]. intros Ho. apply H2. eapply cut_next_op; eauto.
Qed.

Definition begins (E : env) (y : list tt) (e e' : element) (ds : list diag) : Prop :=
  forall slot, begun E (slot_tokens slot ++ y) (as_child slot e) (as_child slot e') ds.
Lemma begins_attrs E u p t sels l1 l2 l3 args cs cs' ds : open_head E u t sels l1 p -> attr_begun p l3 cs' ds ->
  begins E (u ++ p) (Element t sels (l1 ++ l2) args cs) (Element t sels (l1 ++ l3) None cs') ds.
Proof. intros H1 H2 slot. now apply bg_attrs. Qed.

Lemma small_block E g : env_ok E -> g = [] \/ (exists sp, g = [TPunct "." sp]) ->
  children_block g /\ exists ds, children_of E g = PR (Ret []) [] ds /\ attr_begun [TGroup Brace g] [] (Some []) ds.
Proof.
  intros HE [->|[sp ->]].
  - split.
    + split; [intros H; inversion H|]. split; [intros (? & ? & ?); discriminate|].
      intros ts r Heq Hn. symmetry in Heq. apply app_nil_inv in Heq. destruct Heq as [-> _]. inversion Hn.
    + exists []. split; [reflexivity|constructor].
  - split.
    + split; [intros H; inversion H|]. split; [intros (? & ? & ?); discriminate|].
      intros ts r Heq Hn. destruct ts as [|t ts]; [inversion Hn|]. inversion Heq; subst. inversion Hn.
    + eexists. split; [reflexivity|]. constructor.
Qed.

Lemma in_attrs E u t sels l1 l2 p args cs : env_ok E -> wf (u ++ p) -> open_head E u t sels l1 p -> p = [] \/ attr_part p ->
  el_part E (begins E (u ++ p) (Element t sels (l1 ++ l2) args cs)) (u ++ p).
Proof.
  intros HE Hw Ho Hp. assert (He := element_open E (children_of E) u t sels l1 p HE Hw Ho).
  assert (Hwp : wf p) by (apply wf_app in Hw; tauto).
  assert (Hread : forall l ds, parse_attrs p = PR (Ret l) [] ds ->
            parse_element E (children_of E) (u ++ p) = PR (Ret (Element t sels (l1 ++ l) None None)) [] (ds ++ [DUnterminated])).
  { intros l ds Hl. rewrite He. unfold bind at 1. rewrite Hl. reflexivity. }
  destruct Hp as [->|[a Ha|q sp z a a' l help Hq Hl Ha Hov Hz Hrun|g -> Hg|r e Hl Ha|n r ds Hl Hn Hst]].
  - eapply ep_read; [apply (Hread [] []); reflexivity|apply begins_attrs; [exact Ho|constructor]].
  - eapply ep_read; [apply (Hread [a] [])|apply begins_attrs; [exact Ho|now constructor]].
    apply parse_attrs_ok; auto. exists p. rewrite app_nil_r. split; [reflexivity|]. now apply attrs_one.
  - eapply ep_read; [apply (Hread _ _ Hl)|apply begins_attrs; [exact Ho|]]. rewrite Hq. now apply (ab_value q sp z a).
  - destruct (small_block E g HE Hg) as (Hb & ds & Hds & Ht).
    rewrite (bind_run0 _ _ _ _ _ (attrs_stop _ Hwp Hb)) in He.
    rewrite (tail_block _ t sels (l1 ++ []) None Brace g [] I (or_introl eq_refl)) in He.
    unfold bind at 1, delimited in He. cbn [delim_eqb] in He. rewrite Hds in He.
    cbn [p_out p_rest p_diags ret args_kept] in He. rewrite (app_nil_r ds) in He.
    eapply ep_read; [exact He|now apply begins_attrs].
  - eapply ep_abort; [|apply after_colon_pre, Ha]. rewrite He. unfold bind. now rewrite Hl.
  - eapply ep_panic; [|exact Hn|now apply stops_pre]. rewrite He. unfold bind. rewrite Hl. reflexivity.
Qed.

Lemma in_block E u t sels attrs args d cs y : env_ok E -> wf (u ++ args_tokens args ++ [TGroup d y]) ->
  elem_head E u t sels attrs (args_tokens args ++ [TGroup d y]) -> args_fine args -> d = Brace \/ d = Paren ->
  kids_part E (started E y cs) y ->
  el_part E (begins E (u ++ args_tokens args ++ [TGroup d y]) (Element t sels attrs (args_kept args) (Some cs)))
    (u ++ args_tokens args ++ [TGroup d y]).
Proof.
  intros HE Hw Hh Ha Hd Hk.
  assert (He := element_head E (children_of E) u t sels attrs _ HE Hw Hh).
  rewrite (tail_block _ t sels attrs args d y [] Ha Hd) in He. unfold bind at 1, delimited in He.
  assert (Hdd : delim_eqb d d = true) by now destruct d. rewrite Hdd in He.
  destruct Hk as [cs' ds Hc Hs|r e Hc Hac|n r ds Hc Hn Hst]; rewrite Hc in He;
    cbn [p_out p_rest p_diags ret] in He.
  - rewrite app_nil_r in He. eapply ep_read; [exact He|]. intros slot. now apply bg_children.
  - eapply ep_abort; [exact He|]. rewrite app_assoc. now apply ac_in.
  - eapply ep_panic; [exact He|exact Hn|]. rewrite app_assoc. now apply sa_in.
Qed.

(** Closure arguments without an end. *)
Lemma closure_part n : forall l, Forall not_pipe l -> List.length l < n -> closure_loop n l = PR (Fail EClosure) [] [].
Proof.
  induction n as [|n IH]; intros l Hf Hn; [lia|]. cbn [closure_loop]. destruct l as [|t l].
  - reflexivity.
  - inversion Hf; subst. rewrite (bind_run0 _ _ _ _ _ (rollback_punct_no "|" (t :: l) ltac:(discriminate) H1)).
    rewrite (bind_run0 (rollback_err parse_tt) _ (t :: l) (Some t) l eq_refl).
    unfold bind. rewrite IH; auto. cbn in Hn. lia.
Qed.
Lemma tail_args pc t sels attrs sp l : Forall not_pipe l ->
  element_tail pc t sels attrs (TPunct "|" sp :: l) = PR (Fail EClosure) [] [].
Proof.
  intros Hf. unfold element_tail.
  rewrite (bind_run0 (rollback_err (parse_punct ";")) _ (TPunct "|" sp :: l) None _ eq_refl).
  rewrite (bind_run0 (look (fun ts => ts)) _ _ _ _ eq_refl). cbn [peek_group].
  change (peek_punct "|" (TPunct "|" sp :: l)) with true. cbn iota.
  unfold bind at 1, parse_closure_args.
  rewrite (bind_run0 _ _ (TPunct "|" sp :: l) Datatypes.tt l) by reflexivity.
  unfold bind at 1. rewrite closure_part; auto.
Qed.
Lemma tail_args_only pc t sels attrs sp l sp' : Forall not_pipe l ->
  element_tail pc t sels attrs (TPunct "|" sp :: l ++ [TPunct "|" sp']) =
  PR (Ret (Element t sels attrs (Some (TPunct "|" Alone :: l ++ [TPunct "|" Alone])) None)) [] [DNoChildrenAfterArgs].
Proof.
  intros Hf. unfold element_tail.
  rewrite (bind_run0 (rollback_err (parse_punct ";")) _ (TPunct "|" sp :: l ++ [TPunct "|" sp']) None _ eq_refl).
  rewrite (bind_run0 (look (fun ts => ts)) _ _ _ _ eq_refl). cbn [peek_group].
  change (peek_punct "|" (TPunct "|" sp :: l ++ [TPunct "|" sp'])) with true. cbn iota.
  rewrite (bind_run0 _ _ _ (TPunct "|" Alone :: l ++ [TPunct "|" Alone]) []); [reflexivity|].
  apply parse_closure_args_ok. eauto 6.
Qed.
Lemma cut_not_pipe x y : cut x y -> Forall not_pipe x -> Forall not_pipe y.
Proof.
  intros H Hf. destruct H as [a b|a d x y b H].
  - now apply Forall_app in Hf.
  - apply Forall_app in Hf. apply Forall_app. split; [tauto|]. constructor; [|constructor].
    intros [sp Hx]. discriminate.
Qed.

Lemma head_size u v w : size w <= size (u ++ v ++ w).
Proof. rewrite !size_app. lia. Qed.

Section Elements.
Variable E : env.
Hypothesis HE : env_ok E.
Hypothesis HU : unfinished_generics E.

Definition kids_ok (n : nat) : Prop :=
  forall inner cs, size inner < n -> wf inner -> children_phrase E inner cs ->
  forall y, cut inner y -> kids_part E (started E y cs) y.

(** The end of an element. *)
Lemma end_part u t sels attrs v args cs f y : wf (u ++ v) -> kids_ok (size v) ->
  elem_head E u t sels attrs (v ++ f) -> (forall y, cut v y -> open_head E u t sels attrs y) ->
  element_end (children_phrase E) v args cs -> cut v y -> y <> v ->
  el_part E (begins E (u ++ y) (Element t sels attrs args cs)) (u ++ y).
Proof.
  intros Hw0 Hk Hh Ho He Hc Hne. assert (Hoy := Ho y Hc).
  assert (Hw : wf (u ++ y)) by (eapply wf_part; [|exact Hw0]; now apply cut_pre).
  assert (Hwv : wf v) by (apply wf_app in Hw0; tauto).
  destruct y as [|t0 y0].
  { rewrite <- (app_nil_r attrs) at 1. apply in_attrs; auto. }
  assert (Hblock : forall b cs0, block (children_phrase E) b cs0 -> forall args0 z, v = args_tokens args0 ++ b ->
            args_fine args0 -> cut b z -> z <> b -> z <> [] -> t0 :: y0 = args_tokens args0 ++ z ->
            (args0 = None -> args = None) ->
            cs = Some cs0 -> args = args_kept args0 ->
            el_part E (begins E (u ++ args_tokens args0 ++ z) (Element t sels attrs args cs)) (u ++ args_tokens args0 ++ z)).
  { intros b cs0 Hb args0 z Hv Hfine Hcz Hnz Hz0 Hyz _ -> ->.
    assert (Hz : exists d inner inner', b = [TGroup d inner] /\ z = [TGroup d inner'] /\ cut inner inner' /\
              (d = Brace \/ d = Paren) /\ children_phrase E inner cs0).
    { destruct Hb;
        (destruct (cut_cons_inv _ _ _ Hcz) as [->|[(z' & -> & Hz')|(d & g & g' & Hx & -> & Hg)]];
          [congruence|apply cut_nil in Hz'; subst; congruence|inversion Hx; subst; eauto 10]). }
    destruct Hz as (d & inner & inner' & -> & -> & Hci & Hd & Hin).
    assert (Hwi : wf inner) by (rewrite Hv in Hwv; apply wf_app in Hwv; destruct Hwv as [_ Hwv]; rewrite wf_cons, wf_group in Hwv; tauto).
    assert (Hki : kids_part E (started E inner' cs0) inner').
    { apply (Hk inner cs0); auto. rewrite Hv, size_app, size_cons, tt_size_group. lia. }
    assert (Hwi' := wf_part _ _ Hci Hwi). rewrite Hyz in *.
    assert (Hend : attrs_end (args_tokens args0 ++ [TGroup d inner']) \/ args0 = None /\ attr_part [TGroup d inner']).
    { destruct args0 as [[[? ?] ?]|]; cbn [args_tokens app]; [left; discriminate|].
      apply head_open in Hh. destruct Hh as [_ Hh]. rewrite Hv in Hh. cbn [args_tokens app] in Hh.
      destruct Hd as [->| ->]; [|left; exact I].
      destruct (block_part inner inner' Hwi' Hh Hci); [left; auto|right; auto]. }
    destruct Hend as [Hend|[-> Hp]].
    - apply in_block; auto. apply head_open. auto.
    - cbn [args_tokens app args_kept] in *. rewrite <- (app_nil_r attrs) at 1. apply in_attrs; auto. }
  inversion He; subst.
  - exfalso. destruct (cut_one _ _ (no_group_punct _ _) Hc); [discriminate|contradiction].
  - apply (Hblock v cs0 H None (t0 :: y0)); auto. { exact I. } discriminate.
  - destruct (cut_cons_inv _ _ _ Hc) as [Hx|[(y' & Hx & Hy)|(? & ? & ? & Hx & _)]]; try discriminate.
    rewrite Hx in *.
    assert (Hhead : elem_head E u t sels attrs (TPunct "|" sp :: y')) by (apply head_open; split; [exact Hoy|discriminate]).
    assert (Hel := element_head E (children_of E) u t sels attrs _ HE Hw Hhead).
    destruct (cut_app_inv _ _ _ Hy) as [[Hc1 _]|(y1 & -> & Hc1)].
    { rewrite tail_args in Hel by (eapply cut_not_pipe; eauto).
      eapply ep_fail; [exact Hel|constructor|intros []]. }
    destruct (cut_cons_inv _ _ _ Hc1) as [->|[(y2 & -> & Hc2)|(? & ? & ? & Hz & _)]]; [| |discriminate].
    { rewrite app_nil_r in *. rewrite tail_args in Hel by auto.
      eapply ep_fail; [exact Hel|constructor|intros []]. }
    destruct y2 as [|t2 y2].
    { rewrite tail_args_only in Hel by auto. eapply ep_read; [exact Hel|intros slot]. now apply (bg_args E slot u (sp, args0, sp') t sels attrs). }
    assert (Hat : forall z, TPunct "|" sp :: args0 ++ TPunct "|" sp' :: z = args_tokens (Some (sp, args0, sp')) ++ z).
    { intros z. cbn [args_tokens app]. now rewrite <- app_assoc. }
    rewrite Hat. apply (Hblock b cs0 H0 (Some (sp, args0, sp')) (t2 :: y2)); auto.
    + intros Hz. apply Hne. now rewrite Hz.
    + discriminate.

    + discriminate.
Qed.

Lemma element_part ts e f y : wf ts -> kids_ok (size ts) -> element_phrase E ts e f -> cut ts y -> y <> ts ->
  el_part E (begins E y e) y.
Proof.
  intros Hw0 Hk H Hc Hne. assert (Hw := wf_part _ _ Hc Hw0).
  destruct H as [ts1 t ts2 sels ts3 attrs ts4 args cs f H1 H2 H3 H4].
  assert (Hw1 := Hw0). rewrite !wf_app in Hw1. destruct Hw1 as (Hw1 & Hw2 & Hw3 & Hw4).
  assert (Hz4 : exists z b, ts4 = z :: b /\ same_stop Narrow z z) by (eapply end_stops; eauto).
  assert (Hop : ~ next_op ":" ":" (ts2 ++ ts3 ++ ts4 ++ f)).
  { eapply selectors_not_op; eauto. eapply attrs_not_op; eauto. destruct Hz4 as (z & b & -> & Hz). cbn [app]. eapply stop_not_op; eauto. }
  assert (Hlt : ~ next_punct "<" (ts2 ++ ts3 ++ ts4 ++ f)).
  { inversion H2; subst.
    - inversion H3; subst.
      + destruct Hz4 as (z & b & -> & Hz). cbn. intros [sp ->]. inversion Hz; subst; try discriminate.
        match goal with h : _ = ";"%char \/ _ |- _ => destruct h; discriminate end.
      + apply attr_starts in H0. destruct H0 as (x & r & -> & Hx). cbn. intros [sp ->].
        destruct Hx as [[]|[[? Hx]|[? Hx]]]; discriminate.
    - inversion H; subst; cbn; intros [? ?]; discriminate. }
  destruct (cut_app_inv _ _ _ Hc) as [[Hc1 Hn1]|(y1 & -> & Hc1)].
  { apply tag_element; [exact HE|exact Hw|intros u t' p ds -> Ht' Hd slot; now apply (bg_tag E slot ts1 (ts2 ++ ts3 ++ ts4 ++ f))|]. exact (tag_part_ok E ts1 t _ y HE HU Hw1 H1 Hc1 Hn1). }
  assert (Htag : forall z, cut (ts2 ++ ts3 ++ ts4) z -> tag_phrase E ts1 t z).
  { intros z Hz. eapply cut_tag; [auto| |exact Hlt|exact Hop|exact H1].
    apply (cut_more _ _ f) in Hz. now rewrite <- !app_assoc in Hz. }
  destruct (cut_app_inv _ _ _ Hc1) as [[Hc2 Hn2]|(y2 & -> & Hc2)].
  { destruct (selectors_part _ _ _ _ H2 Hc2 Hn2) as (u & p & l1 & l2 & l3 & -> & -> & Hr & Hl & Hp).
    assert (Hopen : open_tag E (ts1 ++ u) t (l1 ++ l3) p).
    { exists ts1, u. split; [reflexivity|]. split; [now apply Htag|auto]. }
    rewrite app_assoc in *. assert (He := element_open_tag E (children_of E) (ts1 ++ u) t (l1 ++ l3) p HE Hw Hopen).
    destruct Hp as [->|Hp].
    - eapply ep_read; [rewrite He; reflexivity|].
      intros slot. rewrite (app_nil_r (l1 ++ l3)). apply bg_selectors; [exact Hopen|exact Hl|constructor].
    - rewrite (bind_run0 _ _ _ _ _ (stray_selectors p Hp)) in He.
      rewrite (bind_run0 _ _ _ _ _ (stray_attrs p Hp)), (stray_tail _ _ _ _ p Hp), app_nil_r in He.
      eapply ep_stray; [exact He| |exact Hp]. intros slot. apply bg_selectors; [exact Hopen|exact Hl|].
      destruct Hp as (c & sp & -> & Hp). now constructor. }
  assert (Hsel : forall z, cut (ts3 ++ ts4) z -> selectors_phrase ts2 sels z).
  { intros z Hz. eapply cut_selectors; [|exact H2]. apply (cut_more _ _ f) in Hz. now rewrite <- !app_assoc in Hz. }
  destruct (cut_app_inv _ _ _ Hc2) as [[Hc3 Hn3]|(y3 & -> & Hc3)].
  { destruct (attrs_part _ _ _ _ Hw3 H3 Hc3 Hn3) as (u & p & l1 & l2 & -> & -> & Hr & Hp).
    assert (Hopen : open_head E (ts1 ++ ts2 ++ u) t sels l1 p).
    { exists ts1, ts2, u. split; [reflexivity|]. split; [now apply Htag|]. split; [|auto]. now apply Hsel. }
    replace (ts1 ++ ts2 ++ u ++ p) with ((ts1 ++ ts2 ++ u) ++ p) in * by now rewrite <- !app_assoc.
    apply in_attrs; auto. }
  replace (ts1 ++ ts2 ++ ts3 ++ y3) with ((ts1 ++ ts2 ++ ts3) ++ y3) in * by now rewrite <- !app_assoc.
  eapply end_part; [| | | |exact H4|exact Hc3|].
  - rewrite <- !app_assoc. exact Hw0.
  - intros inner cs0 Hs. apply Hk. rewrite !size_app. lia.
  - exists ts1, ts2, ts3. split; [reflexivity|]. exact (conj H1 (conj H2 H3)).
  - intros z Hz. exists ts1, ts2, ts3. split; [reflexivity|]. apply (cut_pre ts3) in Hz as Hz3. apply (cut_pre ts2) in Hz3 as Hz2.
    split; [now apply Htag|]. split; [now apply Hsel|]. apply attrs_run_end in H3. destruct H3 as [H3 _].
    eapply cut_attr_run; [|exact H3]. now apply cut_more.
  - intros ->. apply Hne. now rewrite <- !app_assoc.
Qed.

(** ** Children *)

Lemma no_group_lit k s : ~ (exists d g, TLit k s = TGroup d g).
Proof. intros (? & ? & ?). discriminate. Qed.
Lemma word_child i (R : list child -> list diag -> Prop) : wf [TIdent i] -> (forall x, unfinished x -> R [] [DParse x]) ->
  (forall t, tag_phrase E [TIdent i] t [] -> R [CElement (Element t [] [] None None)] [DUnterminated]) ->
  (exists v, value_phrase [TIdent i] v []) /\ R [CValue (VLit (LitTok LkStr ""))] [DNonStrChild] \/ (~ exists v, value_phrase [TIdent i] v []) ->
  kids_part E R [TIdent i].
Proof.
  intros Hw H0 HR [[(v & Hv) Hv0]|Hv].
  - inversion Hv; subst; (eapply kp_read; [reflexivity|exact Hv0]).
  - apply (element_child E (fun e ds => exists t, e = Element t [] [] None None /\ tag_phrase E [TIdent i] t [] /\ ds = [DUnterminated]) R None [TIdent i]); auto.
    + split; [exact I|]. split; [intros (? & ? & Hx & _); discriminate|].
      intros (v & ts' & r & Heq & Hp). destruct ts' as [|t [|t' ts']]; inversion Heq; subst; [inversion Hp|]. eauto.
    + apply tag_element; [exact HE|exact Hw| |apply word_tag; auto]. intros u t p ds Hu Ht Hd.
      destruct Hd as [|c sp Hc]; [rewrite app_nil_r in Hu; subst; eauto|].
      destruct u as [|x [|x' u]]; discriminate.
    + intros e ds (t & -> & Ht & ->). now apply HR.
Qed.

Lemma slot_alone sp : children_of E [TIdent (Id false "slot"); TPunct ":" sp] = PR (Ret []) [] [DParse (EKebab AtEnd)].
Proof. destruct sp; reflexivity. Qed.

Lemma child_part ts c f y : wf ts -> kids_ok (size ts) -> child_phrase E ts c f -> cut ts y -> y <> ts -> y <> [] ->
  kids_part E (started E y [c]) y.
Proof.
  intros Hw0 Hk H Hc Hne Hy. assert (Hw := wf_part _ _ Hc Hw0).
  assert (H0 : forall x, unfinished x -> started E y [c] [] [DParse x]).
  { intros x Hx. apply (st_lost E [] y [] ts c f [] x); auto. constructor. }
  assert (H1 : forall c' ds, begun E y c c' ds -> started E y [c] [c'] ds).
  { intros c' ds Hb. apply (st_last E [] y [] c c' [] ds); auto. constructor. }
  inversion H; subst.
  - destruct (value_part _ _ _ _ H2 Hc Hne Hy) as [(v' & Hv')|[Hl Hi]].
    + inversion H2; subst; try (exfalso; destruct (H3 _ eq_refl) as [? Hq]; first [discriminate Hq|inversion Hq; subst; match goal with h : _ = LkInt \/ _ |- _ => destruct h; discriminate end]).
      * destruct (cut_one _ _ (no_group_lit _ _) Hc); contradiction.
      * destruct (cut_cons_inv _ _ _ Hc) as [->|[(z & -> & Hz)|(? & ? & ? & Hx & -> & Hg)]]; [congruence|apply cut_nil in Hz; subst; congruence|].
        inversion Hx; subst. eapply kp_read; [reflexivity|apply H1; now constructor].
      * destruct (cut_cons_inv _ _ _ Hc) as [->|[(z & -> & Hz)|(? & ? & ? & Hx & -> & Hg)]]; [congruence|apply cut_nil in Hz; subst; congruence|].
        inversion Hx; subst. eapply kp_read; [reflexivity|apply H1; now apply (bg_bracket E None)].
      * destruct (cut_cons_inv _ _ _ Hc) as [->|[(z & -> & Hz)|(? & ? & ? & Hx & _)]]; [congruence| |discriminate].
        destruct (cut_cons_inv _ _ _ Hz) as [->|[(z' & -> & Hz')|(? & ? & ? & Hx & -> & Hg)]].
        -- apply word_child; auto.
           ++ intros t Ht. now apply H1, bg_prefix.
           ++ left. split; [eauto|]. apply H1, bg_bool. inversion Hv'; auto.
        -- apply cut_nil in Hz'. subst. congruence.
        -- inversion Hx; subst. eapply kp_read; [reflexivity|apply H1; now apply (bg_bracket E (Some i))].
    + destruct Hl as [[sp ->]|[i ->]].
      * exfalso. inversion H2; subst; try (exfalso; destruct (H3 _ eq_refl) as [? Hq]; first [discriminate Hq|inversion Hq; subst; match goal with h : _ = LkInt \/ _ |- _ => destruct h; discriminate end]);
          try (destruct (cut_cons_inv _ _ _ Hc) as [Hz|[(? & Hz & _)|(? & ? & ? & _ & Hz & _)]]; discriminate).
      * destruct (Hi i eq_refl) as (b & ->).
        assert (Hvb : v = VBracket (Some i) b) by (inversion H2; reflexivity). subst v.
        apply word_child; auto.
        -- intros t Ht. now apply H1, bg_prefix.
        -- destruct (parse_value_cases [TIdent i]) as [(u & v & r & Hu & Hv & _)|[Hn _]].
           ++ left. destruct u as [|t [|t' u]]; inversion Hu; subst; [inversion Hv|]. split; [eauto|].
              apply H1, bg_bool. inversion Hv; auto.
           ++ right. intros (v & Hv). apply (Hn [TIdent i] v []); auto.
  - (* an element *)
    assert (Hcf := cut_more _ _ f Hc).
    destruct ts as [|[i| | |] ts]; try contradiction.
    destruct (cut_cons_inv _ _ _ Hc) as [->|[(y' & -> & Hy')|(? & ? & ? & Hx & _)]]; [congruence| |discriminate].
    assert (Hnv : ~ exists v ts' r, TIdent i :: y' = ts' ++ r /\ value_phrase ts' v r).
    { intros (v & ts' & r & Heq & Hv). apply H5.
      assert (Hcy : cut (ts ++ f) y') by now apply cut_more.
      destruct (parse_value_cases (TIdent i :: ts ++ f)) as [(u' & v' & r' & Hu' & Hv' & _)|[Hn _]]; [eauto|].
      exfalso. inversion Hv; subst; inversion Heq; subst.
      - apply (Hn [TIdent (Id false "true")] (VLit (LitBool true)) (ts ++ f) eq_refl). constructor.
        intros Hg. destruct (ts ++ f) as [|[| | |[] g] r0] eqn:Hz; try contradiction; try discriminate.
        apply (Hn [TIdent (Id false "true"); TGroup Bracket g] (VBracket (Some (Id false "true")) g) r0 eq_refl). constructor.
      - apply (Hn [TIdent (Id false "false")] (VLit (LitBool false)) (ts ++ f) eq_refl). constructor.
        intros Hg. destruct (ts ++ f) as [|[| | |[] g] r0] eqn:Hz; try contradiction; try discriminate.
        apply (Hn [TIdent (Id false "false"); TGroup Bracket g] (VBracket (Some (Id false "false")) g) r0 eq_refl). constructor.
      - assert (Hg : next_group Bracket (ts ++ f)) by (eapply cut_next_group; [exact Hcy|reflexivity]).
        destruct (ts ++ f) as [|[| | |[] g] r0] eqn:Hz; try contradiction; try discriminate.
        apply (Hn [TIdent i0; TGroup Bracket g] (VBracket (Some i0) g) r0 eq_refl). constructor. }
    assert (Hs : slot_prefix (TIdent i :: y') \/ ~ slot_prefix (TIdent i :: y')).
    { destruct (peek_keyword "slot" (TIdent i :: y') && peek2 (peek_punct ":") (TIdent i :: y') && negb (peek2 (peek_punct "::") (TIdent i :: y'))) eqn:Ht.
      - left. now apply slot_test.
      - right. intros Hs. apply slot_test in Hs. congruence. }
    destruct Hs as [Hs|Hs].
    + assert (Hsl : exists sp, TIdent i :: y' = [TIdent (Id false "slot"); TPunct ":" sp]).
      { destruct Hs as (sp & r & Heq & Hn). inversion Heq; subst. exists sp.
        destruct (cut_head _ _ _ Hcf (no_group_ident _)) as (z1 & Hz1 & Hc1). cbn [app] in Hz1. inversion Hz1; subst.
        destruct (cut_head _ _ _ Hc1 (no_group_punct _ _)) as (z2 & Hz2 & Hc2).
        destruct r as [|t r]; [reflexivity|]. exfalso. apply H4. exists sp, z2. cbn [app]. rewrite Hz2. split; [reflexivity|].
        intros [-> Hp]. apply Hn. split; [reflexivity|]. eapply cut_starts; [exact Hc2|discriminate|exact Hp]. }
      destruct Hsl as (sp & Hsl). rewrite Hsl in *. eapply kp_read; [apply slot_alone|apply H0; constructor].
    + apply (element_child E (begins E (TIdent i :: y') e) _ None (TIdent i :: y')); auto.
      * split; [exact I|auto].
      * exact (element_part _ _ _ _ Hw0 Hk H2 Hc Hne).
      * intros e' ds He'. apply H1. apply (He' None).
  - (* a slot *)
    destruct (cut_cons_inv _ _ _ Hc) as [->|[(y1 & -> & Hy1)|(? & ? & ? & Hx & _)]]; [congruence| |discriminate].
    destruct (cut_cons_inv _ _ _ Hy1) as [->|[(y2 & -> & Hy2)|(? & ? & ? & Hx & _)]]; [| |discriminate].
    + apply word_child; auto.
      * intros t Ht. now apply H1, bg_slot.
      * right. intros (v & Hv). inversion Hv.
    + apply (element_child E (begins E y2 e) _ (Some sp) y2); auto.
      * destruct H2 as (sp' & r & Heq & Hn). inversion Heq; subst. exists sp', y2. split; [reflexivity|].
        intros [-> Hp]. apply Hn. split; [reflexivity|]. eapply cut_next_punct; [|exact Hp]. now apply cut_more.
      * eapply element_part; [| |exact H3|exact Hy2|congruence].
        -- rewrite !wf_cons in Hw0. tauto.
        -- intros inner cs Hsz. apply Hk. rewrite !size_cons. lia.
      * intros e' ds He'. apply H1. apply (He' (Some sp)).
Qed.

Lemma started_cons ts c f y cs cs' ds : child_phrase E ts c f ->
  started E y cs cs' ds -> started E (ts ++ y) (c :: cs) (c :: cs') ds.
Proof.
  intros Hc H.
  assert (Hgo : forall u l, children_phrase E u l -> children_phrase E (ts ++ u) (c :: l)).
  { intros u l Hu. apply ch_cons; [|exact Hu]. apply child_phrase_g_iff. eapply child_follow; [auto|].
    apply child_phrase_g_iff. exact Hc. }
  destruct H as [u b a Hu|u v b ts0 c0 f0 a e Hu Hc0 Hcut Hv He|u v b c0 c' a ds Hu Hb].
  - now apply (st_done E (ts ++ u) (c :: b) a), Hgo.
  - rewrite app_assoc. apply (st_lost E (ts ++ u) v (c :: b) ts0 c0 f0 a e); auto.
  - rewrite app_assoc. apply (st_last E (ts ++ u) v (c :: b) c0 c' a ds); auto.
Qed.
Lemma started_more y c cs cs' ds : started E y [c] cs' ds -> started E y (c :: cs) cs' ds.
Proof.
  intros H. remember [c] as l eqn:Hl. destruct H as [u b a Hu|u v b ts0 c0 f a e Hu Hc0 Hcut Hv He|u v b c0 c' a ds Hu Hb].
  - destruct b as [|x b]; [now apply (st_done E u [] (c :: cs))|].
    cbn in Hl. inversion Hl; subst. apply app_eq_nil in H1. destruct H1 as [-> ->]. now apply (st_done E u [c] cs).
  - destruct b as [|x b].
    + cbn in Hl. inversion Hl; subst. now apply (st_lost E u v [] ts0 c f cs e).
    + cbn in Hl. inversion Hl. destruct b; discriminate.
  - destruct b as [|x b].
    + cbn in Hl. inversion Hl; subst. now apply (st_last E u v [] c c' cs ds).
    + cbn in Hl. inversion Hl. destruct b; discriminate.
Qed.
Lemma kids_imp (R R' : list child -> list diag -> Prop) y : (forall cs ds, R cs ds -> R' cs ds) -> kids_part E R y -> kids_part E R' y.
Proof. intros HR []; [eapply kp_read|eapply kp_abort|eapply kp_panic]; eauto. Qed.

Lemma kids_all n : kids_ok n.
Proof.
  induction n as [|n IHn]; intros inner cs Hn Hw H; [lia|].
  induction H as [|ts c ts' cs Hc H IH] using children_phrase_ind; intros y Hcut.
  { apply cut_nil in Hcut. subst. eapply kp_read; [apply no_children|apply (st_done E [] [] []), ch_nil]. }
  destruct y as [|t0 y0]; [eapply kp_read; [apply no_children|apply (st_done E [] [] (c :: cs)), ch_nil]|].
  apply wf_app in Hw as Hw'. destruct Hw' as [Hw1 Hw2].
  rewrite size_app in Hn.
  destruct (cut_app_inv _ _ _ Hcut) as [[Hc' Hne]|(y' & Heq & Hc')].
  - apply (kids_imp (started E (t0 :: y0) [c])); [intros cs0 ds0; apply started_more|]. apply (child_part ts c ts'); auto; [|discriminate].
    intros i0 cs0 Hs. apply IHn. lia.
  - rewrite Heq. assert (Hne : ts <> []).
    { apply child_phrase_g_iff in Hc. eapply child_nonempty; eauto. }
    assert (Hone : children_phrase E ts [c]).
    { rewrite <- (app_nil_r ts). apply ch_cons; [|constructor]. apply child_phrase_g_iff. eapply child_follow; [auto|].
      apply child_phrase_g_iff. exact Hc. }
    assert (Hwy : wf (ts ++ y')) by (rewrite <- Heq; eapply wf_part; eauto).
    assert (Happ := children_app E ts [c] y' HE Hwy Hone).
    assert (Hsz : size ts' < S n) by lia.
    destruct (IH Hsz Hw2 y' Hc') as [cs' ds Hr Hst|r e Hr Ha|nm r ds Hr Hb Hst]; rewrite Hr in Happ; cbn in Happ.
    + eapply kp_read; [exact Happ|]. exact (started_cons _ _ _ _ _ _ _ Hc Hst).
    + eapply kp_abort; [exact Happ|now apply after_colon_pre].
    + eapply kp_panic; [exact Happ|auto|now apply stops_pre].
Qed.
End Elements.

Theorem typed_children E x cs y : env_ok E -> unfinished_generics E -> wf x -> children_phrase E x cs -> cut x y ->
  kids_part E (started E y cs) y.
Proof. intros HE HU Hw H Hc. apply (kids_all E HE HU (S (size x)) x cs); auto. Qed.

Scheme started_ind2 := Minimality for started Sort Prop with begun_ind2 := Minimality for begun Sort Prop.
Combined Scheme started_begun_ind from started_ind2, begun_ind2.
Lemma dangling_reports p ds : dangling p ds -> typing_reports ds.
Proof. intros []; constructor. Qed.
Lemma attr_reports p l c ds : attr_begun p l c ds -> typing_reports ds.
Proof. intros []; repeat constructor. Qed.
Lemma started_reports E : (forall y cs cs' ds, started E y cs cs' ds -> typing_reports ds) /\
  (forall y c c' ds, begun E y c c' ds -> typing_reports ds).
Proof.
  apply started_begun_ind; intros; auto; try (now constructor).
  - now apply (attr_reports p attrs2 cs').
  - now apply (dangling_reports p).
  - now apply (dangling_reports p).
Qed.
