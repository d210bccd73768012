(** Reading elements and children of any token stream. *)
From Verif Require Export BrokenFacts2.
From Verif Require Import KebabFacts GrammarFacts GrammarFacts2 TagFacts ElementFacts PlacedFacts SpecStr SpecGrammar.
From Coq Require Import Lia.
Open Scope list_scope.
Open Scope sparse_scope.

(** ** Closure arguments *)

Lemma closure_yes first s' sp' r sc args : Forall not_pipe (erases args) -> forall n, List.length args < n ->
  sclosure_loop first n sc (args ++ SPunct s' "|" sp' :: r) = SPR (SRet (args ++ [SPunct s' "|" Alone])) r [].
Proof.
  induction args as [|t args IH]; intros Hf [|n] Hn; try (cbn in Hn; lia); cbn [sclosure_loop app].
  - rewrite (run_bind0 (srollback (sparse_punct "|")) _ sc (SPunct s' "|" sp' :: r) (Some [s']) r eq_refl). reflexivity.
  - apply Forall_cons_iff in Hf as [Ht Hf].
    assert (Hp : ~ next_punct "|" (erases (t :: args ++ SPunct s' "|" sp' :: r))) by exact Ht.
    rewrite (run_bind0 _ _ _ _ _ _ (run_back_none _ _ _ _ _ _ _ (punct_no "|" _ sc Hp))).
    rewrite (run_bind0 (srollback sparse_tt) _ sc (t :: args ++ SPunct s' "|" sp' :: r) (Some t) _ eq_refl).
    rewrite (run_bind0 _ _ _ _ _ _ (IH Hf n ltac:(cbn in Hn; lia))). reflexivity.
Qed.
Lemma closure_no first sc args : Forall not_pipe (erases args) -> forall n, List.length args < n ->
  sclosure_loop first n sc args = SPR (SFail EClosure first) [] [].
Proof.
  induction args as [|t args IH]; intros Hf [|n] Hn; try (cbn in Hn; lia); cbn [sclosure_loop].
  - reflexivity.
  - apply Forall_cons_iff in Hf as [Ht Hf].
    assert (Hp : ~ next_punct "|" (erases (t :: args))) by exact Ht.
    rewrite (run_bind0 _ _ _ _ _ _ (run_back_none _ _ _ _ _ _ _ (punct_no "|" _ sc Hp))).
    rewrite (run_bind0 (srollback sparse_tt) _ sc (t :: args) (Some t) _ eq_refl).
    apply run_fail, IH; auto. cbn in Hn; lia.
Qed.
Lemma args_yes sc s sp args s' sp' r : Forall not_pipe (erases args) ->
  sparse_closure_args sc (SPunct s "|" sp :: args ++ SPunct s' "|" sp' :: r) = SPR (SRet (pipes s args s')) r [].
Proof.
  intros H. unfold sparse_closure_args.
  rewrite (run_bind0 (sparse_punct "|") _ sc (SPunct s "|" sp :: args ++ SPunct s' "|" sp' :: r) [s] _ eq_refl).
  rewrite (run_bind0 _ _ _ _ _ _ (closure_yes (punct_span [s]) s' sp' r sc args H (S (List.length (SPunct s "|" sp :: args ++ SPunct s' "|" sp' :: r))) ltac:(cbn; rewrite app_length; lia))). reflexivity.
Qed.
Lemma args_no sc s sp args : Forall not_pipe (erases args) ->
  sparse_closure_args sc (SPunct s "|" sp :: args) = SPR (SFail EClosure s) [] [].
Proof.
  intros H. unfold sparse_closure_args.
  rewrite (run_bind0 (sparse_punct "|") _ sc (SPunct s "|" sp :: args) [s] _ eq_refl).
  apply run_fail. apply closure_no; [exact H|]. cbn. lia.
Qed.
Lemma pipe_cases ts : Forall not_pipe (erases ts) \/ exists args s sp r, ts = args ++ SPunct s "|" sp :: r /\ Forall not_pipe (erases args).
Proof.
  induction ts as [|t ts IH]; [left; constructor|].
  destruct (next_punct_dec "|" (erases [t])) as [H|H].
  - destruct (next_punct_s _ _ H) as (s & sp & r & Ht). injection Ht as -> _. right. exists [], s, sp, ts. split; [reflexivity|constructor].
  - destruct IH as [IH|(args & s & sp & r & -> & IH)]; [left; now constructor|right].
    exists (t :: args), s, sp, r. split; [reflexivity|now constructor].
Qed.

Section Broken3.
Variable E : senv.
Hypothesis HE : senv_ok E.

Lemma named_sp u k t : sp_name E u k -> named_tag E k t -> sp_tag E u t.
Proof. intros Hn H. destruct H; [eapply spt_component|eapply spt_html|eapply spt_svg|eapply spt_math|eapply spt_web]; eassumption. Qed.
Lemma rd_tag_sp u t ds r : rd_tag E u t ds r -> sp_tag E u t.
Proof. intros [ts p f Hf [Hp _]|ts k t' ds' f Hf [Hn _] Ht]; [now constructor|eapply named_sp; eassumption]. Qed.
Lemma head_tag u t sels attrs ds r : rd_head E u t sels attrs ds r -> tag_span E t = tag_place E t.
Proof. intros []. eapply tag_span_eq; [exact HE|]. eapply rd_tag_sp; eassumption. Qed.

(** ** Elements *)

Section Element.
Variable pc : SP (list schild).
Variable N : nat.
Hypothesis Hrd : forall sc ts cs ds, size (erases ts) < N -> wf (erases ts) -> rd_children E sc ts cs ds -> pc sc ts = SPR (SRet cs) [] ds.
Hypothesis Hab : forall sc ts o ds, size (erases ts) < N -> wf (erases ts) -> ab_children E sc ts o ds -> exists r, pc sc ts = SPR (ended o) r ds.
Hypothesis Hcs : forall sc ts, size (erases ts) < N -> wf (erases ts) ->
  (exists cs ds, rd_children E sc ts cs ds) \/ (exists o ds, ab_children E sc ts o ds).

Definition block_code (d : delim) (f : list schild -> selement) : SP selement := c <- sdelimited d pc ;; sret (f (snd c)).
Definition end_code (t : stag) (sels : list sselector) (attrs : list sattr) : SP selement :=
  semi <- srollback (sparse_punct ";") ;;
  match semi with
  | Some _ => sret (SElement t sels attrs None None)
  | None =>
      ts <- slook (fun ts => ts) ;;
      match ts with
      | [] => semit DUnterminated (tag_span E t) ;;; sret (SElement t sels attrs None None)
      | _ =>
          if speek_group Brace ts then block_code Brace (fun c => SElement t sels attrs None (Some c))
          else if speek_group Paren ts then block_code Paren (fun c => SElement t sels attrs None (Some c))
          else if speek_punct "|" ts then
            args <- sparse_closure_args ;;
            ts' <- slook (fun ts => ts) ;;
            if speek_group Brace ts' then block_code Brace (fun c => SElement t sels attrs (Some args) (Some c))
            else if speek_group Paren ts' then block_code Paren (fun c => SElement t sels attrs (Some args) (Some c))
            else
              s <- shere ;;
              semit DNoChildrenAfterArgs s ;;;
              sret (SElement t sels attrs (Some args) None)
          else
            s <- shere ;;
            semit DUnknownAttr s ;;;
            semit DNoChildElements (joinx E (tag_span E t) s) ;;;
            sret (SElement t sels attrs None None)
      end
  end.
Definition head_code {A} (f : stag -> list sselector -> list sattr -> SP A) : SP A :=
  t <- sparse_tag E ;; sels <- sparse_selectors E ;; attrs <- sparse_attrs E ;; f t sels attrs.
Lemma element_code sc ts : sparse_element E pc sc ts = head_code end_code sc ts.
Proof. reflexivity. Qed.

Lemma head_run {A} (f : stag -> list sselector -> list sattr -> SP A) sc u t sels attrs ds r o r' d' : wf (erases (u ++ r)) ->
  rd_head E u t sels attrs ds r -> f t sels attrs sc r = SPR o r' d' -> head_code f sc (u ++ r) = SPR o r' (ds ++ d').
Proof.
  intros Hw H. revert Hw. destruct H as [u1 t ds1 u2 sels ds2 u3 attrs ds3 r Ht Hs Ha]. intros Hw Hf.
  rewrite <- !app_assoc in *. assert (Hw2 := wf_tail _ _ Hw). assert (Hw3 := wf_tail _ _ Hw2).
  unfold head_code. eapply run_bind; [eapply tag_run; eassumption|]. eapply run_bind; [eapply selectors_run; eassumption|].
  eapply run_bind; [eapply attrs_run; eassumption|exact Hf].
Qed.
Lemma head_cases sc ts : wf (erases ts) ->
  (exists u t sels attrs ds r, ts = u ++ r /\ rd_head E u t sels attrs ds r) \/
  (exists e p r, bad_tag E sc ts e p r) \/ (exists o ds, ab_element E sc ts o ds).
Proof.
  intros Hw. destruct (tag_cases E HE sc ts Hw) as [(u1 & t & ds1 & r1 & -> & Ht)|[H|(u & k & ds & r & -> & Hf & Hn & Hk & Hb)]].
  - assert (Hw1 := wf_tail _ _ Hw). destruct (selectors_cases E r1 Hw1) as (u2 & sels & ds2 & r2 & -> & Hs).
    assert (Hw2 := wf_tail _ _ Hw1).
    destruct (attrs_cases E sc r2 Hw2) as [(u3 & attrs & ds3 & r3 & -> & Ha)|(o & ds3 & Ha)].
    + left. exists (u1 ++ u2 ++ u3), t, sels, attrs, (ds1 ++ ds2 ++ ds3), r3. split; [now rewrite !app_assoc|]. now constructor.
    + right. right. do 2 eexists. eapply abe_attrs; eassumption.
  - auto.
  - right. right. do 2 eexists. eapply abe_tag; eassumption.
Qed.

Lemma end_step t sels attrs sc ts : end_code t sels attrs sc ts =
  match ts with
  | [] => SPR (SRet (SElement t sels attrs None None)) [] [(DUnterminated, tag_span E t)]
  | SGroup b Brace inner :: r => block_code Brace (fun c => SElement t sels attrs None (Some c)) sc ts
  | SGroup b Paren inner :: r => block_code Paren (fun c => SElement t sels attrs None (Some c)) sc ts
  | SPunct s c sp :: r =>
      if ascii_dec c ";" then SPR (SRet (SElement t sels attrs None None)) r []
      else if ascii_dec c "|" then
        (args <- sparse_closure_args ;;
         ts' <- slook (fun ts => ts) ;;
         if speek_group Brace ts' then block_code Brace (fun c => SElement t sels attrs (Some args) (Some c))
         else if speek_group Paren ts' then block_code Paren (fun c => SElement t sels attrs (Some args) (Some c))
         else
           s <- shere ;;
           semit DNoChildrenAfterArgs s ;;;
           sret (SElement t sels attrs (Some args) None)) sc ts
      else SPR (SRet (SElement t sels attrs None None)) ts [(DUnknownAttr, s); (DNoChildElements, joinx E (tag_span E t) s)]
  | _ => SPR (SRet (SElement t sels attrs None None)) ts
           [(DUnknownAttr, next_place sc ts); (DNoChildElements, joinx E (tag_span E t) (next_place sc ts))]
  end.
Proof.
  unfold end_code. destruct (punct_cases ";" ts sc ltac:(discriminate)) as [(s & sp & r & -> & Hp)|[Hd Hp]];
    rewrite (run_bind0 _ _ _ _ _ _ Hp); [reflexivity|]. rewrite run_look.
  destruct ts as [|[s i|s c sp|s k v|b [] l] r]; try reflexivity.
  cbn [speek_group]. destruct (ascii_dec c ";"); [subst; destruct Hd; now exists sp|].
  destruct (ascii_dec c "|") as [->|Hc]; [reflexivity|].
  assert (Hf : speek_punct "|" (SPunct s c sp :: r) = false).
  { apply speek_punct_f; [discriminate|]. intros [? [= ? _]]. congruence. }
  rewrite Hf. reflexivity.
Qed.
Lemma block_run d f sc b inner cs ds r : block_delim d -> size (erases inner) < N -> wf (erases inner) ->
  rd_children E (d_close b) inner cs ds -> block_code d f sc (SGroup b d inner :: r) = SPR (SRet (f cs)) r ds.
Proof.
  intros Hd Hn Hw H. unfold block_code. rewrite <- (app_nil_r ds). eapply run_bind with (a := (b, cs)); [|reflexivity].
  unfold sdelimited. rewrite (Hrd _ _ _ _ Hn Hw H). destruct Hd as [-> | ->]; reflexivity.
Qed.
Lemma block_abort d f sc b inner o ds r : block_delim d -> size (erases inner) < N -> wf (erases inner) ->
  ab_children E (d_close b) inner o ds -> exists r', block_code d f sc (SGroup b d inner :: r) = SPR (ended o) r' ds.
Proof.
  intros Hd Hn Hw H. unfold block_code. destruct (Hab _ _ _ _ Hn Hw H) as [r' Hr]. eexists. apply run_abort.
  unfold sdelimited. rewrite Hr. destruct Hd as [-> | ->]; destruct o; reflexivity.
Qed.
Lemma size_in (u : list stt) b d inner r : size (erases (u ++ SGroup b d inner :: r)) <= N -> size (erases inner) < N.
Proof.
  rewrite erases_app, size_app. intros H. assert (size (erases (SGroup b d inner :: r)) <= N) by lia. clear H. cbn [erases map] in H0.
  rewrite size_cons in H0. cbn [erase] in H0. rewrite tt_size_group in H0. unfold erases. lia.
Qed.
Lemma wf_in (u : list stt) b d inner r : wf (erases (u ++ SGroup b d inner :: r)) -> wf (erases inner).
Proof. intros H. apply wf_tail in H. apply wf_cons in H as [H _]. now apply wf_group in H. Qed.
Lemma after_args t sels attrs args sc b d inner r x y z : block_delim d ->
  (ts' <- slook (fun ts => ts) ;;
   if speek_group Brace ts' then block_code Brace (fun c => SElement t sels attrs (Some args) (Some c))
   else if speek_group Paren ts' then block_code Paren (fun c => SElement t sels attrs (Some args) (Some c))
   else
     s <- shere ;;
     semit DNoChildrenAfterArgs s ;;;
     sret (SElement t sels attrs (Some args) None)) sc (SGroup b d inner :: r) = SPR x y z <->
  block_code d (fun c => SElement t sels attrs (Some args) (Some c)) sc (SGroup b d inner :: r) = SPR x y z.
Proof. intros Hd. rewrite run_look. destruct Hd as [-> | ->]; reflexivity. Qed.

Lemma end_run t sels attrs sc u args cs ds r : tag_span E t = tag_place E t ->
  size (erases (u ++ r)) <= N -> wf (erases (u ++ r)) -> rd_end E sc t u args cs ds r ->
  end_code t sels attrs sc (u ++ r) = SPR (SRet (SElement t sels attrs args cs)) r ds.
Proof.
  intros Ht Hn Hw H. rewrite end_step. destruct H as [t s sp r|t b d inner cs ds r Hd Hc|t s sp args s' sp' b d inner cs ds r Hf Hd Hc
    |t|t s sp args s' sp' r Hf Hb|t r p He ->].
  - reflexivity.
  - assert (Hn' := size_in [] _ _ _ _ Hn). assert (Hw' := wf_in [] _ _ _ _ Hw).
    destruct Hd as [-> | ->]; cbn [app]; rewrite (block_run _ _ sc b inner cs ds r) by (auto; unfold block_delim; auto); reflexivity.
  - cbn [app] in *. rewrite <- app_assoc in *. cbn [app] in *.
    assert (Hn' := size_in (SPunct s "|" sp :: args ++ [SPunct s' "|" sp']) b d inner r).
    assert (Hw' := wf_in (SPunct s "|" sp :: args ++ [SPunct s' "|" sp']) b d inner r).
    cbn [app] in Hn', Hw'. rewrite <- app_assoc in Hn', Hw'. specialize (Hn' Hn). specialize (Hw' Hw).
    cbn [ascii_dec]. destruct (ascii_dec "|" ";"); [discriminate|]. destruct (ascii_dec "|" "|"); [|congruence].
    rewrite (run_bind0 _ _ _ _ _ _ (args_yes sc s sp args s' sp' (SGroup b d inner :: r) Hf)).
    apply after_args; [exact Hd|]. now apply (block_run d (fun c => SElement t sels attrs (Some (pipes s args s')) (Some c))).
  - cbn [app]. now rewrite Ht.
  - cbn [app] in *. rewrite <- app_assoc in *. cbn [app] in *.
    destruct (ascii_dec "|" ";"); [discriminate|]. destruct (ascii_dec "|" "|"); [|congruence].
    rewrite (run_bind0 _ _ _ _ _ _ (args_yes sc s sp args s' sp' r Hf)). rewrite run_look.
    assert (H1 : speek_group Brace r = false) by (destruct r as [|[| | |? [] ?] ?]; try reflexivity; destruct Hb; now left).
    assert (H2 : speek_group Paren r = false) by (destruct r as [|[| | |? [] ?] ?]; try reflexivity; destruct Hb; now right).
    rewrite H1, H2. unfold sbind, shere, semit, sret. cbn [sp_out sp_rest sp_diags app]. now rewrite here_place.
  - cbn [app]. rewrite <- Ht. destruct r as [|[s i|s c sp|s k v|b [] l] r]; try reflexivity; try (destruct He; exact I).
    cbn in He. destruct (ascii_dec c ";"); [tauto|]. destruct (ascii_dec c "|"); [tauto|]. reflexivity.
Qed.
Lemma element_run sc u e ds r : size (erases (u ++ r)) <= N -> wf (erases (u ++ r)) -> rd_element E sc u e ds r ->
  sparse_element E pc sc (u ++ r) = SPR (SRet e) r ds.
Proof.
  intros Hn Hw H. rewrite element_code. revert Hn Hw. destruct H as [u t sels attrs ds u' args cs ds' r Hh He]. intros Hn Hw.
  rewrite <- app_assoc in *. eapply head_run; [exact Hw|exact Hh|]. apply end_run.
  - eapply head_tag, Hh.
  - rewrite erases_app, size_app in Hn. lia.
  - now apply wf_tail in Hw.
  - exact He.
Qed.
Lemma element_bad sc ts ds e p r : wf (erases ts) -> bad_element E sc ts ds e p r -> sparse_element E pc sc ts = SPR (SFail e p) r ds.
Proof.
  intros Hw H. rewrite element_code. revert Hw. destruct H as [ts e p r Ht|u t sels attrs ds s sp args Hh Hf]; intros Hw.
  - unfold head_code. apply run_fail. now apply tag_bad.
  - rewrite <- (app_nil_r ds). eapply head_run; [exact Hw|exact Hh|]. rewrite end_step.
    destruct (ascii_dec "|" ";"); [discriminate|]. destruct (ascii_dec "|" "|"); [|congruence].
    apply run_fail. now apply args_no.
Qed.
Lemma element_abort sc ts o ds : size (erases ts) <= N -> wf (erases ts) -> ab_element E sc ts o ds ->
  exists r, sparse_element E pc sc ts = SPR (ended o) r ds.
Proof.
  intros Hn Hw H. rewrite element_code. revert Hn Hw.
  destruct H as [u k ds r Hf Hk Hkind Hb|u1 t ds1 u2 sels ds2 ts o ds3 Ht Hs Ha|u t sels attrs ds b d inner o ds' r Hh Hd Hc
    |u t sels attrs ds s sp args s' sp' b d inner o ds' r Hh Hf Hd Hc]; intros Hn Hw.
  - exists r. unfold head_code. apply run_abort. now apply tag_panic.
  - assert (Hw1 := wf_tail _ _ Hw). assert (Hw2 := wf_tail _ _ Hw1). destruct (attrs_abort E HE sc ts o ds3 Hw2 Ha) as [r Hr].
    exists r. unfold head_code. eapply run_bind; [eapply tag_run; eassumption|]. eapply run_bind; [eapply selectors_run; eassumption|]. now apply run_abort.
  - assert (Hn' := size_in _ _ _ _ _ Hn). assert (Hw' := wf_in _ _ _ _ _ Hw).
    destruct (block_abort d (fun c => SElement t sels attrs None (Some c)) sc b inner o ds' r Hd Hn' Hw' Hc) as [r' Hr].
    exists r'. eapply head_run; [exact Hw|exact Hh|]. rewrite end_step. destruct Hd as [-> | ->]; exact Hr.
  - assert (Hn' := size_in (u ++ SPunct s "|" sp :: args ++ [SPunct s' "|" sp']) b d inner r).
    assert (Hw' := wf_in (u ++ SPunct s "|" sp :: args ++ [SPunct s' "|" sp']) b d inner r).
    rewrite <- app_assoc in Hn', Hw'. cbn [app] in Hn', Hw'. rewrite <- app_assoc in Hn', Hw'. specialize (Hn' Hn). specialize (Hw' Hw).
    destruct (block_abort d (fun c => SElement t sels attrs (Some (pipes s args s')) (Some c)) sc b inner o ds' r Hd Hn' Hw' Hc) as [r' Hr].
    exists r'. eapply head_run; [exact Hw|exact Hh|]. rewrite end_step.
    destruct (ascii_dec "|" ";"); [discriminate|]. destruct (ascii_dec "|" "|"); [|congruence].
    rewrite (run_bind0 _ _ _ _ _ _ (args_yes sc s sp args s' sp' (SGroup b d inner :: r) Hf)).
    now apply after_args.
Qed.
Lemma element_cases sc ts : size (erases ts) <= N -> wf (erases ts) ->
  (exists u e ds r, ts = u ++ r /\ rd_element E sc u e ds r) \/ (exists ds e p r, bad_element E sc ts ds e p r) \/
  (exists o ds, ab_element E sc ts o ds).
Proof.
  intros Hn Hw.
  destruct (head_cases sc ts Hw) as [(u & t & sels & attrs & ds & r & -> & Hh)|[(e & p & r & Hb)|H]]; auto.
  2: { right. left. do 4 eexists. apply be_tag, Hb. }
  assert (Hend : forall u' args cs ds' r', r = u' ++ r' -> rd_end E sc t u' args cs ds' r' ->
    exists v e ds r0, u ++ r = v ++ r0 /\ rd_element E sc v e ds r0).
  { intros u' args cs ds' r' -> He. exists (u ++ u'). do 3 eexists. split; [now rewrite app_assoc|]. econstructor; eassumption. }
  destruct r as [|[s i|s c sp|s k v|b d l] r].
  - left. eapply Hend; [|apply rdd_unterminated]. reflexivity.
  - left. eapply (Hend []); [reflexivity|]. apply rdd_unknown; [exact (fun x => x)|reflexivity].
  - destruct (ascii_dec c ";") as [->|Hs]; [left; eapply (Hend [SPunct s ";" sp]); [reflexivity|]; apply rdd_semi|].
    destruct (ascii_dec c "|") as [->|Hp].
    + destruct (pipe_cases r) as [Hf|(args & s' & sp' & r' & -> & Hf)].
      * right. left. do 4 eexists. eapply be_args; eassumption.
      * destruct r' as [|[s1 i1|s1 c1 sp1|s1 k1 v1|b d l] r'];
          try (left; eapply (Hend (SPunct s "|" sp :: args ++ [SPunct s' "|" sp'])); [cbn; now rewrite <- app_assoc|];
               apply rdd_no_children; [exact Hf|intros [[]|[]]; fail]).
        assert (Hd : block_delim d \/ ~ block_delim d) by (unfold block_delim; destruct d; auto; right; intros []; discriminate).
        destruct Hd as [Hd|Hd].
        2: { left; eapply (Hend (SPunct s "|" sp :: args ++ [SPunct s' "|" sp'])); [cbn; now rewrite <- app_assoc|].
             apply rdd_no_children; [exact Hf|]. intros [Hx|Hx]; apply Hd; unfold block_delim; destruct d; cbn in Hx; try discriminate Hx; auto. }
        assert (Hn' := size_in (u ++ SPunct s "|" sp :: args ++ [SPunct s' "|" sp']) b d l r').
        assert (Hw' := wf_in (u ++ SPunct s "|" sp :: args ++ [SPunct s' "|" sp']) b d l r').
        rewrite <- app_assoc in Hn', Hw'. cbn [app] in Hn', Hw'. rewrite <- app_assoc in Hn', Hw'. specialize (Hn' Hn). specialize (Hw' Hw).
        destruct (Hcs (d_close b) l Hn' Hw') as [(cs & ds' & Hc)|(o & ds' & Hc)].
        -- left. eapply (Hend (SPunct s "|" sp :: args ++ [SPunct s' "|" sp'; SGroup b d l])); [cbn; now rewrite <- app_assoc|].
           eapply rdd_args; eassumption.
        -- right. right. do 2 eexists. eapply abe_args; eassumption.
    + left. eapply (Hend []); [reflexivity|]. apply rdd_unknown; [|reflexivity]. intros [|]; contradiction.
  - left. eapply (Hend []); [reflexivity|]. apply rdd_unknown; [exact (fun x => x)|reflexivity].
  - assert (Hd : block_delim d \/ ~ block_delim d) by (unfold block_delim; destruct d; auto; right; intros []; discriminate).
    destruct Hd as [Hd|Hd].
    2: { left. eapply (Hend []); [reflexivity|]. apply rdd_unknown; [|reflexivity]. intros Hx. apply Hd. unfold block_delim. destruct d; cbn in Hx; auto; contradiction. }
    assert (Hn' := size_in _ _ _ _ _ Hn). assert (Hw' := wf_in _ _ _ _ _ Hw).
    destruct (Hcs (d_close b) l Hn' Hw') as [(cs & ds' & Hc)|(o & ds' & Hc)].
    + left. eapply (Hend [SGroup b d l]); [reflexivity|]. eapply rdd_block; eassumption.
    + right. right. do 2 eexists. eapply abe_block; eassumption.
Qed.

(** ** One child *)

Lemma slot_code ts : speek_keyword "slot" ts && speek2 (speek_punct ":") ts && negb (speek2 (speek_punct "::") ts) = true <-> slot_here ts.
Proof.
  unfold slot_here. rewrite <- slot_test, peek_keyword_erase.
  now rewrite (peek2_erase (speek_punct "::") (peek_punct "::")), (peek2_erase (speek_punct ":") (peek_punct ":")) by (intros; apply peek_punct_erase).
Qed.
Definition child_rest : SP schild :=
  is_slot <- slook (fun ts => speek_keyword "slot" ts && speek2 (speek_punct ":") ts && negb (speek2 (speek_punct "::") ts)) ;;
  if is_slot : bool then
    i <- sunwrap sparse_any ;;
    sunwrap (sparse_punct ":") ;;;
    e <- sparse_element E pc ;; sret (SCSlot (si_span i) e)
  else
    id <- slook speek_any ;;
    if id : bool then e <- sparse_element E pc ;; sret (SCElement e)
    else sfail EChild.
Lemma child_none sc ts : wf (erases ts) -> no_value ts -> sparse_child E pc sc ts = child_rest sc ts.
Proof.
  intros Hw Hn. unfold sparse_child. now rewrite (run_bind0 _ _ _ _ _ _ (run_back_none _ _ _ _ _ _ _ (no_value_run E sc ts Hw Hn))).
Qed.
Lemma slot_step sc s s' sp r : slot_here (SIdent s (Id false "slot") :: SPunct s' ":" sp :: r) ->
  child_rest sc (SIdent s (Id false "slot") :: SPunct s' ":" sp :: r) = (e <- sparse_element E pc ;; sret (SCSlot s e)) sc r.
Proof.
  intros H. apply slot_code in H. unfold child_rest. rewrite run_look, H.
  rewrite (run_bind0 (sunwrap sparse_any) _ sc (SIdent s (Id false "slot") :: SPunct s' ":" sp :: r) (SId s (Id false "slot")) _ eq_refl).
  now rewrite (run_bind0 (sunwrap (sparse_punct ":")) _ sc (SPunct s' ":" sp :: r) [s'] r eq_refl).
Qed.
Lemma slot_no_value s s' sp r : wf (erases (SIdent s (Id false "slot") :: SPunct s' ":" sp :: r)) -> no_value (SIdent s (Id false "slot") :: SPunct s' ":" sp :: r).
Proof.
  intros Hw. destruct (value_cases E Call _ Hw) as [(u & v & x & Hu & Hv & Hrun)|[H _]]; [|exact H]. exfalso.
  revert Hrun. cbn. discriminate.
Qed.
Lemma element_step sc ts : next_ident (erases ts) -> ~ slot_here ts ->
  child_rest sc ts = (e <- sparse_element E pc ;; sret (SCElement e)) sc ts.
Proof.
  intros Hi Hs. rewrite <- slot_code in Hs. apply not_true_iff_false in Hs. unfold child_rest. rewrite run_look, Hs, run_look.
  destruct ts as [|[] ts]; try contradiction. reflexivity.
Qed.
Lemma child_run sc u c ds r : size (erases (u ++ r)) <= N -> wf (erases (u ++ r)) -> rd_child E sc u c ds r ->
  sparse_child E pc sc (u ++ r) = SPR (SRet c) r ds.
Proof.
  intros Hn Hw H. revert Hn Hw. destruct H as [u v r Hv Hl|u l r Hv Hl|u e ds r He Hi Hs Hv|s s' sp u e ds r Hs He]; intros Hn Hw.
  - unfold sparse_child. rewrite (run_bind0 _ _ _ _ _ _ (run_back_some _ _ _ _ _ _ (value_run E sc u v r Hw Hv))).
    destruct v as [l| |]; try reflexivity. destruct (Hl l eq_refl) as (s & x & ->). reflexivity.
  - unfold sparse_child. rewrite (run_bind0 _ _ _ _ _ _ (run_back_some _ _ _ _ _ _ (value_run E sc u (SVLit l) r Hw Hv))).
    destruct l as [s [] x|s b]; try reflexivity. now destruct (Hl s x).
  - rewrite child_none, element_step; auto.
    + rewrite <- (app_nil_r ds). eapply run_bind; [eapply element_run; eassumption|reflexivity].
    + rewrite erases_app. destruct u; [contradiction|exact Hi].
  - cbn [app] in *. rewrite child_none, slot_step; auto.
    + rewrite <- (app_nil_r ds). eapply run_bind; [apply element_run; [| |exact He]|reflexivity].
      * cbn [erases map] in Hn. rewrite !size_cons in Hn. unfold erases. lia.
      * apply wf_cons in Hw as [_ Hw]. now apply wf_cons in Hw as [_ Hw].
    + now apply slot_no_value.
Qed.
Lemma child_bad sc ts ds e p r : wf (erases ts) -> bad_child E sc ts ds e p r -> sparse_child E pc sc ts = SPR (SFail e p) r ds.
Proof.
  intros Hw H. revert Hw. destruct H as [ts Ht Hv Hi|ts ds e p r Hv Hi Hs He|s s' sp ts ds e p r Hs He]; intros Hw.
  - rewrite child_none by auto. unfold child_rest. rewrite run_look. rewrite <- here_place.
    destruct ts as [|[] ts]; try reflexivity. destruct Hi. exact I.
  - rewrite child_none, element_step by auto. apply run_fail. now apply element_bad.
  - rewrite child_none, slot_step by (auto; now apply slot_no_value). apply run_fail. apply element_bad; [|exact He].
    apply wf_cons in Hw as [_ Hw]. now apply wf_cons in Hw as [_ Hw].
Qed.
Lemma child_abort sc ts o ds : size (erases ts) <= N -> wf (erases ts) -> ab_child E sc ts o ds -> exists r, sparse_child E pc sc ts = SPR (ended o) r ds.
Proof.
  intros Hn Hw H. revert Hn Hw. destruct H as [ts o ds Hv Hi Hs He|s s' sp ts o ds Hs He]; intros Hn Hw.
  - destruct (element_abort sc ts o ds Hn Hw He) as [r Hr]. exists r. rewrite child_none, element_step by auto. now apply run_abort.
  - destruct (element_abort sc ts o ds) as [r Hr]; [| |exact He|].
    + cbn [erases map] in Hn. rewrite !size_cons in Hn. unfold erases. lia.
    + apply wf_cons in Hw as [_ Hw]. now apply wf_cons in Hw as [_ Hw].
    + exists r. rewrite child_none, slot_step by (auto; now apply slot_no_value). now apply run_abort.
Qed.
Lemma child_cases sc ts : ts <> [] -> size (erases ts) <= N -> wf (erases ts) ->
  (exists u c ds r, ts = u ++ r /\ rd_child E sc u c ds r) \/ (exists ds e p r, bad_child E sc ts ds e p r) \/
  (exists o ds, ab_child E sc ts o ds).
Proof.
  intros Hne Hn Hw. destruct (value_cases E sc ts Hw) as [(u & v & r & -> & Hv & _)|[Hv _]].
  - left. assert (Hd : (exists l, v = SVLit l /\ forall s x, l <> SLitTok s LkStr x) \/ (forall l, v = SVLit l -> exists s x, l = SLitTok s LkStr x)).
    { destruct v as [[s [] x|s b]| |]; try (right; intros l0 [= <-]; eauto; fail); left; eexists; (split; [reflexivity|discriminate]). }
    destruct Hd as [(l & -> & Hl)|Hl]; do 4 eexists; (split; [reflexivity|]); [eapply rdch_literal|eapply rdch_value]; eassumption.
  - destruct (speek_keyword "slot" ts && speek2 (speek_punct ":") ts && negb (speek2 (speek_punct "::") ts)) eqn:Es.
    + apply slot_code in Es. assert (Hs := Es). destruct Es as (sp & r0 & Hr & _).
      destruct ts as [|[s i|s c sp1|s k v|b d l] [|[s' i'|s' c' sp2|s' k' v'|b' d' l'] r]]; try discriminate.
      cbn in Hr. injection Hr as -> -> -> _.
      assert (Hw' : wf (erases r)) by (apply wf_cons in Hw as [_ Hw]; now apply wf_cons in Hw as [_ Hw]).
      assert (Hn' : size (erases r) <= N) by (cbn [erases map] in Hn; rewrite !size_cons in Hn; unfold erases; lia).
      destruct (element_cases sc r Hn' Hw') as [(u & e & ds & r' & -> & He)|[(ds & e & p & r' & He)|(o & ds & He)]].
      * left. exists (SIdent s (Id false "slot") :: SPunct s' ":" sp :: u). do 3 eexists. split; [reflexivity|]. apply rdch_slot; eassumption.
      * right. left. do 4 eexists. apply bch_slot; eassumption.
      * right. right. do 2 eexists. apply abch_slot; eassumption.
    + apply not_true_iff_false in Es. rewrite slot_code in Es.
      destruct (speek_any ts) eqn:Ei.
      * assert (Hi : next_ident (erases ts)) by (destruct ts as [|[] ts]; try discriminate; exact I).
        destruct (element_cases sc ts Hn Hw) as [(u & e & ds & r' & -> & He)|[(ds & e & p & r' & He)|(o & ds & He)]].
        -- left. do 4 eexists. split; [reflexivity|]. eapply rdch_element; eauto.
           destruct He as [u0 t0 sels attrs ds0 u' args cs ds' r' [u1 t ds1 u2 sels' ds2 u3 attrs' ds3 r Ht _ _] _].
           assert (u1 <> []).
           { destruct Ht as [? ? ? ? [Hp _]|? ? ? ? ? ? Hk _]; [|destruct Hk as ([] & _); discriminate].
             destruct Hp as [? ? ? ? Hsg|? ? ? ? ? ? Hcl]; [destruct Hsg; discriminate|destruct Hcl; discriminate]. }
           rewrite <- !app_assoc in Hi |- *. destruct u1; [congruence|exact Hi].
        -- right. left. do 4 eexists. apply bch_element; eassumption.
        -- right. right. do 2 eexists. apply abch_element; eassumption.
      * right. left. do 4 eexists. apply bch_none; auto. destruct ts as [|[] ts]; cbn; auto. discriminate.
Qed.
End Element.

(** ** Children *)

Lemma tag_suffix sc ts e p r : bad_tag E sc ts e p r -> exists u, ts = u ++ r.
Proof.
  assert (Hsg : forall ts e p r, bad_segment E sc ts e p r -> exists u, ts = u ++ r).
  { assert (Hg := proj1 (proj2 (proj2 (proj2 HE)))).
    intros ? ? ? ? [ts0 _|s i r0 p0 r1 _ _ _ _ H|s i c l r0 p0 r1 _ _ _ _ H].
    - now exists [].
    - destruct (Hg _ _ _ _ H) as [[u ->] _]. now exists (SIdent s i :: u).
    - destruct (Hg _ _ _ _ H) as [[u ->] _]. exists (SIdent s i :: c ++ u). cbn. now rewrite app_assoc. }
  assert (Hss : forall ts e p r, bad_segments E sc ts e p r -> exists u, ts = u ++ r).
  { induction 1 as [? ? ? ? H|ts0 s c l ts' ? ? ? _ _ _ _ _ [u ->]]; [eauto|]. exists (ts0 ++ c ++ u). now rewrite !app_assoc. }
  intros [? ? ? ? _ _ H|c l ts0 ? ? ? _ H|ts0 _ _]; [eauto| |now exists []].
  destruct (Hss _ _ _ _ H) as [u ->]. exists (c ++ u). now rewrite app_assoc.
Qed.
Lemma child_suffix sc ts ds e p r : bad_child E sc ts ds e p r -> exists u, ts = u ++ r.
Proof.
  assert (He : forall ts ds e p r, bad_element E sc ts ds e p r -> exists u, ts = u ++ r).
  { intros ? ? ? ? ? [? ? ? ? H|ts0 t sels attrs ds0 s sp args _ _]; [eapply tag_suffix, H|]. exists (ts0 ++ SPunct s "|" sp :: args). now rewrite app_nil_r. }
  intros [ts0 _ _ _|? ? ? ? ? _ _ _ H|s s' sp ts0 ds0 e0 p0 r0 _ H]; [now exists []|eauto|].
  destruct (He _ _ _ _ _ H) as [u ->]. now exists (SIdent s (Id false "slot") :: SPunct s' ":" sp :: u).
Qed.
Lemma bad_nonempty sc ts ds e p r : bad_child E sc ts ds e p r -> ts <> [].
Proof. intros [ts0 H _ _|ts0 ? ? ? ? _ Hi _ _|]; [exact H| |discriminate]. destruct ts0; [contradiction|discriminate]. Qed.
Lemma child_nonempty sc u c ds r : rd_child E sc u c ds r -> u <> [].
Proof.
  intros [u0 v ? [Hv _] _|u0 l ? [Hv _] _|u0 ? ? ? _ Hi _ _|]; try discriminate.
  - destruct Hv; discriminate.
  - inversion Hv; discriminate.
  - destruct u0; [contradiction|discriminate].
Qed.
Lemma ab_nonempty sc ts o ds : ab_child E sc ts o ds -> ts <> [].
Proof. intros [ts0 ? ? _ Hi _ _|]; [|discriminate]. destruct ts0; [contradiction|discriminate]. Qed.
Lemma children_step n sc ts : ts <> [] -> sparse_children E (S n) sc ts =
  match sparse_child E (sparse_children E n) sc ts with
  | SPR (SRet c) r d =>
      let x := (cs <- sparse_children E n ;; sret (c :: cs)) sc r in
      SPR (sp_out x) (sp_rest x) (d ++ sp_diags x)
  | SPR (SFail e s) r d =>
      let x :=
        (if speek_punct ";" r
         then semit DExtraSemi (err_span E s) ;;; sunwrap (sparse_punct ";") ;;;
              sparse_children E n
         else semit (DParse e) (err_span E s) ;;; stake_rest ;;; sparse_children E n) sc r in
      SPR (sp_out x) (sp_rest x) (d ++ sp_diags x)
  | SPR SAbort r d => SPR SAbort r d
  | SPR (SPanic w) r d => SPR (SPanic w) r d
  | SPR SNoFuel r d => SPR SNoFuel r d
  end.
Proof. destruct ts; [congruence|reflexivity]. Qed.
Lemma semi_code n sc p s sp r :
  (if speek_punct ";" (SPunct s ";" sp :: r)
   then semit DExtraSemi (err_span E p) ;;; sunwrap (sparse_punct ";") ;;; sparse_children E n
   else semit (DParse EChild) (err_span E p) ;;; stake_rest ;;; sparse_children E n) sc (SPunct s ";" sp :: r) =
  let x := sparse_children E n sc r in SPR (sp_out x) (sp_rest x) ((DExtraSemi, p) :: sp_diags x).
Proof. rewrite (err_at E HE). cbn. unfold sbind, semit, sunwrap, sparse_punct. cbn. now destruct (sparse_children E n sc r). Qed.
Lemma nonempty_size (ts : list stt) : ts <> [] -> 1 <= size (erases ts).
Proof. destruct ts as [|t ts]; [congruence|]. intros _. cbn [erases map]. rewrite size_cons. pose proof (tt_size_pos (erase t)). lia. Qed.

Lemma children_all n :
  (forall sc ts cs ds, size (erases ts) < n -> wf (erases ts) -> rd_children E sc ts cs ds -> sparse_children E n sc ts = SPR (SRet cs) [] ds) /\
  (forall sc ts o ds, size (erases ts) < n -> wf (erases ts) -> ab_children E sc ts o ds -> exists r, sparse_children E n sc ts = SPR (ended o) r ds) /\
  (forall sc ts, size (erases ts) < n -> wf (erases ts) ->
     (exists cs ds, rd_children E sc ts cs ds) \/ (exists o ds, ab_children E sc ts o ds)).
Proof.
  induction n as [|n (IHr & IHa & IHc)]; [repeat split; intros; lia|].
  assert (Hsm : forall (u r : list stt), size (erases (u ++ r)) < S n -> u <> [] -> size (erases r) < n).
  { intros u r H Hu. apply nonempty_size in Hu. rewrite erases_app, size_app in H. lia. }
  assert (Hsemi : forall sc ts ds e p s sp r, size (erases ts) < S n -> wf (erases ts) -> bad_child E sc ts ds e p (SPunct s ";" sp :: r) ->
    sparse_children E (S n) sc ts = (let x := sparse_children E n sc r in SPR (sp_out x) (sp_rest x) (ds ++ (DExtraSemi, p) :: sp_diags x)) /\
    size (erases r) < n /\ wf (erases r)).
  { intros sc ts ds e p s sp r Hn Hw Hb. split.
    - rewrite children_step by (eapply bad_nonempty, Hb). rewrite (child_bad _ _ _ _ _ _ _ Hw Hb). cbn zeta.
      assert (Hx : speek_punct ";" (SPunct s ";" sp :: r) = true) by reflexivity. rewrite Hx.
      assert (Hc := semi_code n sc p s sp r). rewrite Hx in Hc. rewrite Hc. reflexivity.
    - destruct (child_suffix _ _ _ _ _ _ Hb) as [u ->]. split.
      + rewrite erases_app, size_app in Hn. cbn [erases map] in Hn. rewrite size_cons in Hn. pose proof (tt_size_pos (erase (SPunct s ";" sp))). unfold erases in *. lia.
      + apply wf_tail in Hw. now apply wf_cons in Hw as [_ Hw]. }
  split; [|split].
  - intros sc ts cs ds Hn Hw H. revert Hn Hw. destruct H as [|u c ds r cs ds' Hc Hr|ts ds e p s sp r cs ds' Hb Hr|ts ds e p r Hb Hs]; intros Hn Hw.
    + reflexivity.
    + assert (Hne := child_nonempty _ _ _ _ _ Hc). rewrite children_step by (destruct u; [congruence|discriminate]).
      rewrite (child_run _ n IHr sc u c ds r) by (auto; lia). cbn zeta.
      assert (Hx : (cs <- sparse_children E n ;; sret (c :: cs)) sc r = SPR (SRet (c :: cs)) [] (ds' ++ [])).
      { eapply run_bind; [apply IHr; [eapply Hsm; eassumption|now apply wf_tail in Hw|exact Hr]|reflexivity]. }
      rewrite Hx. cbn. now rewrite app_nil_r.
    + destruct (Hsemi _ _ _ _ _ _ _ _ Hn Hw Hb) as (-> & Hn' & Hw'). cbn zeta. now rewrite (IHr sc r cs ds' Hn' Hw' Hr).
    + rewrite children_step by (eapply bad_nonempty, Hb). rewrite (child_bad _ _ _ _ _ _ _ Hw Hb). cbn zeta.
      apply speek_punct_f in Hs; [|discriminate]. rewrite Hs, (err_at E HE).
      assert (Hne := nonempty_size _ (bad_nonempty _ _ _ _ _ _ Hb)). destruct n; [lia|]. reflexivity.
  - intros sc ts o ds Hn Hw H. revert Hn Hw. destruct H as [ts o ds Ha|u c ds r o ds' Hc Hr|ts ds e p s sp r o ds' Hb Hr]; intros Hn Hw.
    + destruct (child_abort _ n IHa sc ts o ds) as [r Hr]; auto; [lia|]. exists r. rewrite children_step by (eapply ab_nonempty, Ha).
      rewrite Hr. now destruct o.
    + assert (Hne := child_nonempty _ _ _ _ _ Hc). rewrite children_step by (destruct u; [congruence|discriminate]).
      rewrite (child_run _ n IHr sc u c ds r) by (auto; lia). cbn zeta.
      destruct (IHa sc r o ds') as [r' Hx]; [eapply Hsm; eassumption|now apply wf_tail in Hw|exact Hr|]. exists r'.
      now rewrite (run_abort _ _ _ _ _ _ _ Hx).
    + destruct (Hsemi _ _ _ _ _ _ _ _ Hn Hw Hb) as (-> & Hn' & Hw'). cbn zeta. destruct (IHa sc r o ds' Hn' Hw' Hr) as [r' ->]. now exists r'.
  - intros sc ts Hn Hw. destruct ts as [|t0 ts0]; [left; do 2 eexists; apply rdc_nil|].
    assert (Hne : t0 :: ts0 <> []) by discriminate. remember (t0 :: ts0) as ts eqn:Ets. clear Ets.
    destruct (child_cases n IHc sc ts Hne) as [(u & c & ds & r & -> & Hc)|[(ds & e & p & r & Hb)|(o & ds & Ha)]]; auto; [lia| | |].
    + assert (Hn' := Hsm _ _ Hn (child_nonempty _ _ _ _ _ Hc)). assert (Hw' := wf_tail _ _ Hw).
      destruct (IHc sc r Hn' Hw') as [(cs & ds' & Hr)|(o & ds' & Hr)].
      * left. do 2 eexists. eapply rdc_cons; eassumption.
      * right. do 2 eexists. eapply abc_later; eassumption.
    + destruct (next_punct_dec ";" (erases r)) as [Hs|Hs].
      * destruct (next_punct_s _ _ Hs) as (s & sp & r' & ->). destruct (Hsemi _ _ _ _ _ _ _ _ Hn Hw Hb) as (Hx & Hn' & Hw').
        destruct (IHc sc r' Hn' Hw') as [(cs & ds' & Hr)|(o & ds' & Hr)].
        -- left. do 2 eexists. eapply rdc_semi; eassumption.
        -- right. do 2 eexists. eapply abc_semi; eassumption.
      * left. do 2 eexists. eapply rdc_stop; eassumption.
    + right. exists o, ds. now apply abc_here.
Qed.
End Broken3.
