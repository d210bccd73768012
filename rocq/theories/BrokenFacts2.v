(** Reading lists of attributes and selectors, and tags, of any token stream. *)
From Verif Require Export BrokenFacts SpellOnce.
From Verif Require Import KebabFacts GrammarFacts GrammarFacts2 TagFacts PlacedFacts SpecStr SpecGrammar.
From Coq Require Import Lia.
Open Scope list_scope.
Open Scope sparse_scope.

(** ** Lists *)

Section Many.
Variable A : Type.
Variable m : SP A.
Variable Pr : list stt -> A -> list sdiag -> list stt -> Prop.
Variable stop : list stt -> list sdiag -> Prop.
Variable sc : span.
Hypothesis Prun : forall u a ds r, wf (erases (u ++ r)) -> Pr u a ds r -> m sc (u ++ r) = SPR (SRet a) r ds.
Hypothesis Pstop : forall r ds, wf (erases r) -> stop r ds -> exists e p r', m sc r = SPR (SFail e p) r' ds.
Hypothesis Pne : forall u a ds r, Pr u a ds r -> u <> [].

Lemma many_run u l ds r : rd_many Pr stop u l ds r -> forall n, List.length u < n -> wf (erases (u ++ r)) ->
  smany n m sc (u ++ r) = SPR (SRet l) r ds.
Proof.
  induction 1 as [ds r Hs|u a ds u' l ds' r Ha Hl IH]; intros [|n] Hn Hw; try lia; cbn [smany].
  - destruct (Pstop _ _ Hw Hs) as (e & p & r' & Hm). cbn [app]. rewrite <- (app_nil_r ds).
    eapply run_bind; [eapply run_back_none, Hm|]. reflexivity.
  - rewrite <- app_assoc in *. eapply run_bind; [eapply run_back_some, Prun, Ha; exact Hw|]. cbv iota.
    assert (u <> []) by (eapply Pne, Ha). rewrite app_length in Hn.
    rewrite <- (app_nil_r ds'). eapply run_bind; [apply IH|reflexivity].
    + destruct u; [congruence|]. cbn in Hn. lia.
    + rewrite erases_app in Hw. now apply wf_app in Hw.
Qed.
End Many.

Section Broken2.
Variable E : senv.
Hypothesis HE : senv_ok E.

Lemma wf_tail u r : wf (erases (u ++ r)) -> wf (erases r).
Proof. rewrite erases_app, wf_app. tauto. Qed.

Lemma attr_nonempty u a ds r : rd_attr E u a ds r -> u <> [].
Proof.
  intros [? ? ? ? ? ? ? Hn|? ? ? ? ? Hs| | |]; try discriminate.
  - destruct Hn as ([] & _); discriminate.
  - destruct Hs; discriminate.
Qed.
Lemma attrs_run sc u l ds r : wf (erases (u ++ r)) -> rd_attrs E u l ds r -> sparse_attrs E sc (u ++ r) = SPR (SRet l) r ds.
Proof.
  intros Hw H. unfold sparse_attrs. apply many_run with (Pr := rd_attr E) (stop := stop_attrs E); auto.
  - intros. now apply attr_run.
  - intros. now apply attr_stop.
  - apply attr_nonempty.
  - rewrite app_length. lia.
Qed.
Lemma many_abort sc ts o ds : ab_attrs E sc ts o ds -> forall n, List.length ts < n -> wf (erases ts) ->
  exists r, smany n (sparse_attr E) sc ts = SPR (ended o) r ds.
Proof.
  induction 1 as [ts o ds Ha|u a ds ts o ds' Ha Hl IH]; intros [|n] Hn Hw; try lia; cbn [smany].
  - destruct (attr_abort E HE sc ts o ds Hw Ha) as [r Hr]. exists r. now apply run_abort, run_back_abort.
  - rewrite app_length in Hn. assert (u <> []) by (eapply attr_nonempty, Ha).
    destruct (IH n) as [r Hr]; [destruct u; [congruence|]; cbn in Hn; lia|now apply wf_tail with u|].
    exists r. eapply run_bind; [eapply run_back_some, attr_run, Ha; assumption|]. cbv iota. now apply run_abort.
Qed.
Lemma attrs_abort sc ts o ds : wf (erases ts) -> ab_attrs E sc ts o ds -> exists r, sparse_attrs E sc ts = SPR (ended o) r ds.
Proof. intros Hw H. unfold sparse_attrs. apply many_abort; auto. Qed.
Lemma attrs_cases sc ts : wf (erases ts) ->
  (exists u l ds r, ts = u ++ r /\ rd_attrs E u l ds r) \/ (exists o ds, ab_attrs E sc ts o ds).
Proof.
  remember (S (List.length ts)) as n eqn:Hn. assert (Hl : List.length ts < n) by lia. clear Hn. revert ts Hl.
  induction n as [|n IH]; intros ts Hl Hw; [lia|].
  destruct (attr_cases E sc ts Hw) as [(u & a & ds & r & -> & Ha)|[(o & ds & Ha)|[ds Hs]]].
  - rewrite app_length in Hl. assert (Hu : u <> []) by (eapply attr_nonempty, Ha).
    destruct (IH r) as [(u' & l & ds' & r' & -> & Hr)|(o & ds' & Hr)].
    + destruct u; [congruence|]. cbn in Hl. lia.
    + now apply wf_tail with u.
    + left. exists (u ++ u'), (a :: l), (ds ++ ds'), r'. split; [now rewrite app_assoc|]. now apply (rdm_cons (rd_attr E)).
    + right. exists o, (ds ++ ds'). eapply abs_later; eassumption.
  - right. exists o, ds. now apply abs_here.
  - left. exists [], [], ds, ts. split; [reflexivity|]. now apply rdm_nil.
Qed.

(** ** Selectors *)

Lemma selector_step sc ts : sparse_selector E sc ts =
  match ts with
  | SPunct s c sp :: r =>
      if ascii_dec c "." then (k <- sparse_kebab E ;; sret (SSelClass s k)) sc r
      else if ascii_dec c "#" then (k <- sparse_kebab E ;; sret (SSelId s k)) sc r
      else SPR (SFail ESelector (here sc ts)) ts []
  | _ => SPR (SFail ESelector (here sc ts)) ts []
  end.
Proof.
  unfold sparse_selector.
  destruct (punct_cases "." ts sc ltac:(discriminate)) as [(s & sp & r & -> & Hp)|[Hd Hp]]; rewrite (run_bind0 _ _ _ _ _ _ Hp); [reflexivity|].
  destruct (punct_cases "#" ts sc ltac:(discriminate)) as [(s & sp & r & -> & Hp')|[Hh Hp']]; rewrite (run_bind0 _ _ _ _ _ _ Hp'); [reflexivity|].
  destruct ts as [|[s i|s c sp|s k v|b d l] r]; try reflexivity.
  destruct (ascii_dec c "."); [subst; destruct Hd; now exists sp|]. destruct (ascii_dec c "#"); [subst; destruct Hh; now exists sp|]. reflexivity.
Qed.
Lemma selector_run sc u a ds r : wf (erases (u ++ r)) -> rd_selector E u a ds r -> sparse_selector E sc (u ++ r) = SPR (SRet a) r ds.
Proof.
  intros Hw H. rewrite selector_step. revert Hw. destruct H as [s sp u k ds r Hn|s sp u k ds r Hn]; intros Hw;
    cbn [app] in *; apply wf_cons in Hw as [_ Hw]; cbn [ascii_dec]; rewrite <- (app_nil_r ds);
    (eapply run_bind; [apply name_run; [now apply wf_wf_head|exact Hn]|reflexivity]).
Qed.
Lemma selector_stop sc r ds : wf (erases r) -> selectors_end (erases r) /\ ds = [] ->
  exists e p r', sparse_selector E sc r = SPR (SFail e p) r' ds.
Proof.
  intros Hw [Hs ->]. rewrite selector_step. destruct r as [|[s i|s c sp|s k v|b d l] r]; eauto.
  apply wf_cons in Hw as [_ Hw]. change (wf (erases r)) in Hw. cbn [erases map erase selectors_end] in Hs.
  assert (Hk : c = "."%char \/ c = "#"%char -> sparse_kebab E sc r = SPR (SFail (EKebab (found_in (erases r))) (next_place sc r)) r []).
  { intros Hc. destruct (name_cases E sc r (wf_wf_head _ Hw)) as [(u & k & ds & r' & -> & Hn & _)|[_ Hn]]; [|exact Hn]. exfalso.
    assert (Hd : punct "." (TPunct c sp) \/ punct "#" (TPunct c sp)) by (destruct Hc as [->| ->]; [left|right]; now exists sp).
    apply Hs in Hd as [H1 H2]. apply name_starts in Hn as [H|H]; auto. }
  destruct (ascii_dec c "."); [do 3 eexists; apply run_fail, Hk; auto|]. destruct (ascii_dec c "#"); [do 3 eexists; apply run_fail, Hk; auto|]. eauto.
Qed.
Lemma selector_cases ts : wf (erases ts) ->
  (exists u a ds r, ts = u ++ r /\ rd_selector E u a ds r) \/ selectors_end (erases ts).
Proof.
  intros Hw. destruct ts as [|[s i|s c sp|s k v|b d l] ts]; try (right; cbn; try exact I; intros [[? H]|[? H]]; discriminate).
  apply wf_cons in Hw as [_ Hw]. change (wf (erases ts)) in Hw.
  destruct (name_cases E Call ts (wf_wf_head _ Hw)) as [(u & k & ds & r & -> & Hn & _)|[Hn _]].
  - destruct (ascii_dec c ".") as [->|Hd]; [left; exists (SPunct s "." sp :: u); do 3 eexists; split; [reflexivity|]; constructor; exact Hn|].
    destruct (ascii_dec c "#") as [->|Hh]; [left; exists (SPunct s "#" sp :: u); do 3 eexists; split; [reflexivity|]; constructor; exact Hn|].
    right. cbn. intros [[? H]|[? H]]; congruence.
  - right. cbn [erases map erase selectors_end]. intros _. unfold starts_name_here in Hn. tauto.
Qed.
Lemma selector_nonempty u a ds r : rd_selector E u a ds r -> u <> [].
Proof. intros []; discriminate. Qed.
Lemma selectors_run sc u l ds r : wf (erases (u ++ r)) -> rd_selectors E u l ds r -> sparse_selectors E sc (u ++ r) = SPR (SRet l) r ds.
Proof.
  intros Hw H. unfold sparse_selectors.
  apply many_run with (Pr := rd_selector E) (stop := fun follow ds => selectors_end (erases follow) /\ ds = []); auto.
  - intros. now apply selector_run.
  - intros. now apply selector_stop.
  - apply selector_nonempty.
  - rewrite app_length. lia.
Qed.
Lemma selectors_cases ts : wf (erases ts) -> exists u l ds r, ts = u ++ r /\ rd_selectors E u l ds r.
Proof.
  remember (S (List.length ts)) as n eqn:Hn. assert (Hl : List.length ts < n) by lia. clear Hn. revert ts Hl.
  induction n as [|n IH]; intros ts Hl Hw; [lia|].
  destruct (selector_cases ts Hw) as [(u & a & ds & r & -> & Ha)|Hs].
  - rewrite app_length in Hl. assert (Hu : u <> []) by (eapply selector_nonempty, Ha).
    destruct (IH r) as (u' & l & ds' & r' & -> & Hr).
    + destruct u; [congruence|]. cbn in Hl. lia.
    + now apply wf_tail with u.
    + exists (u ++ u'), (a :: l), (ds ++ ds'), r'. split; [now rewrite app_assoc|]. now apply (rdm_cons (rd_selector E)).
  - exists [], [], [], ts. split; [reflexivity|]. now apply rdm_nil.
Qed.

(** ** Paths *)

Lemma sim_back {A A'} (e : A -> A') m' m S u a r sc : sim e m' m -> reads m' S -> once any S e ->
  wf (erases (u ++ r)) -> S u a -> m (erases (u ++ r)) = PR (Ret (e a)) (erases r) [] -> m' sc (u ++ r) = SPR (SRet a) r [].
Proof.
  intros Hsim Hr Ho Hw Hs Hm. assert (H := Hsim sc (u ++ r)). rewrite Hm in H. unfold epres in H.
  destruct (m' sc (u ++ r)) as [o r' d] eqn:Em. cbn in H. injection H as H1 H2 H3.
  destruct o as [a'|? ?| |?|]; try discriminate. injection H1 as H1. destruct d; [|discriminate].
  destruct (Hr _ _ _ _ Hw Em) as (u' & Hu & Hs').
  destruct (Ho u a u' a' r r' Hw I I Hs Hs' Hu (eq_sym H1)) as [<- <-]. apply app_inv_head in Hu. now subst r'.
Qed.
Definition rd_segment (u : list stt) (s : spath_seg) (follow : list stt) : Prop :=
  sp_segment u s /\ segment_phrase (s_env E) (erases u) (eseg s) (erases follow).
Lemma Henv : env_ok (s_env E). Proof. apply HE. Qed.
Lemma Hgen : same_generic E. Proof. apply HE. Qed.
Lemma seg_run sc u s r : wf (erases (u ++ r)) -> rd_segment u s r -> sparse_seg E sc (u ++ r) = SPR (SRet s) r [].
Proof.
  intros Hw [Hs Hp]. eapply sim_back; [apply sim_seg, Hgen|now apply reads_seg|apply once_segment|exact Hw|exact Hs|].
  apply parse_seg_ok; [apply Henv|]. exists (erases u). split; [apply erases_app|exact Hp].
Qed.
Lemma path_run sc u p r : wf (erases (u ++ r)) -> rd_path E u p r -> sparse_path E sc (u ++ r) = SPR (SRet p) r [].
Proof.
  intros Hw [Hs Hp]. eapply sim_back; [apply sim_path, Hgen|now apply reads_path|apply once_path|exact Hw|exact Hs|].
  apply parse_path_ok; [apply Henv|]. exists (erases u). split; [apply erases_app|exact Hp].
Qed.

Definition seg_tail (i : sident) : SP spath_seg := fun sc ts =>
  if (speek_punct "<" ts && negb (speek_punct "<=" ts) && negb (speek_punct "<<=" ts))
     || (speek_punct "::" ts && speek3 (speek_punct "<") ts)
  then (a <- sparse_angle E ;; sret (SPSeg i a)) sc ts else SPR (SRet (SPSeg i SPNone)) ts [].
Lemma seg_step sc ts : sparse_seg E sc ts =
  match ts with
  | SIdent s i :: r =>
      if peek_keyword "super" (erases ts) || peek_keyword "self" (erases ts) || peek_keyword "crate" (erases ts)
      then SPR (SRet (SPSeg (SId s i) SPNone)) r []
      else if peek_keyword "Self" (erases ts) || accept_as_ident i then seg_tail (SId s i) sc r
      else SPR (SFail (EIdent (found_in (erases ts))) (here sc ts)) ts []
  | _ => SPR (SFail (EIdent (found_in (erases ts))) (here sc ts)) ts []
  end.
Proof.
  unfold sparse_seg. rewrite run_look, !peek_keyword_erase.
  destruct ts as [|[s i|s c sp|s k v|b d l] r]; try (cbn [erases map erase peek_keyword orb]; rewrite run_look; reflexivity).
  destruct (_ || _ || _); [reflexivity|]. rewrite run_look, peek_keyword_erase.
  assert (Ht : forall m : SP sident, m sc (SIdent s i :: r) = SPR (SRet (SId s i)) r [] ->
    (i0 <- m ;; angle <- slook (fun ts => (speek_punct "<" ts && negb (speek_punct "<=" ts) && negb (speek_punct "<<=" ts))
      || (speek_punct "::" ts && speek3 (speek_punct "<") ts)) ;;
      if angle : bool then a <- sparse_angle E ;; sret (SPSeg i0 a) else sret (SPSeg i0 SPNone)) sc (SIdent s i :: r) = seg_tail (SId s i) sc r).
  { intros m Hm. rewrite (run_bind0 _ _ _ _ _ _ Hm), run_look. unfold seg_tail. now destruct (_ || _). }
  destruct (peek_keyword "Self" _); cbn [orb]; [now apply Ht|].
  destruct (accept_as_ident i) eqn:Ea.
  - apply Ht. unfold sparse_ident. now rewrite Ea.
  - apply run_fail. unfold sparse_ident. now rewrite Ea.
Qed.
Lemma plain_iff s i r : peek_keyword "Self" (erases (SIdent s i :: r)) || accept_as_ident i = true <-> plain_segment i.
Proof.
  rewrite orb_true_iff, accept_iff, peek_keyword_iff by no_raw. cbn [erases map erase]. unfold plain_segment. split.
  - intros [[x H]|H]; [|tauto]. injection H as -> _. auto.
  - intros [H|[H|H]]; auto. left. subst. eauto.
Qed.
Lemma kw_iff s i r : peek_keyword "super" (erases (SIdent s i :: r)) || peek_keyword "self" (erases (SIdent s i :: r))
  || peek_keyword "crate" (erases (SIdent s i :: r)) = true <-> keyword_segment i.
Proof. rewrite kw_test. cbn. split; [intros (j & x & H & Hk); now injection H as -> _|eauto]. Qed.
Lemma sangle_test ts : (speek_punct "<" ts && negb (speek_punct "<=" ts) && negb (speek_punct "<<=" ts))
     || (speek_punct "::" ts && speek3 (speek_punct "<") ts) = true <-> generics_follow (erases ts).
Proof.
  rewrite <- angle_test, !peek_punct_erase.
  now rewrite (peek3_erase _ (peek_punct "<")) by (intros; apply peek_punct_erase).
Qed.
Lemma seg_bad sc ts e p r : bad_segment E sc ts e p r -> sparse_seg E sc ts = SPR (SFail e p) r [].
Proof.
  intros H. rewrite seg_step.
  assert (Hgo : forall s i r0 e p r, plain_segment i -> ~ keyword_segment i -> generics_follow (erases r0) ->
    sparse_angle E sc r0 = SPR (SFail e p) r [] ->
    (if peek_keyword "super" (erases (SIdent s i :: r0)) || peek_keyword "self" (erases (SIdent s i :: r0)) || peek_keyword "crate" (erases (SIdent s i :: r0))
      then SPR (SRet (SPSeg (SId s i) SPNone)) r0 []
      else if peek_keyword "Self" (erases (SIdent s i :: r0)) || accept_as_ident i then seg_tail (SId s i) sc r0
      else SPR (SFail (EIdent (found_in (erases (SIdent s i :: r0)))) (here sc (SIdent s i :: r0))) (SIdent s i :: r0) []) = SPR (SFail e p) r []).
  { intros s i r0 e0 p0 r1 Hp Hk Hg Ha. apply (plain_iff s i r0) in Hp. rewrite Hp.
    rewrite <- (kw_iff s i r0) in Hk. apply not_true_iff_false in Hk. rewrite Hk. unfold seg_tail.
    apply sangle_test in Hg. rewrite Hg. now apply run_fail. }
  destruct H as [ts Hn|s i r0 p r Hp Hk Hn Hg He|s i c l r0 p r Hp Hk Hc Hn He].
  - rewrite <- here_place. destruct ts as [|[s i|s c sp|s k v|b d l] r]; try reflexivity. destruct Hn as [Hp Hk].
    rewrite <- (kw_iff s i r) in Hk. apply not_true_iff_false in Hk. rewrite Hk.
    rewrite <- (plain_iff s i r) in Hp. apply not_true_iff_false in Hp. now rewrite Hp.
  - apply Hgo; auto. unfold sparse_angle. destruct (stake_punct "::" r0) as [[l x]|] eqn:Et.
    + apply stake_two in Et as (s1 & s2 & sp & -> & _); try discriminate. destruct Hn as [? Hn]. discriminate.
    + now rewrite He.
  - destruct Hc as [s1 s2 sp]. cbn [app] in *. apply Hgo; auto.
    + right. split; [cbn; red; eauto|exact Hn].
    + unfold sparse_angle. cbn. now rewrite He.
Qed.
Lemma seg_cases sc ts : wf (erases ts) ->
  (exists u s r, ts = u ++ r /\ rd_segment u s r) \/ (exists e p r, bad_segment E sc ts e p r).
Proof.
  intros Hw. destruct (sparse_seg E sc ts) as [[s|e p| |w|] r d] eqn:Es.
  - assert (Hsim := sim_seg E Hgen sc ts). rewrite Es in Hsim. unfold epres in Hsim. cbn in Hsim. left.
    assert (d = []).
    { rewrite seg_step in Es. destruct ts as [|[s0 i|s0 c sp|s0 k v|b dl l] r0]; try discriminate.
      destruct (_ || _ || _); [now injection Es|]. destruct (_ || _); [|discriminate]. unfold seg_tail in Es.
      destruct (_ || _); [|now injection Es]. unfold sbind, sparse_angle in Es.
      destruct (match stake_punct "::" r0 with Some (l, r) => (Some l, r) | None => (None, r0) end) as [tf ts1].
      destruct (s_generic E sc ts1) as [[]|[]]; cbn in Es; [now injection Es|discriminate]. }
    subst d. destruct (reads_seg E HE sc ts s r Hw Es) as (u & -> & Hs). exists u, s, r. split; [reflexivity|]. split; [exact Hs|].
    symmetry in Hsim. apply parse_seg_ok in Hsim; [|apply Henv]. destruct Hsim as (v & Hv & Hp).
    rewrite erases_app in Hv. apply app_inv_tail in Hv. now rewrite Hv.
  - right. rewrite seg_step in Es. destruct ts as [|[s0 i|s0 c sp|s0 k v|b dl l] r0];
      try (do 3 eexists; apply bsg_ident; exact I).
    destruct (_ || _ || _) eqn:Ek; [discriminate|]. apply not_true_iff_false in Ek. rewrite kw_iff in Ek.
    destruct (_ || accept_as_ident i) eqn:Ei.
    + rewrite plain_iff in Ei. unfold seg_tail in Es. destruct (_ || _) eqn:Ea; [|discriminate]. apply sangle_test in Ea.
      unfold sbind, sparse_angle in Es. destruct (stake_punct "::" r0) as [[tf ts1]|] eqn:Et.
      * apply stake_two in Et as (s1 & s2 & sp & -> & ->); try discriminate.
        destruct (s_generic E sc ts1) as [[]|[r' p']] eqn:Eg; cbn in Es; [discriminate|]. exists EGenerics, p', r'.
        apply (bsg_turbofish E sc s0 i [SPunct s1 ":" Joint; SPunct s2 ":" sp] [s1; s2]); auto; [constructor|].
        destruct Ea as [[[? Ha] _]|[_ Ha]]; [discriminate|exact Ha].
      * destruct (s_generic E sc r0) as [[]|[r' p']] eqn:Eg; cbn in Es; [discriminate|]. exists EGenerics, p', r'.
        apply bsg_generic; auto. destruct Ea as [[Ha _]|[(sp & x & Ha) _]]; [exact Ha|].
        exfalso. destruct r0 as [|[] [|[] r0]]; try discriminate. cbn in Ha. injection Ha as -> -> -> -> _. discriminate.
    + apply not_true_iff_false in Ei. rewrite plain_iff in Ei. do 3 eexists. apply bsg_ident. now split.
  - exfalso. rewrite seg_step in Es. destruct ts as [|[s0 i|s0 c sp|s0 k v|b dl l] r0]; try discriminate.
      destruct (_ || _ || _); [discriminate|]. destruct (_ || _); [|discriminate]. unfold seg_tail in Es.
      destruct (_ || _); [|discriminate]. unfold sbind, sparse_angle in Es.
      destruct (match stake_punct "::" r0 with Some (l, r) => (Some l, r) | None => (None, r0) end) as [tf ts1].
      destruct (s_generic E sc ts1) as [[]|[]]; cbn in Es; discriminate.
  - exfalso. rewrite seg_step in Es. destruct ts as [|[s0 i|s0 c sp|s0 k v|b dl l] r0]; try discriminate.
      destruct (_ || _ || _); [discriminate|]. destruct (_ || _); [|discriminate]. unfold seg_tail in Es.
      destruct (_ || _); [|discriminate]. unfold sbind, sparse_angle in Es.
      destruct (match stake_punct "::" r0 with Some (l, r) => (Some l, r) | None => (None, r0) end) as [tf ts1].
      destruct (s_generic E sc ts1) as [[]|[]]; cbn in Es; discriminate.
  - exfalso. rewrite seg_step in Es. destruct ts as [|[s0 i|s0 c sp|s0 k v|b dl l] r0]; try discriminate.
      destruct (_ || _ || _); [discriminate|]. destruct (_ || _); [|discriminate]. unfold seg_tail in Es.
      destruct (_ || _); [|discriminate]. unfold sbind, sparse_angle in Es.
      destruct (match stake_punct "::" r0 with Some (l, r) => (Some l, r) | None => (None, r0) end) as [tf ts1].
      destruct (s_generic E sc ts1) as [[]|[]]; cbn in Es; discriminate.
Qed.
Lemma seg_nonempty u s r : rd_segment u s r -> u <> [].
Proof. intros [[] _]; discriminate. Qed.

Lemma smore_test ts : speek_punct "::" ts && negb (speek3 (speek_group Paren) ts) = true <->
  exists c l r, sp_colons c l /\ ts = c ++ r /\ ~ next_group Paren (erases r).
Proof.
  rewrite peek_punct_erase, (peek3_erase _ (peek_group Paren)) by (intros; apply peek_group_erase).
  rewrite more_segs_test. split.
  - intros (sp & r & Hr & Hn). destruct ts as [|[|s c sp1| |] [|[|s' c' sp2| |] ts]]; try discriminate. cbn in Hr. injection Hr as -> -> -> -> <-.
    exists [SPunct s ":" Joint; SPunct s' ":" sp], [s; s'], ts. split; [constructor|]. now split.
  - intros (c & l & r & [s s' sp] & -> & Hn). cbn. eauto.
Qed.

(** Segments one after the other: the list that is read, or the error. *)
Definition path_code (l : option (list span)) (n : nat) : SP spath :=
  s <- sparse_seg E ;; r <- sparse_segs_rest E n ;; sret (SPath l s r).
Lemma segs_bad sc ts e p r : bad_segments E sc ts e p r -> wf (erases ts) ->
  forall l n, List.length ts <= n -> path_code l n sc ts = SPR (SFail e p) r [].
Proof.
  intros H. unfold path_code. induction H as [ts e p r Hb|ts s c cl ts' e p r Hs Hp Hc Hn Hb IH]; intros Hw l n Hl.
  - apply run_fail. now apply seg_bad.
  - rewrite (run_bind0 _ _ _ _ _ _ (seg_run sc ts s (c ++ ts') Hw (conj Hs Hp))).
    apply run_fail. rewrite app_length in Hl. assert (Hm : speek_punct "::" (c ++ ts') && negb (speek3 (speek_group Paren) (c ++ ts')) = true).
    { apply smore_test. exists c, cl, ts'. auto. }
    destruct n as [|n]; [destruct Hs; cbn in Hl; lia|]. cbn [sparse_segs_rest]. rewrite Hm. clear Hm.
    assert (Hlc : List.length ts' < n) by (destruct Hs, Hc; cbn in Hl; rewrite ?app_length in Hl; cbn in Hl; lia).
    assert (Hw' : wf (erases ts')) by (apply wf_tail in Hw; now apply wf_tail in Hw).
    destruct Hc as [s1 s2 sp]. rewrite (run_bind0 (sparse_punct "::") _ sc ([SPunct s1 ":" Joint; SPunct s2 ":" sp] ++ ts') [s1; s2] ts' eq_refl).
    specialize (IH Hw' None n). unfold sbind at 1. unfold sbind in IH at 1.
    destruct (sparse_seg E sc ts') as [[a|e1 p1| |w|] r1 d1]; try (specialize (IH ltac:(lia)); try discriminate; injection IH as -> -> -> ->; reflexivity).
    specialize (IH ltac:(lia)). unfold sbind in IH |- *.
    destruct (sparse_segs_rest E n sc r1) as [[a2|e2 p2| |w2|] r2 d2]; cbn in IH |- *; try discriminate; injection IH as -> -> -> ->; reflexivity.
Qed.
Lemma segs_cases sc ts : wf (erases ts) ->
  (exists u l r, ts = u ++ r /\ segments_phrase (s_env E) (erases u) l (erases r)) \/ (exists e p r, bad_segments E sc ts e p r).
Proof.
  remember (S (List.length ts)) as n eqn:Hn. assert (Hl : List.length ts < n) by lia. clear Hn. revert ts Hl.
  induction n as [|n IH]; intros ts Hl Hw; [lia|].
  destruct (seg_cases sc ts Hw) as [(u & s & r & -> & Hs)|(e & p & r & Hb)]; [|right; do 3 eexists; apply bss_here, Hb].
  destruct (speek_punct "::" r && negb (speek3 (speek_group Paren) r)) eqn:Et.
  - apply smore_test in Et as (c & cl & r' & Hc & -> & Hn).
    destruct (IH r') as [(u' & l & r & -> & Hp)|(e & p & r & Hb)].
    + rewrite !app_length in Hl. destruct Hc. cbn in Hl. lia.
    + apply wf_tail in Hw. now apply wf_tail in Hw.
    + left. exists (u ++ c ++ u'), (eseg s :: l), r. split; [now rewrite !app_assoc|]. destruct Hc as [s1 s2 sp].
      rewrite erases_app. destruct Hs as [_ Hs]. cbn in Hs |- *. apply segs_cons; [|exact Hp]. now rewrite erases_app in Hs.
    + right. exists e, p, r. destruct Hs. eapply bss_later; eassumption.
  - left. exists u, [eseg s], r. split; [reflexivity|]. destruct Hs as [_ Hs]. apply segs_one; [exact Hs|].
    intros Ho. apply not_true_iff_false in Et. destruct Ho as (sp & x & Hx).
    destruct r as [|[|s0 c0 sp1| |] [|[|s' c' sp2| |] r]]; try discriminate. cbn in Hx. injection Hx as -> -> -> -> Hx.
    destruct (speek_group Paren r) eqn:Eg.
    + destruct r as [|[| | |b [] l] r]; try discriminate. reflexivity.
    + exfalso. apply Et. apply smore_test. exists [SPunct s0 ":" Joint; SPunct s' ":" sp], [s0; s'], r.
      split; [constructor|]. split; [reflexivity|]. intros Hg. destruct r as [|[| | |b [] l] r]; try discriminate; contradiction.
Qed.

(** ** Tags *)

Lemma stag_test ts :
  speek2 (speek_punct "::") ts || speek_punct "::" ts || speek2 (speek_punct "<") ts = true <-> path_next (erases ts).
Proof.
  rewrite peek_punct_erase, (peek2_erase _ (peek_punct "::")), (peek2_erase _ (peek_punct "<")) by (intros; apply peek_punct_erase).
  assert (Hn : forall r, (forall c r', r = TPunct c Joint :: r' -> c = "'"%char -> ~ next_ident r') -> 
    (peek2 (peek_punct "::") r || peek_punct "::" r || peek2 (peek_punct "<") r = true <-> path_follows r)).
  { intros r Hq. unfold path_follows.
    assert (Hskip : forall f, f [] = false -> peek2 f r = f (tl r)).
    { intros f Hf. unfold peek2, skip. destruct r as [|[|c [|]| |] r]; auto.
      destruct (Ascii.eqb c "'") eqn:He; auto. apply Ascii.eqb_eq in He. specialize (Hq _ _ eq_refl He). destruct r as [|[] r]; auto. destruct Hq. exact I. }
    rewrite !Hskip by reflexivity. rewrite !orb_true_iff, !peek_punct2, peek_punct1 by discriminate. tauto. }
  destruct (erases ts) as [|[i|c [|]|k v|d l] r]; try (apply Hn; intros ? ? H; discriminate).
  destruct r as [|[i|c' sp'|k v|d l] r]; try (apply Hn; intros ? ? [= <- <-] _ []).
  unfold path_next. destruct (ascii_dec c "'") as [->|Hc]; [|apply Hn; intros ? ? [= <- <-] Hq; congruence].
  rewrite !orb_true_iff.
  assert (Hp : forall f, peek2 f (TPunct "'" Joint :: TIdent i :: r) = f r) by reflexivity. rewrite !Hp.
  change (peek_punct "::" (TPunct "'" Joint :: TIdent i :: r)) with false.
  unfold path_follows. cbn [tl]. rewrite !peek_punct2, peek_punct1 by discriminate. split.
  - intros [[H|H]|H]; [auto|discriminate|auto].
  - intros [(sp & x & H)|[H|H]]; [discriminate|auto|auto].
Qed.
Definition tag_code (k : skebab) : SP stag :=
  match tag_kind_from (sk_repr k) with
  | KHtml => i <- ssnake E k ;; sret (STagHtml i)
  | KComponent =>
      i <- ssnake E k ;;
      sret (STagComponent (SPath None (SPSeg (SId (si_span i) (unraw (si_ident i))) SPNone) []))
  | KSvg => i <- ssnake E k ;; sret (STagSvg i)
  | KMath => i <- ssnake E k ;; sret (STagMath i)
  | KWeb => sret (STagWeb k)
  end.
Lemma tag_step sc ts : sparse_tag E sc ts =
  if speek2 (speek_punct "::") ts || speek_punct "::" ts || speek2 (speek_punct "<") ts
  then (p <- sparse_path E ;; sret (STagComponent p)) sc ts
  else (k <- sparse_kebab E ;; tag_code k) sc ts.
Proof. unfold sparse_tag. rewrite run_look. now destruct (_ || _). Qed.
Lemma snake_yes sc k i ts : sp_ident E k i -> ssnake E k sc ts = SPR (SRet i) ts [].
Proof. intros H. apply snake_iff in H. unfold ssnake. now rewrite H. Qed.
Lemma tag_code_run sc k t ts : named_tag E k t -> tag_code k sc ts = SPR (SRet t) ts [].
Proof.
  unfold tag_code. intros H. destruct H as [i Hk Hi|i Hk Hi|i Hk Hi|i Hk Hi|Hk]; apply tag_kind_iff in Hk; rewrite Hk;
    try (rewrite (run_bind0 _ _ _ _ _ _ (snake_yes sc k i ts Hi))); reflexivity.
Qed.
Lemma tag_code_bad sc k ts : ~ tag_kind_spec (sk_repr k) KWeb -> bad_name k -> tag_code k sc ts = SPR (ended (name_panic k)) ts [].
Proof.
  intros Hk Hb. assert (Hs := snake_bad E k sc ts Hb). rewrite <- tag_kind_iff in Hk. unfold tag_code.
  destruct (tag_kind_from (sk_repr k)); try congruence; now apply run_abort.
Qed.
Lemma tag_code_cases k : (exists t, named_tag E k t) \/ (~ tag_kind_spec (sk_repr k) KWeb /\ bad_name k).
Proof.
  assert (Hs : (exists i, sp_ident E k i) \/ bad_name k).
  { destruct (sto_snake_ident E k) as [i|] eqn:Ei; [|right; eapply snake_no, Ei].
    left. exists i. now apply snake_iff. }
  assert (Hk := proj1 (tag_kind_iff (sk_repr k) _) eq_refl). rewrite <- (tag_kind_iff (sk_repr k) KWeb).
  destruct (tag_kind_from (sk_repr k)); try (destruct Hs as [[i Hi]|Hs]; [|right; split; [discriminate|exact Hs]]).
  - left. eexists. eapply nt_html; eassumption.
  - left. eexists. eapply nt_component; eassumption.
  - left. eexists. eapply nt_svg; eassumption.
  - left. eexists. eapply nt_math; eassumption.
  - left. eexists. now apply nt_web.
Qed.
(** What can be read as a tag does not start with a lifetime. *)
Lemma no_quote ts : (forall c r, erases ts = TPunct c Joint :: r -> c <> "'"%char) -> path_next (erases ts) <-> path_follows (erases ts).
Proof.
  intros H. unfold path_next. destruct (erases ts) as [|[i|c [|]|k v|d l] [|[] r]]; try tauto.
  destruct (ascii_dec c "'") as [->|]; [|tauto]. now destruct (H _ _ eq_refl).
Qed.
Lemma name_no_quote u k ds r : rd_name E u k ds r -> forall c x, erases (u ++ r) = TPunct c Joint :: x -> c <> "'"%char.
Proof. intros Hn c x Hx ->. apply name_starts in Hn. unfold starts_name_here in Hn. rewrite Hx in Hn. destruct Hn as [[]|[sp Hsp]]. discriminate. Qed.
Lemma path_no_quote u p r : rd_path E u p r -> forall c x, erases (u ++ r) = TPunct c Joint :: x -> c <> "'"%char.
Proof.
  intros [_ Hp] c x Hx ->. rewrite erases_app in Hx. destruct Hp as [ts l follow Hs|sp ts l follow Hs]; [|discriminate].
  apply segments_starts in Hs as (i & u' & ->). discriminate.
Qed.
Lemma tag_run sc u t ds r : wf (erases (u ++ r)) -> rd_tag E u t ds r -> sparse_tag E sc (u ++ r) = SPR (SRet t) r ds.
Proof.
  intros Hw H. rewrite tag_step. revert Hw. destruct H as [u p r Hf Hp|u k t ds r Hf Hn Ht]; intros Hw.
  - assert (Ht : path_next (erases (u ++ r))) by (apply no_quote; [eapply path_no_quote, Hp|exact Hf]).
    apply stag_test in Ht. rewrite Ht. rewrite (run_bind0 _ _ _ _ _ _ (path_run sc u p r Hw Hp)). reflexivity.
  - assert (Hf' : ~ path_next (erases (u ++ r))) by (rewrite no_quote; [exact Hf|eapply name_no_quote, Hn]).
    rewrite <- stag_test in Hf'. apply not_true_iff_false in Hf'. rewrite Hf'. rewrite <- (app_nil_r ds).
    eapply run_bind; [apply name_run; [now apply wf_wf_head|exact Hn]|]. now apply tag_code_run.
Qed.
Lemma tag_bad sc ts e p r : wf (erases ts) -> bad_tag E sc ts e p r -> sparse_tag E sc ts = SPR (SFail e p) r [].
Proof.
  intros Hw H. rewrite tag_step. revert Hw. destruct H as [ts e p r Hf Ho Hb|c l ts e p r Hc Hb|ts Hf Hn]; intros Hw.
  - apply stag_test in Hf. rewrite Hf. apply run_fail. unfold sparse_path.
    assert (Hr : srollback (sparse_punct "::") sc ts = SPR (SRet None) ts []).
    { unfold srollback, sparse_punct. destruct (stake_punct "::" ts) as [[l x]|] eqn:Et; [|reflexivity].
      apply stake_two in Et as (s1 & s2 & sp & -> & _); try discriminate. destruct Ho. cbn. red. eauto. }
    rewrite (run_bind0 _ _ _ _ _ _ Hr). apply segs_bad; auto.
  - assert (Hf : path_next (erases (c ++ ts))).
    { destruct Hc as [s1 s2 sp]. apply no_quote; [intros c x [= <- _] ; discriminate|]. left. cbn. red. eauto. }
    apply stag_test in Hf. rewrite Hf. apply run_fail. unfold sparse_path. destruct Hc as [s1 s2 sp].
    rewrite (run_bind0 (srollback (sparse_punct "::")) _ sc ([SPunct s1 ":" Joint; SPunct s2 ":" sp] ++ ts) (Some [s1; s2]) ts eq_refl).
    apply segs_bad; auto; [now apply wf_tail in Hw|]. rewrite app_length. lia.
  - rewrite <- stag_test in Hf. apply not_true_iff_false in Hf. rewrite Hf. apply run_fail.
    destruct (name_cases E sc ts (wf_wf_head _ Hw)) as [(u & k & ds & r & -> & Hk & _)|[_ Hk]]; [|exact Hk].
    destruct Hn. eapply name_starts, Hk.
Qed.
Lemma path_of_phrase (sc : span) u p r : wf (erases (u ++ r)) -> path_phrase (s_env E) (erases u) p (erases r) ->
  exists p', rd_path E u p' r.
Proof.
  intros Hw Hp.
  assert (Hrun : parse_path (s_env E) (erases (u ++ r)) = PR (Ret p) (erases r) []).
  { apply parse_path_ok; [apply Henv|]. exists (erases u). split; [apply erases_app|exact Hp]. }
  assert (Hsim := sim_path E Hgen sc (u ++ r)). rewrite Hrun in Hsim. unfold epres in Hsim.
  destruct (sparse_path E sc (u ++ r)) as [o r' d] eqn:Em. cbn in Hsim. injection Hsim as H1 H2 H3.
  destruct o as [p'|? ?| |?|]; try discriminate. injection H1 as H1. destruct d; [|discriminate].
  destruct (reads_path E HE _ _ _ _ Hw Em) as (u' & Hu & Hs). exists p'.
  assert (Hl : List.length r = List.length r') by (apply erases_inj_len; unfold erases at 2; now rewrite H2).
  destruct (app_same_length _ _ _ _ Hu) as [<- <-].
  - apply (f_equal (@List.length _)) in Hu. rewrite !app_length in Hu. lia.
  - split; [exact Hs|]. now rewrite H1.
Qed.
Definition panic_tag (ts : list stt) : Prop :=
  exists u k ds r, ts = u ++ r /\ ~ path_follows (erases (u ++ r)) /\ rd_name E u k ds r /\ ~ tag_kind_spec (sk_repr k) KWeb /\ bad_name k.
Lemma tag_panic sc u k ds r : wf (erases (u ++ r)) -> ~ path_follows (erases (u ++ r)) -> rd_name E u k ds r ->
  ~ tag_kind_spec (sk_repr k) KWeb -> bad_name k -> sparse_tag E sc (u ++ r) = SPR (ended (name_panic k)) r ds.
Proof.
  intros Hw Hf Hn Hk Hb. rewrite tag_step.
  assert (Hf' : ~ path_next (erases (u ++ r))) by (rewrite no_quote; [exact Hf|eapply name_no_quote, Hn]).
  rewrite <- stag_test in Hf'. apply not_true_iff_false in Hf'. rewrite Hf'. rewrite <- (app_nil_r ds).
  eapply run_bind; [apply name_run; [now apply wf_wf_head|exact Hn]|]. now apply tag_code_bad.
Qed.
Lemma tag_cases sc ts : wf (erases ts) ->
  (exists u t ds r, ts = u ++ r /\ rd_tag E u t ds r) \/ (exists e p r, bad_tag E sc ts e p r) \/ panic_tag ts.
Proof.
  intros Hw. destruct (speek2 (speek_punct "::") ts || speek_punct "::" ts || speek2 (speek_punct "<") ts) eqn:Et.
  - apply stag_test in Et. destruct (next_op_dec ":" ":" (erases ts)) as [Ho|Ho].
    + destruct Ho as (sp & x & Hx). destruct ts as [|[|s0 c0 sp1| |] [|[|s' c' sp2| |] r]]; try discriminate. cbn in Hx. injection Hx as -> -> -> -> Hx.
      assert (Hc : sp_colons [SPunct s0 ":" Joint; SPunct s' ":" sp] [s0; s']) by constructor.
      assert (Hw' : wf (erases r)) by (apply wf_cons in Hw as [_ Hw]; now apply wf_cons in Hw as [_ Hw]).
      destruct (segs_cases sc r Hw') as [(u & l & r' & -> & Hp)|(e & p & r' & Hb)].
      * left. destruct (path_of_phrase sc ([SPunct s0 ":" Joint; SPunct s' ":" sp] ++ u) (Path true l) r') as [p Hpath].
        -- exact Hw.
        -- cbn. now constructor.
        -- do 4 eexists. split; [|eapply rdt_path; [|exact Hpath]]; [reflexivity|]. left. cbn. red. eauto.
      * right. left. exists e, p, r'. exact (bt_abs E sc _ _ r e p r' Hc Hb).
    + destruct (segs_cases sc ts Hw) as [(u & l & r' & -> & Hp)|(e & p & r' & Hb)].
      * left. destruct (path_of_phrase sc u (Path false l) r') as [p Hpath]; [exact Hw|now constructor|].
        do 4 eexists. split; [reflexivity|]. eapply rdt_path; [|exact Hpath]. apply no_quote in Et; [exact Et|eapply path_no_quote, Hpath].
      * right. left. exists e, p, r'. now apply bt_rel.
  - assert (Hnt := Et). apply not_true_iff_false in Et. rewrite stag_test in Et.
    destruct (name_cases E sc ts (wf_wf_head _ Hw)) as [(u & k & ds & r & -> & Hn & Hrun)|[Hn _]].
    + destruct (tag_code_cases k) as [[t Ht]|[Hk Hb]].
      * left. do 4 eexists. split; [reflexivity|]. eapply rdt_name; [|exact Hn|exact Ht]. now rewrite <- no_quote; [|eapply name_no_quote, Hn].
      * right. right. do 4 eexists. split; [reflexivity|]. rewrite <- no_quote; [|eapply name_no_quote, Hn]. eauto.
    + right. left. do 3 eexists. now apply bt_name.
Qed.
End Broken2.
