(** Views that differ in white space, with spans: an instance of [Blind.v] with
    no holes. *)
From Verif Require Import SpecRespaced Blind Monad.
Open Scope list_scope.

Section Respaced.
Variables (f : span -> span) (E E' : senv) (T : list stt).
Hypothesis Hok : senv_ok E.
Hypothesis Hok' : senv_ok E'.
Hypothesis HR : respacing f E E' T.

Definition NK (a b : list stt) : Prop := False.
Definition AL (k : litkind) (v : string) : Prop := True.
Definition AQ (a b : spacing) : Prop := True.
Definition FR (a b : span) : Prop := b = f a.
Definition PS (a b : list stt) : Prop := respaced f a b /\ splace T a.
Notation rtt := (rtt NK AL PS AQ FR).
Notation rts := (rts NK AL PS AQ FR).
Notation rto := (rto NK NK AL AQ FR).

Lemma splace_nil : splace T [].
Proof.
  assert (H : forall u, splace T u -> splace T []); [|apply (H T), sp_all].
  induction u as [|t u IH]; intros H; [exact H|]. apply IH. now apply sp_tail with t.
Qed.
Lemma PS_nil : PS [] [].
Proof. split; [split; [constructor|reflexivity]|apply splace_nil]. Qed.
Lemma FR_ds s : rds FR s (mapd f s).
Proof. destruct s. now constructor. Qed.
Lemma respaced_rts_le n : forall u u', size (erases u) <= n -> splace T u -> respaced f u u' -> rts u u'.
Proof.
  induction n as [|n IH]; intros u u' Hn Hu Hs; pose proof Hs as [Ht Hl].
  { destruct u as [|t u]; [|exfalso; unfold erases in Hn; cbn [map] in Hn; rewrite size_cons in Hn; pose proof (tt_size_pos (erase t)); lia].
    destruct u' as [|t' u']; [|discriminate]. constructor. apply PS_nil. }
  destruct u as [|t u]; destruct u' as [|t' u']; try discriminate; [constructor; apply PS_nil|].
  unfold erases in Hn. cbn [map] in Hn. rewrite size_cons in Hn. pose proof (tt_size_pos (erase t)) as Hp.
  cbn [map respans] in Hl. injection Hl as Hl1 Hl2.
  assert (Hrest : same_text (erases u) (erases u')) by (inversion Ht; assumption).
  constructor; [| |now split].
  - destruct t as [s i|s c sp|s k v|s d g]; cbn [respan sloose] in Hl1; destruct t' as [s' i'|s' c' sp'|s' k' v'|s' d' g']; try discriminate Hl1; cbn [sloose] in Hl1.
    + injection Hl1 as -> ->. now constructor.
    + injection Hl1 as -> ->. now constructor.
    + injection Hl1 as -> -> ->. now constructor.
    + injection Hl1 as -> -> Hg. constructor; [apply FR_ds|]. apply IH.
      * cbn [erase] in Hn. rewrite tt_size_group in Hn. unfold erases. lia.
      * now apply sp_group with s d u.
      * split; [|exact Hg]. inversion Ht; subst. assumption.
  - apply IH; [unfold erases; lia|now apply sp_tail with t|]. split; assumption.
Qed.
Lemma respaced_rts u u' : splace T u -> respaced f u u' -> rts u u'.
Proof. now apply respaced_rts_le with (size (erases u)). Qed.

Lemma rts_split g : forall g' r r', List.length g = List.length g' -> rts (g ++ r) (g' ++ r') ->
  Forall2 rto g g' /\ rts r r'.
Proof.
  induction g as [|t g IH]; intros [|t' g'] r r' Hl H; try discriminate; cbn in *; [auto|].
  inversion H; subst. destruct (IH g' r r') as [H1 H2]; [lia|assumption|]. split; [|assumption].
  constructor; [|assumption]. now apply r_out with PS.
Qed.
Lemma generic_w sc sc' ts ts' : FR sc sc' -> rts ts ts' -> PS ts ts' ->
  rsum (rprod (Forall2 rto) rts) (rprod rts FR) (s_generic E sc ts) (s_generic E' sc' ts').
Proof.
  intros -> Ht [Hs Hp]. destruct HR as (_ & _ & _ & Hg). specialize (Hg ts Hp ts' Hs sc).
  destruct Hok as (_ & _ & Hl & Hr & _), Hok' as (_ & _ & Hl' & Hr' & _).
  destruct (s_generic E sc ts) as [[g r]|[r s]] eqn:E1, (s_generic E' (f sc) ts') as [[g' r']|[r' s']] eqn:E2; try contradiction.
  - apply Hl in E1. apply Hl' in E2. subst. destruct (rts_split _ _ _ _ Hg Ht). constructor. now constructor.
  - apply Hr in E1. apply Hr' in E2. destruct E1 as ((u & ->) & _), E2 as ((u' & ->) & _). destruct Hg as [Hg ->].
    constructor. constructor; [|reflexivity]. apply (rts_split u u'); [|assumption].
    apply r_length in Ht. rewrite !app_length in Ht. lia.
Qed.
Lemma space_w s s' c sp sp' r r' : AQ sp sp' -> PS (SPunct s c sp :: r) (SPunct s' c sp' :: r') -> matters c (erases r) -> sp = sp'.
Proof. intros _ [[H _] _] Hm. cbn in H. inversion H; subst. auto. Qed.
Lemma join_w a a' b b' : FR a a' -> FR b b' -> ropt FR (s_join E a b) (s_join E' a' b').
Proof. intros -> ->. destruct HR as (_ & _ & Hj & _). rewrite Hj. destruct (s_join E a b); now constructor. Qed.
Lemma block_w b b' ts ts' : rds FR b b' -> NK ts ts' -> FR (block_span E b ts) (block_span E' b' ts').
Proof. intros _ []. Qed.

Lemma out_w t : forall t', rto t t' -> sloose t' = sloose (respan f t).
Proof.
  induction t as [s i|s c sp|s k v|s d ts IH] using stt_ind2; intros t' H; inversion H as [? ? ? Hs|? ? ? ? ? Hs|? ? ? ? Hs|? ? ? ? ? Hs Hts|? ? ? ? ? Hs HK]; subst;
    cbn [respan sloose]; try (now rewrite Hs).
  - f_equal; [destruct Hs as [? ? ? ? ? ? -> -> ->]; reflexivity|]. clear H.
    induction Hts as [|a b l l' Hab Hl IHl]; [reflexivity|]. inversion IH; subst. cbn. f_equal; auto.
  - now destruct HK as [[]|[]].
Qed.
Lemma outs_w ts ts' : Forall2 rto ts ts' -> map sloose ts' = map sloose (respans f ts).
Proof. induction 1 as [|t t' r r' Ht Hr IH]; [reflexivity|]. cbn. f_equal; [now apply out_w|exact IH]. Qed.
Lemma diags_w d d' : rdiags FR d d' -> d' = move_diags f d.
Proof. induction 1 as [|x x' r r' Hx Hr IH]; [reflexivity|]. cbn. f_equal; [|exact IH]. now destruct Hx as [? ? ? ->]. Qed.

Lemma result_w T' : respaced f T T' -> rresult NK NK AL AQ FR (smview E T) (smview E' T').
Proof.
  intros H. destruct Hok as (He & Hg & _), Hok' as (_ & Hg' & _). pose proof HR as (Hc & Henv & _).
  apply (r_mview NK NK AL (fun _ _ _ => I) PS PS_nil AQ (fun _ => I) space_w FR E E' (eq_sym Hc) join_w generic_w Henv block_w He Hg Hg').
  apply respaced_rts; [apply sp_all|exact H].
Qed.
Lemma answer_w T' : respaced f T T' -> ranswer NK NK AL AQ FR (smview_nightly E T) (smview_nightly E' T').
Proof.
  intros H. destruct Hok as (He & Hg & _), Hok' as (_ & Hg' & _). pose proof HR as (Hc & Henv & _).
  apply (r_mview_nightly NK NK AL (fun _ _ _ => I) PS PS_nil AQ (fun _ => I) space_w FR E E' (eq_sym Hc) join_w generic_w Henv block_w He Hg Hg').
  apply respaced_rts; [apply sp_all|exact H].
Qed.
End Respaced.
