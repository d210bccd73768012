(** A tree without spans has at most one reading with spans. *)
From Verif Require Export PlacedFacts.
From Verif Require Import SpecStr SpecGrammar KebabFacts.
Open Scope list_scope.
Close Scope sparse_scope.
Close Scope sexpand_scope.

(** The tokens that [P] puts in front of some rest, and what it makes of them,
    are determined by the result without spans; [F] is known of the rest. *)
Definition once {A B} (F : list stt -> Prop) (P : list stt -> A -> Prop) (e : A -> B) : Prop :=
  forall u a u' a' r r', wf (erases (u ++ r)) -> F r -> F r' -> P u a -> P u' a' -> u ++ r = u' ++ r' -> e a = e a' ->
  u = u' /\ a = a'.
Definition any : list stt -> Prop := fun _ => True.
#[local] Hint Extern 0 (any _) => exact I : core.

Lemma once_list {A B} F (P : list stt -> A -> Prop) (e : A -> B) :
  once F P e -> (forall u a r, P u a -> F (u ++ r)) -> once F (sp_list P) (map e).
Proof.
  intros HP HF u l u' l' r r' Hw Hr Hr' H. revert u' l'. induction H as [|u a v l Ha Hl IH]; intros u' l' H' Hu He.
  - destruct H'; [auto|discriminate].
  - destruct H' as [|u' a' v' l' Ha' Hl']; [discriminate|]. injection He as He1 He2.
    rewrite <- !app_assoc in Hu. rewrite <- app_assoc in Hw.
    assert (HFl : forall w k q, F q -> sp_list P w k -> F (w ++ q)).
    { intros w k q Hq [|]; [exact Hq|]. rewrite <- app_assoc. eapply HF; eassumption. }
    destruct (HP u a u' a' (v ++ r) (v' ++ r')) as [-> ->]; eauto.
    apply app_inv_head in Hu. rewrite erases_app in Hw. apply wf_app in Hw as [_ Hw].
    destruct (IH Hw v' l') as [-> ->]; auto.
Qed.

(** ** Names *)

Lemma run_texts b ts e : run b ts e -> wf ts -> Forall (fun t => token_text t <> ""%string) ts.
Proof.
  assert (Hn : forall t, wf_tt t -> (exists i, t = TIdent i) \/ (exists s, t = TLit LkInt s) -> token_text t <> ""%string).
  { intros t Hw [[i ->]|[s ->]]; cbn in *.
    - destruct Hw as [Hw _]. intros H. unfold lex_ident in Hw. now rewrite H in Hw.
    - intros ->. exact Hw. }
  induction 1; intros Hw; [constructor|..]; apply wf_cons in Hw as [Hw1 Hw2]; constructor; auto; try discriminate;
    apply Hn; eauto.
Qed.
Lemma name_texts ts : name_phrase ts -> wf ts -> Forall (fun t => token_text t <> ""%string) ts.
Proof.
  intros H Hw. destruct H as [i ts e H|sp ts e H]; apply wf_cons in Hw as [Hw1 Hw2]; constructor; try discriminate;
    eauto using run_texts. cbn. destruct Hw1 as [Hw _]. intros Hi. unfold lex_ident in Hw. now rewrite Hi in Hw.
Qed.
Lemma name_text_app a b : name_text (a ++ b) = (name_text a ++ name_text b)%string.
Proof. induction a as [|t a IH]; [reflexivity|]. cbn [app]. rewrite !name_text_cons, IH. symmetry. apply str_app_assoc. Qed.
Lemma str_length_app a b : String.length (a ++ b) = (String.length a + String.length b)%nat.
Proof. induction a; cbn; auto. Qed.
Lemma no_text l : Forall (fun t => token_text t <> ""%string) l -> String.length (name_text l) = 0%nat -> l = [].
Proof.
  intros H. destruct H as [|t l Ht]; [reflexivity|]. cbn. rewrite str_length_app. destruct (token_text t); [congruence|discriminate].
Qed.
Lemma name_once E u k u' k' r r' : wf (erases (u ++ r)) -> sp_name E u k -> sp_name E u' k' -> u ++ r = u' ++ r' ->
  String.length (sk_repr k) = String.length (sk_repr k') -> u = u' /\ k = k'.
Proof.
  intros Hw Hk Hk' Hu Hl.
  assert (Hmain : forall u k u' k' l, wf (erases (u ++ l)) -> sp_name E u k -> sp_name E u' k' -> u' = u ++ l ->
    String.length (sk_repr k) = String.length (sk_repr k') -> l = []).
  { clear. intros u k u' k' l Hw Hk Hk' Hu Hl. destruct Hk as [t0 r0 Hp]. inversion Hk' as [t1 r1 Hp' Hu']; subst k'.
    rewrite Hu' in *. rewrite Hu in *. cbn [sk_repr] in Hl. rewrite erases_app in Hl, Hp'. rewrite name_text_app, str_length_app in Hl.
    assert (Hf := name_texts _ Hp'). rewrite erases_app in Hw. specialize (Hf Hw). apply Forall_app in Hf as [_ Hf].
    assert (erases l = []) by (apply no_text; [exact Hf|]; lia). now destruct l. }
  destruct (app_eq_app _ _ _ _ Hu) as (l & [[H1 H2]|[H1 H2]]).
  - assert (l = []) as ->.
    { apply (Hmain u' k' u k l); auto. subst u. rewrite erases_app in Hw. now apply wf_app in Hw. }
    rewrite app_nil_r in H1. subst u'. split; [reflexivity|]. inversion Hk; subst. inversion Hk'; subst. reflexivity.
  - assert (l = []) as ->.
    { apply (Hmain u k u' k' l); auto. rewrite H2, app_assoc, erases_app in Hw. now apply wf_app in Hw. }
    rewrite app_nil_r in H1. subst u'. split; [reflexivity|]. inversion Hk; subst. inversion Hk'; subst. reflexivity.
Qed.
Lemma once_name E : once any (sp_name E) ekebab.
Proof.
  intros u k u' k' r r' Hw _ _ Hk Hk' Hu He. eapply name_once; eauto. injection He as ->. reflexivity.
Qed.
Lemma ident_once E k i k' i' : sp_ident E k i -> sp_ident E k' i' -> k = k' -> i = i'.
Proof.
  intros [[_ H] Hs] [[_ H'] Hs'] <-. destruct i, i'; cbn in *. congruence.
Qed.
Lemma snake_length s : String.length (snake_name s) = String.length s.
Proof.
  induction s as [|c s IH]; [reflexivity|]. unfold snake_name, chars, unchars in *. cbn. now rewrite IH.
Qed.
Lemma ident_length E k i : sp_ident E k i -> String.length (i_name (si_ident i)) = String.length (sk_repr k).
Proof. intros [[_ H] _]. rewrite H. apply snake_length. Qed.

(** ** Values and attributes *)

Lemma once_value E : once any (sp_value E) evalue.
Proof.
  intros u v u' v' r r' _ _ _ H H' Hu He.
  destruct H; inversion H'; subst; cbn in Hu, He; try discriminate; injection Hu; intros; subst; auto; try discriminate.
Qed.
Lemma once_opt E : once any (sp_opt_value E) (option_map evalue).
Proof.
  intros u v u' v' r r' Hw _ _ H H' Hu He.
  destruct H as [|s sp ts v Hv]; destruct H' as [|s' sp' ts' v' Hv']; try discriminate; auto.
  injection Hu as -> -> Hu. injection He as He. cbn in Hw. apply wf_cons in Hw as [_ Hw].
  destruct (once_value E ts v ts' v' r r') as [-> ->]; auto.
Qed.
Lemma once_modifier : once any sp_modifier (option_map si_ident).
Proof.
  intros u v u' v' r r' Hw _ _ H H' Hu He. destruct H; destruct H'; try discriminate; auto.
  now injection Hu as -> -> -> -> _.
Qed.
Lemma once_key E : once any (sp_key E) ekey.
Proof.
  intros u v u' v' r r' Hw _ _ H H' Hu He. destruct H as [s v|ts k Hk]; destruct H' as [s' v'|ts' k' Hk']; try discriminate.
  - now injection Hu as -> -> _.
  - injection He as Hr Hl. destruct (name_once E ts k ts' k' r r') as [-> ->]; auto. now rewrite Hr.
Qed.
Lemma short_once E u k v u' k' v' r r' : wf (erases (u ++ r)) -> sp_short E u k v -> sp_short E u' k' v' ->
  u ++ r = u' ++ r' -> sk_repr k = sk_repr k' -> u = u' /\ k = k' /\ v = v'.
Proof.
  intros Hw H H' Hu He. destruct H as [b inner k i Hk Hi]; destruct H' as [b' inner' k' i' Hk' Hi'].
  injection Hu as -> -> _. cbn in Hw. apply wf_cons in Hw as [Hw _]. apply wf_group in Hw.
  destruct (name_once E inner' k inner' k' [] []) as [_ ->]; auto; try (rewrite app_nil_r; auto). { now rewrite He. }
  split; [reflexivity|]. split; [reflexivity|]. now rewrite (ident_once E k' i k' i').
Qed.
Lemma once_selector E : once any (sp_selector E) eselector.
Proof.
  intros u v u' v' r r' Hw _ _ H H' Hu He.
  destruct H as [s sp ts k Hk|s sp ts k Hk]; destruct H' as [s' sp' ts' k' Hk'|s' sp' ts' k' Hk']; try discriminate;
    injection Hu as -> -> Hu; injection He as Hr Hl; cbn in Hw; apply wf_cons in Hw as [_ Hw];
    (destruct (name_once E ts k ts' k' r r') as [-> ->]; [assumption..|now rewrite Hr|auto]).
Qed.

(** No [=] comes next. *)
Definition no_eq (ts : list stt) : Prop := match ts with SPunct _ c _ :: _ => c <> "="%char | _ => True end.
Lemma attr_starts E u a r : sp_attr E u a -> no_eq (u ++ r).
Proof.
  assert (Hn : forall ts k r, sp_name E ts k -> no_eq (ts ++ r)).
  { intros ts k q Hk. destruct Hk as [t v Hp]. inversion Hp as [i ts e _ Ht|sp ts e _ Ht]; destruct t; try discriminate; cbn in *;
      [trivial|]. injection Ht as <- _. discriminate. }
  intros H. destruct H as [ts k ts' v Hk Hv|ts k Hk|ts k v Hk|b s s' sp ts|s i s' sp ks k ms m vs v Hk Hm Hv|s i s' sp ks k v ms m Hk Hm];
    rewrite <- ?app_assoc; eauto; try exact I. destruct Hk. exact I.
Qed.
Lemma once_attr E : once no_eq (sp_attr E) eattr.
Proof.
  intros u a u' a' r r' Hw Hr Hr' H H' Hu He.
  assert (Hkv : forall ts k ts' v ts1 k1 q q', wf (erases (ts ++ ts' ++ q)) -> sp_name E ts k -> sp_opt_value E ts' (Some v) ->
    sp_name E ts1 k1 -> no_eq q' -> ts ++ ts' ++ q = ts1 ++ q' -> sk_repr k = sk_repr k1 -> False).
  { clear. intros ts k ts' v ts1 k1 q q' Hw Hk Hv Hk1 Hq Hu He.
    destruct (name_once E ts k ts1 k1 (ts' ++ q) q') as [<- _]; auto. { now rewrite He. }
    apply app_inv_head in Hu. inversion Hv; subst. cbn in Hq. congruence. }
  assert (Hhead : forall b inner q ts k, SGroup b Brace inner :: q = ts ++ k -> forall x, sp_name E ts x -> False).
  { clear. intros b inner q ts k Hu x Hx. destruct Hx as [t v Hp]. injection Hu as <- _. inversion Hp. }
  destruct H as [ts k ts' v Hk Hv|ts k Hk|ts k v Hk|b s s' sp ts|s i s' sp ks k ms m vs v Hk Hm Hv|s i s' sp ks k v ms m Hk Hm];
  destruct H' as [ts1 k1 ts1' v1 Hk1 Hv1|ts1 k1 Hk1|ts1 k1 v1 Hk1|b1 s1 s1' sp1 ts1|s1 i1 s1' sp1 ks1 k1 ms1 m1 vs1 v1 Hk1 Hm1 Hv1|s1 i1 s1' sp1 ks1 k1 v1 ms1 m1 Hk1 Hm1];
  try discriminate; try (match type of He with eattr (SAKv _) = _ => injection He as Hr1 Hl1 Hv2 end); rewrite <- ?app_assoc in Hu; rewrite <- ?app_assoc in Hw.
  - destruct (name_once E ts k ts1 k1 (ts' ++ r) (ts1' ++ r')) as [<- <-]; auto. { now rewrite Hr1. }
    apply app_inv_head in Hu. rewrite erases_app in Hw. apply wf_app in Hw as [_ Hw].
    destruct (once_opt E ts' (Some v) ts1' (Some v1) r r') as [<- [= <-]]; auto; try exact I. cbn. now rewrite Hv2.
  - exfalso. eapply Hkv; [exact Hw|exact Hk|exact Hv|exact Hk1|exact Hr'|exact Hu|exact Hr1].
  - exfalso. destruct Hk1. symmetry in Hu. now apply Hhead with (1 := Hu) in Hk.
  - exfalso. symmetry in Hu. rewrite <- Hu in Hw. eapply Hkv; [exact Hw|exact Hk1|exact Hv1|exact Hk|exact Hr|exact Hu|now symmetry].
  - injection He as Hr1 _. destruct (name_once E ts k ts1 k1 r r') as [<- <-]; auto. now rewrite Hr1.
  - exfalso. destruct Hk1. symmetry in Hu. now apply Hhead with (1 := Hu) in Hk.
  - exfalso. destruct Hk. now apply Hhead with (1 := Hu) in Hk1.
  - exfalso. destruct Hk. now apply Hhead with (1 := Hu) in Hk1.
  - destruct (short_once E ts k v ts1 k1 v1 r r') as (<- & <- & <-); auto.
  - injection Hu. intros. subst. auto.
  - injection He as _ Hk2 Hm2 Hv2. cbn in Hu, Hw. injection Hu as <- <- <- <- Hu. rewrite <- !app_assoc in Hu. rewrite <- !app_assoc in Hw.
    apply wf_cons in Hw as [_ Hw]. apply wf_cons in Hw as [_ Hw].
    destruct (once_key E ks k ks1 k1 (ms ++ vs ++ r) (ms1 ++ vs1 ++ r')) as [<- <-]; auto.
    apply app_inv_head in Hu. change (map erase) with erases in Hw. rewrite erases_app in Hw. apply wf_app in Hw as [_ Hw].
    destruct (once_modifier ms m ms1 m1 (vs ++ r) (vs1 ++ r')) as [<- <-]; auto.
    apply app_inv_head in Hu. rewrite erases_app in Hw. apply wf_app in Hw as [_ Hw].
    destruct (once_opt E vs v vs1 v1 r r') as [<- <-]; auto.
  - exfalso. cbn in Hu. injection Hu as <- <- <- <- Hu. destruct Hk1 as [b inner k1 i1 _ _]. rewrite <- !app_assoc in Hu.
    destruct Hk as [s0 v0|ks k Hk]; [discriminate|]. symmetry in Hu. now apply Hhead with (1 := Hu) in Hk.
  - exfalso. cbn in Hu. injection Hu as <- <- <- <- Hu. destruct Hk as [b inner k i0 _ _]. rewrite <- !app_assoc in Hu.
    destruct Hk1 as [s0 v0|ks1 k1 Hk1]; [discriminate|]. now apply Hhead with (1 := Hu) in Hk1.
  - injection He as _ Hk2 Hl2 Hm2 Hv2. cbn in Hu, Hw. injection Hu as <- <- <- <- Hu. rewrite <- !app_assoc in Hu. rewrite <- !app_assoc in Hw.
    apply wf_cons in Hw as [_ Hw]. apply wf_cons in Hw as [_ Hw].
    destruct (short_once E ks k v ks1 k1 v1 (ms ++ r) (ms1 ++ r')) as (<- & <- & <-); auto.
    apply app_inv_head in Hu. change (map erase) with erases in Hw. rewrite erases_app in Hw. apply wf_app in Hw as [_ Hw].
    destruct (once_modifier ms m ms1 m1 r r') as [<- <-]; auto.
Qed.

(** ** Paths and tags *)

Lemma once_colons : once any sp_colons (fun _ => Datatypes.tt).
Proof. intros u l u' l' r r' _ _ _ [s s' sp] [s1 s1' sp1] Hu _. now injection Hu as -> -> ->. Qed.
Lemma same_prefix (a b : list stt) r r' : erases a = erases b -> a ++ r = b ++ r' -> a = b.
Proof.
  intros He Hu. assert (Hl : List.length a = List.length b).
  { assert (H := f_equal (@List.length _) He). unfold erases in H. now rewrite !map_length in H. }
  clear He. revert b Hl Hu. induction a as [|x a IH]; intros [|y b] Hl Hu; try discriminate; [reflexivity|].
  injection Hu as -> Hu. f_equal. apply IH; auto.
Qed.
Lemma once_segment : once any sp_segment eseg.
Proof.
  intros u a u' a' r r' Hw _ _ H H' Hu He.
  destruct H as [s i|s i g Hg|s i c l g Hg Hc]; destruct H' as [s1 i1|s1 i1 g1 Hg1|s1 i1 c1 l1 g1 Hg1 Hc1]; try discriminate.
  - now injection Hu as -> -> _.
  - cbn in Hu. injection Hu as -> _ Hu. injection He as -> He. now rewrite (same_prefix _ _ _ _ He Hu).
  - cbn in Hu. injection Hu as -> _ Hu. injection He as -> He. rewrite <- !app_assoc in Hu.
    destruct Hc as [a1 a2 asp], Hc1 as [b1 b2 bsp]. injection Hu as -> -> -> Hu. now rewrite (same_prefix _ _ _ _ He Hu).
Qed.
Lemma once_next : once any sp_next_segment (fun x => eseg (snd x)).
Proof.
  intros u a u' a' r r' Hw _ _ H H' Hu He. destruct H as [c l ts s Hc Hs]; destruct H' as [c1 l1 ts1 s1 Hc1 Hs1].
  rewrite <- !app_assoc in Hu. destruct Hc as [a1 a2 asp], Hc1 as [b1 b2 bsp]. injection Hu as -> -> -> Hu. cbn [snd] in He.
  cbn in Hw. apply wf_cons in Hw as [_ Hw]. apply wf_cons in Hw as [_ Hw].
  destruct (once_segment ts s ts1 s1 r r') as [<- <-]; auto.
Qed.
Lemma once_path : once any sp_path epath.
Proof.
  assert (Hm : forall ts s ts' l ts1 s1 ts1' l1 r r', wf (erases (ts ++ ts' ++ r)) ->
    sp_segment ts s -> sp_list sp_next_segment ts' l -> sp_segment ts1 s1 -> sp_list sp_next_segment ts1' l1 ->
    ts ++ ts' ++ r = ts1 ++ ts1' ++ r' -> eseg s = eseg s1 -> map (fun x => eseg (snd x)) l = map (fun x => eseg (snd x)) l1 ->
    ts = ts1 /\ ts' = ts1' /\ s = s1 /\ l = l1).
  { intros ts s ts' l ts1 s1 ts1' l1 r r' Hw Hs Hl Hs1 Hl1 Hu He He'.
    destruct (once_segment ts s ts1 s1 (ts' ++ r) (ts1' ++ r')) as [<- <-]; auto.
    apply app_inv_head in Hu. rewrite erases_app in Hw. apply wf_app in Hw as [_ Hw].
    destruct (once_list any sp_next_segment (fun x => eseg (snd x)) once_next (fun _ _ _ _ => I) ts' l ts1' l1 r r') as [<- <-]; auto. }
  intros u a u' a' r r' Hw _ _ H H' Hu He.
  destruct H as [ts s ts' l Hs Hl|c cl ts s ts' l Hc Hs Hl]; destruct H' as [ts1 s1 ts1' l1 Hs1 Hl1|c1 cl1 ts1 s1 ts1' l1 Hc1 Hs1 Hl1];
    try discriminate; unfold epath in He; cbn [s_leading s_first s_more is_some] in He; assert (He1 : eseg s = eseg s1) by congruence;
    assert (He2 : map (fun x => eseg (snd x)) l = map (fun x => eseg (snd x)) l1) by congruence.
  - rewrite <- !app_assoc in Hu. rewrite <- !app_assoc in Hw. destruct (Hm _ _ _ _ _ _ _ _ _ _ Hw Hs Hl Hs1 Hl1 Hu He1 He2) as (-> & -> & -> & ->). auto.
  - rewrite <- !app_assoc in Hu. rewrite <- !app_assoc in Hw. destruct Hc as [a1 a2 asp], Hc1 as [b1 b2 bsp]. injection Hu as -> -> -> Hu.
    cbn [app erases] in Hw. apply wf_cons in Hw as [_ Hw]. apply wf_cons in Hw as [_ Hw].
    destruct (Hm _ _ _ _ _ _ _ _ _ _ Hw Hs Hl Hs1 Hl1 Hu He1 He2) as (-> & -> & -> & ->). auto.
Qed.
Section Tags.
Variable E : senv.
Hypothesis HE : senv_ok E.
Lemma single_once u s i u' k j r r' : wf (erases (u ++ r)) -> u = [SIdent s i] -> sp_name E u' k -> sp_ident E k j ->
  i_name i = i_name (si_ident j) -> u ++ r = u' ++ r' -> u' = u /\ si_span j = s.
Proof.
  intros Hw -> Hk Hj He Hu. assert (Hs : sp_name E [SIdent s i] (SKebab (i_name i ++ "") [s])).
  { apply (spn E (SIdent s i) []). cbn. apply name_ident with false. constructor. }
  destruct (name_once E _ _ _ _ _ _ Hw Hs Hk Hu) as [<- <-].
  { cbn [sk_repr]. rewrite str_app_nil, He. eapply ident_length. exact Hj. }
  split; [reflexivity|]. destruct Hj as [_ ->]. cbn. now apply join_self.
Qed.
Definition comp_path (t : tag) : path := match t with TagComponent p => p | _ => Path false [] end.
Lemma once_tag : once any (sp_tag E) etag.
Proof.
  intros u a u' a' r r' Hw _ _ H H' Hu He.
  assert (Hn : forall ts k i ts1 k1 i1, wf (erases (ts ++ r)) -> sp_name E ts k -> sp_ident E k i -> sp_name E ts1 k1 -> sp_ident E k1 i1 ->
    ts ++ r = ts1 ++ r' -> i_name (si_ident i) = i_name (si_ident i1) -> ts = ts1 /\ i = i1).
  { clear - HE. intros ts k i ts1 k1 i1 Hw Hk Hi Hk1 Hi1 Hu He.
    destruct (name_once E ts k ts1 k1 r r') as [<- <-]; auto.
    - rewrite <- (ident_length _ _ _ Hi), <- (ident_length _ _ _ Hi1). now rewrite He.
    - split; [reflexivity|]. now apply (ident_once E k i k i1). }
  assert (Hp : forall ts p ts1 k1 i1 q q', wf (erases (ts ++ q)) -> sp_path ts p -> sp_name E ts1 k1 -> sp_ident E k1 i1 ->
    ts ++ q = ts1 ++ q' -> epath p = Path false [PSeg (Id false (i_name (si_ident i1))) PNone] ->
    ts = ts1 /\ p = SPath None (SPSeg (SId (si_span i1) (Id false (i_name (si_ident i1)))) SPNone) []).
  { clear - HE. intros ts p ts1 k1 i1 q q' Hw Hp Hk1 Hi1 Hu He.
    destruct Hp as [ts s ts' l Hs Hl|c cl ts s ts' l Hc Hs Hl]; [|discriminate]. unfold epath in He. cbn [s_leading s_first s_more is_some] in He.
    assert (He1 : eseg s = PSeg (Id false (i_name (si_ident i1))) PNone) by congruence.
    assert (He2 : map (fun x => eseg (snd x)) l = []) by congruence.
    destruct Hl; [|discriminate]. destruct Hs as [s i|s i g Hg|s i c l g Hg Hc]; try discriminate.
    cbn in He1. injection He1 as Hi. rewrite app_nil_r in *. subst i.
    destruct (single_once [SIdent s (Id false (i_name (si_ident i1)))] s (Id false (i_name (si_ident i1))) ts1 k1 i1 q q') as [-> <-]; auto. }
  destruct H as [ts p H|ts k i Hk Hi|ts k i Hk Hi|ts k i Hk Hi|ts k i Hk Hi|ts k Hk];
  destruct H' as [ts1 p1 H1|ts1 k1 i1 Hk1 Hi1|ts1 k1 i1 Hk1 Hi1|ts1 k1 i1 Hk1 Hi1|ts1 k1 i1 Hk1 Hi1|ts1 k1 Hk1]; try discriminate.
  - destruct (once_path ts p ts1 p1 r r') as [<- <-]; auto. cbn in He. congruence.
  - destruct (Hp ts p ts1 k1 i1 r r') as [<- ->]; auto. exact (f_equal comp_path He).
  - symmetry in Hu. rewrite Hu in Hw || (rewrite <- Hu in Hw). destruct (Hp ts1 p1 ts k i r' r) as [<- ->]; auto. exact (f_equal comp_path (eq_sym He)).
  - assert (He1 : i_name (si_ident i) = i_name (si_ident i1)) by (first [now injection He | cbn in He; injection He; congruence | cbn in He; congruence]).
    destruct (Hn ts k i ts1 k1 i1) as [<- <-]; auto.
  - assert (He1 : i_name (si_ident i) = i_name (si_ident i1)) by (first [now injection He | cbn in He; injection He; congruence | cbn in He; congruence]).
    destruct (Hn ts k i ts1 k1 i1) as [<- <-]; auto.
  - assert (He1 : i_name (si_ident i) = i_name (si_ident i1)) by (first [now injection He | cbn in He; injection He; congruence | cbn in He; congruence]).
    destruct (Hn ts k i ts1 k1 i1) as [<- <-]; auto.
  - assert (He1 : i_name (si_ident i) = i_name (si_ident i1)) by (first [now injection He | cbn in He; injection He; congruence | cbn in He; congruence]).
    destruct (Hn ts k i ts1 k1 i1) as [<- <-]; auto.
  - destruct (once_name E ts k ts1 k1 r r') as [<- <-]; auto. cbn [etag] in He. congruence.
Qed.

(** ** Elements *)

Definition ech (ch : option (list schild)) : option (list child) := option_map (map echild) ch.
Lemma end_starts ts args ch r : sp_end E ts args ch -> no_eq (ts ++ r).
Proof. intros []; cbn; auto; discriminate. Qed.

Theorem children_once ts cs : sp_children E ts cs -> forall cs', wf (erases ts) -> sp_children E ts cs' ->
  map echild cs = map echild cs' -> cs = cs'.
Proof.
  intros H cs' Hw H' He.
  enough (Hx : forall ts cs, sp_children E ts cs -> forall ts' cs' r r', wf (erases (ts ++ r)) -> sp_children E ts' cs' ->
    ts ++ r = ts' ++ r' -> map echild cs = map echild cs' -> ts = ts' /\ cs = cs').
  { destruct (Hx ts cs H ts cs' [] []) as [_ ->]; auto. now rewrite app_nil_r. }
  clear ts cs H cs' Hw H' He.
  apply (sp_children_ind2 E
    (fun u c _ => forall u' c' r r', wf (erases (u ++ r)) -> sp_child E u' c' -> u ++ r = u' ++ r' -> echild c = echild c' -> u = u' /\ c = c')
    (fun u e _ => forall u' e' r r', wf (erases (u ++ r)) -> sp_element E u' e' -> u ++ r = u' ++ r' -> eelement e = eelement e' -> u = u' /\ e = e')
    (fun u a ch _ => forall u' a' ch' r r', wf (erases (u ++ r)) -> sp_end E u' a' ch' -> u ++ r = u' ++ r' ->
       option_map erases a = option_map erases a' -> ech ch = ech ch' -> u = u' /\ a = a' /\ ch = ch')
    (fun u cs _ => forall u' cs' r r', wf (erases (u ++ r)) -> sp_children E u' cs' -> u ++ r = u' ++ r' ->
       map echild cs = map echild cs' -> u = u' /\ cs = cs')).
  - intros ts v Hv u' c' r r' Hw H' Hu He. destruct H'; try discriminate. injection He as He.
    destruct (once_value E ts v ts0 v0 r r') as [<- <-]; auto.
  - intros ts e He0 IH u' c' r r' Hw H' Hu He. destruct H' as [|ts1 e1 H1|]; try discriminate. injection He as He.
    destruct (IH _ _ _ _ Hw H1 Hu He) as [<- <-]. auto.
  - intros s s' sp ts e He0 IH u' c' r r' Hw H' Hu He. destruct H' as [| |s1 s1' sp1 ts1 e1 H1]; try discriminate. injection He as He.
    injection Hu as <- <- <- Hu. cbn [app] in Hw. apply wf_cons in Hw as [_ Hw]. apply wf_cons in Hw as [_ Hw].
    destruct (IH _ _ _ _ Hw H1 Hu He) as [<- <-]. auto.
  - intros ts1 t ts2 sels ts3 attrs ts4 args cs Ht Hs Ha Hd IH u' e' r r' Hw H' Hu He.
    destruct H' as [us1 t' us2 sels' us3 attrs' us4 args' cs' Ht' Hs' Ha' Hd'].
    rewrite !eelement_eq in He. injection He as He1 He2 He3 He4 He5.
    rewrite <- !app_assoc in Hu. rewrite <- !app_assoc in Hw.
    destruct (once_tag ts1 t us1 t' (ts2 ++ ts3 ++ ts4 ++ r) (us2 ++ us3 ++ us4 ++ r')) as [<- <-]; auto.
    apply app_inv_head in Hu. rewrite erases_app in Hw. apply wf_app in Hw as [_ Hw].
    destruct (once_list any _ _ (once_selector E) (fun _ _ _ _ => I) ts2 sels us2 sels' (ts3 ++ ts4 ++ r) (us3 ++ us4 ++ r')) as [<- <-]; auto.
    apply app_inv_head in Hu. rewrite erases_app in Hw. apply wf_app in Hw as [_ Hw].
    destruct (once_list no_eq _ _ (once_attr E) (attr_starts E) ts3 attrs us3 attrs' (ts4 ++ r) (us4 ++ r')) as [<- <-]; auto;
      try (eapply end_starts; eassumption).
    apply app_inv_head in Hu. rewrite erases_app in Hw. apply wf_app in Hw as [_ Hw].
    destruct (IH _ _ _ _ _ Hw Hd' Hu He4 He5) as (<- & <- & <-). auto.
  - intros s sp u' a' ch' r r' Hw H' Hu He He'. destruct H'; try discriminate. now injection Hu as <- <- _.
  - intros b d inner cs Hc IH u' a' ch' r r' Hw H' Hu He He'. destruct H' as [|b1 d1 inner1 cs1 H1|]; try discriminate.
    injection Hu as <- <- <- _. cbn [app] in Hw. apply wf_cons in Hw as [Hw _]. apply wf_group in Hw.
    injection He' as He'. destruct (IH inner cs1 [] []) as [_ <-]; auto. now rewrite app_nil_r.
  - intros s sp args s' sp' b d inner cs Hc IH u' a' ch' r r' Hw H' Hu He He'.
    destruct H' as [| |s1 sp1 args1 s1' sp1' b1 d1 inner1 cs1 H1]; try discriminate.
    cbn [app] in Hu, Hw. injection Hu as <- <- Hu. rewrite <- !app_assoc in Hu.
    assert (Hl : List.length args = List.length args1).
    { injection He as He. assert (Hx := f_equal (@List.length _) He). rewrite !erases_length, !app_length in Hx. cbn in Hx. lia. }
    assert (args = args1) as <-.
    { revert Hl Hu. clear. revert args1. induction args as [|x a IH]; intros [|y b0] Hl Hu; try discriminate; [reflexivity|].
      injection Hu as -> Hu. f_equal. apply IH; auto. }
    apply app_inv_head in Hu. injection Hu as <- <- <- <- <- _.
    apply wf_cons in Hw as [_ Hw]. rewrite <- app_assoc, erases_app in Hw. apply wf_app in Hw as [_ Hw].
    apply wf_cons in Hw as [_ Hw]. apply wf_cons in Hw as [Hw _]. apply wf_group in Hw.
    injection He' as He'. destruct (IH inner cs1 [] []) as [_ <-]; auto. now rewrite app_nil_r.
  - intros u' cs' r r' Hw H' Hu He. destruct H'; [auto|discriminate].
  - intros ts c ts' cs Hc IHc Hcs IHcs u' cs' r r' Hw H' Hu He. destruct H' as [|us c1 us' cs1 Hc1 Hcs1]; [discriminate|].
    injection He as He1 He2. rewrite <- !app_assoc in Hu. rewrite <- app_assoc in Hw.
    destruct (IHc _ _ _ _ Hw Hc1 Hu He1) as [<- <-]. apply app_inv_head in Hu. rewrite erases_app in Hw. apply wf_app in Hw as [_ Hw].
    destruct (IHcs _ _ _ _ Hw Hcs1 Hu He2) as [<- <-]. auto.
Qed.
End Tags.
