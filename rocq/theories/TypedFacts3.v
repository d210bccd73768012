(** Unfinished tags (C66). *)
From Verif Require Import SpecStr SpecGrammar SpecContext SpecTyped TypedFacts TypedFacts2.
From Verif Require Import Follow Context Swap Inv Fuel GrammarFacts GrammarFacts2 TagFacts Monad.
From Coq Require Import Lia.
Open Scope list_scope.

Lemma cut_one t y : ~ (exists d g, t = TGroup d g) -> cut [t] y -> y = [] \/ y = [t].
Proof.
  intros Ht H. destruct (cut_cons_inv _ _ _ H) as [->|[(y' & -> & Hx)|(d & g & g' & -> & _)]]; auto.
  - apply cut_nil in Hx. subst. auto.
  - exfalso. apply Ht. eauto.
Qed.
Lemma no_group_ident i : ~ (exists d g, TIdent i = TGroup d g).
Proof. intros (? & ? & ?). discriminate. Qed.
Lemma no_group_punct c sp : ~ (exists d g, TPunct c sp = TGroup d g).
Proof. intros (? & ? & ?). discriminate. Qed.

(** ** Paths *)

(** The part of [parse_path] after the leading [::]. *)
Definition read_segs (E : env) (n : nat) : P (list path_seg) :=
  (s <- parse_seg E ;; r <- parse_segs_rest E n ;; ret (s :: r))%parse.

Inductive path_part {A} (x : pres A) : Prop :=
| pp_read a r : x = PR (Ret a) r [] -> r = [] \/ r = [TPunct ":" Joint] -> path_part x
| pp_fail e r : x = PR (Fail e) r [] -> e = EIdent AtEnd \/ e = EGenerics -> ~ next_punct ";" r -> path_part x.

Lemma path_bind {A B} (m : P A) (f : A -> B) ts : path_part (m ts) -> path_part ((a <- m ;; ret (f a))%parse ts).
Proof.
  intros []; unfold bind; rewrite H; cbn; [eapply pp_read|eapply pp_fail]; eauto.
Qed.
Lemma segs_end E n : parse_segs_rest E (S n) [] = PR (Ret []) [] [].
Proof. reflexivity. Qed.
Lemma segs_colon E n : parse_segs_rest E (S n) [TPunct ":" Joint] = PR (Ret []) [TPunct ":" Joint] [].
Proof. reflexivity. Qed.
Lemma segs_colons E n sp y : ~ next_group Paren y ->
  parse_segs_rest E (S n) (TPunct ":" Joint :: TPunct ":" sp :: y) = read_segs E n y.
Proof.
  intros Hp. cbn [parse_segs_rest].
  rewrite (proj2 (more_segs_test (TPunct ":" Joint :: TPunct ":" sp :: y))) by eauto.
  rewrite (bind_run0 _ _ _ Datatypes.tt y); [reflexivity|]. apply parse_op_ok; try discriminate. eauto.
Qed.
Lemma read_none E n : read_segs E n [] = PR (Fail (EIdent AtEnd)) [] [].
Proof. reflexivity. Qed.
Lemma read_first E n u s r : env_ok E -> segment_phrase E u s r ->
  read_segs E n (u ++ r) = (l <- parse_segs_rest E n ;; ret (s :: l))%parse r.
Proof.
  intros HE H. unfold read_segs. rewrite (bind_run0 _ _ _ s r); [reflexivity|]. apply parse_seg_ok; eauto.
Qed.
(** After a complete segment, before a cut [::]. *)
Lemma after_segment E n u s f r : env_ok E -> ~ next_punct "<" f -> segment_phrase E u s f -> cut f r ->
  r = [] \/ r = [TPunct ":" Joint] \/ (exists sp, r = [TPunct ":" Joint; TPunct ":" sp]) -> 0 < n ->
  path_part (read_segs E n (u ++ r)).
Proof.
  intros HE Hf H Hc Hr Hn. rewrite (read_first E n u s r HE); [|eapply cut_segment; eauto].
  destruct n as [|n]; [lia|]. apply path_bind. destruct Hr as [->|[->|(sp & ->)]].
  - rewrite segs_end. eapply pp_read; eauto.
  - rewrite segs_colon. eapply pp_read; eauto.
  - rewrite segs_colons by (intros []). rewrite read_none. eapply pp_fail; auto.
Qed.
(** [TIdent i] is a whole segment. *)
Lemma word_segment E i r : plain_segment i -> ~ keyword_segment i -> ~ generics_follow r ->
  segment_phrase E [TIdent i] (PSeg i PNone) r.
Proof. intros. now apply seg_plain. Qed.
Lemma no_generics_nil : ~ generics_follow [].
Proof. intros [[[] _]|[(? & ? & ?) _]]; discriminate. Qed.
Lemma no_generics_colon : ~ generics_follow [TPunct ":" Joint].
Proof. intros [[[? ?] _]|[(? & ? & ?) _]]; discriminate. Qed.
Lemma no_generics_colons sp : ~ generics_follow [TPunct ":" Joint; TPunct ":" sp].
Proof. intros [[[? ?] _]|[_ []]]; discriminate. Qed.
Lemma read_plain E n i r : env_ok E -> plain_segment i -> ~ keyword_segment i ->
  r = [] \/ r = [TPunct ":" Joint] \/ (exists sp, r = [TPunct ":" Joint; TPunct ":" sp]) -> 0 < n ->
  path_part (read_segs E n (TIdent i :: r)).
Proof.
  intros HE H1 H2 Hr Hn.
  apply (after_segment E n [TIdent i] (PSeg i PNone) r r HE); auto using cut_refl.
  - destruct Hr as [->|[->|(sp & ->)]]; [intros []|intros [? ?]; discriminate|intros [? ?]; discriminate].
  - apply seg_plain; auto.
    destruct Hr as [->|[->|(sp & ->)]]; [apply no_generics_nil|apply no_generics_colon|apply no_generics_colons].
Qed.
Lemma read_angle E n i r x : env_ok E -> plain_segment i -> ~ keyword_segment i -> generics_follow r ->
  parse_angle E r = PR (Fail EGenerics) x [] -> ~ next_punct ";" x ->
  path_part (read_segs E n (TIdent i :: r)).
Proof.
  intros HE H1 H2 Hg Hp Hx. eapply pp_fail; [|right; reflexivity|exact Hx].
  unfold read_segs, bind at 1. rewrite parse_seg_step.
  destruct (_ || _ || peek_keyword "crate" (TIdent i :: r)) eqn:Hkw.
  { exfalso. apply kw_test in Hkw. destruct Hkw as (i' & r' & He & Hk). inversion He; subst. contradiction. }
  rewrite (bind_run0 _ _ _ i r) by (apply seg_ident_ok; auto).
  cbn beta. rewrite (proj2 (angle_test r) Hg). unfold bind. now rewrite Hp.
Qed.
Lemma angle_part E g f y : env_ok E -> unfinished_generics E -> next_punct "<" g ->
  generic_args E (g ++ f) = inl (g, f) -> cut g y -> y <> g -> y <> [] ->
  exists x, generic_args E y = inr x /\ ~ next_punct ";" x.
Proof.
  intros (HE & _) HU Hn Hg Hc Hne Hy. destruct (HE _ _ _ Hg) as (_ & _ & Hloc).
  apply (HU g y); auto. rewrite <- (app_nil_r g) at 1. apply Hloc.
Qed.
Lemma cut_starts c g y : cut g y -> y <> [] -> next_punct c g -> next_punct c y.
Proof.
  intros Hc Hy Hn. destruct g as [|t g]; [contradiction|]. destruct Hn as [sp ->].
  destruct (cut_cons_inv _ _ _ Hc) as [->|[(y' & -> & _)|(? & ? & ? & Hx & _)]]; [congruence|now exists sp|discriminate].
Qed.

Lemma segment_part E n u s f y : env_ok E -> unfinished_generics E -> segment_phrase E u s f ->
  cut u y -> y <> u -> 0 < n -> path_part (read_segs E n y).
Proof.
  intros HE HU H Hc Hne Hn. destruct y as [|t y]; [rewrite read_none; eapply pp_fail; auto|].
  inversion H; subst.
  - destruct (cut_one _ _ (no_group_ident i) Hc); [discriminate|contradiction].
  - destruct (cut_one _ _ (no_group_ident i) Hc); [discriminate|contradiction].
  - destruct (cut_cons_inv _ _ _ Hc) as [Hx|[(y' & Hx & Hy)|(? & ? & ? & Hx & _)]]; try discriminate.
    inversion Hx; subst. destruct y' as [|t y']; [apply read_plain; auto|].
    destruct (angle_part E g f (t :: y') HE HU H3 H4 Hy) as (x & Hg & Hs); [congruence|discriminate|].
    assert (Hlt : next_punct "<" (t :: y')) by (eapply cut_starts; eauto; discriminate).
    eapply read_angle; [auto|auto|auto| | |exact Hs].
    + left. split; [exact Hlt|]. destruct H2 as [(_ & Ho & Ht)|[(? & ? & Ho) _]].
      * split; intros Hz; [apply Ho; eapply cut_next_op; [|exact Hz]|apply Ht; eapply cut_triple; [|exact Hz]];
          now apply cut_more.
      * exfalso. destruct g; [contradiction|]. destruct H3 as [? ->]. discriminate.
    + unfold parse_angle. destruct (take_punct "::" (t :: y')) eqn:Ht.
      * exfalso. apply take_punct2 in Ht; try discriminate. destruct Ht as [sp' Ht]. destruct Hlt as [sp Hlt]. congruence.
      * now rewrite Hg.
  - destruct (cut_cons_inv _ _ _ Hc) as [Hx|[(y1 & Hx & Hy)|(? & ? & ? & Hx & _)]]; try discriminate.
    inversion Hx; subst.
    destruct (cut_cons_inv _ _ _ Hy) as [->|[(y2 & -> & Hy2)|(? & ? & ? & Hz & _)]]; [apply read_plain; auto| |discriminate].
    destruct (cut_cons_inv _ _ _ Hy2) as [->|[(y3 & -> & Hy3)|(? & ? & ? & Hz & _)]]; [apply read_plain; auto| |discriminate].
    destruct y3 as [|t y3]; [apply read_plain; eauto|].
    destruct (angle_part E g f (t :: y3) HE HU H2 H3 Hy3) as (x & Hg & Hs); [congruence|discriminate|].
    assert (Hlt : next_punct "<" (t :: y3)) by (eapply cut_starts; eauto; discriminate).
    eapply read_angle; [auto|auto|auto| | |exact Hs].
    + right. split; [now eexists _, _|exact Hlt].
    + unfold parse_angle.
      destruct (take_punct "::" (TPunct ":" Joint :: TPunct ":" sp :: t :: y3)) as [r|] eqn:Ht.
      * apply take_punct2 in Ht; try discriminate. destruct Ht as [sp' Ht]. inversion Ht; subst. now rewrite Hg.
      * exfalso. assert (Hz : take_punct "::" (TPunct ":" Joint :: TPunct ":" sp :: t :: y3) = Some (t :: y3))
          by (apply take_punct2; try discriminate; eauto). congruence.
Qed.
Lemma segments_part E u l f : env_ok E -> unfinished_generics E -> segments_phrase E u l f ->
  forall n y, cut u y -> y <> u -> List.length y < n -> path_part (read_segs E n y).
Proof.
  intros HE HU H. induction H as [ts s follow Hs Hn0|ts s sp ts' l follow Hs Hl IH]; intros n y Hc Hne Hn.
  - eapply segment_part; eauto. lia.
  - destruct (cut_app_inv _ _ _ Hc) as [[Hc' Hne']|(y' & -> & Hc')].
    { eapply segment_part; eauto. lia. }
    assert (Hcf := cut_more _ _ follow Hc'). cbn [app] in Hcf.
    assert (Hlt : ~ next_punct "<" (TPunct ":" Joint :: TPunct ":" sp :: ts' ++ follow)) by (intros [? ?]; discriminate).
    assert (Hn' : 0 < n) by lia.
    destruct (cut_cons_inv _ _ _ Hc') as [->|[(y1 & -> & Hy1)|(? & ? & ? & Hz & _)]]; [| |discriminate].
    { eapply after_segment; eauto. }
    destruct (cut_cons_inv _ _ _ Hy1) as [->|[(y2 & -> & Hy2)|(? & ? & ? & Hz & _)]]; [| |discriminate].
    { eapply after_segment; eauto. }
    destruct y2 as [|t y2].
    { eapply after_segment; eauto. }
    rewrite (read_first E n ts s _ HE) by (eapply cut_segment; eauto).
    apply path_bind. destruct n as [|n]; [lia|]. rewrite segs_colons.
    + apply IH; [exact Hy2|intros Hz; apply Hne; now rewrite Hz|]. rewrite app_length in Hn. cbn in *. lia.
    + intros Hg. eapply cut_next_group in Hg; [|exact Hy2]. destruct (segments_starts _ _ _ _ Hl) as (? & ? & ->). exact Hg.
Qed.
Lemma path_read E (ts : list tt) b y : (forall n, List.length y < n -> path_part (read_segs E n y)) ->
  List.length y <= List.length ts ->
  path_part ((s <- parse_seg E ;; r <- parse_segs_rest E (S (List.length ts)) ;; ret (Path b (s :: r)))%parse y).
Proof.
  intros H Hl. 
  replace ((s <- parse_seg E ;; r <- parse_segs_rest E (S (List.length ts)) ;; ret (Path b (s :: r)))%parse y)
    with ((l <- read_segs E (S (List.length ts)) ;; ret (Path b l))%parse y).
  - apply path_bind, H. lia.
  - unfold read_segs. rewrite bind_assoc. apply bind_ext; auto. intros s r d _.
    rewrite bind_assoc. apply bind_ext; auto. 
Qed.

(** ** Tags *)

Inductive tag_part (E : env) (y : list tt) : Prop :=
| tp_read t r : parse_tag E y = PR (Ret t) r [] -> r = [] \/ r = [TPunct ":" Joint] -> tag_part E y
| tp_fail x r : parse_tag E y = PR (Fail x) r [] -> unfinished x -> ~ next_punct ";" r -> tag_part E y
| tp_panic n r : parse_tag E y = PR (Panic (PNewRaw n)) r [] -> In n (""%string :: reserved_words) ->
    stops_at y n -> tag_part E y.

Lemma tag_step_path E y : ~ (exists c r, y = TPunct c Joint :: r /\ c = "'"%char) -> path_follows y ->
  parse_tag E y = (p <- parse_path E ;; ret (TagComponent p))%parse y.
Proof.
  intros Hq Hp. unfold parse_tag. rewrite (bind_run0 _ _ _ _ _ eq_refl). cbn beta.
  now rewrite (proj2 (path_test y Hq) Hp).
Qed.
Lemma tag_step_name E y : ~ (exists c r, y = TPunct c Joint :: r /\ c = "'"%char) -> ~ path_follows y ->
  parse_tag E y = (k <- parse_kebab ;;
    match tag_kind_from (k_repr k) with
    | KHtml => i <- snake k ;; ret (TagHtml i)
    | KComponent => i <- snake k ;; ret (TagComponent (Path false [PSeg (unraw i) PNone]))
    | KSvg => i <- snake k ;; ret (TagSvg i)
    | KMath => i <- snake k ;; ret (TagMath i)
    | KWeb => ret (TagWeb k)
    end)%parse y.
Proof.
  intros Hq Hp. unfold parse_tag. rewrite (bind_run0 _ _ _ _ _ eq_refl). cbn beta.
  destruct (_ || _ || _) eqn:Ht; [|reflexivity]. apply path_test in Ht; auto. contradiction.
Qed.
Lemma name_tag E u k r : wf (u ++ r) -> name u k r -> ~ path_follows (u ++ r) ->
  r = [] \/ r = [TPunct ":" Joint] -> tag_part E (u ++ r).
Proof.
  intros Hw Hn Hp Hr.
  assert (Hq : ~ (exists c r0, u ++ r = TPunct c Joint :: r0 /\ c = "'"%char)).
  { intros (c & r0 & He & ->). destruct Hn as (Hn & _). apply phrase_starts with (r := r) in Hn.
    rewrite He in Hn. destruct Hn as [[]|[? ?]]. discriminate. }
  assert (Hs := tag_step_name E _ Hq Hp).
  rewrite (bind_run0 _ _ _ k r) in Hs by (apply parse_kebab_ok; [now apply wf_wf_head|eauto]).
  destruct (name_choice k) as [(i & Hi)|Hbad].
  - assert (Hsn : snake k r = PR (Ret i) r []) by (apply snake_ok; auto).
    destruct (tag_kind_from (k_repr k)); try rewrite (bind_run0 _ _ _ i r Hsn) in Hs; eapply tp_read; eauto.
  - assert (Hst : stops_at (u ++ r) (snake_name (k_repr k))).
    { assert (Hn0 : name u k []) by (eapply cut_name; [apply cut_none|exact Hn]).
      destruct Hr as [->| ->]; [rewrite app_nil_r; now apply (sa_name [])|now apply (sa_colon [])]. }
    destruct (tag_kind_from (k_repr k)); try (unfold bind in Hs; rewrite (snake_panics k r Hbad) in Hs; eapply tp_panic; eauto).
    eapply tp_read; eauto.
Qed.
Lemma no_path_one t : ~ path_follows [t].
Proof. intros [(? & ? & ?)|[(? & ? & ?)|[]]]; discriminate. Qed.
Lemma word_name i r : r = [] \/ r = [TPunct ":" Joint] -> exists k, name [TIdent i] k r.
Proof.
  intros Hr. eexists. split; [eapply name_ident; constructor|]. split.
  - destruct Hr as [->| ->]; [exact I|]. cbn [name_ends]. apply name_last_stop. discriminate.
  - split; [constructor|reflexivity].
Qed.
Lemma word_tag E i r : r = [] \/ r = [TPunct ":" Joint] -> wf (TIdent i :: r) -> tag_part E (TIdent i :: r).
Proof.
  intros Hr Hw. destruct (word_name i r Hr) as (k & Hk). apply (name_tag E [TIdent i] k r); auto.
  destruct Hr as [->| ->]; [apply no_path_one|]. intros [(? & ? & ?)|[(? & ? & ?)|[? ?]]]; discriminate.
Qed.
Lemma path_tag E y : ~ (exists c r, y = TPunct c Joint :: r /\ c = "'"%char) -> path_follows y ->
  path_part (parse_path E y) -> tag_part E y.
Proof.
  intros Hq Hp H. assert (Ht := tag_step_path E y Hq Hp).
  destruct (path_bind (parse_path E) TagComponent y H) as [t r Heq Hr|x r Heq Hx Hr]; rewrite Heq in Ht.
  - eapply tp_read; eauto.
  - eapply tp_fail; eauto. destruct Hx as [->| ->]; constructor.
Qed.
Lemma name_tag_part E ts k f y : wf y -> ~ path_follows (ts ++ f) -> name ts k f -> cut ts y -> y <> [] -> tag_part E y.
Proof.
  intros Hw Hp Hn Hc Hy. destruct (name_part _ _ _ _ Hn Hc Hy) as (k' & Hk').
  assert (Hnp : ~ path_follows (y ++ [])).
  { rewrite app_nil_r. intros Hx. apply Hp. eapply cut_path_follows; [|exact Hx]. now apply cut_more. }
  rewrite <- (app_nil_r y) in *. apply (name_tag E y k' []); rewrite ?app_nil_r in *; auto.
Qed.
Lemma no_tag E : parse_tag E [] = PR (Fail (EKebab AtEnd)) [] [].
Proof. reflexivity. Qed.
Lemma tag_part_ok E ts t f y : env_ok E -> unfinished_generics E -> wf ts -> tag_phrase E ts t f ->
  cut ts y -> y <> ts -> tag_part E y.
Proof.
  intros HE HU Hw0 H Hc Hne. assert (Hw := wf_part _ _ Hc Hw0).
  destruct y as [|t0 y0].
  { eapply tp_fail; [apply no_tag|constructor|intros []]. }
  remember (t0 :: y0) as y eqn:Hy. assert (Hyn : y <> []) by (subst; discriminate).
  inversion H; subst; try (eapply name_tag_part; eauto; fail).
  clear Hyn. inversion H1; subst.
  - destruct (segments_shape _ _ _ _ H2) as (i & r & -> & Hr).
    destruct (cut_cons_inv _ _ _ Hc) as [Hx|[(y' & Hx & Hy')|(? & ? & ? & Hx & _)]]; try discriminate.
    inversion Hx; subst.
    assert (Hq : ~ (exists c r0, TIdent i :: y' = TPunct c Joint :: r0 /\ c = "'"%char)) by (intros (? & ? & ? & _); discriminate).
    destruct (path_follows_dec (TIdent i :: y')) as [Hp|Hp].
    + apply path_tag; auto. unfold parse_path.
      rewrite (bind_run0 _ _ _ None (TIdent i :: y')) by reflexivity.
      apply path_read; [|lia]. intros n Hn. eapply segments_part; eauto.
    + assert (Hy1 : y' = [] \/ y' = [TPunct ":" Joint]).
      { destruct r as [|t r]; [left; now apply cut_nil|].
        destruct Hr as [Hr|[[sp ->]|(sp & r' & Hr)]]; [discriminate| |].
        - destruct (cut_cons_inv _ _ _ Hy') as [->|[(y1 & -> & _)|(? & ? & ? & Hz & _)]]; [auto| |discriminate].
          exfalso. apply Hp. right. right. now exists sp.
        - inversion Hr; subst.
          destruct (cut_cons_inv _ _ _ Hy') as [->|[(y1 & -> & Hy1)|(? & ? & ? & Hz & _)]]; [auto| |discriminate].
          destruct (cut_cons_inv _ _ _ Hy1) as [->|[(y2 & -> & _)|(? & ? & ? & Hz & _)]]; [auto| |discriminate].
          exfalso. apply Hp. right. left. now eexists _, _. }
      apply word_tag; auto.
  - destruct (cut_cons_inv _ _ _ Hc) as [Hx|[(y1 & Hx & Hy1)|(? & ? & ? & Hx & _)]]; try discriminate.
    inversion Hx; subst.
    destruct (cut_cons_inv _ _ _ Hy1) as [->|[(y2 & -> & Hy2)|(? & ? & ? & Hz & _)]]; [| |discriminate].
    { eapply tp_fail; [reflexivity|constructor|]. intros [? ?]. discriminate. }
    apply path_tag.
    + intros (? & ? & He & ->). discriminate.
    + left. now eexists _, _.
    + unfold parse_path. rewrite (bind_run0 _ _ _ (Some Datatypes.tt) y2).
      * apply path_read; [|cbn; lia]. intros n Hn. eapply segments_part; eauto. congruence.
      * apply rollback_op_some; try discriminate. eauto.
Qed.
