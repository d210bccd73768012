(** C21 and C22: the spelling of names.  Generic arguments with and without
    turbofish, and raw identifiers. *)
From Verif Require Import Tokens Ast Expand Macro Lex SpecGrammar SpecStr SpecOut SpecContext Monad KebabFacts
  GrammarFacts GrammarFacts2 TagFacts ElementFacts Inv Fuel Report Context Follow Same Swap ExpandFacts ExpandFacts2
  ExampleFacts PlaceFacts Properties2 Properties4.
Open Scope list_scope.
Open Scope char_scope.

(** ** C21: turbofish *)

(** How a path is written: generic arguments directly after the name, or
    after [::]. *)
Inductive seg_written : list tt -> path_seg -> Prop :=
| sw_plain i : seg_written [TIdent i] (PSeg i PNone)
| sw_generic i g : seg_written (TIdent i :: g) (PSeg i (PAngle false g))
| sw_turbofish i sp g : seg_written (TIdent i :: TPunct ":" Joint :: TPunct ":" sp :: g) (PSeg i (PAngle true g)).
Inductive segs_written : list tt -> list path_seg -> Prop :=
| sgw_one ts s : seg_written ts s -> segs_written ts [s]
| sgw_cons ts s sp ts' l : seg_written ts s -> segs_written ts' l ->
    segs_written (ts ++ TPunct ":" Joint :: TPunct ":" sp :: ts') (s :: l).
Inductive path_written : list tt -> path -> Prop :=
| pw_rel ts l : segs_written ts l -> path_written ts (Path false l)
| pw_abs sp ts l : segs_written ts l -> path_written (TPunct ":" Joint :: TPunct ":" sp :: ts) (Path true l).
(** The second path is the first one with a turbofish at some more places. *)
Inductive more_turbofish : path_seg -> path_seg -> Prop :=
| mt_same s : more_turbofish s s
| mt_added i g : more_turbofish (PSeg i (PAngle false g)) (PSeg i (PAngle true g)).
Definition turbofished (p p' : path) : Prop :=
  leading p = leading p' /\ Forall2 more_turbofish (segs p) (segs p').

Lemma turbofishify_same p p' : turbofished p p' -> turbofishify p = turbofishify p'.
Proof.
  destruct p as [b l], p' as [b' l']. intros [Hb Hl]. cbn [leading segs] in *. subst b'.
  unfold turbofishify. cbn [leading segs]. f_equal. f_equal.
  induction Hl as [|s s' l l' Hs Hl IH]; auto. cbn [map]. f_equal; auto. destruct Hs; reflexivity.
Qed.
Lemma get_ident_same p p' : turbofished p p' -> get_ident p = get_ident p'.
Proof.
  destruct p as [b l], p' as [b' l']. intros [Hb Hl]. cbn [leading segs] in *. subst b'.
  inversion Hl as [|s s' l1 l1' Hs Hl1]; subst; auto. inversion Hl1; subst.
  - destruct Hs; reflexivity.
  - destruct b, s as [? []], s' as [? []]; reflexivity.
Qed.

(** Reading the respelled path. *)
Definition colons (f : list tt) : Prop := exists sp i r, f = TPunct ":" Joint :: TPunct ":" sp :: TIdent i :: r.
Lemma colons_no_generics f : colons f -> ~ generics_follow f.
Proof.
  intros (sp & i & r & ->) [[[? H] _]|[_ [? H]]]; discriminate.
Qed.
Lemma generics_colons g f f' : next_punct "<" g -> colons f -> colons f' ->
  generics_follow (g ++ f) -> generics_follow (g ++ f').
Proof.
  intros Hg (sp & i & r & ->) (sp' & i' & r' & ->) [(_ & H2 & H3)|[(? & ? & H) _]].
  - left. destruct g as [|x g]; [contradiction|]. split; [exact Hg|]. split.
    + intros (s & r0 & Heq). destruct g as [|y g]; inversion Heq; subst. apply H2. now eexists _, _.
    + intros (s & r0 & Heq). destruct g as [|y [|z g]]; inversion Heq; subst. apply H3. now eexists _, _.
  - destruct g as [|y g]; [contradiction|]. destruct Hg as [? ->]. discriminate.
Qed.
Definition respelled_follow (f f' : list tt) : Prop := f = f' \/ colons f /\ colons f'.
Lemma respell_seg E ts s s' ts' f f' : env_ok E -> segment_phrase E ts s f -> more_turbofish s s' ->
  seg_written ts' s' -> respelled_follow f f' -> segment_phrase E ts' s' f'.
Proof.
  intros HE Hs Hm Hw Hf.
  assert (HEg : forall g, generic_args E (g ++ f) = inl (g, f) -> generic_args E (g ++ f') = inl (g, f')).
  { intros g Hg. apply (proj1 HE _ _ _ Hg). }
  inversion Hm; subst.
  - inversion Hs; subst; inversion Hw; subst.
    + now apply seg_kw.
    + apply seg_plain; auto. destruct Hf as [<-|[_ Hf]]; auto. now apply colons_no_generics.
    + apply seg_generic; auto. destruct Hf as [<-|[Hf Hf']]; auto. now apply (generics_colons g f f').
    + apply seg_turbofish; auto.
  - inversion Hs; subst; inversion Hw; subst. apply seg_turbofish; auto.
Qed.
Lemma segs_start ts l : segs_written ts l -> exists i r, ts = TIdent i :: r.
Proof. intros H. destruct H as [ts s H|ts s sp ts' l H _]; inversion H; subst; cbn; eauto. Qed.
Lemma segments_start E ts l f : segments_phrase E ts l f -> exists i r, ts = TIdent i :: r.
Proof. intros H. destruct H as [ts s f H _|ts s sp ts' l f H _]; inversion H; subst; cbn; eauto. Qed.
Lemma respell_segs E ts l f ts' l' : env_ok E -> segments_phrase E ts l f ->
  Forall2 more_turbofish l l' -> segs_written ts' l' -> segments_phrase E ts' l' f.
Proof.
  intros HE H. revert ts' l'. induction H as [ts s f Hs Hn|ts s sp ts1 l f Hs Hl IH]; intros ts' l' Hm Hw;
    inversion Hm as [|s0 s' l0 l1 Hs' Hl' Heq]; subst; clear Hm.
  - inversion Hl'; subst. inversion Hw as [? ? Hw'|? ? ? ? ? ? Hw']; subst; [|inversion Hw'].
    apply segs_one; auto. eapply respell_seg; eauto. now left.
  - inversion Hw as [? ? Hw'|? ? ? ? ? Hw1 Hw2]; subst; [inversion Hl'; subst; inversion Hl|].
    apply segs_cons; auto. eapply respell_seg; eauto. right.
    destruct (segs_start _ _ Hw2) as (i & r & ->). destruct (segments_start _ _ _ _ Hl) as (i' & r' & ->).
    split; [now exists sp, i', (r' ++ f)|]. now eexists _, i, (r ++ f).
Qed.
Lemma respell_path E ts p f ts' p' : env_ok E -> path_phrase E ts p f -> turbofished p p' -> path_written ts' p' ->
  path_phrase E ts' p' f.
Proof.
  intros HE H [Hb Hl] Hw. inversion H; subst; inversion Hw; subst; cbn [leading segs] in *; try discriminate;
    [apply path_rel|apply path_abs]; eapply respell_segs; eauto.
Qed.

(** After the first name, either both spellings stop or both have [:] or [<]. *)
Definition odd (u : list tt) : Prop := next_op ":" ":" u \/ next_punct "<" u.
Lemma seg_shape E ts s f : segment_phrase E ts s f -> exists i u, ts = TIdent i :: u /\ (u = [] \/ odd u) /\
  s = PSeg i (seg_args s) /\ (u = [] <-> seg_args s = PNone).
Proof.
  intros H. inversion H; subst; eexists _, _; (split; [reflexivity|]); (split; [|split; [reflexivity|]]); cbn [seg_args].
  1,3: now left.
  1,2: easy.
  - right. now right.
  - destruct g; [contradiction|]. easy.
  - right. left. now eexists _, _.
  - easy.
Qed.
Lemma odd_app u v : odd u -> odd (u ++ v).
Proof.
  intros [(sp & r & ->)|H]; [left; now exists sp, (r ++ v)|right]. destruct u; [contradiction|exact H].
Qed.
Lemma segs_shape E ts l f : segments_phrase E ts l f -> exists i u, ts = TIdent i :: u /\ (u = [] \/ odd u) /\
  (exists l', l = PSeg i (match l with s :: _ => seg_args s | [] => PNone end) :: l') /\ (u = [] <-> l = [PSeg i PNone]).
Proof.
  intros H. destruct H as [ts s f H _|ts s sp ts' l f H H'].
  - apply seg_shape in H. destruct H as (i & u & -> & Hu & Hs & Hn). exists i, u. split; auto. split; auto.
    split; [exists []; now rewrite <- Hs|]. rewrite Hn, Hs. cbn [seg_args]. split; [now intros ->|]. intros [=]; auto.
  - apply seg_shape in H. destruct H as (i & u & -> & Hu & Hs & Hn).
    exists i, (u ++ TPunct ":" Joint :: TPunct ":" sp :: ts'). split; auto. split; [|split].
    + right. destruct Hu as [->|Hu]; [left; now exists sp, ts'|now apply odd_app].
    + exists l. now rewrite <- Hs.
    + split; [destruct u; discriminate|]. intros [=]; subst. inversion H'.
Qed.
Lemma odd_quiet u : odd u -> ~ next_group Bracket u.
Proof. intros [(sp & r & ->)|H]; [easy|]. destruct u; [contradiction|]. destruct H as [? ->]. easy. Qed.
Lemma odd_not_slot i u : odd u -> ~ slot_prefix (TIdent i :: u).
Proof.
  intros [(sp' & r & ->)|H]; intros (sp2 & r2 & Heq & Hn).
  - inversion Heq; subst. apply Hn. split; auto. now exists sp'.
  - inversion Heq; subst. destruct H as [? H]. discriminate.
Qed.
Lemma odd_opens i u u' : odd u -> odd u' -> opens None (TIdent i :: u) -> opens None (TIdent i :: u').
Proof.
  intros Hu Hu' (_ & _ & H3). split; [exact I|]. split.
  - now apply odd_not_slot.
  - intros (v & ts & r & Heq & Hv). apply H3. inversion Hv; subst; inversion Heq; subst.
    + exists (VLit (LitBool true)), [TIdent (Id false "true")], u. split; auto. constructor. now apply odd_quiet.
    + exists (VLit (LitBool false)), [TIdent (Id false "false")], u. split; auto. constructor. now apply odd_quiet.
    + apply odd_quiet in Hu'. now destruct Hu'.
Qed.

(** What is read after the tag does not depend on it. *)
Definition pmap {A B} (f : A -> B) (x : pres A) : pres B :=
  PR match p_out x with Ret a => Ret (f a) | Fail e => Fail e | Abort => Abort | Panic w => Panic w | NoFuel => NoFuel end
     (p_rest x) (p_diags x).
Definition set_tag (t : tag) (e : element) : element :=
  let 'Element _ sels attrs args ch := e in Element t sels attrs args ch.
Lemma pmap_bind {A B C} (m : P A) (f : A -> P B) (f' : A -> P C) (g : B -> C) ts :
  (forall a ts, f' a ts = pmap g (f a ts)) -> bind m f' ts = pmap g (bind m f ts).
Proof.
  intros H. unfold bind. destruct (m ts) as [[a| | | |] r d]; try reflexivity. rewrite H.
  now destruct (f a r) as [[]].
Qed.
Lemma tail_tag pc t t' sels attrs ts : element_tail pc t' sels attrs ts = pmap (set_tag t') (element_tail pc t sels attrs ts).
Proof.
  unfold element_tail. apply pmap_bind. intros [[]|] r; [reflexivity|]. apply pmap_bind. intros l r'.
  destruct l as [|x l]; [reflexivity|].
  destruct (peek_group Brace (x :: l)); [apply pmap_bind; reflexivity|].
  destruct (peek_group Paren (x :: l)); [apply pmap_bind; reflexivity|].
  destruct (peek_punct "|" (x :: l)); [|reflexivity].
  apply pmap_bind. intros args r2. apply pmap_bind. intros l2 r3.
  destruct (peek_group Brace l2); [apply pmap_bind; reflexivity|].
  destruct (peek_group Paren l2); [apply pmap_bind; reflexivity|]. reflexivity.
Qed.
Definition after_tag pc t : P element :=
  (sels <- parse_selectors ;; attrs <- parse_attrs ;; element_tail pc t sels attrs)%parse.
Lemma after_tag_same pc t t' ts : after_tag pc t' ts = pmap (set_tag t') (after_tag pc t ts).
Proof.
  unfold after_tag. apply pmap_bind. intros sels r. apply pmap_bind. intros attrs r'. apply tail_tag.
Qed.
Lemma tag_of_tail pc t : forall ts e r d, after_tag pc t ts = PR (Ret e) r d -> el_tag e = t.
Proof.
  intros ts e r d H. rewrite (after_tag_same pc t t) in H. destruct (after_tag pc t ts) as [[[]| | | |]]; inversion H; reflexivity.
Qed.

Lemma sim_self E x : (exists ts d, x = prepend d (children_of E ts)) -> env_ok E -> sim E [] x x.
Proof.
  intros (ts & d & ->) HE. unfold prepend.
  destruct (children_of_cases E ts HE) as [(cs & d' & ->)|[(r & d' & -> & _)|(w & r & d' & ->)]]; cbn [p_out p_rest p_diags].
  - apply (sim_ret E [] cs cs [] (d ++ d')), same_list_refl.
  - apply (sim_abort E [] r r [] (d ++ d')).
  - apply (sim_panic E [] w r r [] (d ++ d')).
Qed.
Lemma sim_child E x (f : element -> element) slot : env_ok E ->
  (forall e r d, x = PR (Ret e) r d -> child_same E (as_child slot e) (as_child slot (f e))) ->
  p_out x <> NoFuel ->
  sim E [] (child_result E (pmap (as_child slot) x)) (child_result E (pmap (as_child slot) (pmap f x))).
Proof.
  intros HE Hx Hn. destruct x as [[e|e| |w|] r d]; unfold pmap; cbn [p_out p_rest p_diags child_result].
  - apply sim_cons; [eauto|]. now apply sim_refl.
  - destruct (peek_punct ";" r); apply sim_self; eauto.
  - apply (sim_abort E [] r r [] d).
  - apply (sim_panic E [] w r r [] d).
  - now destruct Hn.
Qed.
Lemma ret_pmap {A B} (m : P A) (f : A -> B) ts : (e <- m ;; ret (f e))%parse ts = pmap f (m ts).
Proof. unfold bind, pmap. destruct (m ts) as [[]]; cbn; now rewrite ?app_nil_r. Qed.

Lemma same_tag E slot p p' e : turbofished p p' -> el_tag e = TagComponent p ->
  child_same E (as_child slot e) (as_child slot (set_tag (TagComponent p') e)).
Proof.
  intros Hp He. destruct e as [t sels attrs args ch]. cbn [el_tag set_tag] in *. subst t.
  assert (Hs : forall b, elem_same E b (Element (TagComponent p) sels attrs args ch) (Element (TagComponent p') sels attrs args ch)).
  { intros b at_. rewrite !expand_element_eq. unfold element_tokens, component_to_tokens. cbn [xml_to_tokens xml_tag_path].
    now rewrite (turbofishify_same p p'). }
  destruct slot; cbn [as_child]; [apply same_slot|apply same_element]; auto.
  right. exists p, p'. cbn [el_tag]. repeat split; auto. now apply get_ident_same.
Qed.

Lemma fits_break E k a b z r : env_ok E -> breaks_name z -> ~ next_punct "." (a ++ [z]) ->
  fits E k (a ++ b) -> fits E k (a ++ z :: r).
Proof.
  intros HE Hz Hd Hf. eapply fits_swap; [auto|exact Hf|]. intros Hb. apply (block_break _ b); auto.
  now apply (fits_block E k).
Qed.
(** The element stays an element, and what surrounds it is the same. *)
Lemma respell_place E k pre slot ts p ts' p' rest : env_ok E ->
  path_phrase E ts p rest -> turbofished p p' -> path_written ts' p' ->
  path_follows (ts ++ rest) -> opens slot (ts ++ rest) ->
  at_child E k pre (slot_tokens slot ++ ts ++ rest) ->
  tag_phrase E ts' (TagComponent p') rest /\ opens slot (ts' ++ rest) /\
  at_child E k pre (slot_tokens slot ++ ts' ++ rest).
Proof.
  intros HE Hp Ht Hw Hf Ho Hat. assert (Hp' := respell_path _ _ _ _ _ _ HE Hp Ht Hw).
  assert (Hodd : forall i u, odd u -> path_follows ((TIdent i :: u) ++ rest)).
  { intros i u Hu. right. cbn [app tl]. apply (odd_app u rest) in Hu. destruct Hu; auto. }
  assert (Hc : (exists i u u', ts = TIdent i :: u /\ ts' = TIdent i :: u' /\ (u = [] /\ u' = [] \/ odd u /\ odd u')) \/
               (exists sp sp' i u u', ts = TPunct ":" Joint :: TPunct ":" sp :: TIdent i :: u /\ ts' = TPunct ":" Joint :: TPunct ":" sp' :: TIdent i :: u')).
  { destruct Ht as [Hb Hl]. inversion Hp; subst; inversion Hp'; subst; cbn [leading segs] in *; try discriminate.
    - left. destruct (segs_shape _ _ _ _ H) as (i & u & -> & Hu & [l1 Hl1] & Hn).
      destruct (segs_shape _ _ _ _ H0) as (i' & u' & -> & Hu' & [l1' Hl1'] & Hn').
      rewrite Hl1, Hl1' in Hl. inversion Hl as [|? ? ? ? Hs Hl2]; subst.
      assert (i' = i) as -> by (inversion Hs; subst; reflexivity).
      exists i, u, u'. split; auto. split; auto.
      destruct Hu as [->|Hu].
      + left. split; auto. apply Hn'. rewrite (proj1 Hn eq_refl) in *. cbn in Hl1. inversion Hl1; subst.
        inversion Hl2; subst. inversion Hs; subst. rewrite Hl1'. cbn [seg_args]. congruence.
      + destruct Hu' as [->|Hu']; auto. left. split; auto. apply Hn. rewrite (proj1 Hn' eq_refl) in *. cbn in Hl1'. inversion Hl1'; subst.
        inversion Hl2; subst. inversion Hs; subst. rewrite Hl1. cbn [seg_args]. congruence.
    - right. destruct (segs_shape _ _ _ _ H) as (i & u & -> & Hu & [l1 Hl1] & Hn).
      destruct (segs_shape _ _ _ _ H0) as (i' & u' & -> & Hu' & [l1' Hl1'] & Hn').
      rewrite Hl1, Hl1' in Hl. inversion Hl as [|? ? ? ? Hs Hl2]; subst.
      assert (i' = i) as -> by (inversion Hs; subst; reflexivity). eauto 8. }
  assert (Hbr : forall x r, odd (x :: r) -> breaks_name x).
  { intros x r [(sp & r0 & Heq)|[sp ->]]; [inversion Heq; subst|]; discriminate. }
  destruct Hat as [(cs & Hpre) Hfit].
  assert (Hnd : forall i r, ~ next_punct "." (pre ++ slot_tokens slot ++ TIdent i :: r)).
  { intros i r Hx. destruct pre as [|y pre].
    - cbn [app] in Hx. destruct slot; destruct Hx as [? Hx]; discriminate.
    - destruct (children_start _ _ _ Hpre) as (y' & r' & Heq & Hy); [discriminate|]. inversion Heq; subst. exact (Hy Hx). }
  destruct Hc as [(i & u & u' & -> & -> & Hu)|(sp & sp' & i & u & u' & -> & ->)].
  - destruct Hu as [[-> ->]|[Hu Hu']].
    { split; [now apply tag_path|]. split; [exact Ho|]. split; eauto. }
    split; [apply tag_path; auto|]. cbn [app] in *.
    assert (Ho' : opens slot (TIdent i :: u' ++ rest)).
    { destruct slot as [sp|].
      - destruct Ho as (sp0 & r & Heq & Hn). cbn [slot_tokens app] in *. inversion Heq; subst.
        eexists _, _. split; [reflexivity|]. intros [_ [? Hx]]. discriminate.
      - eapply odd_opens; [| |exact Ho]; now apply odd_app. }
    split; [exact Ho'|]. split; [eauto|].
    destruct u' as [|z u']; [destruct Hu' as [(? & ? & ?)|[]]; discriminate|].
    pose proof (fits_break E k (pre ++ slot_tokens slot ++ [TIdent i]) (u ++ rest) z (u' ++ rest) HE (Hbr _ _ Hu')) as Hb.
    rewrite <- !app_assoc in Hb. cbn [app] in Hb. apply Hb; auto.
  - destruct slot as [sp1|]; [|destruct Ho as [[] _]].
    split; [apply tag_path; auto; left; now eexists _, _|]. 
    assert (Ho' : opens (Some sp1) ((TPunct ":" Joint :: TPunct ":" sp' :: TIdent i :: u') ++ rest)).
    { destruct Ho as (sp0 & r & Heq & Hn). cbn [slot_tokens app] in *. inversion Heq; subst.
      eexists _, _. split; [reflexivity|]. intros [-> _]. apply Hn. split; auto. now eexists. }
    split; [exact Ho'|]. split; [eauto|]. cbn [slot_tokens app] in *.
    pose proof (fits_break E k (pre ++ [TIdent (Id false "slot")]) (TPunct ":" sp1 :: TPunct ":" Joint :: TPunct ":" sp :: TIdent i :: u ++ rest)
      (TPunct ":" sp1) (TPunct ":" Joint :: TPunct ":" sp' :: TIdent i :: u' ++ rest) HE) as Hb.
    rewrite <- !app_assoc in Hb. cbn [app] in Hb. apply Hb; [discriminate| |exact Hfit].
    intros Hx. apply (Hnd (Id false "x") []). cbn [slot_tokens app]. destruct pre; exact Hx.
Qed.

Theorem C21_turbofish E k pre slot ts p ts' p' rest : env_ok E ->
  path_phrase E ts p rest -> path_follows (ts ++ rest) ->
  turbofished p p' -> path_written ts' p' ->
  opens slot (ts ++ rest) ->
  let place ts := child_place k pre (slot_tokens slot ++ ts ++ rest) in
  wf (place ts) -> wf (place ts') -> at_child E k pre (slot_tokens slot ++ ts ++ rest) ->
  mview E (place ts) = mview E (place ts').
Proof.
  intros HE Hp Hf Ht Hw Ho place Hwf Hwf' Hat.
  destruct (respell_place E k pre slot ts p ts' p' rest) as (Htag' & Ho' & Hat'); auto.
  assert (Htag : tag_phrase E ts (TagComponent p) rest) by now apply tag_path.
  destruct Hat as ((cs & Hpre) & Hfit), Hat' as (_ & Hfit').
  unfold place, child_place in *. apply mview_plug; auto. apply plug_wf in Hwf, Hwf'.
  assert (Hx : forall ts p, tag_phrase E ts (TagComponent p) rest -> opens slot (ts ++ rest) ->
    wf (pre ++ slot_tokens slot ++ ts ++ rest) ->
    children_of E (pre ++ slot_tokens slot ++ ts ++ rest) =
    append_to cs (child_result E (pmap (as_child slot) (after_tag (children_of E) (TagComponent p) rest)))).
  { intros ts0 p0 Ht0 Ho0 Hwf0. rewrite (at_element E pre cs); auto. do 2 f_equal. rewrite ret_pmap. f_equal.
    rewrite parse_element_eq. rewrite (bind_run0 _ _ _ (TagComponent p0) rest); [reflexivity|].
    apply parse_tag_ok; auto. rewrite !wf_app in *. tauto. eauto. }
  assert (Hn : p_out (after_tag (children_of E) (TagComponent p) rest) <> NoFuel).
  { intros Hn. assert (Hc := Hx ts p Htag Ho Hwf).
    destruct (after_tag (children_of E) (TagComponent p) rest) as [o r d]. cbn [p_out] in Hn. subst o.
    destruct (children_of_cases E (pre ++ slot_tokens slot ++ ts ++ rest) HE) as [(? & ? & H)|[(? & ? & H & _)|(? & ? & ? & H)]];
      rewrite H in Hc; discriminate. }
  rewrite (Hx ts p), (Hx ts' p'); auto. apply sim_append.
  rewrite (after_tag_same _ (TagComponent p) (TagComponent p')). apply sim_child; auto.
  intros e r d He. apply same_tag with (p := p); auto. eapply tag_of_tail; eauto.
Qed.
Print Assumptions C21_turbofish.

(** In the expansion every generic segment of the path has a turbofish, however
    it was written. *)
Definition all_turbofish (p : path) : path :=
  Path (leading p) (map (fun s => match seg_args s with PAngle _ g => PSeg (seg_ident s) (PAngle true g) | _ => s end) (segs p)).
Lemma path_code_written p path : path_code p path -> segs p <> [] -> path_written path (all_turbofish p).
Proof.
  assert (Hs : forall s ts, seg_code s ts ->
    seg_written ts (match seg_args s with PAngle _ g => PSeg (seg_ident s) (PAngle true g) | _ => s end)).
  { intros s ts []; constructor. }
  assert (Hl : forall l ts, segs_code l ts -> l <> [] ->
    segs_written ts (map (fun s => match seg_args s with PAngle _ g => PSeg (seg_ident s) (PAngle true g) | _ => s end) l)).
  { induction 1; intros Hl; cbn [map].
    - congruence.
    - apply sgw_one; auto.
    - apply sgw_cons; auto. apply IHsegs_code. discriminate. }
  intros [l ts H|l ts H] Hne; unfold all_turbofish; cbn [leading segs] in *; [apply pw_rel|apply pw_abs]; auto.
Qed.
Theorem C21_emitted E input cs out b p sels attrs args ch :
  expands E input cs out -> used cs b (Element (TagComponent p) sels attrs args ch) -> segs p <> [] ->
  exists path calls entries, path_written path (all_turbofish p) /\ within (frame b path calls entries) out.
Proof.
  intros He Hu Hne. destruct (expands_used _ _ _ _ _ _ He Hu) as (code & Hc & Hw).
  destruct b; cbn [code_of] in Hc.
  - apply slot_code_inv in Hc. destruct Hc as (p' & path & props & clones & codes & Hp & -> & Hen & H0 & H1 & H2 & H3 & ->).
    inversion Hp; subst. exists path, (props ++ children_calls args clones codes), []. split; [|exact Hw].
    now apply path_code_written.
  - apply component_code in Hc.
    destruct Hc as (path & props & entries & clones & codes & slots & scalls & Hp & H1 & H2 & H3 & H4 & H5 & H6 & ->).
    eexists path, _, _. split; [now apply path_code_written|exact Hw].
Qed.
Print Assumptions C21_emitted.

Example C21_case :
  let ts := lex "a<T> ::b::My<U>" in let ts' := lex "a::<T> ::b::My::<U>" in
  let rest := lex ".c x=1 |a| { 'y' }" in let k := deep (lex "'z'") (lex "p;") in
  let pre := lex "p; 'y'" in
  exists p p', path_phrase E0 ts p rest /\ path_follows (ts ++ rest) /\ turbofished p p' /\ ts <> ts' /\
    path_written ts' p' /\ opens None (ts ++ rest) /\
    wf (child_place k pre (ts ++ rest)) /\ wf (child_place k pre (ts' ++ rest)) /\
    at_child E0 k pre (ts ++ rest) /\
    exists out, mview E0 (child_place k pre (ts ++ rest)) = Expanded out.
Proof.
  cbv zeta.
  assert (Hp : exists p, parse_tag E0 on lex "a<T> ::b::My<U> .c x=1 |a| { 'y' }" >> TagComponent p, lex ".c x=1 |a| { 'y' }" /\
     p = Path false [PSeg (Id false "a") (PAngle false (lex "<T>")); PSeg (Id false "b") PNone; PSeg (Id false "My") (PAngle false (lex "<U>"))]).
  { eexists. split; [vm_compute; reflexivity|vm_compute; reflexivity]. }
  destruct Hp as (p & Hp & Heq). apply parse_tag_ok in Hp; [|apply E0_ok|apply wfb_ok; vm_compute; reflexivity].
  destruct Hp as (u & Hu & Htag).
  assert (u = lex "a<T> ::b::My<U>") as ->.
  { symmetry. apply (same_tail (lex "a<T> ::b::My<U>") u (lex ".c x=1 |a| { 'y' }") (lex ".c x=1 |a| { 'y' }")); [|reflexivity].
    rewrite <- Hu. vm_compute. reflexivity. }
  exists p, (Path false [PSeg (Id false "a") (PAngle true (lex "<T>")); PSeg (Id false "b") PNone; PSeg (Id false "My") (PAngle true (lex "<U>"))]).
  split. { inversion Htag; subst; auto. destruct H0. right. right. now eexists. }
  split. { right. right. now eexists. }
  split. { subst p. split; [reflexivity|]. repeat constructor. }
  split; [vm_compute; discriminate|].
  split.
  { apply pw_rel. apply (sgw_cons (lex "a::<T>") _ _ (lex "b::My::<U>")); [apply sw_turbofish|].
    apply (sgw_cons (lex "b") _ _ (lex "My::<U>")); [apply sw_plain|]. apply sgw_one, sw_turbofish. }
  split. { apply opensb_ok. vm_compute. reflexivity. }
  split; [apply wfb_ok; vm_compute; reflexivity|]. split; [apply wfb_ok; vm_compute; reflexivity|].
  split; [apply at_childb_ok; [apply E0_ok|vm_compute; reflexivity]|].
  eexists. vm_compute. reflexivity.
Qed.
Example C21_emitted_case : used sample_cs false sample_comp /\ exists p, el_tag sample_comp = TagComponent p /\ segs p <> [].
Proof. split; [apply sample_comp_used|]. vm_compute. eexists. split; [reflexivity|discriminate]. Qed.

(** ** C22: raw identifiers *)

Definition plain (n : string) : tt := TIdent (Id false n).
Definition raw (n : string) : tt := TIdent (Id true n).
Lemma raw_wf n f : wf (raw n :: f) -> wf (plain n :: f).
Proof. rewrite !wf_cons. intros [[H _] Hf]. split; auto. split; [exact H|discriminate]. Qed.
Lemma block_raw a n b : children_block (a ++ raw n :: b) -> children_block (a ++ plain n :: b).
Proof.
  intros (H1 & H2 & H3). split; [intros Hn; apply H1; eapply name_any_ident; exact Hn|]. split.
  - intros (sp & r & Heq). destruct a as [|x [|y a]]; cbn in Heq; inversion Heq; subst. apply H2. now exists sp, (a ++ raw n :: b).
  - intros ts r Heq Hn. apply app_eq_app in Heq. destruct Heq as (l & [[-> Hr]|[-> Hr]]).
    + apply (H3 ts (l ++ raw n :: b)); [now rewrite <- app_assoc|exact Hn].
    + destruct l as [|y l]; [apply (H3 (a ++ []) (raw n :: b)); [now rewrite app_nil_r|exact Hn]|].
      cbn in Hr. inversion Hr; subst.
      assert (Hx : Forall (fun t => ~ raw_token t) (tl (a ++ raw n :: l))).
      { apply (H3 _ r); [now rewrite <- app_assoc|]. eapply name_any_ident; exact Hn. }
      destruct a as [|x a]; cbn [app tl] in *; [exact Hx|].
      apply Forall_app in Hx. destruct Hx as [Hx Hy]. apply Forall_app. split; auto.
      inversion Hy; subst. constructor; auto. intros [? ?]; discriminate.
Qed.
Lemma fits_raw E k a n b : env_ok E -> fits E k (a ++ raw n :: b) -> fits E k (a ++ plain n :: b).
Proof.
  intros HE Hf. eapply fits_swap; [auto|exact Hf|]. intros Hb. apply block_raw. now apply (fits_block E k).
Qed.
Lemma kebab_raw n f : parse_kebab (raw n :: f) = parse_kebab (plain n :: f).
Proof. reflexivity. Qed.
Lemma tag_raw E n f : ~ path_follows (raw n :: f) -> parse_tag E (raw n :: f) = parse_tag E (plain n :: f).
Proof.
  intros Hp. unfold parse_tag.
  rewrite (bind_run0 (look _) _ (raw n :: f) _ _ eq_refl), (bind_run0 (look _) _ (plain n :: f) _ _ eq_refl).
  destruct (peek2 (peek_punct "::") (raw n :: f) || peek_punct "::" (raw n :: f) || peek2 (peek_punct "<") (raw n :: f)) eqn:Ht.
  { exfalso. apply Hp. apply path_test; auto. intros (? & ? & ? & _). discriminate. }
  change (peek2 (peek_punct "::") (plain n :: f) || peek_punct "::" (plain n :: f) || peek2 (peek_punct "<") (plain n :: f))
    with (peek2 (peek_punct "::") (raw n :: f) || peek_punct "::" (raw n :: f) || peek2 (peek_punct "<") (raw n :: f)).
  rewrite Ht. unfold bind at 1. unfold bind at 2. now rewrite kebab_raw.
Qed.
Lemma opens_raw slot n f : opens slot (plain n :: f) -> opens slot (raw n :: f).
Proof.
  destruct slot as [sp|]; cbn [opens].
  - intros (sp0 & r & Heq & Hn). cbn [slot_tokens app] in *. inversion Heq; subst.
    eexists _, _. split; [reflexivity|]. intros [_ [? Hx]]. discriminate.
  - intros (_ & H2 & H3). split; [exact I|]. split.
    + intros (sp & r & Heq & _). discriminate.
    + intros (v & ts & r & Heq & Hv). inversion Hv; subst; inversion Heq; subst. apply H3.
      eexists _, [plain n; _], _. split; [reflexivity|]. apply val_prefixed.
Qed.

(** In a tag (other than a path, which is kept as it is). *)
Theorem C22_tag E k pre slot n rest : env_ok E ->
  let place t := child_place k pre (slot_tokens slot ++ t :: rest) in
  wf (place (raw n)) -> at_child E k pre (slot_tokens slot ++ raw n :: rest) ->
  opens slot (plain n :: rest) -> ~ path_follows (raw n :: rest) ->
  mview E (place (raw n)) = mview E (place (plain n)).
Proof.
  intros HE place Hwf ((cs & Hpre) & Hfit) Ho Hp.
  assert (Hfit' : fits E k (pre ++ slot_tokens slot ++ plain n :: rest)).
  { rewrite app_assoc in *. now apply fits_raw. }
  assert (Hwf' : wf (place (plain n))).
  { eapply child_wf; [exact Hwf|]. apply child_inner in Hwf. rewrite wf_app in *. split; [tauto|]. apply raw_wf. tauto. }
  unfold place, child_place in *. apply mview_plug; auto. apply plug_wf in Hwf, Hwf'.
  rewrite (at_element E pre cs slot (raw n :: rest)); auto; [|now apply opens_raw].
  assert (Heq : parse_element E (children_of E) (raw n :: rest) = parse_element E (children_of E) (plain n :: rest)).
  { rewrite parse_element_eq. unfold bind at 1. unfold bind at 3. now rewrite tag_raw. }
  unfold bind at 1. rewrite Heq.
  change (sim E [] (append_to cs (child_result E ((e <- parse_element E (children_of E) ;; ret (as_child slot e))%parse (plain n :: rest))))
    (children_of E (pre ++ slot_tokens slot ++ plain n :: rest))).
  rewrite <- (at_element E pre cs slot (plain n :: rest)); auto. now apply sim_refl.
Qed.
Print Assumptions C22_tag.

(** In the key of an attribute. *)
Lemma attr_key_raw n f : wf (raw n :: f) -> ~ next_punct ":" f ->
  parse_attr (raw n :: f) = parse_attr (plain n :: f) /\ forall e r d, parse_attr (raw n :: f) <> PR (Fail e) r d.
Proof.
  intros Hwf Hc. assert (Hwf' := raw_wf _ _ Hwf).
  assert (Hkv : parse_kv (raw n :: f) = parse_kv (plain n :: f)).
  { unfold parse_kv. rewrite (bind_run0 (look _) _ (raw n :: f) _ _ eq_refl), (bind_run0 (look _) _ (plain n :: f) _ _ eq_refl).
    cbn [peek_group]. apply bind_at. apply kebab_raw. }
  destruct (parse_kv_total (raw n :: f)) as (kv & r & d & Hr); [now apply wf_wf_head|left; exact I|].
  assert (Hp : forall t, t = raw n \/ t = plain n -> parse_attr (t :: f) = PR (Ret (AKv kv)) r d).
  { intros t Ht. rewrite parse_attr_step.
    assert (peek_any (t :: f) && peek2 (peek_punct ":") (t :: f) = false) as ->.
    { apply dir_test_f. intros _. exact Hc. }
    assert (Hk : parse_kv (t :: f) = PR (Ret kv) r d) by (destruct Ht; subst t; [exact Hr|now rewrite <- Hkv]).
    destruct (peek_ident (t :: f)).
    - unfold bind. rewrite Hk. cbn. now rewrite app_nil_r.
    - unfold bind, rollback_err. rewrite Hk. cbn. now rewrite app_nil_r. }
  rewrite (Hp (raw n)), (Hp (plain n)); auto. split; auto. discriminate.
Qed.
Lemma place_raw E k pre slot u n f : env_ok E -> at_attr E k pre slot u (raw n :: f) ->
  at_attr E k pre slot u (plain n :: f) /\
  exists t sels attrs, open_head E u t sels attrs (raw n :: f) /\ open_head E u t sels attrs (plain n :: f).
Proof.
  intros HE Hat. apply (at_attr_swap E k pre slot u Wide (raw n) f (plain n) f); auto.
  - discriminate.
  - now apply ss_ident.
  - apply name_start_quiet. left. exact I.
  - apply name_start_quiet. left. exact I.
  - intros _ H. rewrite !app_assoc in *. now apply block_raw.
Qed.
Theorem C22_key E k pre slot u n rest : env_ok E ->
  let place t := attr_place k pre slot u (t :: rest) in
  wf (place (raw n)) -> at_attr E k pre slot u (raw n :: rest) -> ~ next_punct ":" rest ->
  mview E (place (raw n)) = mview E (place (plain n)).
Proof.
  intros HE place Hwf Hat Hc. destruct (place_raw E k pre slot u n rest HE Hat) as (Hat' & t & sels & attrs & Hh & Hh').
  assert (Hwx := place_inner _ _ _ _ _ Hwf).
  apply (swap_same E k pre slot u (raw n :: rest) (plain n :: rest) t sels attrs); auto.
  - eapply place_wf; [exact Hwf|]. now apply raw_wf.
  - destruct (attr_key_raw n rest Hwx Hc). now apply attrs_same.
Qed.
Print Assumptions C22_key.

(** In the key of a directive. *)
Lemma ident_no_str i f : rollback_err parse_lit_str (TIdent i :: f) = PR (Ret None) (TIdent i :: f) [].
Proof.
  unfold rollback_err. destruct (parse_lit_str_cases (TIdent i :: f)) as [(s & r & H & _)|(_ & e & r & ->)]; [discriminate|reflexivity].
Qed.
Lemma key_raw n f : parse_kebab_or_str (raw n :: f) = parse_kebab_or_str (plain n :: f).
Proof.
  unfold parse_kebab_or_str. unfold raw, plain. rewrite !(bind_run0 _ _ _ _ _ (ident_no_str _ _)). apply bind_at. apply kebab_raw.
Qed.
Definition directive_tail (dir : ident) : P directive :=
  (br <- look (peek_group Brace) ;;
   if br : bool then
     k <- parse_braced_kebab ;; v <- into_block_value k ;; m <- try_parse_modifier ;;
     ret (Directive dir (KKebab k) m (Some v))
   else
     k <- parse_kebab_or_str ;; m <- try_parse_modifier ;; eq <- rollback_err (parse_punct "=") ;;
     match eq with
     | Some _ => v <- parse_or_emit_err ;; ret (Directive dir k m (Some v))
     | None => ret (Directive dir k m None)
     end)%parse.
Lemma directive_eq dir sp r : parse_directive (TIdent dir :: TPunct ":" sp :: r) = directive_tail dir r.
Proof.
  unfold parse_directive. rewrite (bind_run0 parse_any _ _ _ _ (eq_refl : parse_any (TIdent dir :: TPunct ":" sp :: r) = PR (Ret dir) (TPunct ":" sp :: r) [])).
  now rewrite (bind_run0 (parse_punct ":") _ _ _ _ (eq_refl : parse_punct ":" (TPunct ":" sp :: r) = PR (Ret Datatypes.tt) r [])).
Qed.
Lemma directive_step dir sp r : parse_directive (TIdent dir :: TPunct ":" sp :: r) =
  (if peek_group Brace r then
     k <- parse_braced_kebab ;; v <- into_block_value k ;; m <- try_parse_modifier ;;
     ret (Directive dir (KKebab k) m (Some v))
   else
     k <- parse_kebab_or_str ;; m <- try_parse_modifier ;; eq <- rollback_err (parse_punct "=") ;;
     match eq with
     | Some _ => v <- parse_or_emit_err ;; ret (Directive dir k m (Some v))
     | None => ret (Directive dir k m None)
     end)%parse r.
Proof. rewrite directive_eq. unfold directive_tail. now rewrite (bind_run0 (look _) _ _ _ _ eq_refl). Qed.
Theorem C22_directive E k pre slot u dir sp n rest : env_ok E ->
  let x t := TIdent dir :: TPunct ":" sp :: t :: rest in
  wf (attr_place k pre slot u (x (raw n))) -> at_attr E k pre slot u (x (raw n)) ->
  mview E (attr_place k pre slot u (x (raw n))) = mview E (attr_place k pre slot u (x (plain n))).
Proof.
  intros HE x Hwf Hat.
  destruct (at_attr_break E k pre slot u (TIdent dir) [] (TPunct ":" sp :: raw n :: rest) (TPunct ":" sp) (plain n :: rest))
    as [Hat' (t & sels & attrs & Hh & Hh')]; auto; [now left|discriminate|].
  assert (Hwx := place_inner _ _ _ _ _ Hwf).
  apply (swap_same E k pre slot u (x (raw n)) (x (plain n)) t sels attrs); auto.
  - eapply place_wf; [exact Hwf|]. unfold x in *. rewrite !wf_cons in *. destruct Hwx as (H1 & H2 & [H3 _] & H4).
    repeat match goal with |- _ /\ _ => split end; auto. split; [exact H3|discriminate].
  - apply attrs_same.
    + rewrite !parse_attr_step.
      assert (Ht : forall t, peek_any (x t) && peek2 (peek_punct ":") (x t) = true) by (intros; apply dir_test; unfold x; eauto).
      rewrite !Ht. apply bind_at. unfold unwrap_or_abort.
      assert (parse_directive (x (raw n)) = parse_directive (x (plain n))) as ->; [|reflexivity].
      unfold x. rewrite !directive_step. cbn [peek_group]. apply bind_at. apply key_raw.
    + intros e r d. rewrite parse_attr_step.
      assert (peek_any (x (raw n)) && peek2 (peek_punct ":") (x (raw n)) = true) as -> by (apply dir_test; unfold x; eauto).
      unfold bind, unwrap_or_abort. destruct (parse_directive (x (raw n))) as [[]]; discriminate.
Qed.
Print Assumptions C22_directive.

(** In a shorthand. *)
Lemma braced_raw n l r : wf (raw n :: l) -> name_phrase (raw n :: l) -> exists kk d, forall t, t = raw n \/ t = plain n ->
  parse_braced_kebab (TGroup Brace (t :: l) :: r) = PR (Ret kk) r d.
Proof.
  intros Hwf Hn.
  assert (Hk : parse_kebab (raw n :: l) = PR (Ret (Kebab (name_text (raw n :: l)) (section_count (raw n :: l)))) [] (raw_diags (tl (raw n :: l)))).
  { apply parse_kebab_iff; [now apply wf_wf_head|]. exists (raw n :: l). rewrite app_nil_r. repeat split; auto. }
  eexists _, _. intros t Ht. unfold parse_braced_kebab, delimited. cbn [delim_eqb].
  assert (parse_kebab (t :: l) = parse_kebab (raw n :: l)) as -> by (destruct Ht; now subst t).
  rewrite Hk. reflexivity.
Qed.
Lemma inner_raw k pre slot u a n l b :
  wf (attr_place k pre slot u (a ++ TGroup Brace (raw n :: l) :: b)) ->
  wf (attr_place k pre slot u (a ++ TGroup Brace (plain n :: l) :: b)) /\ wf (raw n :: l).
Proof.
  intros Hwf. assert (Hwx := place_inner _ _ _ _ _ Hwf).
  rewrite wf_app, wf_cons, wf_group in Hwx. split; [|tauto].
  eapply place_wf; [exact Hwf|]. rewrite wf_app, wf_cons, wf_group. intuition auto using raw_wf.
Qed.
Theorem C22_shorthand E k pre slot u n l rest : env_ok E ->
  let x t := TGroup Brace (t :: l) :: rest in
  wf (attr_place k pre slot u (x (raw n))) -> at_attr E k pre slot u (x (raw n)) -> name_phrase (raw n :: l) ->
  mview E (attr_place k pre slot u (x (raw n))) = mview E (attr_place k pre slot u (x (plain n))).
Proof.
  intros HE x Hwf Hat Hn. destruct (inner_raw k pre slot u [] n l rest Hwf) as [Hwf' Hwi].
  destruct (at_attr_swap E k pre slot u Narrow (TGroup Brace (raw n :: l)) rest (TGroup Brace (plain n :: l)) rest)
    as [Hat' (t & sels & attrs & Hh & Hh')]; auto using brace_quiet.
  { discriminate. } { apply ss_group. tauto. }
  { intros _ H. rewrite !app_assoc in *. eapply children_block_inner; exact H. }
  apply (swap_same E k pre slot u (x (raw n)) (x (plain n)) t sels attrs); auto.
  destruct (braced_raw n l rest Hwi Hn) as (kk & d & Hb).
  assert (Hstep : forall t, parse_kv (x t) = (k <- parse_braced_kebab ;; v <- into_block_value k ;; ret (KvAttr k v))%parse (x t)).
  { intros t0. unfold parse_kv. now rewrite (bind_run0 (look _) _ _ _ _ eq_refl). }
  assert (Hkv : parse_kv (x (raw n)) = parse_kv (x (plain n))).
  { rewrite !Hstep. apply bind_at. unfold x. rewrite !Hb; auto. }
  assert (Hnf : forall e r d, parse_kv (x (raw n)) <> PR (Fail e) r d).
  { intros e r d0. rewrite Hstep. unfold bind, x. rewrite Hb; auto.
    unfold into_block_value, snake, or_panic, bind. destruct (to_snake_ident kk); discriminate. }
  assert (Ha : forall t, parse_attr (x t) = (kv <- rollback_err parse_kv ;;
      match kv with
      | Some kv => ret (AKv kv)
      | None =>
          sp <- rollback_err parse_spread ;;
          match sp with Some sp => ret (ASpread sp) | None => fail EAttr end
      end)%parse (x t)) by (intros; apply parse_attr_step).
  assert (Hr : rollback_err parse_kv (x (raw n)) = rollback_err parse_kv (x (plain n))).
  { unfold rollback_err. rewrite <- Hkv. destruct (parse_kv (x (raw n))) as [[]]; auto. exfalso. eapply Hnf; eauto. }
  apply attrs_same.
  - rewrite !Ha. now apply bind_at.
  - intros e r d0. rewrite Ha. unfold bind, rollback_err at 1.
    destruct (parse_kv (x (raw n))) as [[] r0 d1] eqn:Hk; try discriminate. exfalso. eapply Hnf; eauto.
Qed.
Print Assumptions C22_shorthand.
Theorem C22_directive_shorthand E k pre slot u dir sp n l rest : env_ok E ->
  let x t := TIdent dir :: TPunct ":" sp :: TGroup Brace (t :: l) :: rest in
  wf (attr_place k pre slot u (x (raw n))) -> at_attr E k pre slot u (x (raw n)) -> name_phrase (raw n :: l) ->
  mview E (attr_place k pre slot u (x (raw n))) = mview E (attr_place k pre slot u (x (plain n))).
Proof.
  intros HE x Hwf Hat Hn. destruct (inner_raw k pre slot u [TIdent dir; TPunct ":" sp] n l rest Hwf) as [Hwf' Hwi].
  destruct (at_attr_break E k pre slot u (TIdent dir) [] (TPunct ":" sp :: TGroup Brace (raw n :: l) :: rest) (TPunct ":" sp) (TGroup Brace (plain n :: l) :: rest))
    as [Hat' (t & sels & attrs & Hh & Hh')]; auto; [now left|discriminate|].
  apply (swap_same E k pre slot u (x (raw n)) (x (plain n)) t sels attrs); auto.
  destruct (braced_raw n l rest Hwi Hn) as (kk & d & Hb).
  apply attrs_same.
  - rewrite !parse_attr_step.
    assert (Ht : forall t, peek_any (x t) && peek2 (peek_punct ":") (x t) = true) by (intros; apply dir_test; unfold x; eauto).
    rewrite !Ht. apply bind_at. unfold unwrap_or_abort.
    assert (parse_directive (x (raw n)) = parse_directive (x (plain n))) as ->; [|reflexivity].
    unfold x. rewrite !directive_step. cbn [peek_group delim_eqb]. apply bind_at. now rewrite !Hb by auto.
  - intros e r d0. rewrite parse_attr_step.
    assert (peek_any (x (raw n)) && peek2 (peek_punct ":") (x (raw n)) = true) as -> by (apply dir_test; unfold x; eauto).
    unfold bind, unwrap_or_abort. destruct (parse_directive (x (raw n))) as [[]]; discriminate.
Qed.
Print Assumptions C22_directive_shorthand.

(** In a selector. *)
Lemma upto_selector_run {m} ts l f f' : forward m -> upto m f f' -> selector_run ts l f -> selector_run ts l f'.
Proof.
  intros Hm Hu H. induction H; constructor; auto. eapply upto_selector; [exact Hm| |exact H]. now apply upto_app.
Qed.
Definition from_selectors E slot t sels : P child :=
  (e <- (l <- parse_selectors ;; attrs <- parse_attrs ;; element_tail (children_of E) t (sels ++ l) attrs) ;; ret (as_child slot e))%parse.
Lemma at_selectors E pre cs slot u t sels x : env_ok E -> children_phrase E pre cs ->
  opens slot (u ++ x) -> wf (pre ++ slot_tokens slot ++ u ++ x) -> open_tag E u t sels x ->
  children_of E (pre ++ slot_tokens slot ++ u ++ x) =
  append_to cs (child_result E (from_selectors E slot t sels x)).
Proof.
  intros HE Hp Ho Hwf Hh. rewrite (at_element E pre cs slot (u ++ x)); auto. unfold from_selectors. f_equal. f_equal.
  unfold bind at 1. rewrite (element_open_tag E _ u t sels x); auto. rewrite !wf_app in *. tauto.
Qed.
Lemma selectors_same x x' : parse_selector x = parse_selector x' -> (forall e r d, parse_selector x <> PR (Fail e) r d) ->
  parse_selectors x = parse_selectors x'.
Proof.
  intros H Hn. rewrite Context.selectors_eq, (Context.selectors_eq x'). apply bind_at. unfold rollback_err. rewrite <- H.
  destruct (parse_selector x) as [[]]; auto. exfalso. eapply Hn; eauto.
Qed.
Definition selector_char (c : ascii) : Prop := c = "." \/ c = "#".
Lemma selector_step c sp f : selector_char c -> parse_selector (TPunct c sp :: f) =
  (k <- parse_kebab ;; ret (if ascii_dec c "." then SelClass k else SelId k))%parse f.
Proof.
  intros [->| ->]; unfold parse_selector.
  - now rewrite (bind_run0 _ _ _ _ _ (eq_refl : rollback_err (parse_punct ".") (TPunct "." sp :: f) = PR (Ret (Some Datatypes.tt)) f [])).
  - rewrite (bind_run0 _ _ _ _ _ (eq_refl : rollback_err (parse_punct ".") (TPunct "#" sp :: f) = PR (Ret None) (TPunct "#" sp :: f) [])).
    now rewrite (bind_run0 _ _ _ _ _ (eq_refl : rollback_err (parse_punct "#") (TPunct "#" sp :: f) = PR (Ret (Some Datatypes.tt)) f [])).
Qed.
Theorem C22_selector E k pre slot u c sp n rest : env_ok E -> selector_char c ->
  let x t := TPunct c sp :: t :: rest in
  wf (attr_place k pre slot u (x (raw n))) -> at_selector E k pre slot u (x (raw n)) ->
  mview E (attr_place k pre slot u (x (raw n))) = mview E (attr_place k pre slot u (x (plain n))).
Proof.
  intros HE Hc x Hwf ((cs & Hp) & (t & sels & Hh) & Ho & Hf).
  assert (Hup : upto Wide (x (raw n)) (x (plain n))) by (apply up_cons, up_stop; now apply ss_ident).
  assert (Hh' : open_tag E u t sels (x (plain n))).
  { destruct Hh as (ts1 & ts2 & -> & H1 & H2). exists ts1, ts2. split; auto. split.
    - eapply (upto_tag (m := Wide)); [auto|discriminate|apply upto_app; exact Hup| |exact H1].
      intros Hop. exfalso. destruct Hop as (sp' & r & Heq). destruct ts2 as [|y ts2]; cbn in Heq.
      + discriminate.
      + inversion H2; subst. inversion H0; subst; inversion H; subst; discriminate.
    - eapply (upto_selector_run (m := Wide)); [discriminate|exact Hup|exact H2]. }
  assert (Hq : quiet (TPunct c sp)).
  { split; auto. intros [s Hs]. inversion Hs; subst. destruct Hc; discriminate. }
  assert (Ho' : opens slot (u ++ x (plain n))).
  { eapply opens_swap; [|exact Hq|exact Hq|exact Ho]. eapply tag_open_nonempty; eauto. }
  assert (Hf' : fits E k (pre ++ slot_tokens slot ++ u ++ x (plain n))).
  { pose proof (fits_raw E k (pre ++ slot_tokens slot ++ u ++ [TPunct c sp]) n rest HE) as Hr.
    rewrite <- !app_assoc in Hr. cbn [app] in Hr. now apply Hr. }
  assert (Hwx := place_inner _ _ _ _ _ Hwf).
  assert (Hwf' : wf (attr_place k pre slot u (x (plain n)))).
  { eapply place_wf; [exact Hwf|]. unfold x in *. rewrite wf_cons in Hwx |- *. split; [tauto|]. now apply raw_wf. }
  unfold attr_place in *. apply mview_plug; auto. apply plug_wf in Hwf, Hwf'.
  assert (Heq : children_of E (pre ++ slot_tokens slot ++ u ++ x (raw n)) = children_of E (pre ++ slot_tokens slot ++ u ++ x (plain n))).
  { rewrite (at_selectors E pre cs slot u t sels (x (raw n))); auto. rewrite (at_selectors E pre cs slot u t sels (x (plain n))); auto.
    do 2 f_equal. unfold from_selectors. apply bind_at, bind_at. apply selectors_same.
    - unfold x. rewrite !selector_step by auto. apply bind_at. apply kebab_raw.
    - intros e r d. unfold x. rewrite selector_step by auto. unfold bind.
      destruct (parse_kebab_cases (raw n :: rest)) as [(v & w & _ & _ & _ & ->)|[Hs _]];
        [unfold x in Hwx; rewrite wf_cons in Hwx; now apply wf_wf_head|discriminate|].
      destruct Hs. left. exact I. }
  rewrite Heq. now apply sim_refl.
Qed.
Print Assumptions C22_selector.

(** *** A raw identifier in a later segment is reported *)

Lemma bind_diags {A B} (m : P A) (f : A -> P B) ts dg : In dg (p_diags (m ts)) -> In dg (p_diags (bind m f ts)).
Proof. unfold bind. intros H. destruct (m ts) as [[] r0 d0]; cbn [p_diags] in *; auto. apply in_or_app. auto. Qed.
Lemma rollback_diags {A} (m : P A) ts : p_diags (rollback_err m ts) = p_diags (m ts).
Proof. unfold rollback_err. now destruct (m ts) as [[]]. Qed.
Lemma result_diags E x dg : In dg (p_diags x) -> In dg (p_diags (child_result E x)).
Proof.
  intros H. destruct x as [[] r d]; cbn [p_diags child_result] in *; auto.
  - unfold prepend. cbn [p_diags]. apply in_or_app. auto.
  - destruct (peek_punct ";" r); unfold prepend; cbn [p_diags]; apply in_or_app; left; apply in_or_app; auto.
Qed.
Lemma append_diags cs x : p_diags (append_to cs x) = p_diags x.
Proof. now destruct x as [[]]. Qed.
Lemma unwrap_diags {A} (m : P A) ts dg : In dg (p_diags (m ts)) -> In dg (p_diags (unwrap_or_abort m ts)).
Proof. unfold unwrap_or_abort. intros H. destruct (m ts) as [[] r0 d0]; cbn [p_diags] in *; auto. apply in_or_app. auto. Qed.
Lemma delimited_diags {A} (m : P A) d x r : p_diags (delimited d m (TGroup d x :: r)) = p_diags (m x).
Proof. unfold delimited. replace (delim_eqb d d) with true by now destruct d. now destruct (m x) as [[| | | |] [|]]. Qed.

(** What is reported while reading an attribute, a selector or a tag is
    reported for the view. *)
Lemma attr_reports E k pre slot u x dg : env_ok E -> at_attr E k pre slot u x -> wf (attr_place k pre slot u x) ->
  In dg (p_diags (parse_attr x)) -> reports E (attr_place k pre slot u x) dg.
Proof.
  intros HE ((cs & Hp) & (t & sels & attrs & Hh) & Ho & Hf) Hwf Hin. unfold attr_place in *.
  apply mview_reports; auto. apply plug_wf in Hwf.
  rewrite (at_attrs E pre cs slot u t sels attrs x); auto. rewrite append_diags. apply result_diags.
  unfold from_attrs. apply bind_diags, bind_diags. rewrite attrs_eq. apply bind_diags. now rewrite rollback_diags.
Qed.
Lemma selector_reports E k pre slot u x dg : env_ok E -> at_selector E k pre slot u x -> wf (attr_place k pre slot u x) ->
  In dg (p_diags (parse_selector x)) -> reports E (attr_place k pre slot u x) dg.
Proof.
  intros HE ((cs & Hp) & (t & sels & Hh) & Ho & Hf) Hwf Hin. unfold attr_place in *.
  apply mview_reports; auto. apply plug_wf in Hwf.
  rewrite (at_selectors E pre cs slot u t sels x); auto. rewrite append_diags. apply result_diags.
  unfold from_selectors. apply bind_diags, bind_diags. rewrite Context.selectors_eq. apply bind_diags. now rewrite rollback_diags.
Qed.
Lemma tag_reports E k pre slot x dg : env_ok E -> at_child E k pre (slot_tokens slot ++ x) -> opens slot x ->
  wf (child_place k pre (slot_tokens slot ++ x)) ->
  In dg (p_diags (parse_tag E x)) -> reports E (child_place k pre (slot_tokens slot ++ x)) dg.
Proof.
  intros HE ((cs & Hp) & Hf) Ho Hwf Hin. unfold child_place in *.
  apply mview_reports; auto. apply plug_wf in Hwf.
  rewrite (at_element E pre cs slot x); auto. rewrite append_diags. apply result_diags.
  apply bind_diags. rewrite parse_element_eq. now apply bind_diags.
Qed.

(** The name is [used] up to a token that is not part of it. *)
Definition late_raw (used rest : list tt) : Prop :=
  name_phrase used /\ name_ends used rest /\ Exists raw_token (tl used).
Lemma late_reports used rest : wf (used ++ rest) -> late_raw used rest ->
  In DRawInKebab (p_diags (parse_kebab (used ++ rest))).
Proof.
  intros Hwf (Hn & He & Hr).
  assert (Hk : parse_kebab (used ++ rest) = PR (Ret (Kebab (name_text used) (section_count used))) rest (raw_diags (tl used))).
  { apply parse_kebab_iff; [now apply wf_wf_head|]. exists used. repeat split; auto. }
  rewrite Hk. cbn [p_diags]. apply Exists_exists in Hr. destruct Hr as (t & Hin & n & ->).
  unfold raw_diags. apply in_flat_map. exists (TIdent (Id true n)). split; auto. now left.
Qed.
Theorem C22_later_tag E k pre slot used rest : env_ok E ->
  let x := used ++ rest in
  wf (child_place k pre (slot_tokens slot ++ x)) -> at_child E k pre (slot_tokens slot ++ x) -> opens slot x ->
  ~ path_follows x -> late_raw used rest ->
  reports E (child_place k pre (slot_tokens slot ++ x)) DRawInKebab.
Proof.
  intros HE x Hwf Hat Ho Hp Hl. apply tag_reports; auto. apply child_inner in Hwf. rewrite wf_app in Hwf.
  unfold parse_tag. rewrite (bind_run0 (look _) _ x _ _ eq_refl).
  destruct (peek2 (peek_punct "::") x || peek_punct "::" x || peek2 (peek_punct "<") x) eqn:Ht.
  { exfalso. apply Hp. apply path_test; auto. destruct Hl as (Hn & _). intros (c & r & Heq & ->).
    unfold x in Heq. inversion Hn; subst; discriminate. }
  apply bind_diags. apply late_reports; tauto.
Qed.
Print Assumptions C22_later_tag.
Theorem C22_later_selector E k pre slot u c sp used rest : env_ok E -> selector_char c ->
  let x := TPunct c sp :: used ++ rest in
  wf (attr_place k pre slot u x) -> at_selector E k pre slot u x -> late_raw used rest ->
  reports E (attr_place k pre slot u x) DRawInKebab.
Proof.
  intros HE Hc x Hwf Hat Hl. apply selector_reports; auto. apply place_inner in Hwf. unfold x in *. rewrite wf_cons in Hwf.
  rewrite selector_step by auto. apply bind_diags. apply late_reports; tauto.
Qed.
Print Assumptions C22_later_selector.
Lemma group_step l rest : parse_attr (TGroup Brace l :: rest) = (kv <- rollback_err parse_kv ;;
      match kv with
      | Some kv => ret (AKv kv)
      | None =>
          sp <- rollback_err parse_spread ;;
          match sp with Some sp => ret (ASpread sp) | None => fail EAttr end
      end)%parse (TGroup Brace l :: rest).
Proof. now rewrite parse_attr_step. Qed.
(** [key], [{key}], [dir:key] and [dir:{key}]. *)
Theorem C22_later_key E k pre slot u before used rest x : env_ok E ->
  before = [] \/ (exists dir sp, before = [TIdent dir; TPunct ":" sp]) ->
  x = before ++ used ++ rest /\ late_raw used rest /\ (before = [] -> next_ident used -> ~ next_punct ":" (tl used ++ rest)) \/
  x = before ++ TGroup Brace used :: rest /\ late_raw used [] ->
  wf (attr_place k pre slot u x) -> at_attr E k pre slot u x ->
  reports E (attr_place k pre slot u x) DRawInKebab.
Proof.
  intros HE Hb Hx Hwf Hat. apply attr_reports; auto. apply place_inner in Hwf.
  assert (Hd : forall dir sp r, (peek_group Brace r = true -> In DRawInKebab (p_diags (parse_braced_kebab r))) ->
    (peek_group Brace r = false -> In DRawInKebab (p_diags (parse_kebab_or_str r))) ->
    In DRawInKebab (p_diags (parse_attr (TIdent dir :: TPunct ":" sp :: r)))).
  { intros dir sp r H1 H2. rewrite parse_attr_step.
    assert (peek_any (TIdent dir :: TPunct ":" sp :: r) && peek2 (peek_punct ":") (TIdent dir :: TPunct ":" sp :: r) = true) as ->
      by (apply dir_test; eauto).
    apply bind_diags, unwrap_diags. rewrite directive_step.
    destruct (peek_group Brace r); apply bind_diags; auto. }
  destruct Hx as [(-> & Hl & Hc)|[-> Hl]].
  - assert (Hu : exists y r, used = y :: r /\ (next_ident [y] \/ punct "-" y)).
    { destruct Hl as (Hn & _). inversion Hn; subst; eexists _, _; (split; [reflexivity|]); [left; exact I|right; now eexists]. }
    destruct Hb as [->|(dir & sp & ->)]; cbn [app] in *.
    + rewrite parse_attr_step.
      assert (peek_any (used ++ rest) && peek2 (peek_punct ":") (used ++ rest) = false) as ->.
      { apply dir_test_f. destruct Hu as (y & r & -> & _). intros Hi. apply Hc; auto. }
      assert (Hkv : In DRawInKebab (p_diags (parse_kv (used ++ rest)))).
      { unfold parse_kv. rewrite (bind_run0 (look _) _ _ _ _ eq_refl).
        assert (peek_group Brace (used ++ rest) = false) as ->.
        { destruct Hu as (y & r & -> & [Hy|[sp ->]]); [destruct y; try contradiction|]; reflexivity. }
        apply bind_diags. now apply late_reports. }
      destruct (peek_ident (used ++ rest)); apply bind_diags; auto. now rewrite rollback_diags.
    + rewrite !wf_cons in Hwf. apply Hd.
      * intros Hg. exfalso. destruct Hu as (y & r & -> & [Hy|[s ->]]); [destruct y; try contradiction|]; discriminate.
      * intros _. unfold parse_kebab_or_str.
        assert (Hs : rollback_err parse_lit_str (used ++ rest) = PR (Ret None) (used ++ rest) []).
        { unfold rollback_err. destruct (parse_lit_str_cases (used ++ rest)) as [(s & r & H & _)|(_ & e & r & ->)]; [|reflexivity].
          destruct Hu as (y & r0 & -> & [Hy|[s0 ->]]); [destruct y; try contradiction|]; discriminate. }
        rewrite (bind_run0 _ _ _ _ _ Hs). apply bind_diags. apply late_reports; tauto.
  - assert (Hi : In DRawInKebab (p_diags (parse_braced_kebab (TGroup Brace used :: rest)))).
    { unfold parse_braced_kebab. rewrite delimited_diags. rewrite wf_app, wf_cons, wf_group in Hwf.
      pose proof (late_reports used []) as H. rewrite app_nil_r in H. apply H; tauto. }
    destruct Hb as [->|(dir & sp & ->)]; cbn [app] in *.
    + rewrite group_step. apply bind_diags. rewrite rollback_diags.
      unfold parse_kv. rewrite (bind_run0 (look _) _ _ _ _ eq_refl). now apply bind_diags.
    + now apply Hd.
Qed.
Print Assumptions C22_later_key.

Definition k0 : ctx := deep (lex "'z'") (lex "p;").
Definition pre0 : list tt := lex "p; 'y'".
Example C22_tag_case : let rest := lex ".c a=2 { 'x' } p;" in
  wf (child_place k0 pre0 (raw "div" :: rest)) /\ at_child E0 k0 pre0 (raw "div" :: rest) /\
  opens None (plain "div" :: rest) /\ ~ path_follows (raw "div" :: rest) /\
  exists out, mview E0 (child_place k0 pre0 (raw "div" :: rest)) = Expanded out.
Proof.
  cbv zeta. rewrite <- and_assoc. split; [apply at_childb_ok; [apply E0_ok|vm_compute; reflexivity]|].
  split; [apply opensb_ok; vm_compute; reflexivity|].
  split; [intros [(? & ? & H)|[(? & ? & H)|[? H]]]; vm_compute in H; discriminate|].
  eexists. vm_compute. reflexivity.
Qed.
Example C22_key_case : let rest := lex "-x={2} b { 'x' } p;" in let u := lex "My.c a=2" in
  wf (attr_place k0 pre0 None u (raw "type" :: rest)) /\ at_attr E0 k0 pre0 None u (raw "type" :: rest) /\
  ~ next_punct ":" rest /\ exists out, mview E0 (attr_place k0 pre0 None u (raw "type" :: rest)) = Expanded out.
Proof.
  cbv zeta. rewrite <- and_assoc. split; [apply at_attrb_ok; [apply E0_ok|vm_compute; reflexivity]|].
  split; [intros [? H]; vm_compute in H; discriminate|]. eexists. vm_compute. reflexivity.
Qed.
Example C22_directive_case : let rest := lex "-x={2} b { 'x' } p;" in let u := lex "My.c a=2" in
  let x := TIdent (Id false "class") :: TPunct ":" Alone :: raw "type" :: rest in
  wf (attr_place k0 pre0 None u x) /\ at_attr E0 k0 pre0 None u x /\
  exists out, mview E0 (attr_place k0 pre0 None u x) = Expanded out.
Proof.
  cbv zeta. rewrite <- and_assoc. split; [apply at_attrb_ok; [apply E0_ok|vm_compute; reflexivity]|].
  eexists. vm_compute. reflexivity.
Qed.
Example C22_shorthand_case : let l := lex "-x" in let rest := lex "b { 'x' } p;" in let u := lex "My.c a=2" in
  let x := TGroup Brace (raw "type" :: l) :: rest in
  wf (attr_place k0 pre0 None u x) /\ at_attr E0 k0 pre0 None u x /\ name_phrase (raw "type" :: l) /\
  exists out, mview E0 (attr_place k0 pre0 None u x) = Expanded out.
Proof.
  cbv zeta. rewrite <- and_assoc. split; [apply at_attrb_ok; [apply E0_ok|vm_compute; reflexivity]|].
  split; [repeat econstructor|]. eexists. vm_compute. reflexivity.
Qed.
Example C22_directive_shorthand_case : let l := lex "-x" in let rest := lex "b { 'x' } p;" in let u := lex "My.c a=2" in
  let x := TIdent (Id false "style") :: TPunct ":" Alone :: TGroup Brace (raw "type" :: l) :: rest in
  wf (attr_place k0 pre0 None u x) /\ at_attr E0 k0 pre0 None u x /\ name_phrase (raw "type" :: l) /\
  exists out, mview E0 (attr_place k0 pre0 None u x) = Expanded out.
Proof.
  cbv zeta. rewrite <- and_assoc. split; [apply at_attrb_ok; [apply E0_ok|vm_compute; reflexivity]|].
  split; [repeat econstructor|]. eexists. vm_compute. reflexivity.
Qed.
Example C22_selector_case : let rest := lex "-x.d a=1 { 'x' } p;" in let u := lex "My" in
  let x := TPunct "#" Alone :: raw "type" :: rest in
  wf (attr_place k0 pre0 None u x) /\ at_selector E0 k0 pre0 None u x /\
  exists out, mview E0 (attr_place k0 pre0 None u x) = Expanded out.
Proof.
  cbv zeta. rewrite <- and_assoc. split; [apply at_selectorb_ok; [apply E0_ok|vm_compute; reflexivity]|].
  eexists. vm_compute. reflexivity.
Qed.
Example C22_later_case : let used := lex "a-r#b-c" in
  late_raw used (lex ".k;") /\ late_raw used (lex "=1;") /\ late_raw used [] /\
  (wf (child_place k0 pre0 (used ++ lex ".k;")) /\ at_child E0 k0 pre0 (used ++ lex ".k;")) /\
  opens None (used ++ lex ".k;") /\ ~ path_follows (used ++ lex ".k;") /\
  let x := TPunct "." Alone :: used ++ lex ".k;" in
  (wf (attr_place k0 pre0 None (lex "p") x) /\ at_selector E0 k0 pre0 None (lex "p") x) /\
  let x := lex "on:" ++ used ++ lex "=1;" in
  (wf (attr_place k0 pre0 None (lex "p.c") x) /\ at_attr E0 k0 pre0 None (lex "p.c") x) /\
  let x := TGroup Brace used :: lex "a=1;" in
  (wf (attr_place k0 pre0 None (lex "p.c") x) /\ at_attr E0 k0 pre0 None (lex "p.c") x).
Proof.
  cbv zeta.
  assert (Hn : name_phrase (lex "a-r#b-c")) by (vm_compute; repeat econstructor).
  assert (Hr : Exists raw_token (tl (lex "a-r#b-c"))) by (vm_compute; apply Exists_cons_tl, Exists_cons_hd; now eexists).
  split; [split; [exact Hn|split; [apply name_ends_punct; discriminate|exact Hr]]|].
  split; [split; [exact Hn|split; [apply name_ends_punct; discriminate|exact Hr]]|].
  split; [split; [exact Hn|split; [exact I|exact Hr]]|].
  split; [apply at_childb_ok; [apply E0_ok|vm_compute; reflexivity]|].
  split; [apply opensb_ok; vm_compute; reflexivity|].
  split; [intros [(? & ? & H)|[(? & ? & H)|[? H]]]; vm_compute in H; discriminate|].
  split; [apply at_selectorb_ok; [apply E0_ok|vm_compute; reflexivity]|].
  split; (apply at_attrb_ok; [apply E0_ok|vm_compute; reflexivity]).
Qed.
(** Paths are kept as written, so [r#My<T>] and [My<T>] differ by the [r#]. *)
Example C22_path : run_mview "r#My<T>;" <> run_mview "My<T>;".
Proof. vm_compute. discriminate. Qed.
