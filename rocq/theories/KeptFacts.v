(** What is kept of a view is in its expansion. *)
From Verif Require Export PlacedFacts.
From Verif Require Import WhereFacts ExpandFacts ExpandFacts2 SpecStr SpecGrammar SpecOut SpecSpan SpecSpell SpecWhere SpecKept SParse SExpand STokens.
Open Scope list_scope.
Close Scope sparse_scope.
Close Scope expand_scope.
Open Scope sexpand_scope.

(** ** Occurrences *)
Lemma occ_refl x : occurs x x.
Proof. assert (H := oc_run x [] []). cbn in H. now rewrite app_nil_r in H. Qed.
Lemma occ_run a x b : occurs x (a ++ x ++ b). Proof. constructor. Qed.
Lemma occ_right a x b : occurs x b -> occurs x (a ++ b).
Proof.
  intros H. destruct H as [u v|u s d ts v Hts]; rewrite app_assoc; constructor. exact Hts.
Qed.
Lemma occ_left a x b : occurs x a -> occurs x (a ++ b).
Proof.
  intros H. destruct H as [u v|u s d ts v Hts]; rewrite <- !app_assoc; [|cbn [app]]; constructor. exact Hts.
Qed.
Lemma occ_skip x t r : occurs x r -> occurs x (t :: r).
Proof. intros H. now apply (occ_right [t]). Qed.
Lemma occ_group x s d ts r : occurs x ts -> occurs x (SGroup s d ts :: r).
Proof. intros H. now apply (oc_group x [] s d ts r). Qed.
Lemma occ_here x r : occurs x (x ++ r). Proof. apply (oc_run x [] r). Qed.
Lemma occ_trans x y z : occurs x y -> occurs y z -> occurs x z.
Proof. intros Hx H. induction H as [a b|a s d ts b _ IH]; [now apply occ_right, occ_left|now constructor]. Qed.
Lemma occ_flat {A} (f : A -> list stt) l a x : In a l -> occurs x (f a) -> occurs x (flat_map f l).
Proof. induction l as [|b l IH]; [easy|]. intros [->|H] Hx; cbn; [now apply occ_left|apply occ_right; auto]. Qed.
Lemma occ_concat l a x : In a l -> occurs x a -> occurs x (List.concat l).
Proof. induction l as [|b l IH]; [easy|]. intros [->|H] Hx; cbn; [now apply occ_left|apply occ_right; auto]. Qed.

Lemma occ_h1 a r : occurs [a] (a :: r). Proof. exact (oc_run [a] [] r). Qed.
Lemma occ_h2 a b r : occurs [a; b] (a :: b :: r). Proof. exact (oc_run [a; b] [] r). Qed.
Lemma occ_h3 a b c r : occurs [a; b; c] (a :: b :: c :: r). Proof. exact (oc_run [a; b; c] [] r). Qed.
Lemma occ_h4 a b c d r : occurs [a; b; c; d] (a :: b :: c :: d :: r). Proof. exact (oc_run [a; b; c; d] [] r). Qed.

(** ** Expansions without reports *)
Definition makes {A} (m : SX A) (a : A) : Prop := m = SXR (XRet a) [].
Lemma makes_ret {A} (a b : A) : makes (sxret a) b -> a = b.
Proof. now intros [= ->]. Qed.
Lemma makes_bind {A B} (m : SX A) (f : A -> SX B) b : makes (sxbind m f) b -> exists a, makes m a /\ makes (f a) b.
Proof.
  unfold makes. destruct m as [[a| |w] d]; cbn; try discriminate. intros [= Ho Hd]. apply app_eq_nil in Hd as [-> Hd].
  exists a. split; [reflexivity|]. destruct (f a) as [o d']. cbn in *. congruence.
Qed.
Lemma makes_seq {A} (l : list (SX A)) r : makes (sxseq l) r -> Forall2 makes l r.
Proof.
  revert r. induction l as [|m l IH]; intros r H; cbn [sxseq] in H; [apply makes_ret in H as <-; constructor|].
  apply makes_bind in H as (a & Ha & H). apply makes_bind in H as (x & Hx & H). apply makes_ret in H as <-. constructor; auto.
Qed.
Lemma forall2_in {A B} (R : A -> B -> Prop) l l' a : Forall2 R l l' -> In a l -> exists b, In b l' /\ R a b.
Proof. induction 1 as [|x y l l' H _ IH]; [easy|]. intros [->|Hin]; [exists y; cbn; auto|]. destruct (IH Hin) as (b & ? & ?). exists b. cbn. auto. Qed.

Ltac gi := repeat match goal with
  | H : makes (sxret _) _ |- _ => apply makes_ret in H; try subst
  | H : makes (sxpanic _) _ |- _ => discriminate H
  | H : makes (sxabort _ _) _ |- _ => discriminate H
  | H : makes (sxbind (sxemit _ _) _) _ |- _ => apply makes_bind in H as (? & H & _); discriminate H
  | H : makes (sxemit _ _) _ |- _ => discriminate H
  | H : makes (sxbind _ _) _ |- _ => apply makes_bind in H as (? & ? & ?)
  end.
Ltac sh := unfold smethod, sgpath, scolon2, soror, swd, stoken, spar, sgroup, sstr, skw, spu, sident_token, dot, comma, name_at, in_parens, in_braces, text_at; cbn [flat_map app si_span si_ident path_at].
Ltac occ := first
  [ assumption | apply occ_refl | apply occ_h1 | apply occ_h2 | apply occ_h3 | apply occ_h4 | apply occ_skip; occ | apply occ_group; occ | apply occ_left; occ | apply occ_right; occ ].

Section Facts.
Variable E : senv.
Hypothesis HE : senv_ok E.

Lemma value_makes v w : makes (svalue_tokens E v) w <-> written E v w.
Proof.
  split.
  - intros H. destruct v as [[s k v|s b]|b ts|[p|] b ts]; cbn [svalue_tokens] in H.
    + gi. constructor.
    + gi. destruct b; constructor.
    + gi. unfold block_span. rewrite (run_place_eq E HE). constructor.
    + destruct (ident_is (si_ident p) "f") eqn:Hp; [|gi]. apply word_is in Hp; [|reflexivity]. destruct p as [s i]. cbn in Hp. subst i. gi.
      cbn zeta in *. gi. apply w_format.
    + cbn zeta in H. gi. apply w_closure.
  - intros H. destruct H; try reflexivity. cbn [svalue_tokens]. unfold block_span. now rewrite (run_place_eq E HE).
Qed.
Lemma written_once v w : written E v w -> forall w', written E v w' -> w' = w.
Proof. intros H w' H'. apply value_makes in H, H'. unfold makes in *. congruence. Qed.
Lemma opt_makes v w : makes (sopt_value_tokens E v) w <-> written_opt E v w.
Proof.
  destruct v as [v|]; cbn [sopt_value_tokens]; [rewrite value_makes; split; [now constructor|now inversion 1]|].
  split; [intros H; gi; constructor|inversion 1; reflexivity].
Qed.
Lemma or_true_makes v w : makes (svalue_tokens E (svalue_or_true v)) w <-> written_or_true E v w.
Proof.
  destruct v as [v|]; cbn [svalue_or_true]; [rewrite value_makes; split; [now constructor|now inversion 1]|].
  cbn. split; [intros H; gi; constructor|inversion 1; reflexivity].
Qed.
Lemma opt_once v w w' : written_opt E v w -> written_opt E v w' -> w' = w.
Proof. intros H H'. apply opt_makes in H, H'. unfold makes in *. congruence. Qed.
Lemma or_true_once v w w' : written_or_true E v w -> written_or_true E v w' -> w' = w.
Proof. intros H H'. apply or_true_makes in H, H'. unfold makes in *. congruence. Qed.
Lemma opt_is o x v w : written_opt E o x -> o = Some v -> written E v w -> x = w.
Proof. intros H -> Hw. inversion H; subst. eapply written_once; eauto. Qed.
Lemma or_true_is o x v w : written_or_true E o x -> o = Some v -> written E v w -> x = w.
Proof. intros H -> Hw. inversion H; subst. eapply written_once; eauto. Qed.
Lemma snake_makes k i : makes (sxsnake E k) i <-> sp_ident E k i.
Proof.
  rewrite <- (snake_iff E). unfold sxsnake. destruct (sto_snake_ident E k); split; intros H; gi; try discriminate; auto.
  - now injection H as ->.
Qed.
Lemma ident_once k i i' : sp_ident E k i -> sp_ident E k i' -> i' = i.
Proof. intros H H'. apply snake_iff in H, H'. congruence. Qed.
Lemma key_makes k i : makes (sto_ident_or_emit E k) i -> exists k', k = SKKebab k' /\ sp_ident E k' i.
Proof. destruct k as [k|s v]; cbn [sto_ident_or_emit]; intros H; [exists k; split; auto; now apply snake_makes|gi]. Qed.

(** ** HTML *)
Lemma html_attr_makes e a t : makes (sxml_kv_attribute_tokens E a (skind_of (sel_tag e))) t ->
  exists w, written E (skv_value a) w /\
  (sk_repr (skv_key a) = "ref" /\ t = [dot Call; name_at (name_place E (skv_key a)) "node_ref"; in_parens Call w] \/
   sk_repr (skv_key a) <> "ref" /\ unchecked e (sk_repr (skv_key a)) /\
     t = [dot Call; name_at Call "attr"; in_parens Call (text_at Call (sk_repr (skv_key a)) :: comma Call ::
      path_at Call ["leptos"; "prelude"; "IntoAttributeValue"; "into_attribute_value"] ++ [in_parens Call w])] \/
   sk_repr (skv_key a) <> "ref" /\ ~ unchecked e (sk_repr (skv_key a)) /\
     exists i, sp_ident E (skv_key a) i /\ t = [dot Call; sident_token i; in_parens Call w]).
Proof.
  intros H. unfold sxml_kv_attribute_tokens in H. cbn zeta in H. destruct (String.eqb_spec (sk_repr (skv_key a)) "ref") as [Hr|Hr].
  - gi. match goal with H : makes (svalue_tokens _ _) ?w |- _ => apply value_makes in H; exists w; split; [exact H|] end. left. split; auto.
  - assert (Hk := attribute_kind_view (sk_repr (skv_key a))).
    match type of H with makes (if ?b then _ else _) _ => destruct b eqn:Hb end; gi;
    match goal with H : makes (svalue_tokens _ _) ?w |- _ => apply value_makes in H; exists w; split; [exact H|] end.
    + right. left. split; auto. split; [|reflexivity]. apply andb_prop in Hb as [Hb1 Hb2].
      unfold unchecked. split; auto. destruct Hk; cbn in Hb2; try discriminate.
      * now auto.
      * split; [assumption|]. split; [assumption|]. left. destruct (sel_tag e); cbn in Hb1; try discriminate; exact I.
    + right. right. split; auto. split.
      * intros (_ & H1 & H2 & H3). destruct Hk; auto.
        -- destruct (sel_tag e); discriminate.
        -- destruct H3 as [H3|H3]; [|auto]. destruct (sel_tag e); try destruct H3; discriminate.
      * match goal with H : makes (sxsnake _ _) ?i |- _ => apply snake_makes in H; exists i; split; [exact H|reflexivity] end.
Qed.

Lemma use_makes d fv : makes (suse_directive_fn_value E d) fv ->
  (exists k, sd_key d = SKKebab k /\ sp_ident E k (fst fv)) /\ (forall v w, sd_value d = Some v -> written E v w -> occurs w (snd fv)).
Proof.
  intros H. unfold suse_directive_fn_value in H. destruct (ident_is _ "use"); [|discriminate H].
  apply makes_bind in H as (? & _ & H). apply makes_bind in H as (f & Hf & H). apply makes_bind in H as (? & _ & H).
  apply key_makes in Hf as (k & Hk & Hf). destruct (sd_value d) as [v|].
  - gi. cbn [fst snd]. split; [eauto|]. intros v' w' [= <-] Hw.
    match goal with H : makes (svalue_tokens _ _) _ |- _ => apply value_makes in H; rewrite <- (written_once _ _ H _ Hw) in *; clear H end. sh. occ.
  - cbn zeta in H. gi. split; [eauto|discriminate].
Qed.
Lemma event_makes d t : makes (sevent_listener_event_path E d) t ->
  (forall k i, sd_key d = SKKebab k -> sp_ident E k i -> occurs [sident_token i] t) /\
  (forall m, sd_modifier d = Some m -> occurs [sident_token m] t).
Proof.
  intros H. unfold sevent_listener_event_path in H. destruct (ident_is _ "on"); [|discriminate H].
  apply makes_bind in H as (? & _ & H). apply makes_bind in H as (ev & Hev & H). cbn zeta in H.
  assert (Hi : forall k i, sd_key d = SKKebab k -> sp_ident E k i -> ev = i).
  { intros k i Hk Hi. rewrite Hk in Hev. apply snake_makes in Hev. eapply ident_once; eauto. }
  split.
  - intros k i Hk Hi'. rewrite <- (Hi k i Hk Hi'). destruct (sd_modifier d) as [m|]; [destruct (ident_is _ "undelegated")|]; gi; sh; occ.
  - intros m Hm. rewrite Hm in H. destruct (ident_is _ "undelegated"); gi. sh. occ.
Qed.
Lemma dir_name d s : (forall n, String.eqb (String "r" (String "#" n)) s = false) ->
  String.eqb (ident_to_string (si_ident (sd_dir d))) s = true <-> named_dir d s.
Proof.
  intros Hs. unfold named_dir. split; [now apply word_name|]. intros ->. cbn. apply String.eqb_refl.
Qed.
Lemma key_lit_eq k : key_lit E k = text_at (key_place E k) (key_text k).
Proof. destruct k; reflexivity. Qed.
Lemma html_dir_makes d t : makes (sxml_directive_tokens E d) t ->
  (named_dir d "class" \/ named_dir d "style" -> exists w, written_opt E (sd_value d) w /\ t = [dot Call; sident_token (sd_dir d);
          in_parens Call [in_parens Call (text_at (key_place E (sd_key d)) (key_text (sd_key d)) :: comma Call :: w)]]) /\
  (named_dir d "prop" -> exists w, written_opt E (sd_value d) w /\
    t = [dot Call; sident_token (sd_dir d); in_parens Call (text_at (key_place E (sd_key d)) (key_text (sd_key d)) :: comma Call :: w)]) /\
  (named_dir d "on" -> occurs [dot Call; sident_token (sd_dir d)] t /\
     (forall k i, sd_key d = SKKebab k -> sp_ident E k i -> occurs [sident_token i] t) /\
     (forall m, sd_modifier d = Some m -> occurs [sident_token m] t)) /\
  (named_dir d "use" -> occurs [dot Call; name_at (si_span (sd_dir d)) "directive"] t /\
     (forall k i, sd_key d = SKKebab k -> sp_ident E k i -> occurs [sident_token i; comma Call] t)) /\
  (forall v w, sd_value d = Some v -> written E v w -> occurs w t).
Proof.
  intros H. unfold sxml_directive_tokens in H. cbn zeta in H.
  assert (Hne : forall a b, named_dir d a -> named_dir d b -> a = b) by (unfold named_dir; intros a b -> [=]; auto).
  destruct (String.eqb (ident_to_string (si_ident (sd_dir d))) "class" || String.eqb (ident_to_string (si_ident (sd_dir d))) "style") eqn:H1.
  { apply makes_bind in H as (? & _ & H). gi. rewrite key_lit_eq.
    match goal with H : makes (sopt_value_tokens _ _) _ |- _ => apply opt_makes in H; rename H into Hw end.
    assert (Hn : named_dir d "class" \/ named_dir d "style") by (apply Bool.orb_prop in H1 as [H1|H1]; apply dir_name in H1; auto).
    split; [intros _; eexists; split; [eassumption|reflexivity]|].
    split; [intros Hx; destruct Hn as [Hn|Hn]; discriminate (Hne _ _ Hx Hn)|].
    split; [intros Hx; destruct Hn as [Hn|Hn]; discriminate (Hne _ _ Hx Hn)|].
    split; [intros Hx; destruct Hn as [Hn|Hn]; discriminate (Hne _ _ Hx Hn)|].
    intros v w Hv Hw'. rewrite (opt_is _ _ _ _ Hw Hv Hw'). sh. occ. }
  assert (N1 : ~ (named_dir d "class" \/ named_dir d "style")).
  { intros [Hx|Hx]; apply dir_name in Hx; try reflexivity; rewrite Hx in H1; [discriminate|]. now rewrite Bool.orb_true_r in H1. }
  split; [now intros Hx|].
  destruct (String.eqb (ident_to_string (si_ident (sd_dir d))) "prop") eqn:H2.
  { apply makes_bind in H as (? & _ & H). gi. rewrite key_lit_eq. apply dir_name in H2; [|reflexivity].
    match goal with H : makes (sopt_value_tokens _ _) _ |- _ => apply opt_makes in H; rename H into Hw end.
    split; [intros _; eexists; split; [eassumption|reflexivity]|].
    split; [intros Hx; discriminate (Hne _ _ Hx H2)|].
    split; [intros Hx; discriminate (Hne _ _ Hx H2)|].
    intros v w Hv Hw'. rewrite (opt_is _ _ _ _ Hw Hv Hw'). sh. occ. }
  split. { intros Hx. apply dir_name in Hx; [congruence|reflexivity]. }
  destruct (String.eqb (ident_to_string (si_ident (sd_dir d))) "on") eqn:H3.
  { gi. apply dir_name in H3; [|reflexivity].
    match goal with H : makes (sopt_value_tokens _ _) _ |- _ => apply opt_makes in H; rename H into Hw end.
    match goal with H : makes (sevent_listener_event_path _ _) _ |- _ => apply event_makes in H as [Ha Hb] end.
    split; [intros _; split; [|split]|].
    - sh. occ.
    - intros k i Hk Hi. specialize (Ha k i Hk Hi). revert Ha. sh. intros Ha. occ.
    - intros m Hm. specialize (Hb m Hm). revert Hb. sh. intros Hb. occ.
    - split; [intros Hx; discriminate (Hne _ _ Hx H3)|].
      intros v w Hv Hw'. rewrite (opt_is _ _ _ _ Hw Hv Hw'). sh. occ. }
  split. { intros Hx. apply dir_name in Hx; [congruence|reflexivity]. }
  destruct (String.eqb (ident_to_string (si_ident (sd_dir d))) "use") eqn:H4.
  { gi. match goal with H : makes (suse_directive_fn_value _ _) _ |- _ => apply use_makes in H as [(k & Hk & Hf) Hb] end.
    split; [intros _; split|].
    - sh. occ.
    - intros k' i' Hk' Hi'. rewrite Hk in Hk'. injection Hk' as <-. rewrite (ident_once _ _ _ Hf Hi'). sh. occ.
    - intros v w Hv Hw'. specialize (Hb v w Hv Hw'). sh. occ. }
  match type of H with makes (if ?b then _ else _) _ => destruct b end; gi.
Qed.

(** Parts of the loops. *)
Lemma html_loop_makes k l : forall acc r, makes (sxml_attr_loop E k l acc) r ->
  let '(x, y, z) := acc in let '(x', y', z') := r in
  (forall u, occurs u x -> occurs u x') /\ (forall u, occurs u y -> occurs u y') /\ (forall u, occurs u z -> occurs u z') /\
  forall a, In a l -> match a with
    | SAKv kv => exists t, makes (sxml_kv_attribute_tokens E kv k) t /\ occurs t x'
    | SADir d => exists t, makes (sxml_directive_tokens E d) t /\ occurs t y'
    | SASpread _ _ s => occurs s z'
    end.
Proof.
  induction l as [|a l IH]; intros [[x y] z] [[x' y'] z'] H; cbn [sxml_attr_loop] in H.
  { gi. injection H as <- <- <-. repeat split; auto. intros a []. }
  destruct a as [kv|d|b dd s].
  - apply makes_bind in H as (t & Ht & H). apply IH in H as (H1 & H2 & H3 & H4). split; [intros u Hu; apply H1; now apply occ_left|].
    split; auto. split; auto. intros a [<-|Ha]; [|exact (H4 a Ha)]. exists t. split; auto. apply H1, occ_right, occ_refl.
  - apply makes_bind in H as (t & Ht & H). apply IH in H as (H1 & H2 & H3 & H4). split; auto. split; [intros u Hu; apply H2; now apply occ_left|].
    split; auto. intros a [<-|Ha]; [|exact (H4 a Ha)]. exists t. split; auto. apply H2, occ_right, occ_refl.
  - apply IH in H as (H1 & H2 & H3 & H4). split; auto. split; auto. split; [intros u Hu; apply H3; now apply occ_left|].
    intros a [<-|Ha]; [|exact (H4 a Ha)]. apply H3, occ_right. unfold sxml_spread_tokens. sh. occ.
Qed.
Lemma selectors_makes sels s k :
  (In (SSelClass s k) sels -> occurs [dot Call; name_at s "class"; in_parens Call [in_parens Call [name_block_at k; comma Call; name_at Call "true"]]] (sxml_selectors_tokens sels)) /\
  (In (SSelId s k) sels -> occurs [dot Call; name_at s "id"; in_parens Call [name_block_at k]] (sxml_selectors_tokens sels)).
Proof.
  unfold sxml_selectors_tokens. rewrite partition_filters. split; intros H.
  - apply occ_left. apply occ_flat with (SSelClass s k); [now apply filter_In|]. apply occ_refl.
  - apply occ_right. apply occ_flat with (SSelId s k); [now apply filter_In|]. apply occ_refl.
Qed.
Lemma run_makes nodes l : makes (srun nodes) l ->
  map fst l = map fst nodes /\ forall n, In n nodes -> exists t, makes (snd n) t /\ In (fst n, t) l.
Proof.
  unfold srun. intros H. apply makes_seq in H.
  assert (H' : Forall2 (fun (n : snode) r => fst r = fst n /\ makes (snd n) (snd r)) nodes l).
  { revert l H. induction nodes as [|n nodes IH]; intros l H; inversion H as [|? r ? l' Hr Hl]; subst; constructor; auto. gi. auto. }
  clear H. induction H' as [|n r nodes l [H1 H2] _ [IH1 IH2]]; [split; [reflexivity|intros ? []]|]. split; [cbn; congruence|].
  intros n' [<-|Hin]; [exists (snd r); split; auto; left; rewrite <- H1; now destruct r|].
  destruct (IH2 n' Hin) as (t & ? & ?). exists t. split; auto. now right.
Qed.

(** ** Components *)
Lemma comp_attr_makes a t : makes (scomponent_kv_attribute_tokens E a) t ->
  exists i w, sp_ident E (skv_key a) i /\ written E (skv_value a) w /\
  t = [dot (joinx E (name_place E (skv_key a)) (value_place (skv_value a))); sident_token i;
       in_parens (joinx E (name_place E (skv_key a)) (value_place (skv_value a))) w].
Proof.
  intros H. unfold scomponent_kv_attribute_tokens in H. cbn zeta in H. gi.
  match goal with H : makes (svalue_tokens _ _) _ |- _ => apply value_makes in H end.
  match goal with H : makes (sxsnake _ _) _ |- _ => apply snake_makes in H end.
  do 2 eexists. split; [eassumption|]. split; [eassumption|]. reflexivity.
Qed.
Lemma clone_makes d t : makes (scomponent_clone_tokens E d) t ->
  sd_value d = None /\ exists k i, sd_key d = SKKebab k /\ sp_ident E k i /\
  t = [name_at Call "let"; sident_token i; SPunct Call "=" Alone; sident_token i; dot Call; name_at Call "clone";
          in_parens Call []; SPunct Call ";" Alone].
Proof.
  intros H. unfold scomponent_clone_tokens in H. apply makes_bind in H as (i & Hi & H). apply makes_bind in H as (? & _ & H).
  apply makes_bind in H as (? & Hv & H). gi. split; [destruct (sd_value d); [gi|reflexivity]|].
  apply key_makes in Hi as (k & Hk & Hi). exists k, i. auto.
Qed.
Lemma any_attr_makes d m t : sdirective_to_any_attr_path E d = Some m -> makes m t ->
  (named_dir d "class" \/ named_dir d "style" -> exists w, written_or_true E (sd_value d) w /\
     occurs [sident_token (sd_dir d); in_parens Call [in_parens Call (text_at Call (key_text (sd_key d)) :: comma Call :: w)]] t) /\
  (forall k, sd_key d = SKKebab k -> named_dir d "prop" \/ (named_dir d "attr" /\ ~ custom_name (sk_repr k)) ->
     exists i w, sp_ident E k i /\ written_or_true E (sd_value d) w /\ occurs [sident_token i; in_parens Call w] t) /\
  (named_dir d "attr" -> custom_name (key_text (sd_key d)) -> exists w, written_or_true E (sd_value d) w /\
     occurs [name_at Call "custom_attribute"; in_parens Call (text_at Call (key_text (sd_key d)) :: comma Call :: w)] t) /\
  (named_dir d "on" ->
     (forall k i, sd_key d = SKKebab k -> sp_ident E k i -> occurs [sident_token i] t) /\
     (forall m, sd_modifier d = Some m -> occurs [sident_token m] t)) /\
  (named_dir d "use" -> occurs [name_at (si_span (sd_dir d)) "directive"] t /\
     (forall k i, sd_key d = SKKebab k -> sp_ident E k i -> occurs [sident_token i; comma Call] t)) /\
  (forall v w, sd_value d = Some v -> written E v w -> occurs w t).
Proof.
  intros Hd H. unfold sdirective_to_any_attr_path in Hd. cbn zeta in Hd.
  assert (Hne : forall a b, named_dir d a -> named_dir d b -> a = b) by (unfold named_dir; intros a b -> [=]; auto).
  destruct (String.eqb (ident_to_string (si_ident (sd_dir d))) "class" || String.eqb (ident_to_string (si_ident (sd_dir d))) "style") eqn:H1.
  { injection Hd as <-. gi.
    match goal with H : makes (svalue_tokens _ _) _ |- _ => apply or_true_makes in H; rename H into Hw end.
    assert (Hn : named_dir d "class" \/ named_dir d "style") by (apply Bool.orb_prop in H1 as [H1|H1]; apply dir_name in H1; auto).
    assert (Hno : forall a, a <> "class" -> a <> "style" -> ~ named_dir d a).
    { intros a Ha Hb Hx. destruct Hn as [Hn|Hn]; [apply Ha|apply Hb]; eapply Hne; eauto. }
    split; [intros _; eexists; split; [eassumption|]; destruct (sd_key d); sh; occ|].
    split; [intros k _ [Hx|[Hx _]]; exfalso; refine (Hno _ _ _ Hx); discriminate|].
    split; [intros Hx; exfalso; refine (Hno _ _ _ Hx); discriminate|].
    split; [intros Hx; exfalso; refine (Hno _ _ _ Hx); discriminate|].
    split; [intros Hx; exfalso; refine (Hno _ _ _ Hx); discriminate|].
    intros v w Hv Hw'. rewrite (or_true_is _ _ _ _ Hw Hv Hw'). sh. occ. }
  assert (N1 : ~ (named_dir d "class" \/ named_dir d "style")).
  { intros [Hx|Hx]; apply dir_name in Hx; try reflexivity; rewrite Hx in H1; [discriminate|]. now rewrite Bool.orb_true_r in H1. }
  split; [now intros Hx|].
  destruct (String.eqb (ident_to_string (si_ident (sd_dir d))) "attr") eqn:H2.
  { injection Hd as <-. apply dir_name in H2; [|reflexivity].
    assert (Hkind := attribute_kind_view (key_text (sd_key d))). change (skey_string (sd_key d)) with (key_text (sd_key d)) in H.
    assert (Htail : forall X Y : Prop, (named_dir d "on" -> X) /\ (named_dir d "use" -> Y)).
    { intros X Y. split; intros Hx; discriminate (Hne _ _ Hx H2). }
    split; [intros k Hk Hx|split; [intros _ Hc|split; [apply (Htail _ True)|split; [apply (Htail True _)|]]]].
    - rewrite Hk in *. cbn [key_text] in Hkind, H. destruct Hx as [Hx|[_ Hx]]; [discriminate (Hne _ _ Hx H2)|]. destruct Hkind as [Hy|Hy|Hy Hy' Hz|Hy Hy' Hz]; [| |contradiction|];
      gi; match goal with H : makes (svalue_tokens _ _) _ |- _ => apply or_true_makes in H; rename H into Hw end;
      (match goal with H : makes (sto_ident_or_emit _ _) _ |- _ => apply key_makes in H as (k' & [= <-] & Hi) end);
      (do 2 eexists; split; [eassumption|split; [eassumption|]]; sh; occ).
    - destruct Hkind as [Hy|Hy|Hy Hy' Hz|Hy Hy' Hz]; try contradiction; try (rewrite Hy in Hc; exfalso; eapply custom_not_plain; [|exact Hc]; auto; fail).
      gi. match goal with H : makes (svalue_tokens _ _) _ |- _ => apply or_true_makes in H; rename H into Hw end.
      eexists. split; [eassumption|]. destruct (sd_key d); sh; occ.
    - intros v w Hv Hw'. destruct (attribute_kind_from (key_text (sd_key d))); gi;
      match goal with H : makes (svalue_tokens _ _) _ |- _ => apply or_true_makes in H; rewrite (or_true_is _ _ _ _ H Hv Hw') end; sh; occ. }
  assert (N2 : ~ named_dir d "attr"). { intros Hx. apply dir_name in Hx; [congruence|reflexivity]. }
  destruct (String.eqb (ident_to_string (si_ident (sd_dir d))) "prop") eqn:H3.
  { injection Hd as <-. apply dir_name in H3; [|reflexivity]. gi.
    match goal with H : makes (svalue_tokens _ _) _ |- _ => apply or_true_makes in H; rename H into Hw end.
    match goal with H : makes (sto_ident_or_emit _ _) _ |- _ => apply key_makes in H as (k' & Hk' & Hi) end.
    split; [intros k Hk _|]. { rewrite Hk' in Hk. injection Hk as <-. do 2 eexists. split; [eassumption|split; [eassumption|]]. sh. occ. }
    split; [now intros Hx|]. split; [intros Hx; discriminate (Hne _ _ Hx H3)|]. split; [intros Hx; discriminate (Hne _ _ Hx H3)|].
    intros v w Hv Hw'. rewrite (or_true_is _ _ _ _ Hw Hv Hw'). sh. occ. }
  assert (N3 : ~ named_dir d "prop"). { intros Hx. apply dir_name in Hx; [congruence|reflexivity]. }
  split; [intros k _ [Hx|[Hx _]]; contradiction|]. split; [now intros Hx|].
  destruct (String.eqb (ident_to_string (si_ident (sd_dir d))) "on") eqn:H4.
  { injection Hd as <-. gi. apply dir_name in H4; [|reflexivity].
    match goal with H : makes (sopt_value_tokens _ _) _ |- _ => apply opt_makes in H; rename H into Hw end.
    match goal with H : makes (sevent_listener_event_path _ _) _ |- _ => apply event_makes in H as [Ha Hb] end.
    split; [intros _; split|].
    - intros k i Hk Hi. specialize (Ha k i Hk Hi). revert Ha. sh. intros Ha. occ.
    - intros m Hm. specialize (Hb m Hm). revert Hb. sh. intros Hb. occ.
    - split; [intros Hx; discriminate (Hne _ _ Hx H4)|].
      intros v w Hv Hw'. rewrite (opt_is _ _ _ _ Hw Hv Hw'). sh. occ. }
  split. { intros Hx. apply dir_name in Hx; [congruence|reflexivity]. }
  destruct (String.eqb (ident_to_string (si_ident (sd_dir d))) "use") eqn:H5; [|discriminate].
  injection Hd as <-. gi. match goal with H : makes (suse_directive_fn_value _ _) _ |- _ => apply use_makes in H as [(k & Hk & Hf) Hb] end.
  split; [intros _; split|].
  - sh. occ.
  - intros k' i' Hk' Hi'. rewrite Hk in Hk'. injection Hk' as <-. rewrite (ident_once _ _ _ Hf Hi'). sh. occ.
  - intros v w Hv Hw'. specialize (Hb v w Hv Hw'). sh. occ.
Qed.
Lemma comp_selectors_makes sels l : makes (scomponent_selectors E sels) l ->
  (forall s k, In (SSelClass s k) sels ->
    exists t, In t l /\ occurs [name_at s "class"; in_parens Call [in_parens Call [text_at Call (sk_repr k); comma Call; name_at Call "true"]]] t) /\
  (forall s k, find (fun x => match x with SSelId _ _ => true | _ => false end) sels = Some (SSelId s k) ->
    exists t, In t l /\ occurs [SIdent s (Id true "id");
          in_parens Call [text_at Call (spaced (flat_map (fun x => match x with SSelId _ k => [sk_repr k] | _ => [] end) sels))]] t).
Proof.
  intros H. unfold scomponent_selectors in H. rewrite partition_filters in H. apply makes_bind in H as (cl & Hcl & H).
  apply makes_seq in Hcl.
  assert (Hc : forall s k, In (SSelClass s k) sels ->
    exists t, In t cl /\ occurs [name_at s "class"; in_parens Call [in_parens Call [text_at Call (sk_repr k); comma Call; name_at Call "true"]]] t).
  { intros s k Hin. destruct (forall2_in _ _ _ (sexpect_path (sdirective_to_any_attr_path E (sclass_directive s k))) Hcl) as (t & Ht & Hm).
    - apply in_map_iff. exists (SSelClass s k). split; [reflexivity|]. now apply filter_In.
    - exists t. split; auto. cbn -[sgpath scolon2] in Hm. injection Hm as <-. sh. occ. }
  destruct (filter (fun x => negb (ssel_is_class x)) sels) as [|x r] eqn:Hf.
  - gi. split; auto. intros s k Hx. exfalso. apply find_some in Hx as [Hx _].
    assert (Hin : In (SSelId s k) (filter (fun x => negb (ssel_is_class x)) sels)) by now apply filter_In. rewrite Hf in Hin. destruct Hin.
  - apply makes_bind in H as (i & Hi & H). gi. split.
    + intros s k Hx. destruct (Hc s k Hx) as (t & ? & ?). exists t. split; auto. apply in_or_app. auto.
    + intros s k Hx. exists i. split; [apply in_or_app; right; now left|].
      assert (Hxx : x = SSelId s k).
      { clear - Hf Hx. induction sels as [|[s' k'|s' k'] l IH]; cbn in *; try discriminate; eauto. injection Hf as <- _. injection Hx as -> ->. auto. }
      subst x.
      assert (Hids : map (fun s => sk_repr (ssel_kebab s)) (SSelId s k :: r) =
        flat_map (fun x => match x with SSelId _ k => [sk_repr k] | _ => [] end) sels).
      { rewrite <- Hf. clear. induction sels as [|[s k|s k] l IH]; cbn; auto. now rewrite IH. }
      rewrite Hids in Hi. cbn [prefix_span] in Hi. unfold sdirective_to_any_attr_path, sid_directive in Hi. cbn [sd_dir swd si_ident sd_key sd_value] in Hi.
      cbn -[sgpath scolon2 join_space kspan] in Hi. injection Hi as <-.
      assert (Hks : kspan E (SKebab "id" [s]) = s) by (unfold kspan; cbn; now apply join_self).
      rewrite Hks. match goal with |- context [join_space ?x] => replace (join_space x) with (spaced x) by (symmetry; apply join_spaced) end. sh. occ.
Qed.
Lemma comp_loop_makes slot l : forall acc r, makes (scomponent_attr_loop E slot l acc) r ->
  let '(x, y, z) := acc in let '(x', y', z') := r in
  (forall u, occurs u x -> occurs u x') /\ incl y y' /\ (forall u, occurs u z -> occurs u z') /\
  forall a, In a l -> match a with
    | SAKv kv => exists t, makes (scomponent_kv_attribute_tokens E kv) t /\ occurs t x'
    | SADir d =>
        named_dir d "clone" /\ (exists t, makes (scomponent_clone_tokens E d) t /\ occurs t z') \/
        ~ named_dir d "clone" /\ slot = false /\
          exists m t, sdirective_to_any_attr_path E d = Some m /\ makes m t /\ In t y'
    | SASpread _ _ s => slot = false /\ In s y'
    end.
Proof.
  induction l as [|a l IH]; intros [[x y] z] [[x' y'] z'] H; cbn [scomponent_attr_loop] in H.
  { gi. injection H as <- <- <-. split; auto. split; [apply incl_refl|]. split; auto. intros a []. }
  destruct a as [kv|d|b dd s].
  - apply makes_bind in H as (t & Ht & H). apply IH in H as (H1 & H2 & H3 & H4). split; [intros u Hu; apply H1; now apply occ_left|].
    split; auto. split; auto. intros a [<-|Ha]; [|exact (H4 a Ha)]. exists t. split; auto. apply H1, occ_right, occ_refl.
  - destruct (String.eqb (ident_to_string (si_ident (sd_dir d))) "clone") eqn:Hcl.
    + apply makes_bind in H as (? & _ & H). apply makes_bind in H as (t & Ht & H). apply IH in H as (H1 & H2 & H3 & H4). split; auto. split; auto.
      split; [intros u Hu; apply H3; now apply occ_left|]. intros a [<-|Ha]; [|exact (H4 a Ha)]. left.
      split; [now apply dir_name in Hcl|]. exists t. split; auto. apply H3, occ_right, occ_refl.
    + destruct slot; [gi|]. destruct (sdirective_to_any_attr_path E d) as [m|] eqn:Hm; [|gi].
      apply makes_bind in H as (t & Ht & H). apply IH in H as (H1 & H2 & H3 & H4). split; auto.
      split; [intros u Hu; apply H2; apply in_or_app; auto|]. split; auto. intros a [<-|Ha]; [|exact (H4 a Ha)]. right.
      split; [intros Hx; apply dir_name in Hx; [congruence|reflexivity]|]. split; auto. exists m, t. split; auto. split; auto.
      apply H2, in_or_app. right. now left.
  - destruct slot; [gi|]. apply IH in H as (H1 & H2 & H3 & H4). split; auto. split; [intros u Hu; apply H2; apply in_or_app; auto|]. split; auto.
    intros a [<-|Ha]; [|exact (H4 a Ha)]. split; auto. apply H2, in_or_app. right. now left.
Qed.
Lemma turbofish_makes g g' : makes (sturbofish_seg E g) g' -> sseg_ident g' = sseg_ident g /\
  forall tf ts, sseg_args g = SPAngle tf ts -> exists tf', sseg_args g' = SPAngle tf' ts.
Proof.
  unfold sturbofish_seg. destruct (sseg_args g) as [|[l|] ts|ts] eqn:Ha; intros H; gi; cbn; (split; [reflexivity|]); intros tf us Hx; try discriminate; rewrite ?Ha; injection Hx as <- <-; eauto.
Qed.
Lemma path_makes p p' : makes (sturbofishify E p) p' -> forall g, In g (segments p) ->
  occurs [sident_token (sseg_ident g)] (spath_tokens p') /\
  forall i tf ts, g = SPSeg i (SPAngle tf ts) -> occurs ts (spath_tokens p').
Proof.
  intros H g Hg. unfold sturbofishify in H. apply makes_bind in H as (f & Hf & H). apply makes_bind in H as (l & Hl & H). gi.
  apply makes_seq in Hl.
  assert (Hs : forall g g', makes (sturbofish_seg E g) g' -> occurs [sident_token (sseg_ident g)] (sseg_tokens g') /\
    forall i tf ts, g = SPSeg i (SPAngle tf ts) -> occurs ts (sseg_tokens g')).
  { clear. intros g g' H. apply turbofish_makes in H as [Hi Ha]. unfold sseg_tokens. rewrite Hi. split; [sh; occ|].
    intros i tf ts ->. destruct (Ha tf ts eq_refl) as (tf' & ->). sh. occ. }
  unfold spath_tokens. cbn [s_leading s_first s_more]. destruct Hg as [<-|Hg].
  - destruct (Hs _ _ Hf) as [H1 H2]. split; [occ|]. intros i tf ts Hx. specialize (H2 i tf ts Hx). occ.
  - apply in_map_iff in Hg as (x & <- & Hx).
    destruct (forall2_in _ _ _ (s <- sturbofish_seg E (snd x) ;; sxret (fst x, s)) Hl) as (y & Hy & Hm).
    + apply in_map_iff. eauto.
    + gi. match goal with H : makes (sturbofish_seg _ _) _ |- _ => destruct (Hs _ _ H) as [H1 H2] end.
      split; [|intros i tf ts Hz; specialize (H2 i tf ts Hz)]; apply occ_right, occ_right; (eapply occ_flat; [exact Hy|]; cbn [fst snd]; occ).
Qed.

(** ** Slots *)
Definition keys (m : list (sident * list (list stt))) : list ident := map (fun x => si_ident (fst x)) m.
Lemma insert_keep m j u k ts : In (k, ts) m -> exists ts', In (k, ts') (sslot_insert m j u) /\ incl ts ts'.
Proof.
  induction m as [|[k' l] m IH]; [easy|]. intros H. cbn [sslot_insert]. destruct (ident_eqb _ _).
  - destruct H as [[= <- <-]|H].
    + exists (l ++ [u]). split; [now left|]. intros x Hx. apply in_or_app. auto.
    + exists ts. split; [now right|apply incl_refl].
  - destruct H as [[= <- <-]|H]; [exists l; split; [now left|apply incl_refl]|]. destruct (IH H) as (ts' & ? & ?). exists ts'. split; auto. now right.
Qed.
Lemma insert_new m j u : exists k ts, In (k, ts) (sslot_insert m j u) /\ In u ts.
Proof.
  induction m as [|[k l] m (k' & ts & H1 & H2)]; cbn [sslot_insert]; [exists j, [u]; cbn; auto|]. destruct (ident_eqb _ _).
  - exists k, (l ++ [u]). split; [now left|]. apply in_or_app. cbn. auto.
  - exists k', ts. split; auto. now right.
Qed.
Lemma insert_keys m j u : keys (sslot_insert m j u) = keys m \/ ~ In (si_ident j) (keys m) /\ keys (sslot_insert m j u) = keys m ++ [si_ident j].
Proof.
  induction m as [|[k l] m IH]; cbn [sslot_insert]; [right; cbn; auto|].
  destruct (ident_eqb (si_ident j) (si_ident k)) eqn:He; [now left|]. cbn [keys map fst] in *. fold (keys (sslot_insert m j u)) (keys m).
  assert (Hn : si_ident k <> si_ident j) by (intros Hx; rewrite Hx in He; assert (Hy := proj2 (ident_eqb_iff (si_ident j) (si_ident j)) eq_refl); congruence).
  destruct IH as [-> | [H1 ->]]; [now left|right]. split; [|reflexivity]. cbn. intros [Hx|Hx]; auto.
Qed.
Lemma insert_first m j u : ~ In (si_ident j) (keys m) -> In (j, [u]) (sslot_insert m j u).
Proof.
  induction m as [|[k l] m IH]; cbn [sslot_insert keys map fst]; [cbn; auto|]. intros H.
  destruct (ident_eqb (si_ident j) (si_ident k)) eqn:He; [apply ident_eqb_iff in He; exfalso; apply H; now left|].
  right. apply IH. intros Hx. apply H. now right.
Qed.
Lemma insert_nodup m j u : NoDup (keys m) -> NoDup (keys (sslot_insert m j u)).
Proof.
  intros H. destruct (insert_keys m j u) as [-> | [H1 ->]]; auto. apply (Permutation.Permutation_NoDup (l := si_ident j :: keys m)); [|now constructor].
  apply Permutation.Permutation_cons_append.
Qed.
Lemma get_in m k ts : NoDup (keys m) -> In (k, ts) m -> sslot_get m (si_ident k) = (si_span k, ts).
Proof.
  induction m as [|[k' l] m IH]; [easy|]. cbn [keys map fst sslot_get]. intros Hn H. inversion Hn as [|? ? Hn1 Hn2]; subst.
  destruct H as [[= -> ->]|H]; [now rewrite (proj2 (ident_eqb_iff _ _) eq_refl)|].
  destruct (ident_eqb (si_ident k) (si_ident k')) eqn:He; [|auto]. apply ident_eqb_iff in He. exfalso. apply Hn1. rewrite <- He.
  apply (in_map (fun x => si_ident (fst x)) _ _ H).
Qed.
Definition tag_name (t : stag) : option sident := match t with STagComponent p => sget_ident p | _ => None end.
Lemma collect_makes l : forall m m', makes (scollect_slots E l m) m' -> NoDup (keys m) ->
  NoDup (keys m') /\
  (forall k ts, In (k, ts) m -> exists ts', In (k, ts') m' /\ incl ts ts') /\
  (forall x, In x l -> exists u k ts, makes (snd x) u /\ In (k, ts) m' /\ In u ts) /\
  (forall l1 x l2 i, l = l1 ++ x :: l2 -> tag_name (fst x) = Some i -> ~ In (si_ident i) (keys m) ->
     (forall y j, In y l1 -> tag_name (fst y) = Some j -> si_ident j <> si_ident i) -> exists ts, In (i, ts) m').
Proof.
  induction l as [|[t x] l IH]; intros m m' H Hn; cbn [scollect_slots] in H.
  { gi. split; auto. split; [intros k ts Hk; exists ts; split; auto; apply incl_refl|]. split; [intros ? []|]. intros [|] ? ? ? [=]. }
  destruct t as [i|p|i|i|k]; gi. destruct (sget_ident p) as [i|] eqn:Hp; [|gi]. apply makes_bind in H as (u & Hu & H).
  apply IH in H as (H1 & H2 & H3 & H4); [|now apply insert_nodup]. split; auto. split; [|split].
  - intros k ts Hk. destruct (insert_keep m i u k ts Hk) as (ts1 & Hk1 & Hi1). destruct (H2 k ts1 Hk1) as (ts2 & Hk2 & Hi2).
    exists ts2. split; auto. intros y Hy. auto.
  - intros y [<-|Hy]; [|auto]. destruct (insert_new m i u) as (k & ts & Hk & Hin). destruct (H2 k ts Hk) as (ts2 & Hk2 & Hi2).
    exists u, k, ts2. auto.
  - intros l1 y l2 j Hl Hy Hj Hl1. destruct l1 as [|z l1]; cbn [app] in Hl.
    + injection Hl as <- <-. cbn [fst tag_name] in Hy. rewrite Hp in Hy. injection Hy as <-. destruct (H2 i [u] (insert_first m i u Hj)) as (ts & ? & _). eauto.
    + injection Hl as <- ->. eapply H4; [reflexivity|exact Hy| |intros; eapply Hl1; [right; eassumption|assumption]].
      assert (Hz : si_ident i <> si_ident j) by (apply (Hl1 (STagComponent p, x) i); [now left|exact Hp]).
      destruct (insert_keys m i u) as [-> | [_ ->]]; auto. rewrite in_app_iff. cbn. tauto.
Qed.
Lemma method_makes k s ts t : makes (sslot_method k (s, ts)) t ->
  (forall u, In u ts -> occurs u t) /\ forall n, camel_snake (i_name k) n -> occurs [dot Call; SIdent s (Id true n)] t.
Proof.
  intros H. unfold sslot_method in H. cbn zeta in H. change (i_name (unraw k)) with (i_name k) in H.
  destruct (new_raw _) as [m|] eqn:Hm; [|gi]. apply new_raw_iff in Hm as [_ ->]. gi. cbn [fst snd]. split.
  - intros u Hu. 
    assert (Hc : occurs u ((fix commas (l : list (list stt)) : list stt :=
      match l with [] => [] | [s] => s | s :: r => s ++ [spu Call ","] ++ commas r end) ts)).
    { clear - Hu. induction ts as [|a [|b ts] IH]; [easy| |]; [destruct Hu as [<-|[]]; apply occ_refl|].
      destruct Hu as [<-|Hu]; [apply occ_left, occ_refl|]. apply occ_right, occ_right. auto. }
    destruct ts as [|a [|b ts]]; [easy| |]; [destruct Hu as [<-|[]]; sh; occ|]. sh. apply occ_skip, occ_skip, occ_group.
    do 6 apply occ_skip. apply occ_group. do 12 apply occ_skip. apply occ_group, occ_group. exact Hc.
  - intros n Hn. apply camel_iff in Hn as ->. destruct ts as [|a [|b ts]]; sh; occ.
Qed.
Lemma slots_makes at_ l t : makes (sslots_to_tokens E at_ l) t ->
  (forall x, In x l -> exists u, makes (snd x) u /\ occurs u t) /\
  (forall l1 x l2 i n, l = l1 ++ x :: l2 -> tag_name (fst x) = Some i ->
     (forall y j, In y l1 -> tag_name (fst y) = Some j -> si_ident j <> si_ident i) ->
     camel_snake (i_name (si_ident i)) n -> occurs [dot Call; SIdent (si_span i) (Id true n)] t).
Proof.
  intros H. unfold sslots_to_tokens in H. apply makes_bind in H as (m & Hm & H). apply makes_bind in H as (r & Hr & H). gi.
  apply makes_seq in Hr. apply collect_makes in Hm as (H1 & _ & H3 & H4); [|constructor].
  assert (Hget : forall k ts, In (k, ts) m -> exists u, makes (sslot_method (si_ident k) (si_span k, ts)) u /\ occurs u (List.concat r)).
  { intros k ts Hk. destruct (forall2_in _ _ _ (sslot_method (si_ident k) (sslot_get m (si_ident k))) Hr) as (u & Hu & Hmu).
    - apply in_map_iff. exists (si_ident k). split; [reflexivity|]. destruct HE as ((_ & _ & Ho) & _).
      eapply Permutation.Permutation_in; [apply Ho|]. apply (in_map (fun x => si_ident (fst x)) _ _ Hk).
    - rewrite (get_in m k ts H1 Hk) in Hmu. exists u. split; auto. eapply occ_concat; eauto. apply occ_refl. }
  split.
  - intros x Hx. destruct (H3 x Hx) as (u & k & ts & Hu & Hk & Hin). exists u. split; auto.
    destruct (Hget k ts Hk) as (v & Hv & Ho). apply method_makes in Hv as [Hv _]. eapply occ_trans; eauto.
  - intros l1 x l2 i n Hl Hx Hf Hn. destruct (H4 l1 x l2 i Hl Hx) as (ts & Hts); auto.
    destruct (Hget i ts Hts) as (v & Hv & Ho). apply method_makes in Hv as [_ Hv]. eapply occ_trans; eauto.
Qed.

(** ** Elements *)
Definition plain (l : list schild) : list schild := filter (fun c => match c with SCSlot _ _ => false | _ => true end) l.
Lemma nodes_spans at_ l : forall n, map fst (sexpand_nodes E at_ n l) = map (node_span E) (plain l).
Proof. induction l as [|[v|e|s e] l IH]; intros n; cbn [sexpand_nodes plain filter map fst]; auto; f_equal; auto; apply IH. Qed.
Lemma nodes_in at_ l c : In c (plain l) -> forall n, exists at', In (node_span E c, sexpand_node E at' c) (sexpand_nodes E at_ n l).
Proof.
  induction l as [|x l IH]; [easy|]. intros H n.
  assert (Hr : In c (plain l) -> exists at', In (node_span E c, sexpand_node E at' c) (sexpand_nodes E at_ n (x :: l))).
  { intros Hc. destruct (IH Hc (S n)) as (at' & Hat). exists at'. destruct x; cbn [sexpand_nodes]; auto; now right. }
  destruct x as [v|e|s e]; auto; (destruct H as [<-|H]; auto; exists (n :: at_); now left).
Qed.
Lemma slots_in at_ l s e : In (SCSlot s e) l -> forall n, exists at', In (sel_tag e, sexpand_element E at' true e) (sexpand_slots E at_ n l).
Proof.
  induction l as [|x l IH]; [easy|]. intros [->|H] n; [exists (n :: at_); now left|].
  destruct (IH H (S n)) as (at' & Hat). exists at'. destruct x; cbn [sexpand_slots]; auto; now right.
Qed.
Lemma slots_split at_ l1 s e l2 : forall n, exists y1 y2 m, sexpand_slots E at_ n (l1 ++ SCSlot s e :: l2) = y1 ++ (sel_tag e, m) :: y2 /\
  forall y, In y y1 -> exists s' e', In (SCSlot s' e') l1 /\ fst y = sel_tag e'.
Proof.
  induction l1 as [|x l1 IH]; intros n; cbn [app sexpand_slots].
  - exists [], (sexpand_slots E at_ (S n) l2). eexists. split; [reflexivity|]. intros ? [].
  - destruct (IH (S n)) as (y1 & y2 & m & -> & Hy). destruct x as [v|e'|s' e'].
    1, 2: exists y1, y2, m; split; auto; intros y Hin; destruct (Hy y Hin) as (a & b & ? & ?); exists a, b; split; auto; now right.
    exists ((sel_tag e', sexpand_element E (n :: at_) true e') :: y1), y2, m. split; [reflexivity|]. intros y [<-|Hin].
    + exists s', e'. split; [now left|reflexivity].
    + destruct (Hy y Hin) as (a & b & ? & ?). exists a, b. split; auto. now right.
Qed.

Lemma html_parts at_ e t : on_component e = false -> makes (sexpand_element E at_ false e) t ->
  (exists tp, sxml_tag_path E (sel_tag e) = Some tp /\ occurs tp t) /\
  (forall a, In (SAKv a) (sel_attrs e) -> exists u, makes (sxml_kv_attribute_tokens E a (skind_of (sel_tag e))) u /\ occurs u t) /\
  (forall d, In (SADir d) (sel_attrs e) -> exists u, makes (sxml_directive_tokens E d) u /\ occurs u t) /\
  (forall g dd s, In (SASpread g dd s) (sel_attrs e) -> occurs s t) /\
  occurs (sxml_selectors_tokens (sel_sels e)) t /\
  (forall c, In c (plain_children e) -> exists at' u, makes (sexpand_node E at' c) u /\ occurs (smethod (swd (node_span E c) "child") u) t).
Proof.
  destruct e as [tg sels attrs args ch]. intros Hc H. rewrite sexpand_element_eq in H. unfold selement_tokens, sxml_to_tokens in H.
  cbn [sel_tag sel_attrs sel_sels]. unfold plain_children. cbn [sel_children].
  destruct (sxml_tag_path E tg) as [tp|] eqn:Ht; [|destruct tg; discriminate].
  apply makes_bind in H as ([[kvs dirs] sps] & Hl & H). apply makes_bind in H as (chm & Hch & H). gi.
  apply html_loop_makes in Hl as (_ & _ & _ & Hl).
  split; [exists tp; split; auto; occ|]. 
  split; [intros a Ha; destruct (Hl _ Ha) as (u & Hu & Ho); exists u; split; auto; apply occ_right, occ_left; exact Ho|].
  split; [intros d Hd; destruct (Hl _ Hd) as (u & Hu & Ho); exists u; split; auto; apply occ_right, occ_right, occ_left; exact Ho|].
  split; [intros g dd s Hs; specialize (Hl _ Hs); cbn in Hl; do 4 apply occ_right; apply occ_left; exact Hl|].
  split; [do 3 apply occ_right; apply occ_left, occ_refl|].
  intros c Hin. destruct ch as [l|]; [|destruct Hin]. cbn [option_map] in Hch. unfold sxml_child_methods_tokens in Hch.
  apply makes_bind in Hch as (r & Hr & Hch). gi. apply run_makes in Hr as [_ Hr].
  destruct (nodes_in at_ l c Hin 0) as (at' & Hat). destruct (Hr _ Hat) as (u & Hu & Hru). cbn [snd] in Hu. exists at', u. split; auto.
  do 5 apply occ_right. exact (occ_flat _ r _ _ Hru (occ_refl _)).
Qed.

Definition build_at (s : span) : list stt := [dot s; name_at s "build"; in_parens s []].
Lemma comp_parts at_ slot e p t : sel_tag e = STagComponent p -> makes (sexpand_element E at_ slot e) t ->
  (exists p', makes (sturbofishify E p) p' /\ occurs (spath_tokens p') t /\ occurs (build_at (spath_span E p')) t) /\
  (slot = false -> exists ds, makes (scomponent_selectors E (sel_sels e)) ds /\ forall d, In d ds -> occurs d t) /\
  (forall a, In (SAKv a) (sel_attrs e) -> exists u, makes (scomponent_kv_attribute_tokens E a) u /\ occurs u t) /\
  (forall g dd s, In (SASpread g dd s) (sel_attrs e) -> occurs s t) /\
  (forall d, In (SADir d) (sel_attrs e) ->
     named_dir d "clone" /\ (exists u, makes (scomponent_clone_tokens E d) u /\ (plain_children e <> [] -> occurs u t)) \/
     ~ named_dir d "clone" /\ slot = false /\ exists m u, sdirective_to_any_attr_path E d = Some m /\ makes m u /\ occurs u t) /\
  (forall c, In c (plain_children e) -> exists at' u, makes (sexpand_node E at' c) u /\ occurs u t) /\
  (forall c r, plain_children e = c :: r -> occurs [dot Call; name_at (node_span E c) "children"] t /\
     forall ts, sel_args e = Some ts -> occurs (name_at (run_place E ts) "move" :: ts) t) /\
  (slot = false -> (forall s e', In (SCSlot s e') (sel_children e) -> exists at' u, makes (sexpand_element E at' true e') u /\ occurs u t) /\
     forall l1 c l2 i n, sel_children e = l1 ++ c :: l2 -> slot_name c = Some i ->
       (forall c' i', In c' l1 -> slot_name c' = Some i' -> si_ident i' <> si_ident i) ->
       camel_snake (i_name (si_ident i)) n -> occurs [dot Call; SIdent (si_span i) (Id true n)] t).
Proof.
  destruct e as [tg sels attrs args ch]. cbn [sel_tag sel_attrs sel_sels sel_args]. intros -> H. rewrite sexpand_element_eq in H.
  change (plain_children (SElement (STagComponent p) sels attrs args ch)) with (plain (schild_list ch)).
  change (sel_children (SElement (STagComponent p) sels attrs args ch)) with (schild_list ch).
  assert (H' : makes (sexpect_path (scomponent_to_tokens E at_ slot (STagComponent p) sels attrs args
    (option_map (sexpand_nodes E at_ 0) ch) (option_map (sexpand_slots E at_ 0) ch))) t) by (destruct slot; exact H).
  clear H. rename H' into H. cbn [scomponent_to_tokens sexpect_path] in H.
  apply makes_bind in H as (p' & Hp & H). apply makes_bind in H as (d0 & Hd0 & H). apply makes_bind in H as ([[props dirs] clones] & Hl & H).
  apply makes_bind in H as (chm & Hch & H). apply makes_bind in H as (sl & Hsl & H). cbn zeta in H.
  apply comp_loop_makes in Hl as (_ & Hd & _ & Hl).
  assert (Hpr : occurs (props ++ chm) t).
  { destruct slot; gi; sh; [do 12 apply occ_skip; apply occ_group, occ_right; do 4 apply occ_skip; rewrite app_assoc; apply occ_here|].
    do 14 apply occ_skip. apply occ_group. do 9 apply occ_skip. apply occ_group, occ_skip, occ_right. do 11 apply occ_skip. rewrite app_assoc. apply occ_here. }
  assert (Hin : slot = false -> occurs sl t /\ forall d, In d dirs -> occurs d t).
  { intros ->. gi. sh. split.
    - do 14 apply occ_skip. apply occ_group. do 9 apply occ_skip. apply occ_group, occ_skip, occ_right. do 11 apply occ_skip. occ.
    - intros d Hdi. do 14 apply occ_skip. apply occ_group. do 12 apply occ_skip. apply occ_group, occ_group.
      eapply occ_flat; [exact Hdi|]. occ. }
  assert (Hpa : occurs (spath_tokens p') t /\ occurs (build_at (spath_span E p')) t).
  { destruct slot; gi; unfold build_at; sh; split.
    - do 12 apply occ_skip. apply occ_group, occ_here.
    - do 12 apply occ_skip. apply occ_group, occ_right. do 4 apply occ_skip. do 2 apply occ_right. occ.
    - do 14 apply occ_skip. apply occ_group. do 9 apply occ_skip. apply occ_group, occ_skip, occ_here.
    - do 14 apply occ_skip. apply occ_group. do 9 apply occ_skip. apply occ_group, occ_skip, occ_right. do 11 apply occ_skip. do 3 apply occ_right. occ. }
  clear H. destruct Hpa as [Hpa Hbu].
  assert (Hoc : forall u, occurs u chm -> occurs u t) by (intros u Hu; eapply occ_trans; [|exact Hpr]; now apply occ_right).
  split; [eauto|]. split; [intros ->; exists d0; split; [exact Hd0|intros d Hin0; now apply Hin, Hd]|].
  split; [intros a Ha; destruct (Hl _ Ha) as (u & Hu & Ho); exists u; split; auto; eapply occ_trans; [|exact Hpr]; now apply occ_left|].
  split; [intros g dd s Hs; destruct (Hl _ Hs) as [Hf Ho]; now apply Hin|].
  assert (Hc : forall c r, plain (schild_list ch) = c :: r -> exists l, ch = Some l /\ schild_list ch = l /\
    makes (scomponent_children_tokens E (sexpand_nodes E at_ 0 l) args clones) chm).
  { intros c r Hcr. destruct ch as [l|]; [|discriminate]. exists l. split; auto. split; auto. cbn [option_map] in Hch.
    cbn [schild_list] in Hcr. assert (Hm := nodes_spans at_ l 0). rewrite Hcr in Hm. destruct (sexpand_nodes E at_ 0 l); [discriminate|exact Hch]. }
  assert (Hcl : forall c r, plain (schild_list ch) = c :: r -> occurs clones chm).
  { intros c r Hcr. destruct (Hc c r Hcr) as (l & _ & _ & Hm). unfold scomponent_children_tokens in Hm. cbn zeta in Hm. gi. sh. occ. }
  split. { intros d Hdi. destruct (Hl _ Hdi) as [[H1 (u & H2 & H3)]|(H1 & H2 & m & u & H3 & H4 & H5)]; [left|right].
    - split; auto. exists u. split; auto. intros Hne. destruct (plain (schild_list ch)) as [|c r] eqn:Hpl; [contradiction|].
      apply Hoc. eapply occ_trans; [exact H3|]. eapply Hcl; reflexivity.
    - split; auto. split; auto. exists m, u. split; auto. split; auto. now apply Hin. }
  split. { intros c Hci. destruct (plain (schild_list ch)) as [|c0 r0] eqn:Hpl; [destruct Hci|]. rewrite <- Hpl in Hci.
    destruct (Hc _ _ eq_refl) as (l & _ & Hll & Hm). rewrite Hll in *. destruct (nodes_in at_ l c Hci 0) as (at' & Hat).
    unfold scomponent_children_tokens in Hm. cbn zeta in Hm. apply makes_bind in Hm as (rr & Hr & Hm). apply run_makes in Hr as [_ Hr].
    destruct (Hr _ Hat) as (u & Hu & Hin'). exists at', u. split; auto. apply Hoc. gi.
    assert (Hfr : forall s, occurs u (schildren_fragment_tokens (map snd rr) s)).
    { intros s. unfold schildren_fragment_tokens. apply occ_right. sh. apply occ_group, occ_group. eapply occ_flat; [apply in_map; exact Hin'|].
      cbn [snd]. apply occ_left, occ_refl. }
    destruct args as [ar|]; unfold smethod; sh; apply occ_skip, occ_skip, occ_group, occ_group, occ_right.
    - apply occ_skip, occ_right, Hfr.
    - do 12 apply occ_skip. apply occ_group. do 3 apply occ_skip. apply Hfr. }
  split. { intros c r Hcr. destruct (Hc _ _ Hcr) as (l & _ & Hll & Hm). rewrite Hll in *.
    unfold scomponent_children_tokens in Hm. cbn zeta in Hm. assert (Hs := nodes_spans at_ l 0). rewrite Hcr in Hs.
    destruct (sexpand_nodes E at_ 0 l) as [|n0 ns] eqn:Hns; [discriminate|]. injection Hs as Hs _. rewrite Hs in Hm.
    split; [apply Hoc; gi; sh; occ|]. intros ts ->. apply Hoc. gi. rewrite (run_place_eq E HE). unfold smethod. sh.
    apply occ_skip, occ_skip, occ_group, occ_group, occ_right. match goal with |- occurs _ (?a :: ts ++ ?r) => exact (occ_here (a :: ts) r) end. }
  intros ->. destruct (Hin eq_refl) as [Hs _]. clear Hin. destruct ch as [l|]; cbn [schild_list option_map] in *.
  2: { split; [intros ? ? []|]. intros [|] ? ? ? ? [=]. }
  apply slots_makes in Hsl as [Hsa Hsb]. split.
  - intros s e' He'. destruct (slots_in at_ l s e' He' 0) as (at' & Hat). destruct (Hsa _ Hat) as (u & Hu & Ho). exists at', u. split; auto. eapply occ_trans; eauto.
  - intros l1 c l2 i n Hl1 Hci Hf Hn. destruct c as [v|e'|s' e']; try discriminate.
    assert (Htn : forall s e, slot_name (SCSlot s e) = tag_name (sel_tag e)) by (intros; reflexivity).
    destruct (slots_split at_ l1 s' e' l2 0) as (y1 & y2 & m & Hy & Hb). rewrite <- Hl1 in Hy.
    eapply occ_trans; [|exact Hs]. eapply Hsb; [exact Hy|rewrite <- Hci; symmetry; apply Htn| |exact Hn].
    intros y j Hyi Hyj. destruct (Hb y Hyi) as (a & b & Hab & Heq). rewrite Heq, <- (Htn a) in Hyj. eapply Hf; eauto.
Qed.
End Facts.

(** ** Views *)
Section View.
Variable E : senv.
Hypothesis HE : senv_ok E.
Variable input : list stt.
Variable cs : list schild.
Hypothesis Hsp : sp_children E input cs.

Definition shown (out : list stt) (c : schild) : Prop :=
  match c with
  | SCValue v => exists w, written E v w /\ occurs w out
  | SCElement e => exists at' t, makes (sexpand_element E at' false e) t /\ occurs t out
  | SCSlot _ e => exists at' t, makes (sexpand_element E at' true e) t /\ occurs t out
  end.
Lemma shown_node out at' c u : match c with SCSlot _ _ => False | _ => True end ->
  makes (sexpand_node E at' c) u -> occurs u out -> shown out c.
Proof.
  intros Hc H Ho. destruct c as [v|e|s e]; [| |easy]; cbn [sexpand_node] in H; apply makes_bind in H as (t & Ht & H); gi; cbn [shown].
  - exists t. split; [now apply value_makes|]. eapply occ_trans; [|exact Ho]. unfold sinto_render. sh. occ.
  - exists at', t. split; [exact Ht|]. eapply occ_trans; [|exact Ho]. unfold sinto_render. sh. occ.
Qed.
Lemma plain_in l c : In c (plain l) -> In c l /\ match c with SCSlot _ _ => False | _ => True end.
Proof. intros H. apply filter_In in H as [H1 H2]. split; auto. now destruct c. Qed.
Lemma component_tag e : on_component e = true -> exists p, sel_tag e = STagComponent p.
Proof. unfold on_component. destruct (sel_tag e); try discriminate. eauto. Qed.
Lemma slot_component at_ e t : makes (sexpand_element E at_ true e) t -> on_component e = true.
Proof.
  destruct e as [tg sels attrs args ch]. rewrite sexpand_element_eq. cbn [selement_tokens]. unfold on_component. cbn [sel_tag].
  destruct tg; auto; intros H; discriminate H.
Qed.
Lemma root_shown out : makes (sroot_tokens E cs) out -> forall c, In c cs -> shown out c.
Proof.
  intros H c Hc.
  assert (Hmany : find sis_slot cs = None -> makes (l <- srun (sexpand_nodes E [] 0 cs) ;;
          sxret [sgroup Call Brace ([spu Call "#"; sgroup Call Bracket [skw Call "allow"; spar Call [skw Call "unused_braces"]]] ++ schildren_fragment_tokens (map snd l) Call)]) out -> shown out c).
  { intros Hf Hm. assert (Hs : match c with SCSlot _ _ => False | _ => True end).
    { assert (Hx := find_none _ _ Hf c Hc). now destruct c. }
    assert (Hcp : In c (plain cs)) by (apply filter_In; split; auto; now destruct c).
    destruct (nodes_in E [] cs c Hcp 0) as (at' & Hat). apply makes_bind in Hm as (r & Hr & Hm). apply run_makes in Hr as [_ Hr].
    destruct (Hr _ Hat) as (u & Hu & Hin). apply shown_node with at' u; auto. gi. sh. apply occ_group. do 2 apply occ_skip.
    unfold schildren_fragment_tokens. apply occ_right. sh. apply occ_group, occ_group. eapply occ_flat; [apply in_map; exact Hin|]. cbn [snd]. apply occ_left, occ_refl. }
  unfold sroot_tokens in H. cbn zeta in H. clear Hsp. destruct cs as [|c0 [|c1 r]]; [easy| |].
  - destruct Hc as [<-|[]]. destruct c0 as [v|e|s e]; [| |gi]; (apply makes_bind in H as (u & Hu & H); gi; apply shown_node with [0] u; [exact I|exact Hu|sh; occ]).
  - destruct (find sis_slot (c0 :: c1 :: r)) eqn:Hf; [gi|]. apply Hmany; auto.
Qed.
Lemma live_shown out : makes (sroot_tokens E cs) out -> forall c, live cs c -> shown out c.
Proof.
  intros Hout c H. induction H as [c Hc|c e c' Hc IH He Hin|e s e' Hc IH He Hin].
  - now apply root_shown.
  - assert (Hel : exists slot at' t, makes (sexpand_element E at' slot e) t /\ occurs t out).
    { destruct c as [v|x|s x]; cbn in He; try discriminate; injection He as ->; destruct IH as (at' & t & H1 & H2); eauto. }
    destruct Hel as (slot & at' & t & H1 & H2). destruct (plain_in _ _ Hin) as [_ Hns].
    destruct (on_component e) eqn:Ho.
    + destruct (component_tag e Ho) as (p & Hp). destruct (comp_parts E HE _ _ _ _ _ Hp H1) as (_ & _ & _ & _ & _ & Hch & _).
      destruct (Hch c' Hin) as (at2 & u & Hu & Hu'). apply shown_node with at2 u; auto. eapply occ_trans; eauto.
    + destruct slot; [apply slot_component in H1; congruence|].
      destruct (html_parts E _ _ _ Ho H1) as (_ & _ & _ & _ & _ & Hch). destruct (Hch c' Hin) as (at2 & u & Hu & Hu').
      apply shown_node with at2 u; auto. eapply occ_trans; [|exact H2]. eapply occ_trans; [|exact Hu']. sh. occ.
  - destruct IH as (at' & t & H1 & H2). destruct (component_tag e He) as (p & Hp).
    destruct (comp_parts E HE _ _ _ _ _ Hp H1) as (_ & _ & _ & _ & _ & _ & _ & Hs). destruct (Hs eq_refl) as [Hs' _].
    destruct (Hs' s e' Hin) as (at2 & u & Hu & Hu'). exists at2, u. split; auto. eapply occ_trans; eauto.
Qed.
Lemma live_node c : live cs c -> node cs c.
Proof.
  induction 1 as [c Hc|c e c' _ IH He Hin|e s e' _ IH He Hin]; [now constructor| |].
  - apply plain_in in Hin as [Hin _]. eapply node_below; eauto.
  - eapply node_below; [exact IH|reflexivity|exact Hin].
Qed.
Lemma lives_elem b e : lives cs b e -> elem cs e.
Proof. destruct b; [intros (s & H)|intros H]; apply live_node in H; eexists; split; [exact H|reflexivity|exact H|reflexivity]. Qed.
Lemma lives_shown out b e : makes (sroot_tokens E cs) out -> lives cs b e -> exists at' t, makes (sexpand_element E at' b e) t /\ occurs t out.
Proof. intros Hout. destruct b; [intros (s & H)|intros H]; exact (live_shown out Hout _ H). Qed.
Lemma place_node e c : elem cs e -> In c (plain_children e) -> node_span E c = node_place E c.
Proof.
  intros (c0 & Hc0 & He) Hin. apply plain_in in Hin as [Hin Hs]. destruct c as [v|x|s x]; [reflexivity| |easy].
  assert (Hx : elem cs x) by (exists (SCElement x); split; [eapply node_below; eauto|reflexivity]).
  destruct (spelled_good E input cs Hsp x Hx) as [(ts & Hts) _]. exact (tag_span_eq E HE ts _ Hts).
Qed.
Lemma place_path e p p' : elem cs e -> sel_tag e = STagComponent p -> makes (sturbofishify E p) p' -> spath_span E p' = path_place E p.
Proof.
  intros He Ht Hm. destruct (elem_path E cs (spelled_good E input cs Hsp) e p He Ht) as [Hp (us & Hus)].
  assert (H := path_turbofish E HE cs p us Hus Hp). unfold makes in Hm. rewrite Hm in H. now apply (H p').
Qed.

Lemma kept_occurs out : makes (sroot_tokens E cs) out -> forall x, kept E cs x -> occurs x out.
Proof.
  intros Hout x Hx.
  assert (HH : forall e, lives cs false e -> on_component e = false -> exists t at', occurs t out /\ makes (sexpand_element E at' false e) t).
  { intros e He _. destruct (lives_shown out _ _ Hout He) as (at' & t & ? & ?). eauto. }
  assert (HC : forall b e, lives cs b e -> on_component e = true -> exists p t at', sel_tag e = STagComponent p /\ occurs t out /\ makes (sexpand_element E at' b e) t).
  { intros b e He Ho. destruct (lives_shown out _ _ Hout He) as (at' & t & ? & ?). destruct (component_tag e Ho) as (p & Hp). eauto 7. }
  assert (Tag : forall e p, sel_tag e = STagComponent p -> on_component e = true) by (unfold on_component; now intros e p ->).
  destruct Hx.
  Ltac html e := match goal with HH : forall e, lives _ false e -> _ = false -> _, H : lives _ false e |- _ =>
    destruct (HH e H) as (t & at' & Hto & Hm); [auto|]; eapply occ_trans; [|exact Hto]; apply html_parts in Hm as (P1 & P2 & P3 & P4 & P5 & P6); [|auto] end.
  Ltac comp e := match goal with HC : forall b e, lives _ b e -> _ = true -> _, HE : senv_ok ?E, H : lives _ ?b e |- _ =>
    destruct (HC b e H) as (p' & t & at' & Htag & Hto & Hm); [eauto|]; eapply occ_trans; [|exact Hto];
    destruct (comp_parts E HE _ _ _ _ _ Htag Hm) as (P1 & P2 & P3 & P4 & P5 & P6 & P7 & P8) end.
  - (* k_value *) destruct (live_shown out Hout _ H) as (w' & Hw & Ho). now rewrite (written_once E HE _ _ Hw _ H0) in *.
  - (* k_child *) html e. destruct (P6 c H1) as (at2 & u & _ & Ho). rewrite <- (place_node e c (lives_elem _ _ H) H1). eapply occ_trans; [|exact Ho]. sh. occ.
  - (* k_children *) comp e. destruct (P7 c r H1) as [Ho _]. rewrite <- (place_node e c (lives_elem _ _ H)); auto. rewrite H1. now left.
  - (* k_args *) comp e. destruct (plain_children e) as [|c r] eqn:Hpl; [contradiction|]. destruct (P7 c r eq_refl) as [_ Ho]. auto.
  - (* k_tag *) assert (Hc : on_component e = false) by (unfold on_component; now destruct H0 as [->|[->| ->]]). html e.
    destruct P1 as (tp & Htp & Ho). eapply occ_trans; [|exact Ho]. destruct H0 as [Ht|[Ht|Ht]]; rewrite Ht in Htp; injection Htp as <-; sh; occ.
  - (* k_web *) assert (Hc : on_component e = false) by (unfold on_component; now rewrite H0). html e.
    destruct P1 as (tp & Htp & Ho). eapply occ_trans; [|exact Ho]. rewrite H0 in Htp. injection Htp as <-. unfold kebab_lit. sh. occ.
  - (* k_segment *) comp e. rewrite H0 in Htag. injection Htag as <-. destruct P1 as (q & Hq & Ho & _). eapply occ_trans; [|exact Ho].
    now apply (path_makes E p q Hq g).
  - (* k_generics *) comp e. rewrite H0 in Htag. injection Htag as <-. destruct P1 as (q & Hq & Ho & _). eapply occ_trans; [|exact Ho].
    eapply (path_makes E p q Hq); eauto.
  - (* k_build *) comp e. rewrite H0 in Htag. injection Htag as <-. destruct P1 as (q & Hq & _ & Ho). rewrite <- (place_path e p q (lives_elem _ _ H) H0 Hq). exact Ho.
  - (* k_method *) html e. destruct (P2 a H1) as (u & Hu & Ho). apply html_attr_makes in Hu as (w' & Hw' & [[Hr _]|[(_ & Hu & _)|(_ & _ & i' & Hi' & ->)]]); auto; try contradiction.
    rewrite (ident_once E _ _ _ H4 Hi') in Ho. now rewrite (written_once E HE _ _ H5 _ Hw') in Ho.
  - (* k_ref *) html e. destruct (P2 a H1) as (u & Hu & Ho). apply html_attr_makes in Hu as (w' & Hw' & [[Hr ->]|[(Hn & _)|(Hn & _)]]); auto; try contradiction.
    now rewrite (written_once E HE _ _ H3 _ Hw') in Ho.
  - (* k_unchecked *) html e. destruct (P2 a H1) as (u & Hu & Ho).
    apply html_attr_makes in Hu as (w' & Hw' & [[Hr _]|[(_ & _ & ->)|(_ & Hn & _)]]); auto; try contradiction; [destruct H2; contradiction|].
    now rewrite (written_once E HE _ _ H3 _ Hw') in Ho.
  - (* k_prop *) comp e. destruct (P3 a H1) as (u & Hu & Ho). apply comp_attr_makes in Hu as (i' & w' & Hi' & Hw' & ->); auto. subst s.
    rewrite (ident_once E _ _ _ H2 Hi') in Ho. now rewrite (written_once E HE _ _ H3 _ Hw') in Ho.
  - (* k_spread *) destruct (on_component e) eqn:Ho.
    + comp e. eauto.
    + destruct b; [destruct (lives_shown out _ _ Hout H) as (at' & t & Hm & _); apply slot_component in Hm; congruence|]. html e. eauto.
  - (* k_class_style *) html e. destruct (P3 d H1) as (u & Hu & Ho). apply html_dir_makes in Hu as (Q & _); auto. destruct (Q H2) as (w' & Hw & ->).
    now rewrite (opt_once E HE _ _ _ H3 Hw) in Ho.
  - (* k_property *) html e. destruct (P3 d H1) as (u & Hu & Ho). apply html_dir_makes in Hu as (_ & Q & _); auto. destruct (Q H2) as (w' & Hw & ->).
    now rewrite (opt_once E HE _ _ _ H3 Hw) in Ho.
  - (* k_on *) html e. destruct (P3 d H1) as (u & Hu & Ho). apply html_dir_makes in Hu as (_ & _ & Q & _); auto. destruct (Q H2) as (Q1 & _). eapply occ_trans; eauto.
  - (* k_use *) html e. destruct (P3 d H1) as (u & Hu & Ho). apply html_dir_makes in Hu as (_ & _ & _ & Q & _); auto. destruct (Q H2) as (Q1 & _). eapply occ_trans; eauto.
  - (* k_on_class_style *) comp e. destruct (P5 d H1) as [[Hc _]|(_ & _ & m & u & Hm' & Hu & Ho)].
    { exfalso. unfold named_dir in *. rewrite Hc in H2. now destruct H2. }
    eapply any_attr_makes in Hu as (Q & _); eauto. destruct (Q H2) as (w' & Hw & Hoc). eapply occ_trans; [|exact Ho]. now rewrite (or_true_once E HE _ _ _ H3 Hw) in Hoc.
  - (* k_on_attr *) comp e. destruct (P5 d H1) as [[Hc _]|(_ & _ & m & u & Hm' & Hu & Ho)].
    { exfalso. unfold named_dir in *. rewrite Hc in H2. now destruct H2 as [?|[? _]]. }
    eapply any_attr_makes in Hu as (_ & Q & _); eauto. destruct (Q k H3 H2) as (i' & w' & Hi & Hw & Hoc). eapply occ_trans; [|exact Ho].
    rewrite (or_true_once E HE _ _ _ H5 Hw) in Hoc. now rewrite (ident_once E _ _ _ H4 Hi) in Hoc.
  - (* k_on_custom *) comp e. destruct (P5 d H1) as [[Hc _]|(_ & _ & m & u & Hm' & Hu & Ho)].
    { exfalso. unfold named_dir in *. rewrite Hc in H2. discriminate. }
    eapply any_attr_makes in Hu as (_ & _ & Q & _); eauto. destruct (Q H2 H3) as (w' & Hw & Hoc). eapply occ_trans; [|exact Ho]. now rewrite (or_true_once E HE _ _ _ H4 Hw) in Hoc.
  - (* k_on_use *) comp e. destruct (P5 d H1) as [[Hc _]|(_ & _ & m & u & Hm' & Hu & Ho)].
    { exfalso. unfold named_dir in *. rewrite Hc in H2. discriminate. }
    eapply any_attr_makes in Hu as (_ & _ & _ & _ & Q & _); eauto. destruct (Q H2) as (Q1 & _). eapply occ_trans; eauto.
  - (* k_clone *) comp e. destruct (P5 d H2) as [[_ (u & Hu & Ho)]|(Hc & _)]; [|contradiction].
    apply clone_makes in Hu as (_ & k' & i' & Hk & Hi & ->). rewrite H4 in Hk. injection Hk as <-. rewrite (ident_once E _ _ _ H5 Hi) in Ho. auto.
  - (* k_event *) destruct (on_component e) eqn:Hoc.
    + comp e. destruct (P5 d H0) as [[Hc _]|(_ & _ & m & u & Hm' & Hu & Ho)]. { exfalso. unfold named_dir in *. rewrite Hc in H1. discriminate. }
      eapply any_attr_makes in Hu as (_ & _ & _ & Q & _); eauto. destruct (Q H1) as (Q1 & _). eapply occ_trans; eauto.
    + html e. destruct (P3 d H0) as (u & Hu & Ho). apply html_dir_makes in Hu as (_ & _ & Q & _); auto. destruct (Q H1) as (_ & Q1 & _). eapply occ_trans; eauto.
  - (* k_undelegated *) destruct (on_component e) eqn:Hoc.
    + comp e. destruct (P5 d H0) as [[Hc _]|(_ & _ & m' & u & Hm' & Hu & Ho)]. { exfalso. unfold named_dir in *. rewrite Hc in H1. discriminate. }
      eapply any_attr_makes in Hu as (_ & _ & _ & Q & _); eauto. destruct (Q H1) as (_ & Q1). eapply occ_trans; eauto.
    + html e. destruct (P3 d H0) as (u & Hu & Ho). apply html_dir_makes in Hu as (_ & _ & Q & _); auto. destruct (Q H1) as (_ & _ & Q1). eapply occ_trans; eauto.
  - (* k_function *) destruct (on_component e) eqn:Hoc.
    + comp e. destruct (P5 d H0) as [[Hc _]|(_ & _ & m & u & Hm' & Hu & Ho)]. { exfalso. unfold named_dir in *. rewrite Hc in H1. discriminate. }
      eapply any_attr_makes in Hu as (_ & _ & _ & _ & Q & _); eauto. destruct (Q H1) as (_ & Q1). eapply occ_trans; eauto.
    + html e. destruct (P3 d H0) as (u & Hu & Ho). apply html_dir_makes in Hu as (_ & _ & _ & Q & _); auto. destruct (Q H1) as (_ & Q1). eapply occ_trans; eauto.
  - (* k_directive *) destruct (on_component e) eqn:Hoc.
    + comp e. destruct (P5 d H0) as [[_ (u & Hu & _)]|(_ & _ & m & u & Hm' & Hu & Ho)]. { apply clone_makes in Hu as [Hn _]. congruence. }
      eapply any_attr_makes in Hu as (_ & _ & _ & _ & _ & Q); eauto. eapply occ_trans; eauto.
    + destruct b; [destruct (lives_shown out _ _ Hout H) as (at' & t & Hm & _); apply slot_component in Hm; congruence|].
      html e. destruct (P3 d H0) as (u & Hu & Ho). apply html_dir_makes in Hu as (_ & _ & _ & _ & Q); auto. eapply occ_trans; eauto.
  - (* k_class *) html e. eapply occ_trans; [|exact P5]. now apply selectors_makes.
  - (* k_id *) html e. eapply occ_trans; [|exact P5]. now apply selectors_makes.
  - (* k_on_class *) comp e. destruct (P2 eq_refl) as (ds & Hds & Ho). apply comp_selectors_makes in Hds as [Q _]; auto. destruct (Q s k H1) as (u & Hu & Huo).
    eapply occ_trans; eauto.
  - (* k_on_id *) comp e. destruct (P2 eq_refl) as (ds & Hds & Ho). apply comp_selectors_makes in Hds as [_ Q]; auto. destruct (Q s k H1) as (u & Hu & Huo).
    eapply occ_trans; eauto.
  - (* k_slot *) comp e. destruct (P8 eq_refl) as [_ Q]. eapply Q; eauto.
Qed.
End View.
