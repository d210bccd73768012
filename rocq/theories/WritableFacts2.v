(** Every writable tree can be written. *)
From Verif Require Export WritableFacts.
From Coq Require Import Lia.
Open Scope list_scope.

(** ** What the tokens written for a phrase start with *)

Definition attr_start (f : list tt) : Prop :=
  match f with TIdent _ :: _ | TGroup Brace _ :: _ => True | TPunct c _ :: _ => c = "-"%char | _ => False end.
Definition finish (f : list tt) : Prop :=
  match f with TGroup Paren _ :: _ => True | TPunct c _ :: _ => c = ";"%char \/ c = "|"%char | _ => False end.
Definition opening (f : list tt) : Prop := finish f \/ attr_start f.
Definition starter (f : list tt) : Prop :=
  opening f \/ next_punct "." f \/ next_punct "#" f.

Lemma starter_cons f : starter f -> exists t r, f = t :: r /\
  match t with TIdent _ | TGroup Brace _ | TGroup Paren _ => True
  | TPunct c _ => c = "-"%char \/ c = ";"%char \/ c = "|"%char \/ c = "."%char \/ c = "#"%char | _ => False end.
Proof.
  intros H. destruct f as [|t r]; [destruct H as [[[]|[]]|[[]|[]]]|]. exists t, r. split; [reflexivity|].
  destruct H as [[H|H]|[[sp ->]|[sp ->]]]; [| |tauto|tauto].
  - destruct t as [|c sp| |[]]; cbn in *; try contradiction; tauto.
  - destruct t as [|c sp| |[]]; cbn in *; try contradiction; tauto.
Qed.
Ltac st H := let t := fresh "t" in let r := fresh "r" in let Hx := fresh "Hst" in
  destruct (starter_cons _ H) as (t & r & -> & Hx); cbn in *.
Lemma starter_punct f c : starter f -> next_punct c f -> ~ In c [":"; "="; "<"]%char.
Proof.
  intros H Hc Hi. st H. destruct Hc as [sp ->]. cbn in Hi.
  destruct Hi as [<-|[<-|[<-|[]]]]; decompose [or] Hst; discriminate.
Qed.
Lemma starter_bracket f : starter f -> ~ next_group Bracket f.
Proof. intros H Hb. st H. destruct t as [| | |[]]; try contradiction; discriminate. Qed.
Lemma starter_colon f : starter f -> ~ next_punct ":" f.
Proof. intros H Hx. apply (starter_punct _ _ H Hx). now left. Qed.
Lemma starter_eq f : starter f -> ~ next_punct "=" f.
Proof. intros H Hx. apply (starter_punct _ _ H Hx). right. now left. Qed.
Lemma starter_lt f : starter f -> ~ next_punct "<" f.
Proof. intros H Hx. apply (starter_punct _ _ H Hx). right. right. now left. Qed.

(** ** Values and attributes *)

Lemma value_written v : value_ok v -> exists ts, wf ts /\ ts <> [] /\ forall f, ~ next_group Bracket f -> value_phrase ts v f.
Proof.
  intros [k s H|k s Hk H|[|]|ts H|o ts Ho H].
  - exists [TLit k s]. split; [repeat constructor; auto|split; [discriminate|constructor]].
  - exists [TPunct "-" Alone; TLit k s]. split; [repeat constructor; auto|split; [discriminate|now constructor]].
  - exists [TIdent (Id false "true")]. split; [|split; [discriminate|now constructor]]. constructor; [split; [apply CountFacts.lexb_iff; reflexivity|discriminate]|constructor].
  - exists [TIdent (Id false "false")]. split; [|split; [discriminate|now constructor]]. constructor; [split; [apply CountFacts.lexb_iff; reflexivity|discriminate]|constructor].
  - exists [TGroup Brace ts]. split; [constructor; [now apply wf_group|constructor]|split; [discriminate|constructor]].
  - destruct o as [i|].
    + exists [TIdent i; TGroup Bracket ts]. split; [|split; [discriminate|constructor]].
      constructor; [now apply Ho|constructor; [now apply wf_group|constructor]].
    + exists [TGroup Bracket ts]. split; [constructor; [now apply wf_group|constructor]|split; [discriminate|constructor]].
Qed.
Lemma opt_written v : (forall x, v = Some x -> value_ok x) -> exists ts, wf ts /\
  (v = None -> ts = []) /\ (v <> None -> exists sp r, ts = TPunct "=" sp :: r) /\ forall f, starter f -> opt_value ts v f.
Proof.
  intros H. destruct v as [v|].
  - destruct (value_written v (H _ eq_refl)) as (ts & H1 & _ & H2). exists (TPunct "=" Alone :: ts).
    split; [apply wf_cons; split; [exact I|exact H1]|split; [discriminate|split; [eauto|]]].
    intros f Hf. constructor. apply H2. now apply starter_bracket.
  - exists []. split; [constructor|split; [auto|split; [congruence|]]]. intros f Hf. constructor. now apply starter_eq.
Qed.
Lemma stops_punct e c sp r : c <> "-"%char -> stops e (TPunct c sp :: r).
Proof. intros H. split; [intros [sp' Hx]; congruence|intros _ []]. Qed.
Lemma stops_group e d l r : stops e (TGroup d l :: r).
Proof. split; [intros [sp Hx]; discriminate|intros _ []]. Qed.
Lemma stops_ident_ok s i r : ~ ends_dash s -> stops (endsb s) (TIdent i :: r).
Proof. intros H. split; [intros [sp Hx]; discriminate|]. intros He. now apply endsb_iff in He. Qed.

(** A name as tokens. *)
Lemma name_tokens k : name_ok k -> exists ts, wf ts /\ ts <> [] /\ attr_start ts /\
  (forall f, stops (endsb (k_repr k)) f -> name ts k f) /\
  (forall c f, c <> "-"%char -> ~ next_punct c f -> ~ next_punct c (tl ts ++ f)) /\
  (~ starts_dash (k_repr k) -> exists i r, ts = TIdent i :: r).
Proof.
  intros H. destruct (name_written k H) as [(H1 & r & H2 & (e & H3) & H4)|(H1 & w & r & H2 & H3 & (e & H4) & _ & H5)].
  - exists (TPunct "-" Alone :: r). split; [now apply wf_cons|split; [discriminate|split; [reflexivity|split; [exact H4|split]]]].
    + intros c f Hc Hf. cbn [tl]. inversion H3; subst; [exact Hf|..]; intros [sp' Hx]; congruence.
    + intros Hx. contradiction.
  - exists (TIdent (Id false w) :: r). split; [apply wf_cons; split; [split; [exact H2|discriminate]|exact H3]|].
    split; [discriminate|split; [exact I|split; [apply H5|split]]].
    + intros c f Hc Hf. cbn [tl]. inversion H4; subst; [exact Hf|..]; intros [sp' Hx]; congruence.
    + eauto.
Qed.

Lemma attr_written o a : attr_ok a -> (forall s, o = Some s -> attr_after s a) ->
  exists ts, wf ts /\ attr_start ts /\ (forall s f, o = Some s -> stops (endsb s) (ts ++ f)) /\
    forall f, starter f -> (forall s, attr_end a = Some s -> stops (endsb s) f) -> attr_phrase ts a f.
Proof.
  intros Ha Ho. destruct a as [[k v]|[i k m v]|l].
  - destruct Ha as [Hk Hv].
    assert (Hkv : (forall s, o = Some s -> ~ starts_dash (k_repr k) /\ ~ ends_dash s) ->
      exists ts, wf ts /\ attr_start ts /\ (forall s f, o = Some s -> stops (endsb s) (ts ++ f)) /\
        forall f, starter f -> (forall s, attr_end (AKv (KvAttr k v)) = Some s -> stops (endsb s) f) -> attr_phrase ts (AKv (KvAttr k v)) f).
    { intros Hs. destruct (name_tokens k Hk) as (ts & W & Hne & Hst & Hn & Hc & Hi). destruct (value_written v Hv) as (vs & W' & _ & Hv').
      exists (ts ++ TPunct "=" Alone :: vs). split; [apply wf_app; split; [exact W|apply wf_cons; split; [exact I|exact W']]|].
      split; [destruct ts as [|t ts]; [contradiction|destruct t as [| | |[]]; exact Hst]|split].
      - intros s f E. destruct (Hs s E) as [S1 S2]. destruct (Hi S1) as (i & r & ->). cbn [app]. now apply stops_ident_ok.
      - intros f Hf _. apply (at_kv ts k (TPunct "=" Alone :: vs) (Some v) f).
        + apply Hn. cbn [app]. now apply stops_punct.
        + constructor. apply Hv'. now apply starter_bracket.
        + intros _. apply Hc; [discriminate|]. cbn. intros [sp Hx]. discriminate. }
    destruct o as [s|]; [|apply Hkv; discriminate]. specialize (Ho s eq_refl). inversion Ho as [|k' i Hi| k' v' S1 S2|]; subst.
    + destruct (name_tokens k Hk) as (ts & W & Hne & Hst & Hn & _ & _). exists [TGroup Brace ts].
      split; [constructor; [now apply wf_group|constructor]|split; [exact I|split]].
      * intros s' f _. apply stops_group.
      * intros f Hf _. apply at_short. constructor; [now apply Hn|exact Hi].
    + apply Hkv. intros s' [= <-]. auto.
  - destruct Ha as (Hi & Hk & Hm & Hv). destruct (opt_written v Hv) as (vs & Wv & V0 & V1 & Hv').
    assert (Hms : exists ms, wf ms /\ (m = None -> ms = []) /\ (m <> None -> exists sp r, ms = TPunct ":" sp :: r) /\
      forall f, ~ next_punct ":" f -> opt_modifier ms m f).
    { destruct m as [j|].
      - exists [TPunct ":" Alone; TIdent j]. split; [constructor; [exact I|constructor; [now apply Hm|constructor]]|].
        split; [discriminate|split; [eauto|constructor]].
      - exists []. split; [constructor|split; [auto|split; [congruence|]]]. now constructor. }
    destruct Hms as (ms & Wm & M0 & M1 & Hm').
    assert (Hks : exists ks, wf ks /\ forall f, starter f ->
      (forall s, attr_end (ADir (Directive i k m v)) = Some s -> stops (endsb s) f) -> key_phrase ks k (ms ++ vs ++ f)).
    { destruct k as [k|s].
      - destruct (name_tokens k Hk) as (ts & W & Hne & Hst & Hn & _ & _). exists ts. split; [exact W|]. intros f Hf He. constructor. apply Hn.
        destruct m as [j|].
        + destruct (M1 ltac:(discriminate)) as (sp & r & ->). cbn [app]. now apply stops_punct.
        + rewrite (M0 eq_refl). cbn [app]. destruct v as [v|].
          * destruct (V1 ltac:(discriminate)) as (sp & r & ->). cbn [app]. now apply stops_punct.
          * rewrite (V0 eq_refl). cbn [app]. apply He. reflexivity.
      - exists [TLit LkStr s]. split; [repeat constructor|]. intros. constructor. }
    destruct Hks as (ks & Wk & Hks). exists (TIdent i :: TPunct ":" Alone :: ks ++ ms ++ vs).
    split; [|split; [exact I|split]].
    + apply wf_cons. split; [exact Hi|]. apply wf_cons. split; [exact I|]. rewrite !wf_app. auto.
    + intros s f E. cbn [app]. apply stops_ident_ok. specialize (Ho s E). inversion Ho; subst; assumption.
    + intros f Hf He. apply at_dir; [now apply Hks| |now apply Hv']. apply Hm'. destruct v as [v|].
      * destruct (V1 ltac:(discriminate)) as (sp & r & ->). cbn. intros [sp' Hx]. discriminate.
      * rewrite (V0 eq_refl). now apply starter_colon.
  - exists [TGroup Brace (TPunct "." Joint :: TPunct "." Alone :: l)]. split; [|split; [exact I|split]].
    + constructor; [|constructor]. apply wf_group. constructor; [exact I|constructor; [exact I|exact Ha]].
    + intros s f _. apply stops_group.
    + intros f _ _. constructor.
Qed.

Lemma finish_stops e f : finish f -> stops e f.
Proof.
  destruct f as [|[|c sp| |d]]; try contradiction. 
  - intros [->| ->]; now apply stops_punct.
  - intros _. apply stops_group.
Qed.
Lemma finish_end f : finish f -> attrs_end f.
Proof. destruct f as [|[|c sp| |[]]]; cbn; try contradiction; auto. intros [->| ->]; discriminate. Qed.
Lemma attr_start_app f g : attr_start f -> attr_start (f ++ g).
Proof. destruct f as [|t f]; [contradiction|]. exact (fun H => H). Qed.

Lemma attrs_written l : forall o, Forall attr_ok l -> attrs_after o l ->
  exists ts, wf ts /\ forall f, finish f ->
    opening (ts ++ f) /\ (forall s, o = Some s -> stops (endsb s) (ts ++ f)) /\ attrs_phrase ts l f.
Proof.
  induction l as [|a l IH]; intros o Hl Ho.
  - exists []. split; [constructor|]. intros f Hf. split; [now left|split; [intros; now apply finish_stops|]]. constructor. now apply finish_end.
  - inversion Hl as [|x y Ha Hl']; subst. destruct Ho as [Ho1 Ho2]. destruct (IH _ Hl' Ho2) as (ts' & W' & H').
    destruct (attr_written o a Ha Ho1) as (ts & W & Hst & Hs & Hp). exists (ts ++ ts'). split; [now apply wf_app|].
    intros f Hf. destruct (H' f Hf) as (O1 & O2 & O3). rewrite <- app_assoc. split; [|split].
    + right. now apply attr_start_app.
    + intros s E. now apply Hs.
    + constructor; [|exact O3]. apply Hp; [now left|exact O2].
Qed.

(** ** Selectors *)

Definition last_name (o : option string) (l : list selector) : option string :=
  match rev l with x :: _ => Some (k_repr (selector_name x)) | [] => o end.
Lemma last_name_cons o a l : last_name o (a :: l) = last_name (Some (k_repr (selector_name a))) l.
Proof.
  unfold last_name. destruct l as [|b l]; [reflexivity|]. cbn [rev]. destruct (rev_last b l) as (y & m & Hy). cbn [rev] in Hy.
  rewrite Hy. reflexivity.
Qed.
Lemma opening_sel f : opening f -> selectors_end f.
Proof.
  intros H. destruct f as [|t f]; [exact I|]. cbn. intros [[sp ->]|[sp ->]]; exfalso; destruct H as [H|H]; cbn in H; intuition discriminate.
Qed.
Lemma selectors_written l : forall o, Forall (fun s => name_ok (selector_name s)) l ->
  exists ts, wf ts /\ forall f, opening f -> (forall s, last_name o l = Some s -> stops (endsb s) f) ->
    starter (ts ++ f) /\ (forall s, o = Some s -> stops (endsb s) (ts ++ f)) /\ selectors_phrase ts l f.
Proof.
  induction l as [|a l IH]; intros o Hl.
  - exists []. split; [constructor|]. intros f Hf Hs. split; [now left|split; [exact Hs|]]. constructor. now apply opening_sel.
  - inversion Hl as [|x y Ha Hl']; subst. destruct (IH (Some (k_repr (selector_name a))) Hl') as (ts' & W' & H').
    destruct (name_tokens _ Ha) as (ts & W & _ & _ & Hn & _ & _).
    set (c := match a with SelClass _ => "."%char | SelId _ => "#"%char end).
    exists ((TPunct c Alone :: ts) ++ ts'). split; [apply wf_app; split; [apply wf_cons; split; [exact I|exact W]|exact W']|].
    intros f Hf Hs. rewrite last_name_cons in Hs. destruct (H' f Hf Hs) as (O1 & O2 & O3). rewrite <- app_assoc. split; [|split].
    + destruct a; [right; right|right; left]; now exists Alone.
    + intros s _. cbn [app]. apply stops_punct. destruct a; discriminate.
    + constructor; [|exact O3]. specialize (Hn _ (O2 _ eq_refl)). destruct a; now constructor.
Qed.

(** ** Tags *)

Lemma no_reserved s : raw_ident_ok s -> forall k i, k_repr k = s -> ~ has_dash s -> i = Id true s -> name_ident_ok k i.
Proof.
  intros [Hl Hr] k i Hk Hd ->. subst s. unfold name_ident_ok. rewrite (no_dash_snake _ Hd). split; [|reflexivity].
  intros [H|H]; [|contradiction]. rewrite <- H in Hl. contradiction.
Qed.
Lemma lex_no_dash s : lex_ident s -> ~ has_dash s /\ endsb s = false.
Proof.
  intros H. pose proof (lex_word _ H) as [Hn Hf]. split; [|now apply word_last].
  intros Hd. unfold has_dash in Hd. rewrite Forall_forall in Hf. apply Hf in Hd. now apply cont_dash in Hd.
Qed.
Lemma one_word s f : raw_ident_ok s -> starter f -> stops false f ->
  wf [TIdent (Id true s)] /\ name [TIdent (Id true s)] (Kebab s 1) f /\ ~ path_follows ([TIdent (Id true s)] ++ f).
Proof.
  intros [Hl Hr] Hf Hs. split; [constructor; [split; [exact Hl|auto]|constructor]|split].
  - split; [econstructor; constructor|split; [|split; [constructor|]]].
    + eapply name_ends_iff; [econstructor; constructor|exact Hs].
    + cbn. now rewrite append_nil.
  - cbn. intros [(sp & r & Hx)|[(sp & r & Hx)|Hx]]; [discriminate| |].
    + cbn in Hx. apply (starter_colon _ Hf). rewrite Hx. now exists Joint.
    + now apply (starter_lt _ Hf).
Qed.

(** What may follow a path segment. *)
Definition after_seg (f : list tt) : Prop :=
  ~ next_punct "<" f /\ ~ next_punct "=" f /\ ~ (next_op ":" ":" f /\ next_punct "<" (tl (tl f))).
Lemma after_starter f : starter f -> after_seg f.
Proof.
  intros H. split; [now apply starter_lt|split; [now apply starter_eq|]]. intros [(sp & r & Hx) _]. apply (starter_colon _ H).
  rewrite Hx. now exists Joint.
Qed.
Lemma segment_written E s : env_ok E -> segment_ok E s -> exists i r, wf (TIdent i :: r) /\
  i <> Id false "true" /\ i <> Id false "false" /\
  (r = [] /\ (exists j, s = PSeg j PNone) \/ next_punct "<" r \/ next_op ":" ":" r) /\
  forall f, after_seg f -> segment_phrase E (TIdent i :: r) s f.
Proof.
  intros HE H.
  assert (Hb : forall i, plain_segment i \/ keyword_segment i -> i <> Id false "true" /\ i <> Id false "false").
  { intros i Hi. split; intros ->; (destruct Hi as [[Hi|[Hi|Hi]]|[Hi|[Hi|Hi]]]; try discriminate); apply Hi; unfold keyword_names; cbn [i_name In]; tauto. }
  destruct H as [i Hi Hk|i b g Hi Hp Hk (Wg & Hlt & f0 & Hg) Hop].
  - exists i, []. destruct (Hb i Hk). split; [constructor; [exact Hi|constructor]|split; [assumption|split; [assumption|split; [left; eauto|]]]].
    intros f (F1 & F2 & F3).
    assert (Hd : keyword_segment i \/ ~ keyword_segment i).
    { unfold keyword_segment. assert (D : forall a b : ident, a = b \/ a <> b).
      { intros [r n] [r' n']. destruct (Bool.bool_dec r r'), (string_dec n n'); subst; [left; reflexivity|right; congruence..]. }
      destruct (D i (Id false "super")), (D i (Id false "self")), (D i (Id false "crate")); tauto. }
    destruct Hd as [Hd|Hd]; [now apply seg_kw|]. apply seg_plain; [tauto|exact Hd|].
    intros [(G & _)|[G1 G2]]; tauto.
  - destruct (Hb i (or_introl Hp)). destruct (proj1 HE _ _ _ Hg) as (_ & _ & Hg').
    destruct b.
    + exists i, (TPunct ":" Joint :: TPunct ":" Alone :: g). split; [constructor; [exact Hi|constructor; [exact I|constructor; [exact I|exact Wg]]]|].
      split; [assumption|split; [assumption|split]].
      * right. right. exists Alone, g. reflexivity.
      * intros f _. now apply seg_turbofish.
    + destruct (Hop eq_refl) as [O1 O2]. exists i, g. split; [constructor; assumption|split; [assumption|split; [assumption|split; [tauto|]]]].
      intros f (F1 & F2 & F3). apply seg_generic; auto. left.
      destruct g as [|t g]; [contradiction|]. split; [exact Hlt|split].
      * intros (sp & r & Hx). destruct g as [|t' g].
        -- cbn in Hx. inversion Hx; subst. apply F2. now exists sp.
        -- cbn in Hx. inversion Hx; subst. apply O1. now exists sp, g.
      * intros (sp & r & Hx). destruct g as [|t' g].
        -- cbn in Hx. inversion Hx; subst. apply F1. now exists Joint.
        -- destruct g as [|t'' g].
           ++ cbn in Hx. inversion Hx; subst. apply F2. now exists sp.
           ++ cbn in Hx. inversion Hx; subst. apply O2. now exists sp, g.
Qed.
Lemma segments_written E l : env_ok E -> Forall (segment_ok E) l -> l <> [] -> exists i r, wf (TIdent i :: r) /\
  i <> Id false "true" /\ i <> Id false "false" /\
  (r = [] /\ (exists j, l = [PSeg j PNone]) \/ next_punct "<" r \/ next_op ":" ":" r) /\
  forall f, starter f -> segments_phrase E (TIdent i :: r) l f.
Proof.
  intros HE. induction 1 as [|s l Hs Hl IH]; intros Hn; [congruence|]. clear Hn.
  destruct (segment_written E s HE Hs) as (i & r & W & B1 & B2 & Hr & Hp). destruct l as [|s' l].
  - exists i, r. split; [exact W|split; [exact B1|split; [exact B2|split]]].
    + destruct Hr as [[-> [j ->]]|Hr]; [left; eauto|now right].
    + intros f Hf. constructor; [apply Hp; now apply after_starter|]. intros (sp & r0 & Hx). exfalso. apply (starter_colon _ Hf).
      rewrite Hx. now exists Joint.
  - destruct IH as (i' & r' & W' & _ & _ & _ & Hp'); [discriminate|].
    exists i, (r ++ TPunct ":" Joint :: TPunct ":" Alone :: TIdent i' :: r').
    change (TIdent i :: r ++ TPunct ":" Joint :: TPunct ":" Alone :: TIdent i' :: r') with ((TIdent i :: r) ++ TPunct ":" Joint :: TPunct ":" Alone :: TIdent i' :: r').
    split; [apply wf_app; split; [exact W|apply wf_cons; split; [exact I|apply wf_cons; split; [exact I|exact W']]]|].
    split; [exact B1|split; [exact B2|split]].
    + right. destruct Hr as [[-> _]|[Hr|(sp & x & ->)]].
      * right. exists Alone, (TIdent i' :: r'). reflexivity.
      * left. destruct r; [contradiction|exact Hr].
      * right. exists sp. eexists. reflexivity.
    + intros f Hf. apply segs_cons; [|now apply Hp']. apply Hp. split; [|split].
      * intros [sp Hx]. discriminate.
      * intros [sp Hx]. discriminate.
      * cbn. intros [_ [sp Hx]]. discriminate.
Qed.

(** The start of a child that is an element. *)
Definition child_start (ts : list tt) : Prop := exists i r, ts = TIdent i :: r /\
  i <> Id false "true" /\ i <> Id false "false" /\ ~ next_group Bracket r /\ (next_punct ":" r -> next_op ":" ":" r).
Lemma child_start_slot ts : child_start ts -> ~ slot_prefix ts.
Proof.
  intros (i & r & -> & _ & _ & _ & H) (sp & r' & Hx & Hn). inversion Hx; subst. destruct H as (sp' & r0 & H); [now exists sp|].
  inversion H; subst. apply Hn. split; [reflexivity|]. now exists sp'.
Qed.
Lemma child_start_value ts : child_start ts -> ~ (exists v ts' r, ts = ts' ++ r /\ value_phrase ts' v r).
Proof.
  intros (i & r & -> & B1 & B2 & B3 & _) (v & ts' & r' & Hx & Hv). inversion Hv; subst; cbn in Hx; inversion Hx; subst; try congruence.
Qed.
Lemma starter_child i r f : (forall f', starter f' -> ~ next_group Bracket (r ++ f') /\ (next_punct ":" (r ++ f') -> next_op ":" ":" (r ++ f'))) ->
  i <> Id false "true" -> i <> Id false "false" -> starter f -> child_start ((TIdent i :: r) ++ f).
Proof.
  intros H B1 B2 Hf. exists i, (r ++ f). destruct (H f Hf). split; [reflexivity|]. auto.
Qed.

Lemma tag_written E t : env_ok E -> tag_ok E t -> exists ts, wf ts /\ forall f, starter f ->
  (forall s, tag_name t = Some s -> stops (endsb s) f) ->
  tag_phrase E ts t f /\ (starts_word t -> child_start (ts ++ f)).
Proof.
  intros HE Ht.
  assert (Hone : forall s f, starter f -> child_start ([TIdent (Id true s)] ++ f)).
  { intros s f Hf. apply starter_child; [|discriminate|discriminate|exact Hf]. intros f' Hf'. split; [now apply starter_bracket|].
    intros Hx. now apply starter_colon in Hx. }
  assert (Hw1 : forall s, raw_ident_ok s -> wf [TIdent (Id true s)]).
  { intros s [Hl Hr]. constructor; [split; auto|constructor]. }
  destruct Ht as [s Hr Hk|s Hr Hk|s Hr Hk|s Hr Hk|b l Hn Hl Hs|k Hk Hkind].
  - exists [TIdent (Id true s)]. split; [now apply Hw1|]. intros f Hf Hst. destruct (lex_no_dash s (proj1 Hr)) as [Hd He].
    specialize (Hst s eq_refl). rewrite He in Hst. destruct (one_word s f Hr Hf Hst) as (_ & O2 & O3). split; [|intros _; now apply Hone].
    apply (tag_html E _ (Kebab s 1) (Id true s)); auto. now apply (no_reserved s).
  - exists [TIdent (Id true s)]. split; [now apply Hw1|]. intros f Hf Hst. destruct (lex_no_dash s (proj1 Hr)) as [Hd He].
    specialize (Hst s eq_refl). rewrite He in Hst. destruct (one_word s f Hr Hf Hst) as (_ & O2 & O3). split; [|intros _; now apply Hone].
    apply (tag_svg E _ (Kebab s 1) (Id true s)); auto. now apply (no_reserved s).
  - exists [TIdent (Id true s)]. split; [now apply Hw1|]. intros f Hf Hst. destruct (lex_no_dash s (proj1 Hr)) as [Hd He].
    specialize (Hst s eq_refl). rewrite He in Hst. destruct (one_word s f Hr Hf Hst) as (_ & O2 & O3). split; [|intros _; now apply Hone].
    apply (tag_math E _ (Kebab s 1) (Id true s)); auto. now apply (no_reserved s).
  - exists [TIdent (Id true s)]. split; [now apply Hw1|]. intros f Hf Hst. destruct (lex_no_dash s (proj1 Hr)) as [Hd He].
    specialize (Hst s eq_refl). rewrite He in Hst. destruct (one_word s f Hr Hf Hst) as (_ & O2 & O3). split; [|intros _; now apply Hone].
    apply (tag_component E _ (Kebab s 1) (Id true s)); auto; [now constructor|]. now apply (no_reserved s).
  - destruct (segments_written E l HE Hl Hn) as (i & r & W & B1 & B2 & Hr & Hp). destruct b.
    + exists (TPunct ":" Joint :: TPunct ":" Alone :: TIdent i :: r). split; [do 2 (apply wf_cons; split; [exact I|]); exact W|].
      intros f Hf _. split; [|intros Hx; discriminate Hx]. apply tag_path.
      * left. exists Alone. eexists. reflexivity.
      * constructor. now apply Hp.
    + assert (Hr' : next_punct "<" r \/ next_op ":" ":" r).
      { destruct Hr as [[_ [j Hj]]|Hr]; [|exact Hr]. exfalso. apply Hs. exists j. now rewrite Hj. }
      exists (TIdent i :: r). split; [exact W|]. intros f Hf _. split.
      * apply tag_path.
        -- right. cbn [app tl]. destruct Hr' as [Hx|(sp & x & ->)].
           ++ right. destruct r; [contradiction|exact Hx].
           ++ left. exists sp. eexists. reflexivity.
        -- constructor. now apply Hp.
      * intros _. apply starter_child; [|assumption|assumption|exact Hf]. intros f' _. destruct Hr' as [Hx|(sp & x & ->)].
        -- destruct r as [|t r]; [contradiction|]. destruct Hx as [sp ->]. cbn. split; [auto|]. intros [sp' Hx]. discriminate.
        -- cbn. split; [auto|]. intros _. exists sp. eexists. reflexivity.
  - destruct (name_written k Hk) as [(H1 & r & H2 & (e & H3) & H4)|(H1 & w & r & H2 & H3 & (e & H4) & _ & H5)].
    + exists (TPunct "-" Alone :: r). split; [now apply wf_cons|]. intros f Hf Hst. split; [|intros Hx; contradiction].
      apply tag_web; [|apply H4; now apply Hst|exact Hkind].
      cbn. intros [(sp & x & Hx)|[(sp & x & Hx)|Hx]]; [discriminate| |].
      * apply (starter_colon _ Hf). inversion H3; subst; cbn in Hx; try discriminate. rewrite Hx. now exists Joint.
      * apply (starter_lt _ Hf). inversion H3; subst; cbn in Hx; [exact Hx|destruct Hx; discriminate..].
    + set (raw := if string_dec w "true" then true else if string_dec w "false" then true else false).
      assert (Hraw : raw = true -> w = "true" \/ w = "false").
      { unfold raw. destruct (string_dec w "true"); [auto|]. destruct (string_dec w "false"); [auto|discriminate]. }
      assert (Hraw' : Id raw w <> Id false "true" /\ Id raw w <> Id false "false").
      { unfold raw. destruct (string_dec w "true"); [split; discriminate|]. destruct (string_dec w "false"); [split; discriminate|]. split; congruence. }
      destruct Hraw' as [B1 B2]. exists (TIdent (Id raw w) :: r). split.
      { apply wf_cons. split; [|exact H3]. split; [exact H2|]. cbn. intros Hx. destruct (Hraw Hx) as [-> | ->]; intros Hi; intuition discriminate. }
      intros f Hf Hst. split.
      * apply tag_web; [|apply H5; now apply Hst|exact Hkind].
        cbn. intros [(sp & x & Hx)|[(sp & x & Hx)|Hx]]; [discriminate| |].
        -- apply (starter_colon _ Hf). inversion H4; subst; cbn in Hx; try discriminate. rewrite Hx. now exists Joint.
        -- apply (starter_lt _ Hf). inversion H4; subst; cbn in Hx; [exact Hx|destruct Hx; discriminate..].
      * intros _. apply starter_child; [|assumption|assumption|exact Hf]. intros f' Hf'. inversion H4; subst; cbn.
        -- split; [now apply starter_bracket|]. intros Hx. now apply starter_colon in Hx.
        -- split; [auto|]. intros [sp' Hx]. discriminate.
Qed.

(** ** Elements and children *)

Scheme child_ok_mind := Minimality for child_ok Sort Prop
  with element_ok_mind := Minimality for element_ok Sort Prop.
Section Write.
Variable E : env.
Hypothesis HE : env_ok E.

Definition child_writable (c : child) : Prop := exists ts, wf ts /\ forall f, child_phrase E ts c f.
Definition element_writable (e : element) : Prop := exists ts, wf ts /\ forall f, element_phrase E ts e f /\
  (starts_word (el_tag e) -> child_start (ts ++ f)).

Lemma children_written cs : (forall c, In c cs -> child_writable c) -> exists ts, wf ts /\ children_phrase E ts cs.
Proof.
  induction cs as [|c cs IH]; intros H; [exists []; split; constructor|].
  destruct IH as (ts' & W' & H'); [intros x Hx; apply H; now right|]. destruct (H c (or_introl eq_refl)) as (ts & W & Hc).
  exists (ts ++ ts'). split; [now apply wf_app|]. now constructor.
Qed.
Lemma end_written args ch : args_ok args ch -> (forall c, In c (match ch with Some l => l | None => [] end) -> child_writable c) ->
  exists ts, wf ts /\ (forall f, finish (ts ++ f)) /\ element_end (children_phrase E) ts args ch.
Proof.
  intros Ha Hc. destruct ch as [cs|].
  - destruct (children_written cs Hc) as (ts & W & H). destruct args as [a|].
    + destruct Ha as (_ & inner & -> & Wi & Hp). exists (TPunct "|" Alone :: inner ++ TPunct "|" Alone :: [TGroup Paren ts]).
      split; [apply wf_cons; split; [exact I|apply wf_app; split; [exact Wi|]]|split; [intros f; now right|]].
      * constructor; [exact I|constructor; [now apply wf_group|constructor]].
      * constructor; [exact Hp|now constructor].
    + exists [TGroup Paren ts]. split; [constructor; [now apply wf_group|constructor]|split; [intros f; exact I|]]. constructor. now constructor.
  - destruct args as [a|]; [destruct Ha; congruence|]. exists [TPunct ";" Alone]. split; [repeat constructor|split; [intros f; now left|constructor]].
Qed.
Lemma element_written t sels attrs args ch : tag_ok E t -> Forall (fun s => name_ok (selector_name s)) sels -> Forall attr_ok attrs ->
  attrs_after (name_before t sels) attrs -> args_ok args ch ->
  (forall c, In c (match ch with Some l => l | None => [] end) -> child_writable c) -> element_writable (Element t sels attrs args ch).
Proof.
  intros Ht Hs Ha Haa Har Hc. destruct (end_written args ch Har Hc) as (ts4 & W4 & F4 & H4).
  destruct (attrs_written attrs _ Ha Haa) as (ts3 & W3 & H3). destruct (selectors_written sels (tag_name t) Hs) as (ts2 & W2 & H2).
  destruct (tag_written E t HE Ht) as (ts1 & W1 & H1). exists (ts1 ++ ts2 ++ ts3 ++ ts4).
  split; [rewrite !wf_app; auto|]. intros f. destruct (H3 (ts4 ++ f) (F4 f)) as (A1 & A2 & A3).
  destruct (H2 (ts3 ++ ts4 ++ f) A1 A2) as (S1 & S2 & S3). destruct (H1 (ts2 ++ ts3 ++ ts4 ++ f) S1 S2) as (T1 & T2).
  split; [econstructor; eassumption|]. cbn [el_tag]. intros Hw. rewrite <- !app_assoc. now apply T2.
Qed.
Theorem child_written c : child_ok E c -> child_writable c.
Proof.
  revert c. apply (child_ok_mind E child_writable element_writable).
  - intros v Hv Hl. destruct Hv as [k s H|k s Hk H|b|ts H|o ts Ho H].
    + destruct (Hl _ eq_refl) as [s' [= -> ->]]. exists [TLit LkStr s']. split; [repeat constructor|]. intros f. constructor; [constructor|exact Hl].
    + destruct (Hl _ eq_refl) as [s' [= -> Hx]]. destruct Hk; discriminate.
    + destruct (Hl _ eq_refl) as [s' Hx]. discriminate.
    + exists [TGroup Brace ts]. split; [constructor; [now apply wf_group|constructor]|]. intros f. constructor; [constructor|exact Hl].
    + destruct o as [i|].
      * exists [TIdent i; TGroup Bracket ts]. split; [constructor; [now apply Ho|constructor; [now apply wf_group|constructor]]|].
        intros f. constructor; [constructor|exact Hl].
      * exists [TGroup Bracket ts]. split; [constructor; [now apply wf_group|constructor]|]. intros f. constructor; [constructor|exact Hl].
  - intros e _ (ts & W & H) Hw. exists ts. split; [exact W|]. intros f. destruct (H f) as [H1 H2]. specialize (H2 Hw).
    assert (Hi : next_ident ts).
    { destruct ts as [|t ts]; [|destruct H2 as (i & r & Hx & _); injection Hx as -> _; exact I].
      exfalso. apply element_phrase_g_iff, element_nonempty in H1. congruence. }
    constructor; [exact H1|exact Hi|now apply child_start_slot|now apply child_start_value].
  - intros e _ (ts & W & H). exists (TIdent (Id false "slot") :: TPunct ":" Alone :: ts). split.
    + apply wf_cons. split; [|apply wf_cons; split; [exact I|exact W]]. split; [|discriminate]. apply CountFacts.lexb_iff. reflexivity.
    + intros f. apply ch_slot; [|apply H]. exists Alone, (ts ++ f). split; [reflexivity|]. intros [Hx _]. discriminate.
  - intros t sels attrs args ch Ht Hs Ha Haa Har _ Hc. now apply element_written.
Qed.
End Write.
