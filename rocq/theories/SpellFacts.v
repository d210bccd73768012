(** What a successful parse with spans has read. *)
From Verif Require Export SpecSpell Erase.
From Verif Require Import KebabFacts GrammarFacts SpecStr SpecGrammar.
Open Scope list_scope.
Open Scope sparse_scope.

(** A successful parse without diagnostics has consumed tokens in [S]. *)
Definition reads {A} (m : SP A) (S : list stt -> A -> Prop) : Prop :=
  forall sc ts a r, wf (erases ts) -> m sc ts = SPR (SRet a) r [] -> exists u, ts = u ++ r /\ S u a.
(** The same without [wf]. *)
Definition reads0 {A} (m : SP A) (S : list stt -> A -> Prop) : Prop :=
  forall sc ts a r, m sc ts = SPR (SRet a) r [] -> exists u, ts = u ++ r /\ S u a.
Lemma reads_of0 {A} (m : SP A) S : reads0 m S -> reads m S.
Proof. intros H sc ts a r _. apply H. Qed.

Lemma app_nil {A} (a b : list A) : [] = a ++ b -> a = [] /\ b = [].
Proof. intros H. symmetry in H. now apply app_eq_nil in H. Qed.

Lemma reads_ret {A} (a : A) (S : list stt -> A -> Prop) : S [] a -> reads (sret a) S.
Proof. intros H sc ts b r _ [= <- <-]. now exists []. Qed.
Lemma reads_fail {A} e (S : list stt -> A -> Prop) : reads (sfail e) S.
Proof. intros sc ts b r _ [=]. Qed.
Lemma reads_fail_at {A} e s (S : list stt -> A -> Prop) : reads (sfail_at e s) S.
Proof. intros sc ts b r _ [=]. Qed.
Lemma bind_inv {A B} (m : SP A) (f : A -> SP B) sc ts b r : sbind m f sc ts = SPR (SRet b) r [] ->
  exists a r1, m sc ts = SPR (SRet a) r1 [] /\ f a sc r1 = SPR (SRet b) r [].
Proof.
  unfold sbind. destruct (m sc ts) as [[a| | | |] r1 d1]; try discriminate.
  destruct (f a sc r1) as [o r2 d2] eqn:Ef. cbn. intros [= -> -> Hd].
  apply eq_sym, app_eq_nil in Hd as [-> ->] || (apply app_eq_nil in Hd as [-> ->]). eauto.
Qed.
Lemma reads_bind {A B} (m : SP A) (f : A -> SP B) S S' :
  reads m S -> (forall a u, S u a -> reads (f a) (fun u' b => S' (u ++ u') b)) -> reads (sbind m f) S'.
Proof.
  intros Hm Hf sc ts b r Hw. unfold sbind. destruct (m sc ts) as [[a|e s| |w|] r1 d] eqn:Em; try discriminate.
  destruct (f a sc r1) as [o r2 d2] eqn:Ef. cbn. intros [= -> -> Hd]. symmetry in Hd. apply app_nil in Hd as [-> ->].
  destruct (Hm _ _ _ _ Hw Em) as (u & -> & Hu). rewrite erases_app in Hw. apply wf_app in Hw as [_ Hw].
  destruct (Hf a u Hu _ _ _ _ Hw Ef) as (u' & -> & Hu').
  exists (u ++ u'). now rewrite app_assoc.
Qed.
Lemma reads_look {A B} (g : list stt -> A) (f : A -> SP B) S : (forall a, reads (f a) S) -> reads (sbind (slook g) f) S.
Proof. intros H sc ts b r Hw. unfold sbind, slook. cbn. destruct (f (g ts) sc ts) eqn:Ef. cbn. intros [= -> -> ->]. now apply (H (g ts) sc). Qed.
Lemma reads_emit {B} d s (f : unit -> SP B) S : reads (sbind (semit d s) f) S.
Proof. intros sc ts b r Hw. unfold sbind, semit. cbn. discriminate. Qed.
Lemma reads_unwrap {A} (m : SP A) S : reads m S -> reads (sunwrap m) S.
Proof. intros H sc ts a r Hw. unfold sunwrap. destruct (m sc ts) as [[] r1 d] eqn:Em; try discriminate. intros [= -> -> ->]. now apply (H sc). Qed.
Lemma reads_unwrap_or_abort {A} E (m : SP A) S : reads m S -> reads (sunwrap_or_abort E m) S.
Proof.
  intros H sc ts a r Hw. unfold sunwrap_or_abort. destruct (m sc ts) as [[] r1 d] eqn:Em; try discriminate.
  intros [= -> -> ->]. now apply (H sc).
Qed.
Lemma reads_rollback {A} (m : SP A) S : reads m S ->
  reads (srollback m) (fun u o => match o with Some a => S u a | None => u = [] end).
Proof.
  intros H sc ts a r Hw. unfold srollback. destruct (m sc ts) as [[] r1 d] eqn:Em; try discriminate.
  - intros [= <- <- ->]. now apply (H sc).
  - intros [= <- <- ->]. now exists [].
Qed.
Lemma reads0_rollback {A} (m : SP A) S : reads0 m S ->
  reads0 (srollback m) (fun u o => match o with Some a => S u a | None => u = [] end).
Proof.
  intros H sc ts a r. unfold srollback. destruct (m sc ts) as [[] r1 d] eqn:Em; try discriminate.
  - intros [= <- <- ->]. now apply (H sc).
  - intros [= <- <- ->]. now exists [].
Qed.
Lemma reads_weaken {A} (m : SP A) (S S' : list stt -> A -> Prop) : reads m S -> (forall u a, S u a -> S' u a) -> reads m S'.
Proof. intros H Hi sc ts a r Hw Hm. destruct (H _ _ _ _ Hw Hm) as (u & -> & Hu). eauto. Qed.
Lemma reads_if {A} (b : bool) (m m' : SP A) S : reads m S -> reads m' S -> reads (if b then m else m') S.
Proof. now destruct b. Qed.
Lemma reads_or_panic {A} w (o : option A) : reads (sor_panic w o) (fun u a => u = [] /\ o = Some a).
Proof. destruct o; [apply reads_ret; auto|]. intros sc ts a r _ [=]. Qed.

Lemma reads_here {B} (f : span -> SP B) S : (forall s, reads (f s) S) -> reads (sbind shere f) S.
Proof. intros H sc ts b r Hw Hm. apply bind_inv in Hm as (s & r1 & [= <- <-] & Hm). exact (H _ _ _ _ _ Hw Hm). Qed.
Lemma reads_fuel {A} (m : nat -> SP A) (g : list stt -> nat) S : (forall n, reads (m n) S) -> reads (fun sc ts => m (g ts) sc ts) S.
Proof. intros H sc ts a r Hw Hm. now apply (H (g ts) sc). Qed.

(** ** syn *)

Lemma stake_one c ts l r : c <> "'"%char -> stake_punct (String c EmptyString) ts = Some (l, r) ->
  exists s sp, ts = SPunct s c sp :: r /\ l = [s].
Proof.
  intros Hc. cbn. destruct ts as [|[| s c' sp | |] ts]; try discriminate. cbn.
  destruct (Ascii.eqb_spec c' "'") as [->|]; [discriminate|]. destruct (Ascii.eqb_spec c' c) as [->|]; [|discriminate].
  intros [= <- <-]. eauto.
Qed.
Lemma reads0_punct c : c <> "'"%char ->
  reads0 (sparse_punct (String c EmptyString)) (fun u l => exists s sp, u = [SPunct s c sp] /\ l = [s]).
Proof.
  intros Hc sc ts l r. unfold sparse_punct. destruct (stake_punct _ ts) as [[l' r']|] eqn:Et; [|discriminate].
  intros [= <- <-]. destruct (stake_one _ _ _ _ Hc Et) as (s & sp & -> & ->). exists [SPunct s c sp]. eauto.
Qed.
Lemma stake_two c d ts l r : c <> "'"%char -> d <> "'"%char ->
  stake_punct (String c (String d EmptyString)) ts = Some (l, r) ->
  exists s s' sp, ts = SPunct s c Joint :: SPunct s' d sp :: r /\ l = [s; s'].
Proof.
  intros Hc Hd. cbn. destruct ts as [|[| s c' sp | |] ts]; try discriminate. cbn.
  destruct (Ascii.eqb_spec c' "'") as [->|]; [discriminate|]. destruct (Ascii.eqb_spec c' c) as [->|]; [|discriminate].
  destruct sp; [discriminate|]. destruct ts as [|[| s' d' sp | |] ts]; try discriminate. cbn.
  destruct (Ascii.eqb_spec d' "'") as [->|]; [discriminate|]. destruct (Ascii.eqb_spec d' d) as [->|]; [|discriminate].
  intros [= <- <-]. eauto 6.
Qed.
Lemma reads_colons : reads (sparse_punct "::") sp_colons.
Proof.
  intros sc ts l r _. unfold sparse_punct. destruct (stake_punct _ ts) as [[l' r']|] eqn:Et; [|discriminate].
  intros [= <- <-]. apply stake_two in Et as (s & s' & sp & -> & ->); try discriminate.
  exists [SPunct s ":" Joint; SPunct s' ":" sp]. split; [reflexivity|constructor].
Qed.
Lemma reads0_any : reads0 sparse_any (fun u i => u = [SIdent (si_span i) (si_ident i)]).
Proof. intros sc [|[s i|s c sp|s k v|b d l] ts] x r; cbn; try discriminate. intros [= <- <-]. now exists [SIdent s i]. Qed.
Lemma reads_punct c : c <> "'"%char ->
  reads (sparse_punct (String c EmptyString)) (fun u l => exists s sp, u = [SPunct s c sp] /\ l = [s]).
Proof. intros. now apply reads_of0, reads0_punct. Qed.
Lemma reads_any : reads sparse_any (fun u i => u = [SIdent (si_span i) (si_ident i)]).
Proof. apply reads_of0, reads0_any. Qed.
Lemma reads_ident : reads sparse_ident (fun u i => u = [SIdent (si_span i) (si_ident i)]).
Proof.
  intros sc [|[s i|s c sp|s k v|b d l] ts] x r _; cbn; try discriminate. destruct (accept_as_ident _); [|discriminate].
  intros [= <- <-]. now exists [SIdent s i].
Qed.
Lemma reads_extract d : reads (sextract d) (fun u x => u = [SGroup (fst x) d (snd x)]).
Proof.
  intros sc [|[s i|s c sp|s k v|b d' l] ts] x r _; cbn; try discriminate. destruct (delim_eqb d d') eqn:Ed; [|discriminate].
  intros [= <- <-]. exists [SGroup b d' l]. split; [reflexivity|]. cbn. now destruct d, d'.
Qed.
Lemma reads_tt : reads sparse_tt (fun u t => u = [t]).
Proof. intros sc [|t ts] x r _; cbn; try discriminate. intros [= <- <-]. now exists [t]. Qed.
Lemma reads_delimited {A} d (m : SP A) S : reads m S ->
  reads (sdelimited d m) (fun u x => exists inner, u = [SGroup (fst x) d inner] /\ S inner (snd x)).
Proof.
  intros Hm sc [|[| | |b d' inner] ts] x r Hw; cbn; try discriminate. destruct (delim_eqb d d') eqn:Ed; [|discriminate].
  destruct (m (d_close b) inner) as [[a| | | |] [|] ds] eqn:Em; try discriminate.
  intros [= <- <- ->]. apply wf_cons in Hw as [Hw _]. apply wf_group in Hw.
  destruct (Hm _ _ _ _ Hw Em) as (u & -> & Hu). rewrite app_nil_r.
  exists [SGroup b d' u]. split; [reflexivity|]. exists u. cbn. split; [now destruct d, d'|exact Hu].
Qed.

(** ** Values *)

Lemma reads_lit E : reads (sparse_lit E) (fun u l => sp_value E u (SVLit l)).
Proof.
  intros sc ts l r _. unfold sparse_lit, stake_lit. destruct ts as [|[s i|s c sp|s k v|] ts]; try discriminate.
  - unfold ident_is, ident_to_string. destruct i as [[] n]; cbn [i_raw i_name].
    + cbn. discriminate.
    + change ("" ++ n)%string with n. destruct (String.eqb_spec n "true") as [->|]; [intros [= <- <-]; exists [SIdent s (Id false "true")]; split; [reflexivity|constructor]|].
      destruct (String.eqb_spec n "false") as [->|]; [|discriminate].
      intros [= <- <-]. exists [SIdent s (Id false "false")]. split; [reflexivity|constructor].
  - destruct ts as [|[| |s' k v|] ts]; try discriminate. destruct (Ascii.eqb_spec c "-") as [->|]; [|discriminate].
    destruct k; try discriminate; intros [= <- <-];
      [exists [SPunct s "-" sp; SLit s' LkInt v]|exists [SPunct s "-" sp; SLit s' LkFloat v]]; (split; [reflexivity|constructor]).
  - intros [= <- <-]. exists [SLit s k v]. split; [reflexivity|constructor].
Qed.
Lemma reads_value E : reads (sparse_value E) (sp_value E).
Proof.
  unfold sparse_value. apply reads_look. intros []. 
  { eapply reads_bind; [apply reads_unwrap, reads_extract|]. intros [b ts] u ->. apply reads_ret. constructor. }
  apply reads_look. intros [].
  { eapply reads_bind; [apply reads_unwrap, reads_any|]. intros [s i] u ->.
    eapply reads_bind; [apply reads_unwrap, reads_extract|]. intros [b ts] u ->. apply reads_ret. constructor. }
  apply reads_look. intros [].
  { eapply reads_bind; [apply reads_unwrap, reads_extract|]. intros [b ts] u ->. apply reads_ret. constructor. }
  apply reads_look. intros [].
  { eapply reads_bind; [apply reads_unwrap, reads_lit|]. intros l u H. apply reads_ret. now rewrite app_nil_r. }
  apply reads_fail.
Qed.
Lemma reads_or_emit E s : reads (sparse_or_emit_err E s) (sp_value E).
Proof.
  unfold sparse_or_emit_err. eapply reads_bind; [apply reads_rollback, reads_value|]. intros [v|] u H.
  - apply reads_ret. now rewrite app_nil_r.
  - apply reads_look. intros ts sc r b r' _. unfold sbind. destruct ts; discriminate.
Qed.

(** ** Names *)

Lemma reads0_int E : reads0 (sparse_lit_int E) (fun u n =>
  (exists s v, u = [SLit s LkInt v] /\ n = (s, v)) \/
  (exists s sp s' v, u = [SPunct s "-" sp; SLit s' LkInt v] /\ n = (joinx E s s', ("-" ++ v)%string))).
Proof.
  intros sc ts [s0 v0] r. unfold sparse_lit_int, stake_lit.
  destruct ts as [|[s i|s c sp|s k v|] ts]; try discriminate.
  - destruct (ident_is i "true"); [discriminate|]. destruct (ident_is i "false"); discriminate.
  - destruct ts as [|[| |s' k v|] ts]; try discriminate. destruct (Ascii.eqb_spec c "-") as [->|]; [|discriminate].
    destruct k; try discriminate. intros [= <- <- <-]. exists [SPunct s "-" sp; SLit s' LkInt v].
    split; [reflexivity|]. right. eauto 7.
  - destruct k; try discriminate. intros [= <- <- <-]. exists [SLit s LkInt v]. split; [reflexivity|]. left. eauto.
Qed.
(** No integer comes next, not even a negative one. *)
Definition no_int (ts : list stt) : Prop :=
  match ts with
  | SLit _ LkInt _ :: _ => False
  | SPunct _ c _ :: SLit _ LkInt _ :: _ => c <> "-"%char
  | _ => True
  end.
Lemma int_none E sc ts r d : srollback (sparse_lit_int E) sc ts = SPR (SRet None) r d -> no_int ts.
Proof.
  unfold srollback, sparse_lit_int, stake_lit, no_int.
  destruct ts as [|[s i|s c sp|s k v|] ts]; auto.
  - destruct ts as [|[| |s' k v|] ts]; auto. destruct k; auto.
    destruct (Ascii.eqb_spec c "-"); [discriminate|auto].
  - destruct k; auto; discriminate.
Qed.
Lemma sections_no_int E u r e : no_int (u ++ r) -> run true (erases u) e -> sections E true u = sections E false u.
Proof.
  intros H Hr. destruct u as [|[| s c sp | |] [|[| |s' k v|] u]]; try reflexivity.
  cbn in Hr. inversion Hr as [|? ? ? ? H1| |]; subst. inversion H1; subst. cbn in H. congruence.
Qed.
Lemma name_text_cons t u : name_text (t :: u) = (token_text t ++ name_text u)%string.
Proof. reflexivity. Qed.
Lemma str_app_assoc a b c : ((a ++ b) ++ c)%string = (a ++ (b ++ c))%string.
Proof. induction a as [|x a IH]; cbn; [reflexivity|]. now rewrite IH. Qed.
Lemma str_app_nil a : (a ++ "")%string = a.
Proof. induction a as [|x a IH]; cbn; [reflexivity|]. now rewrite IH. Qed.

(** What the loop adds to a name, [b] saying whether a word can come first. *)
Definition adds (E : senv) (b : bool) (k : skebab) (u : list stt) (k' : skebab) : Prop :=
  sk_repr k' = (sk_repr k ++ name_text (erases u))%string /\
  sk_spans k' = sk_spans k ++ sections E b u /\ exists e, run b (erases u) e.

Lemma segment_adds E k sc ts k' r : skebab_segment E k sc ts = SPR (SRet k') r [] ->
  exists u, ts = u ++ r /\
    ((exists i s, u = [SIdent s i] /\ k' = SKebab (sk_repr k ++ i_name i) (sk_spans k ++ [s])) \/
     (exists s v, u = [SLit s LkInt v] /\ k' = SKebab (sk_repr k ++ v) (sk_spans k ++ [s])) \/
     (exists s sp s' v, u = [SPunct s "-" sp; SLit s' LkInt v] /\
        k' = SKebab (sk_repr k ++ ("-" ++ v)) (sk_spans k ++ [joinx E s s'])) \/
     (u = [] /\ k' = k /\ no_int r)).
Proof.
  unfold skebab_segment. intros H. apply bind_inv in H as ([[s i]|] & r1 & Ea & H).
  - destruct (reads0_rollback _ _ reads0_any _ _ _ _ Ea) as (u & -> & ->). cbn [si_ident si_span] in *.
    apply bind_inv in H as (x & r2 & Er & H). injection H as <- <-.
    destruct (i_raw i); [discriminate|]. injection Er as _ <-.
    exists [SIdent s i]. split; [reflexivity|]. left. eauto.
  - destruct (reads0_rollback _ _ reads0_any _ _ _ _ Ea) as (u & -> & ->). cbn [app] in *.
    apply bind_inv in H as ([[s v]|] & r2 & En & H); injection H as <- <-.
    + destruct (reads0_rollback _ _ (reads0_int E) _ _ _ _ En) as (u & -> & [(s1 & v1 & -> & [= -> ->])|(s1 & sp & s2 & v1 & -> & [= -> ->])]).
      * exists [SLit s1 LkInt v1]. split; [reflexivity|]. right. left. eauto.
      * exists [SPunct s1 "-" sp; SLit s2 LkInt v1]. split; [reflexivity|]. right. right. left. eauto 7.
    + assert (Hn := int_none _ _ _ _ _ En).
      destruct (reads0_rollback _ _ (reads0_int E) _ _ _ _ En) as (u & -> & ->).
      exists []. split; [reflexivity|]. right. right. right. auto.
Qed.

Lemma run_true ts e : run false ts e -> exists e', run true ts e'.
Proof. intros H. inversion H; subst; [exists true; constructor|exists e; now constructor]. Qed.
Lemma loop_adds E n : forall second k sc ts k' r,
  skebab_loop E n second k sc ts = SPR (SRet k') r [] ->
  exists u, ts = u ++ r /\ (sk_spans k' = sk_spans k ++ sections E false u) /\
    sk_repr k' = (sk_repr k ++ name_text (erases u))%string /\
    exists e, run (second && String.eqb (sk_repr k) "-") (erases u) e.
Proof.
  induction n as [|n IH]; intros second k sc ts k' r; cbn [skebab_loop]; [discriminate|].
  intros H. apply bind_inv in H as ([l|] & r1 & Ed & H).
  - destruct (reads0_rollback _ _ (reads0_punct "-" ltac:(discriminate)) _ _ _ _ Ed) as (u & -> & s & sp & -> & ->).
    apply bind_inv in H as (k1 & r2 & Es & El).
    destruct (segment_adds _ _ _ _ _ _ Es) as (u1 & -> & Hu).
    destruct (IH _ _ _ _ _ _ El) as (u2 & -> & Hs & Ht & e & Hrun). cbn [andb] in Hrun.
    exists ([SPunct s "-" sp] ++ u1 ++ u2). rewrite <- !app_assoc. split; [reflexivity|].
    destruct Hu as [(i & s1 & -> & ->)|[(s1 & v & -> & ->)|[(s1 & sp1 & s2 & v & -> & ->)|(-> & -> & Hn)]]]; cbn in Hs, Ht |- *.
    + rewrite Hs, Ht, <- app_assoc. split; [reflexivity|]. split; [now rewrite !str_app_assoc|]. exists e. now constructor; constructor.
    + rewrite Hs, Ht, <- app_assoc. split; [reflexivity|]. split; [now rewrite !str_app_assoc|]. exists e. now constructor; constructor.
    + rewrite Hs, Ht, <- app_assoc. split; [reflexivity|]. split; [now rewrite !str_app_assoc|].
      exists e. constructor. constructor. now constructor.
    + rewrite Hs, Ht.
      assert (Hrun' : exists e', run true (erases u2) e').
      { now apply run_true with e. }
      destruct Hrun' as (e' & Hrun'). rewrite <- (sections_no_int E u2 r e' Hn Hrun').
      split; [reflexivity|]. split; [now rewrite !str_app_assoc|]. exists e'. now constructor.
  - assert (Hd : speek_punct "-" ts = false).
    { unfold srollback, sparse_punct in Ed. unfold speek_punct. destruct (stake_punct "-" ts) as [[]|]; [discriminate|reflexivity]. }
    destruct (reads0_rollback _ _ (reads0_punct "-" ltac:(discriminate)) _ _ _ _ Ed) as (u & -> & ->). cbn [app] in *.
    destruct (second && String.eqb (sk_repr k) "-") eqn:Eb; cbn [negb] in H.
    + apply bind_inv in H as (k1 & r2 & Es & El).
      destruct (segment_adds _ _ _ _ _ _ Es) as (u1 & -> & Hu).
      destruct (IH _ _ _ _ _ _ El) as (u2 & -> & Hs & Ht & e & Hrun). cbn [andb] in Hrun.
      exists (u1 ++ u2). rewrite <- !app_assoc. split; [reflexivity|].
      destruct Hu as [(i & s1 & -> & ->)|[(s1 & v & -> & ->)|[(s1 & sp1 & s2 & v & -> & ->)|(-> & -> & Hn)]]]; cbn in Hs, Ht |- *.
      * rewrite Hs, Ht, <- app_assoc. split; [reflexivity|]. split; [now rewrite !str_app_assoc|]. exists e. now constructor.
      * rewrite Hs, Ht, <- app_assoc. split; [reflexivity|]. split; [now rewrite !str_app_assoc|]. exists e. now constructor.
      * discriminate Hd.
      * split; [exact Hs|]. split; [exact Ht|].
        now apply run_true with e.
    + injection H as <- <-. exists []. cbn. rewrite app_nil_r, str_app_nil.
      split; [reflexivity|]. split; [reflexivity|]. split; [reflexivity|]. eexists. constructor.
Qed.

Lemma reads_kebab E : reads (sparse_kebab E) (sp_name E).
Proof.
  intros sc ts k r Hw. unfold sparse_kebab. set (n := S (S (List.length ts))). clearbody n.
  intros H. apply bind_inv in H as ([[s i]|] & r1 & Ea & H); apply bind_inv in H as (k0 & r2 & Ek & El).
  - injection Ek as <- <-. destruct (reads0_rollback _ _ reads0_any _ _ _ _ Ea) as (u & -> & ->).
    destruct (loop_adds _ _ _ _ _ _ _ _ El) as (u1 & -> & Hs & Ht & e & Hr). cbn in Hs, Ht, Hr.
    exists (SIdent s i :: u1). split; [reflexivity|]. destruct k as [kr ks]. cbn in Hs, Ht. subst.
    apply (spn E (SIdent s i) u1). cbn.
    assert (Hi : String.eqb (i_name i) "-" = false).
    { apply wf_cons in Hw as [Hw _]. cbn in Hw. apply String.eqb_neq. now apply lex_ident_not_dash, Hw. }
    rewrite Hi in Hr. now apply name_ident with e.
  - destruct (reads0_rollback _ _ reads0_any _ _ _ _ Ea) as (u & -> & ->). cbn [app] in *.
    apply bind_inv in Ek as ([l|] & r3 & Ed & Ek); [|discriminate]. injection Ek as <- <-.
    destruct (reads0_rollback _ _ (reads0_punct "-" ltac:(discriminate)) _ _ _ _ Ed) as (u & -> & s & sp & -> & ->).
    destruct (loop_adds _ _ _ _ _ _ _ _ El) as (u1 & -> & Hs & Ht & e & Hr). cbn in Hs, Ht, Hr.
    exists (SPunct s "-" sp :: u1). split; [reflexivity|]. destruct k as [kr ks]. cbn in Hs, Ht. subst.
    apply (spn E (SPunct s "-" sp) u1). cbn. now apply name_dash with e.
Qed.

Lemma snake_iff E k i : sto_snake_ident E k = Some i <-> sp_ident E k i.
Proof.
  unfold sto_snake_ident, sp_ident. rewrite <- to_snake_iff. unfold to_snake_ident. cbn.
  destruct (new_raw _) as [j|]; cbn; destruct i as [s i]; cbn; split.
  - intros [= <- <-]. auto.
  - intros [[= ->] ->]. reflexivity.
  - discriminate.
  - now intros [H _].
Qed.
Lemma reads_snake E k : reads (ssnake E k) (fun u i => u = [] /\ sp_ident E k i).
Proof. eapply reads_weaken; [apply reads_or_panic|]. intros u i [-> H]. split; [reflexivity|]. now apply snake_iff. Qed.
Lemma reads_lit_str E : reads (sparse_lit_str E) (fun u x => u = [SLit (fst x) LkStr (snd x)]).
Proof.
  intros sc ts [s0 v0] r _. unfold sparse_lit_str, stake_lit.
  destruct ts as [|[s i|s c sp|s k v|] ts]; try discriminate.
  - destruct (ident_is i "true"); [discriminate|]. destruct (ident_is i "false"); discriminate.
  - destruct ts as [|[| |s' k v|] ts]; try discriminate. destruct (Ascii.eqb_spec c "-") as [->|]; [|discriminate].
    destruct k; discriminate.
  - destruct k; try discriminate. intros [= <- <- <-]. now exists [SLit s LkStr v].
Qed.
Lemma reads_key E : reads (sparse_kebab_or_str E) (sp_key E).
Proof.
  eapply reads_bind; [apply reads_rollback, reads_lit_str|]. intros [[s v]|] u ->.
  - apply reads_ret. constructor.
  - eapply reads_bind; [apply reads_kebab|]. intros k u H. apply reads_ret. cbn. rewrite app_nil_r. now constructor.
Qed.
Lemma reads_short {B} E (f : dspan * skebab -> svalue -> SP B) S :
  (forall b k u v, sp_short E u k v -> reads (f (b, k) v) (fun u' x => S (u ++ u') x)) ->
  reads (k <- sparse_braced_kebab E ;; v <- sinto_block_value E k ;; f k v) S.
Proof.
  intros H. eapply reads_bind; [apply reads_delimited, reads_kebab|]. intros [b k] u (inner & -> & Hk). cbn in Hk.
  eapply reads_bind with (S := fun u v => u = [] /\ sp_short E [SGroup b Brace inner] k v).
  - eapply reads_bind; [apply reads_snake|]. intros i u [-> Hi]. apply reads_ret. split; [reflexivity|]. now constructor.
  - intros v u [-> Hs]. eapply reads_weaken; [apply (H b), Hs|]. auto.
Qed.

(** ** Paths and tags *)

Section Paths.
Variable E : senv.
Hypothesis HE : senv_ok E.

Lemma generic_some sc ts g r : s_generic E sc ts = inl (g, r) -> ts = g ++ r /\ g <> [].
Proof.
  destruct HE as ((He & _) & Hs & Hg & _). intros H. split; [now apply (Hg sc)|]. intros ->.
  specialize (Hs sc ts). rewrite H in Hs. now apply He in Hs as (_ & (sp & r' & [=]) & _) || (apply He in Hs as (_ & Hn & _); destruct Hn).
Qed.
Lemma reads_seg : reads (sparse_seg E) sp_segment.
Proof.
  apply reads_look. intros [].
  { eapply reads_bind; [apply reads_any|]. intros [s i] u ->. apply reads_ret. constructor. }
  apply reads_look. intros self.
  eapply reads_bind with (S := fun u i => u = [SIdent (si_span i) (si_ident i)]).
  { destruct self; [apply reads_any|apply reads_ident]. }
  intros [s i] u ->. apply reads_look. intros []; [|apply reads_ret; constructor].
  eapply reads_bind with (S := fun u a => sp_segment (SIdent s i :: u) (SPSeg (SId s i) a)).
  - intros sc ts a r Hw. unfold sparse_angle. 
    destruct (stake_punct "::" ts) as [[l r1]|] eqn:Ec.
    + apply stake_two in Ec as (s1 & s2 & sp & -> & ->); try discriminate.
      destruct (s_generic E sc r1) as [[g r2]|[]] eqn:Eg; [|discriminate]. intros [= <- <-].
      apply generic_some in Eg as [-> Hne]. exists ([SPunct s1 ":" Joint; SPunct s2 ":" sp] ++ g). split; [reflexivity|].
      apply spg_turbofish; [exact Hne|constructor].
    + destruct (s_generic E sc ts) as [[g r2]|[]] eqn:Eg; [|discriminate]. intros [= <- <-].
      apply generic_some in Eg as [-> Hne]. exists g. split; [reflexivity|]. now apply spg_generic.
  - intros a u H. apply reads_ret. now rewrite app_nil_r.
Qed.
Lemma reads_segs_rest n : reads (sparse_segs_rest E n) (sp_list sp_next_segment).
Proof.
  induction n as [|n IH]; intros sc ts a r Hw; cbn [sparse_segs_rest]; [discriminate|].
  destruct (speek_punct "::" ts && _).
  - revert sc ts a r Hw. change (reads (c <- sparse_punct "::" ;; s <- sparse_seg E ;; r <- sparse_segs_rest E n ;; sret ((c, s) :: r)) (sp_list sp_next_segment)).
    eapply reads_bind; [apply reads_colons|]. intros c u Hc.
    eapply reads_bind; [apply reads_seg|]. intros s u' Hs.
    eapply reads_bind; [apply IH|]. intros l u2 Hl. apply reads_ret.
    rewrite app_nil_r, app_assoc. constructor; [now constructor|exact Hl].
  - intros [= <- <-]. exists []. split; [reflexivity|constructor].
Qed.
Lemma reads_path : reads (sparse_path E) sp_path.
Proof.
  apply (reads_fuel (fun n => l <- srollback (sparse_punct "::") ;; s <- sparse_seg E ;;
                              r <- sparse_segs_rest E n ;; sret (SPath l s r)) (fun ts => S (List.length ts))).
  intros n. eapply reads_bind; [apply reads_rollback, reads_colons|]. intros [c|] u Hc;
    (eapply reads_bind; [apply reads_seg|]); intros s u' Hs;
    (eapply reads_bind; [apply reads_segs_rest|]); intros l u2 Hl; apply reads_ret; rewrite app_nil_r.
  - now constructor.
  - subst u. cbn [app]. now constructor.
Qed.
Lemma reads_tag : reads (sparse_tag E) (sp_tag E).
Proof.
  apply reads_look. intros [].
  { eapply reads_bind; [apply reads_path|]. intros p u H. apply reads_ret. rewrite app_nil_r. now constructor. }
  eapply reads_bind; [apply reads_kebab|]. intros k u Hk. destruct (tag_kind_from _);
    try (eapply reads_bind; [apply reads_snake|]; intros i u' [-> Hi]; apply reads_ret; rewrite !app_nil_r;
         econstructor; eassumption).
  apply reads_ret. rewrite app_nil_r. now constructor.
Qed.

(** ** Attributes *)

Lemma reads_selector : reads (sparse_selector E) (sp_selector E).
Proof.
  eapply reads_bind; [apply reads_rollback, reads_punct; discriminate|]. intros [l|] u H.
  - destruct H as (s & sp & -> & ->). eapply reads_bind; [apply reads_kebab|]. intros k u Hk.
    apply reads_ret. rewrite app_nil_r. now constructor.
  - subst u. eapply reads_bind; [apply reads_rollback, reads_punct; discriminate|]. intros [l|] u H; [|apply reads_fail].
    destruct H as (s & sp & -> & ->). eapply reads_bind; [apply reads_kebab|]. intros k u Hk.
    apply reads_ret. rewrite app_nil_r. now constructor.
Qed.
Lemma reads_many {A} (m : SP A) (S : list stt -> A -> Prop) n : reads m S -> reads (smany n m) (sp_list S).
Proof.
  intros Hm. induction n as [|n IH]; [intros sc ts a r Hw; discriminate|].
  change (reads (x <- srollback m ;; match x with Some x => r <- smany n m ;; sret (x :: r) | None => sret [] end) (sp_list S)).
  eapply reads_bind; [apply reads_rollback, Hm|]. intros [x|] u H.
  - eapply reads_bind; [apply IH|]. intros l u' Hl. apply reads_ret. rewrite app_nil_r. now constructor.
  - apply reads_ret. subst. constructor.
Qed.
Lemma reads_selectors : reads (sparse_selectors E) (sp_list (sp_selector E)).
Proof. apply (reads_fuel (fun n => smany n (sparse_selector E)) (fun ts => S (List.length ts))). intros n. apply reads_many, reads_selector. Qed.
Lemma reads_modifier : reads stry_parse_modifier sp_modifier.
Proof.
  eapply reads_bind; [apply reads_rollback, reads_punct; discriminate|]. intros [l|] u H.
  - destruct H as (s & sp & -> & ->). eapply reads_bind; [apply reads_any|]. intros [s' i] u ->. apply reads_ret. constructor.
  - subst u. apply reads_ret. constructor.
Qed.
Lemma reads_kv : reads (sparse_kv E) (fun u kv => sp_attr E u (SAKv kv)).
Proof.
  apply reads_look. intros [].
  { apply reads_short. intros b k u v H. apply reads_ret. rewrite app_nil_r. now constructor. }
  eapply reads_bind; [apply reads_kebab|]. intros k u Hk.
  eapply reads_bind; [apply reads_rollback, reads_punct; discriminate|]. intros [l|] u' H.
  - destruct H as (s & sp & -> & ->). eapply reads_bind; [apply reads_or_emit|]. intros v u' Hv. apply reads_ret.
    rewrite app_nil_r. constructor; [assumption|]. now constructor.
  - subst u'. apply reads_ret. rewrite !app_nil_r. now constructor.
Qed.
Lemma reads_directive : reads (sparse_directive E) (fun u d => sp_attr E u (SADir d)).
Proof.
  eapply reads_bind; [apply reads_any|]. intros [s i] u ->.
  eapply reads_bind; [apply reads_punct; discriminate|]. intros l u (s' & sp & -> & ->).
  apply reads_look. intros [].
  { apply reads_short. intros b k u v H. eapply reads_bind; [apply reads_modifier|]. intros m u' Hm. apply reads_ret.
    rewrite app_nil_r. cbn. now constructor. }
  eapply reads_bind; [apply reads_key|]. intros k u Hk.
  eapply reads_bind; [apply reads_modifier|]. intros m u' Hm.
  eapply reads_bind; [apply reads_rollback, reads_punct; discriminate|]. intros [l|] u2 H.
  - destruct H as (s2 & sp2 & -> & ->). eapply reads_bind; [apply reads_or_emit|]. intros v u2 Hv. apply reads_ret.
    rewrite app_nil_r. cbn. constructor; try assumption. now constructor.
  - subst u2. apply reads_ret. cbn [app]. constructor; try assumption. constructor.
Qed.
Lemma reads_spread : reads sparse_spread (fun u x => sp_attr E u (SASpread (fst (fst x)) (snd (fst x)) (snd x))).
Proof.
  eapply reads_bind; [apply reads_extract|]. intros [b ts] u ->. cbn [fst snd].
  destruct (stake_punct ".." ts) as [[l r]|] eqn:Ed; [|apply reads_fail].
  apply stake_two in Ed as (s & s' & sp & -> & ->); try discriminate. apply reads_ret. constructor.
Qed.
Lemma reads_attr : reads (sparse_attr E) (sp_attr E).
Proof.
  apply reads_look. intros [].
  { eapply reads_bind; [apply reads_unwrap_or_abort, reads_directive|]. intros d u H. apply reads_ret. now rewrite app_nil_r. }
  apply reads_look. intros [].
  { eapply reads_bind; [apply reads_kv|]. intros d u H. apply reads_ret. now rewrite app_nil_r. }
  eapply reads_bind; [apply reads_rollback, reads_kv|]. intros [kv|] u H.
  { apply reads_ret. now rewrite app_nil_r. }
  subst u. eapply reads_bind; [apply reads_rollback, reads_spread|]. intros [x|] u H; [|apply reads_fail].
  apply reads_ret. now rewrite app_nil_r.
Qed.
Lemma reads_attrs : reads (sparse_attrs E) (sp_list (sp_attr E)).
Proof. apply (reads_fuel (fun n => smany n (sparse_attr E)) (fun ts => S (List.length ts))). intros n. apply reads_many, reads_attr. Qed.

(** ** Elements *)

Lemma reads_closure_loop first n : reads (sclosure_loop first n)
  (fun u l => exists args s sp, u = args ++ [SPunct s "|" sp] /\ l = args ++ [SPunct s "|" Alone]).
Proof.
  induction n as [|n IH]; [intros sc ts a r Hw; discriminate|].
  change (reads (p <- srollback (sparse_punct "|") ;; match p with Some p => sret [spu (punct_span p) "|"] | None =>
    t <- srollback sparse_tt ;; match t with Some t => r <- sclosure_loop first n ;; sret (t :: r) | None => sfail_at EClosure first end end)
    (fun u l => exists args s sp, u = args ++ [SPunct s "|" sp] /\ l = args ++ [SPunct s "|" Alone])).
  eapply reads_bind; [apply reads_rollback, reads_punct; discriminate|]. intros [l|] u H.
  - destruct H as (s & sp & -> & ->). apply reads_ret. exists [], s, sp. auto.
  - subst u. eapply reads_bind; [apply reads_rollback, reads_tt|]. intros [t|] u H; [|apply reads_fail_at].
    subst u. eapply reads_bind; [apply IH|]. intros l u (args & s & sp & -> & ->). apply reads_ret.
    exists (t :: args), s, sp. cbn. now rewrite app_nil_r.
Qed.
Lemma reads_closure : reads sparse_closure_args (fun u l => exists args s sp s' sp',
  u = SPunct s "|" sp :: args ++ [SPunct s' "|" sp'] /\ l = SPunct s "|" Alone :: args ++ [SPunct s' "|" Alone]).
Proof.
  apply (reads_fuel (fun n => p <- sparse_punct "|" ;; r <- sclosure_loop (punct_span p) n ;; sret (spu (punct_span p) "|" :: r))
           (fun ts => S (List.length ts))).
  intros n. eapply reads_bind; [apply reads_punct; discriminate|]. intros l u (s & sp & -> & ->).
  eapply reads_bind; [apply reads_closure_loop|]. intros l u (args & s' & sp' & -> & ->). apply reads_ret.
  exists args, s, sp, s', sp'. rewrite app_nil_r. auto.
Qed.

Section Children.
Variable pc : SP (list schild).
Hypothesis Hpc : reads pc (sp_children E).

Lemma reads_element : reads (sparse_element E pc) (sp_element E).
Proof.
  eapply reads_bind; [apply reads_tag|]. intros t u1 Ht.
  eapply reads_bind; [apply reads_selectors|]. intros sels u2 Hs.
  eapply reads_bind; [apply reads_attrs|]. intros attrs u3 Ha.
  eapply reads_bind; [apply reads_rollback, reads_punct; discriminate|]. intros [l|] u4 H.
  { destruct H as (s & sp & -> & ->). apply reads_ret. rewrite app_nil_r. constructor; try assumption. constructor. }
  subst u4. apply reads_look. intros ts. destruct ts as [|t0 ts]; [apply reads_emit|].
  apply reads_if; [|apply reads_if; [|apply reads_if]].
  - eapply reads_bind; [apply reads_delimited, Hpc|]. intros [b cs] u (inner & -> & Hc). apply reads_ret.
    rewrite app_nil_r. cbn. constructor; try assumption. now constructor.
  - eapply reads_bind; [apply reads_delimited, Hpc|]. intros [b cs] u (inner & -> & Hc). apply reads_ret.
    rewrite app_nil_r. cbn. constructor; try assumption. now constructor.
  - eapply reads_bind; [apply reads_closure|]. intros l u (args & s & sp & s' & sp' & -> & ->).
    apply reads_look. intros ts'. apply reads_if; [|apply reads_if].
    + eapply reads_bind; [apply reads_delimited, Hpc|]. intros [b cs] u (inner & -> & Hc). apply reads_ret.
      rewrite app_nil_r. cbn. rewrite <- app_assoc. constructor; try assumption. now constructor.
    + eapply reads_bind; [apply reads_delimited, Hpc|]. intros [b cs] u (inner & -> & Hc). apply reads_ret.
      rewrite app_nil_r. cbn. rewrite <- app_assoc. constructor; try assumption. now constructor.
    + apply reads_here. intros. apply reads_emit.
  - apply reads_here. intros. apply reads_emit.
Qed.
Lemma reads_child : reads (sparse_child E pc) (sp_child E).
Proof.
  eapply reads_bind; [apply reads_rollback, reads_value|]. intros [v|] u H.
  - destruct v as [l|b l|pre b l]; [|apply reads_ret; rewrite app_nil_r; now constructor..].
    destruct l as [s [] v|s v]; try apply reads_emit. apply reads_ret. rewrite app_nil_r. now constructor.
  - subst u. cbn [app]. intros sc ts a r Hw H. apply bind_inv in H as (b & r1 & Eb & H). injection Eb as Eb <-.
    destruct b.
    + apply andb_true_iff in Eb as [Eb _]. apply andb_true_iff in Eb as [Eb _].
      destruct ts as [|[s i|s c sp|s k v|b d l] ts]; try discriminate. cbn in Eb. apply String.eqb_eq in Eb.
      assert (i = Id false "slot") as ->.
      { destruct i as [[] n]; cbn in Eb; congruence. }
      apply bind_inv in H as (x & r1 & Ex & H). injection Ex as <- <-. apply wf_cons in Hw as [_ Hw].
      enough (Hr : reads (sunwrap (sparse_punct ":") ;;; e <- sparse_element E pc ;; sret (SCSlot s e))
                     (fun u c => sp_child E (SIdent s (Id false "slot") :: u) c)).
      { destruct (Hr _ _ _ _ Hw H) as (u & -> & Hu). now exists (SIdent s (Id false "slot") :: u). }
      eapply reads_bind; [apply reads_unwrap, reads_punct; discriminate|]. intros l u (s' & sp & -> & ->).
      eapply reads_bind; [apply reads_element|]. intros e u He. apply reads_ret. rewrite app_nil_r. now constructor.
    + revert a r Hw H. generalize sc. revert ts Eb. intros ts _.
      enough (Hr : reads (id <- slook speek_any ;; if id : bool then e <- sparse_element E pc ;; sret (SCElement e) else sfail EChild) (sp_child E)).
      { intros sc' a r. apply Hr. }
      apply reads_look. intros []; [|apply reads_fail].
      eapply reads_bind; [apply reads_element|]. intros e u He. apply reads_ret. rewrite app_nil_r. now constructor.
Qed.
End Children.

Lemma reads_children n : reads (sparse_children E n) (sp_children E).
Proof.
  induction n as [|n IH]; intros sc ts cs r Hw; cbn [sparse_children]; [discriminate|].
  destruct ts as [|t ts].
  - intros [= <- <-]. exists []. split; [reflexivity|constructor].
  - destruct (sparse_child E (sparse_children E n) sc (t :: ts)) as [[c|e s| | |] r1 d] eqn:Ec; try discriminate.
    + cbn zeta. intros H. assert (d = [] /\ (cs <- sparse_children E n ;; sret (c :: cs)) sc r1 = SPR (SRet cs) r []) as [-> Hx].
      { destruct ((cs <- sparse_children E n ;; sret (c :: cs)) sc r1). cbn in H. injection H as -> -> Hd.
        apply app_eq_nil in Hd as [-> ->]. auto. }
      destruct (reads_child _ IH _ _ _ _ Hw Ec) as (u & Hu & Hc). rewrite Hu in *.
      rewrite erases_app in Hw. apply wf_app in Hw as [_ Hw].
      apply bind_inv in Hx as (cs' & r2 & Ex & Hx). injection Hx as <- <-.
      destruct (IH _ _ _ _ Hw Ex) as (u' & -> & Hu'). exists (u ++ u'). rewrite app_assoc. split; [reflexivity|].
      now constructor.
    + cbn zeta. intros [= _ _ Hd]. apply app_eq_nil in Hd as [_ Hd]. destruct (speek_punct ";" r1); discriminate.
Qed.
End Paths.
