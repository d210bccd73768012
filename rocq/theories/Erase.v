(** Forgetting the spans of [SParse.v], [SExpand.v] and [SMacro.v] gives the
    model without spans.  (Proofs; the statements of interest are in
    [Properties15.v].) *)
From Verif Require Export SMacro SpecSpan.
Open Scope list_scope.
Close Scope sexpand_scope.

(** ** Erasing ASTs *)

Definition elit (l : slit) : lit :=
  match l with SLitTok _ k v => LitTok k v | SLitBool _ b => LitBool b end.
Definition evalue (v : svalue) : value :=
  match v with
  | SVLit l => VLit (elit l)
  | SVBlock _ ts => VBlock (erases ts)
  | SVBracket p _ ts => VBracket (option_map si_ident p) (erases ts)
  end.
Definition ekebab (k : skebab) : kebab := Kebab (sk_repr k) (List.length (sk_spans k)).
Definition ekey (k : skebab_or_str) : kebab_or_str :=
  match k with SKKebab k => KKebab (ekebab k) | SKStr _ s => KStr s end.
Definition ekv (a : skv_attr) : kv_attr := KvAttr (ekebab (skv_key a)) (evalue (skv_value a)).
Definition edir (d : sdirective) : directive :=
  Directive (si_ident (sd_dir d)) (ekey (sd_key d)) (option_map si_ident (sd_modifier d))
            (option_map evalue (sd_value d)).
Definition eattr (a : sattr) : attr :=
  match a with
  | SAKv a => AKv (ekv a)
  | SADir d => ADir (edir d)
  | SASpread _ _ r => ASpread (erases r)
  end.
Definition eselector (s : sselector) : selector :=
  match s with SSelId _ k => SelId (ekebab k) | SSelClass _ k => SelClass (ekebab k) end.
Definition is_some {A} (o : option A) : bool := match o with Some _ => true | None => false end.
Definition eargs (a : spath_args) : path_args :=
  match a with
  | SPNone => PNone
  | SPAngle tf ts => PAngle (is_some tf) (erases ts)
  | SPParen ts => PParen (erases ts)
  end.
Definition eseg (s : spath_seg) : path_seg := PSeg (si_ident (sseg_ident s)) (eargs (sseg_args s)).
Definition epath (p : spath) : path :=
  Path (is_some (s_leading p)) (eseg (s_first p) :: map (fun x => eseg (snd x)) (s_more p)).
Definition etag (t : stag) : tag :=
  match t with
  | STagHtml i => TagHtml (si_ident i)
  | STagComponent p => TagComponent (epath p)
  | STagSvg i => TagSvg (si_ident i)
  | STagMath i => TagMath (si_ident i)
  | STagWeb k => TagWeb (ekebab k)
  end.
Fixpoint eelement (e : selement) : element :=
  match e with
  | SElement t sels attrs args children =>
      Element (etag t) (map eselector sels) (map eattr attrs) (option_map erases args)
        (option_map
           (fix go (l : list schild) : list child :=
              match l with [] => [] | c :: r => echild c :: go r end) children)
  end
with echild (c : schild) : child :=
  match c with
  | SCValue v => CValue (evalue v)
  | SCElement e => CElement (eelement e)
  | SCSlot _ e => CSlot (eelement e)
  end.
Lemma eelement_eq t sels attrs args ch :
  eelement (SElement t sels attrs args ch) =
  Element (etag t) (map eselector sels) (map eattr attrs) (option_map erases args)
    (option_map (map echild) ch).
Proof.
  now destruct ch.
Qed.

Lemma erases_app a b : erases (a ++ b) = erases a ++ erases b.
Proof. apply map_app. Qed.
Lemma erases_length ts : List.length (erases ts) = List.length ts.
Proof. apply map_length. Qed.
Lemma erases_flat {A} (f : A -> list stt) l : erases (flat_map f l) = flat_map (fun x => erases (f x)) l.
Proof. induction l as [|x r IH]; [reflexivity|]. cbn. now rewrite erases_app, IH. Qed.

(** ** Parsers *)

Definition eout {A B} (f : A -> B) (o : soutcome A) : outcome B :=
  match o with
  | SRet a => Ret (f a)
  | SFail e _ => Fail e
  | SAbort => Abort
  | SPanic w => Panic w
  | SNoFuel => NoFuel
  end.
Definition epres {A B} (f : A -> B) (x : spres A) : pres B :=
  PR (eout f (sp_out x)) (erases (sp_rest x)) (map fst (sp_diags x)).
Definition sim {A B} (f : A -> B) (m' : SP A) (m : P B) : Prop :=
  forall sc ts, epres f (m' sc ts) = m (erases ts).

Lemma sim_ret {A B} (f : A -> B) a b : f a = b -> sim f (sret a) (ret b).
Proof. intros <- sc ts. reflexivity. Qed.
Lemma sim_bind {A B A' B'} (f : A' -> A) (g : B' -> B) m' m k' k :
  sim f m' m -> (forall a, sim g (k' a) (k (f a))) -> sim g (sbind m' k') (bind m k).
Proof.
  intros Hm Hk sc ts. specialize (Hm sc ts). unfold sbind, bind. rewrite <- Hm.
  destruct (m' sc ts) as [[a|e s| |w|] r d]; cbn; try reflexivity.
  specialize (Hk a sc r). change (map erase r) with (erases r). rewrite <- Hk. unfold epres; cbn. now rewrite map_app.
Qed.
(** The result of the first parser is not used without spans. *)
Lemma sim_bind_ {A A' B B'} (f : A' -> A) (g : B' -> B) m' m k' (k : P B) :
  sim f m' m -> (forall a, sim g (k' a) k) -> sim g (sbind m' k') (bind m (fun _ => k)).
Proof. intros Hm Hk. now apply sim_bind with f. Qed.
Lemma sim_rollback {A A'} (f : A' -> A) m' m :
  sim f m' m -> sim (option_map f) (srollback m') (rollback_err m).
Proof.
  intros Hm sc ts. specialize (Hm sc ts). unfold srollback, rollback_err. rewrite <- Hm.
  destruct (m' sc ts) as [[a|e s| |w|] r d]; reflexivity.
Qed.
Lemma sim_unwrap {A A'} (f : A' -> A) m' m : sim f m' m -> sim f (sunwrap m') (unwrap m).
Proof.
  intros Hm sc ts. specialize (Hm sc ts). unfold sunwrap, unwrap. rewrite <- Hm.
  destruct (m' sc ts) as [[a|e s| |w|] r d]; reflexivity.
Qed.
Lemma sim_unwrap_or_abort {A A'} E (f : A' -> A) m' m :
  sim f m' m -> sim f (sunwrap_or_abort E m') (unwrap_or_abort m).
Proof.
  intros Hm sc ts. specialize (Hm sc ts). unfold sunwrap_or_abort, unwrap_or_abort. rewrite <- Hm.
  destruct (m' sc ts) as [[a|e s| |w|] r d]; try reflexivity.
  unfold epres; cbn. now rewrite map_app.
Qed.
Lemma sim_fail {A A'} (f : A' -> A) e : sim f (sfail e) (fail e).
Proof. intros sc ts. reflexivity. Qed.
Lemma sim_fail_at {A A'} (f : A' -> A) e s : sim f (sfail_at e s) (fail e).
Proof. intros sc ts. reflexivity. Qed.
Lemma sim_emit f d s : f Datatypes.tt = Datatypes.tt -> sim f (semit d s) (emit d).
Proof. intros H sc ts. unfold epres, semit, emit; cbn. now rewrite H. Qed.
Lemma sim_look {A A'} (f : A' -> A) l' l :
  (forall ts, f (l' ts) = l (erases ts)) -> sim f (slook l') (look l).
Proof. intros H sc ts. unfold epres, slook, look; cbn. now rewrite H. Qed.
Lemma sim_panic {A A'} (f : A' -> A) w : sim f (sppanic w) (ppanic w).
Proof. intros sc ts. reflexivity. Qed.

Lemma take_punct_erase w : forall ts,
  take_punct w (erases ts) = option_map (fun x => erases (snd x)) (stake_punct w ts).
Proof.
  induction w as [|ch w' IH]; intros ts; [reflexivity|]. cbn [take_punct stake_punct].
  destruct ts as [|[s i|s c sp|s k v|s d g] r]; try reflexivity.
  cbn [erases map erase cur_punct scur_punct].
  destruct (Ascii.eqb c "'"); [reflexivity|]. destruct (Ascii.eqb c ch); [|reflexivity].
  destruct w' as [|ch' w'']; [reflexivity|]. destruct sp; [reflexivity|].
  specialize (IH r). change (map erase r) with (erases r). rewrite IH.
  destruct (stake_punct (String ch' w'') r) as [[l r']|]; reflexivity.
Qed.
Lemma peek_punct_erase w ts : speek_punct w ts = peek_punct w (erases ts).
Proof. unfold speek_punct, peek_punct. rewrite take_punct_erase. now destruct (stake_punct w ts) as [[l r]|]. Qed.
Lemma peek_group_erase d ts : speek_group d ts = peek_group d (erases ts).
Proof. now destruct ts as [|[] r]. Qed.
Lemma skip_erase ts : skip (erases ts) = option_map erases (sskip ts).
Proof.
  destruct ts as [|[s i|s c sp|s k v|s d g] r]; try reflexivity.
  destruct sp; [reflexivity|]. cbn [erases map erase skip sskip]. destruct (Ascii.eqb c "'"); [|reflexivity].
  now destruct r as [|[] r'].
Qed.
Lemma peek2_erase f' f ts : (forall r, f' r = f (erases r)) -> speek2 f' ts = peek2 f (erases ts).
Proof. intros H. unfold speek2, peek2. rewrite skip_erase. destruct (sskip ts); cbn; auto. Qed.
Lemma peek3_erase f' f ts : (forall r, f' r = f (erases r)) -> speek3 f' ts = peek3 f (erases ts).
Proof.
  intros H. unfold speek3, peek3. rewrite skip_erase. destruct (sskip ts) as [r|]; cbn; auto.
  rewrite skip_erase. destruct (sskip r); cbn; auto.
Qed.
Lemma peek_any_erase ts : speek_any ts = peek_any (erases ts).
Proof. now destruct ts as [|[] r]. Qed.
Lemma peek_ident_erase ts : speek_ident ts = peek_ident (erases ts).
Proof. now destruct ts as [|[] r]. Qed.
Lemma peek_keyword_erase w ts : speek_keyword w ts = peek_keyword w (erases ts).
Proof. now destruct ts as [|[] r]. Qed.
Lemma take_lit_erase E ts :
  take_lit (erases ts) = option_map (fun x => (elit (fst x), erases (snd x))) (stake_lit E ts).
Proof.
  destruct ts as [|[s i|s c sp|s k v|s d g] r]; try reflexivity.
  - cbn [erases map erase take_lit stake_lit]. destruct (ident_is i "true"); [reflexivity|].
    now destruct (ident_is i "false").
  - cbn [erases map erase take_lit stake_lit]. destruct r as [|[s' i'|s' c' sp'|s' k v|s' d g] r]; try reflexivity.
    cbn [map erase]. destruct (Ascii.eqb c "-"); [|reflexivity]. now destruct k.
Qed.
Lemma peek_lit_erase E ts : speek_lit E ts = peek_lit (erases ts).
Proof. unfold speek_lit, peek_lit. rewrite (take_lit_erase E). now destruct (stake_lit E ts) as [[l r]|]. Qed.

Lemma sim_punct w : sim (fun _ => Datatypes.tt) (sparse_punct w) (parse_punct w).
Proof.
  intros sc ts. unfold sparse_punct, parse_punct. rewrite take_punct_erase.
  now destruct (stake_punct w ts) as [[l r]|].
Qed.
Lemma sim_any : sim si_ident sparse_any parse_any.
Proof. intros sc ts. now destruct ts as [|[] r]. Qed.
Lemma sim_ident : sim si_ident sparse_ident parse_ident.
Proof.
  intros sc ts. destruct ts as [|[s i|s c sp|s k v|s d g] r]; try reflexivity.
  unfold sparse_ident, parse_ident. cbn [erases map erase]. now destruct (accept_as_ident i).
Qed.
Lemma sim_lit E : sim elit (sparse_lit E) parse_lit.
Proof.
  intros sc ts. unfold sparse_lit, parse_lit. rewrite (take_lit_erase E).
  now destruct (stake_lit E ts) as [[l r]|].
Qed.
Lemma sim_lit_int E : sim snd (sparse_lit_int E) parse_lit_int.
Proof.
  intros sc ts. unfold sparse_lit_int, parse_lit_int. rewrite (take_lit_erase E).
  destruct (stake_lit E ts) as [[[s k v|s b] r]|]; try reflexivity. now destruct k.
Qed.
Lemma sim_lit_str E : sim snd (sparse_lit_str E) parse_lit_str.
Proof.
  intros sc ts. unfold sparse_lit_str, parse_lit_str. rewrite (take_lit_erase E).
  destruct (stake_lit E ts) as [[[s k v|s b] r]|]; try reflexivity. now destruct k.
Qed.
Lemma sim_tt : sim erase sparse_tt parse_tt.
Proof. intros sc ts. now destruct ts. Qed.
Lemma sim_take_rest : sim erases stake_rest take_rest.
Proof. intros sc ts. reflexivity. Qed.
Lemma sim_extract d : sim (fun x => erases (snd x)) (sextract d) (extract d).
Proof.
  intros sc ts. destruct ts as [|[s i|s c sp|s k v|s d' g] r]; try reflexivity.
  unfold sextract, extract. cbn [erases map erase]. now destruct (delim_eqb d d').
Qed.
Lemma sim_delimited {A A'} d (f : A' -> A) m' m :
  sim f m' m -> sim (fun x => f (snd x)) (sdelimited d m') (delimited d m).
Proof.
  intros Hm sc ts. destruct ts as [|[s i|s c sp|s k v|s d' g] r]; try reflexivity.
  unfold sdelimited, delimited. cbn [erases map erase]. destruct (delim_eqb d d'); [|reflexivity].
  specialize (Hm (d_close s) g). change (map erase g) with (erases g). rewrite <- Hm.
  destruct (m' (d_close s) g) as [[a|e se| |w|] [|t l] ds]; reflexivity.
Qed.

(** ** Paths *)

Section Generic.
Variable E : senv.
Hypothesis HG : same_generic E.

Lemma sim_angle : sim eargs (sparse_angle E) (parse_angle (s_env E)).
Proof.
  intros sc ts. unfold sparse_angle, parse_angle. rewrite take_punct_erase.
  destruct (stake_punct "::" ts) as [[l r]|]; cbn [option_map snd].
  - rewrite (HG sc r). now destruct (s_generic E sc r) as [[u r']|[r' s]].
  - rewrite (HG sc ts). now destruct (s_generic E sc ts) as [[u r']|[r' s]].
Qed.

Lemma sim_seg : sim eseg (sparse_seg E) (parse_seg (s_env E)).
Proof.
  unfold sparse_seg, parse_seg. apply sim_bind with (f := fun b => b).
  { apply sim_look. intros ts. now rewrite !peek_keyword_erase. }
  intros []. { apply sim_bind with si_ident; [apply sim_any|]. intros i. now apply sim_ret. }
  apply sim_bind with (f := fun b => b). { apply sim_look. intros ts. apply peek_keyword_erase. }
  intros b. apply sim_bind with si_ident. { destruct b; [apply sim_any|apply sim_ident]. }
  intros i. apply sim_bind with (f := fun b => b).
  { apply sim_look. intros ts. rewrite !peek_punct_erase.
    now rewrite (peek3_erase _ (peek_punct "<")) by (intros; apply peek_punct_erase). }
  intros []; [|now apply sim_ret]. apply sim_bind with eargs; [apply sim_angle|].
  intros a. now apply sim_ret.
Qed.

Lemma sim_segs n : sim (map (fun x => eseg (snd x))) (sparse_segs_rest E n) (parse_segs_rest (s_env E) n).
Proof.
  induction n as [|n IH]; intros sc ts; [reflexivity|]. cbn [sparse_segs_rest parse_segs_rest].
  rewrite !peek_punct_erase, (peek3_erase _ (peek_group Paren)) by (intros; apply peek_group_erase).
  destruct (_ && _); [|reflexivity].
  revert sc ts. apply sim_bind_ with (f := fun _ => Datatypes.tt); [apply sim_punct|].
  intros c. apply sim_bind with eseg; [apply sim_seg|]. intros s.
  apply sim_bind with (f := map (fun x => eseg (snd x))); [exact IH|]. intros r. now apply sim_ret.
Qed.

Lemma sim_path : sim epath (sparse_path E) (parse_path (s_env E)).
Proof.
  intros sc ts. unfold sparse_path, parse_path. rewrite erases_length. revert sc ts.
  assert (forall n, sim epath
    (sbind (srollback (sparse_punct "::")) (fun l => sbind (sparse_seg E) (fun s =>
       sbind (sparse_segs_rest E n) (fun r => sret (SPath l s r)))))
    (bind (rollback_err (parse_punct "::")) (fun l => bind (parse_seg (s_env E)) (fun s =>
       bind (parse_segs_rest (s_env E) n) (fun r =>
         ret (Path (match l with Some _ => true | None => false end) (s :: r))))))) as H.
  { intros n. eapply sim_bind; [apply sim_rollback, sim_punct|]. intros l.
    eapply sim_bind; [apply sim_seg|]. intros s. eapply sim_bind; [apply sim_segs|]. intros r.
    apply sim_ret. now destruct l. }
  intros sc ts. apply H.
Qed.

(** ** ast/value.rs, ast/ident.rs *)

Lemma sim_value : sim evalue (sparse_value E) parse_value.
Proof.
  unfold sparse_value, parse_value. apply sim_bind with (f := fun b => b).
  { apply sim_look. intros ts. apply peek_group_erase. }
  intros []. { eapply sim_bind; [apply sim_unwrap, sim_extract|]. intros ts. now apply sim_ret. }
  apply sim_bind with (f := fun b => b).
  { apply sim_look. intros ts. rewrite peek_any_erase. f_equal.
    apply peek2_erase. intros; apply peek_group_erase. }
  intros [].
  { eapply sim_bind; [apply sim_unwrap, sim_any|]. intros i.
    eapply sim_bind; [apply sim_unwrap, sim_extract|]. intros ts. now apply sim_ret. }
  apply sim_bind with (f := fun b => b). { apply sim_look. intros ts. apply peek_group_erase. }
  intros []. { eapply sim_bind; [apply sim_unwrap, sim_extract|]. intros ts. now apply sim_ret. }
  apply sim_bind with (f := fun b => b). { apply sim_look. intros ts. apply peek_lit_erase. }
  intros []; [|apply sim_fail].
  eapply sim_bind; [apply sim_unwrap, sim_lit|]. intros l. now apply sim_ret.
Qed.

Lemma sim_or_emit s : sim evalue (sparse_or_emit_err E s) parse_or_emit_err.
Proof.
  unfold sparse_or_emit_err, parse_or_emit_err. eapply sim_bind; [apply sim_rollback, sim_value|].
  intros [v|]; [now apply sim_ret|]. cbn [option_map].
  intros sc ts. unfold sbind, bind, slook, look, semit, emit, sret, ret, epres. cbn.
  destruct ts as [|t r]; [reflexivity|]. cbn.
  now destruct t.
Qed.

Lemma sim_segment k : sim ekebab (skebab_segment E k) (kebab_segment (ekebab k)).
Proof.
  unfold skebab_segment, kebab_segment. eapply sim_bind; [apply sim_rollback, sim_any|].
  intros [i|]; cbn [option_map].
  - eapply sim_bind_ with (f := fun x => x).
    { destruct (i_raw (si_ident i)); [now apply sim_emit|now apply sim_ret]. }
    intros _. apply sim_ret. unfold ekebab; cbn. f_equal. rewrite app_length. cbn. now rewrite Nat.add_1_r.
  - eapply sim_bind; [apply sim_rollback, (sim_lit_int E)|]. intros [n|]; cbn [option_map]; apply sim_ret.
    + unfold ekebab; cbn. f_equal. rewrite app_length. cbn. now rewrite Nat.add_1_r.
    + reflexivity.
Qed.

Lemma sim_kebab_loop n : forall second k,
  sim ekebab (skebab_loop E n second k) (kebab_loop n second (ekebab k)).
Proof.
  induction n as [|n IH]; intros second k; [intros sc ts; reflexivity|].
  intros sc ts. cbn [skebab_loop kebab_loop]. revert sc ts.
  eapply sim_bind; [apply sim_rollback, sim_punct|]. intros [d|]; cbn [option_map].
  - eapply sim_bind; [apply (sim_segment (SKebab (sk_repr k ++ "-") (sk_spans k)))|]. intros k'. apply IH.
  - change (k_repr (ekebab k)) with (sk_repr k).
    destruct (negb _); [now apply sim_ret|]. eapply sim_bind; [apply sim_segment|]. intros k'. apply IH.
Qed.

Lemma sim_kebab : sim ekebab (sparse_kebab E) parse_kebab.
Proof.
  intros sc ts. unfold sparse_kebab, parse_kebab. rewrite erases_length.
  generalize (S (S (List.length ts))); intros n. revert sc ts.
  eapply sim_bind; [apply sim_rollback, sim_any|]. intros i. eapply sim_bind.
  2: { intros k. apply sim_kebab_loop. }
  destruct i as [i|]; cbn [option_map]; [now apply sim_ret|].
  eapply sim_bind; [apply sim_rollback, sim_punct|].
  intros [d|]; cbn [option_map]; [now apply sim_ret|]. intros sc ts. apply sim_fail.
Qed.

Lemma sim_snake k : sim si_ident (ssnake E k) (snake (ekebab k)).
Proof.
  unfold ssnake, snake, sto_snake_ident, to_snake_ident. cbn [ekebab k_repr].
  destruct (new_raw _); cbn; [now apply sim_ret|apply sim_panic].
Qed.

Lemma sim_kebab_or_str : sim ekey (sparse_kebab_or_str E) parse_kebab_or_str.
Proof.
  unfold sparse_kebab_or_str, parse_kebab_or_str. eapply sim_bind; [apply sim_rollback, (sim_lit_str E)|].
  intros [s|]; cbn [option_map]; [now apply sim_ret|].
  eapply sim_bind; [apply sim_kebab|]. intros k. now apply sim_ret.
Qed.

Lemma sim_braced_kebab : sim (fun x => ekebab (snd x)) (sparse_braced_kebab E) parse_braced_kebab.
Proof. apply sim_delimited, sim_kebab. Qed.

Lemma sim_block_value k : sim evalue (sinto_block_value E k) (into_block_value (ekebab (snd k))).
Proof.
  unfold sinto_block_value, into_block_value. eapply sim_bind; [apply sim_snake|].
  intros i. now apply sim_ret.
Qed.

(** ** ast/tag.rs, ast/attribute/*.rs *)

Lemma sim_tag : sim etag (sparse_tag E) (parse_tag (s_env E)).
Proof.
  unfold sparse_tag, parse_tag. apply sim_bind with (f := fun b => b).
  { apply sim_look. intros ts. rewrite peek_punct_erase.
    rewrite (peek2_erase _ (peek_punct "::")) by (intros; apply peek_punct_erase).
    now rewrite (peek2_erase _ (peek_punct "<")) by (intros; apply peek_punct_erase). }
  intros []. { eapply sim_bind; [apply sim_path|]. intros p. now apply sim_ret. }
  eapply sim_bind; [apply sim_kebab|]. intros k. change (k_repr (ekebab k)) with (sk_repr k).
  destruct (tag_kind_from (sk_repr k)); try (eapply sim_bind; [apply sim_snake|]; intros i); now apply sim_ret.
Qed.

Lemma sim_selector : sim eselector (sparse_selector E) parse_selector.
Proof.
  unfold sparse_selector, parse_selector. eapply sim_bind; [apply sim_rollback, sim_punct|].
  intros [d|]; cbn [option_map].
  { eapply sim_bind; [apply sim_kebab|]. intros k. now apply sim_ret. }
  eapply sim_bind; [apply sim_rollback, sim_punct|].
  intros [d|]; cbn [option_map]; [|apply sim_fail].
  eapply sim_bind; [apply sim_kebab|]. intros k. now apply sim_ret.
Qed.

Lemma sim_many {A A'} (f : A' -> A) m' m n : sim f m' m -> sim (map f) (smany n m') (many n m).
Proof.
  intros Hm. induction n as [|n IH]; intros sc ts; [reflexivity|]. cbn [smany many]. revert sc ts.
  eapply sim_bind; [apply sim_rollback, Hm|]. intros [x|]; cbn [option_map]; [|now apply sim_ret].
  eapply sim_bind; [apply IH|]. intros r. now apply sim_ret.
Qed.

Lemma sim_selectors : sim (map eselector) (sparse_selectors E) parse_selectors.
Proof.
  intros sc ts. unfold sparse_selectors, parse_selectors. rewrite erases_length.
  apply sim_many, sim_selector.
Qed.

Lemma sim_kv : sim ekv (sparse_kv E) parse_kv.
Proof.
  unfold sparse_kv, parse_kv. apply sim_bind with (f := fun b => b).
  { apply sim_look. intros ts. apply peek_group_erase. }
  intros [].
  { eapply sim_bind; [apply sim_braced_kebab|]. intros k. eapply sim_bind; [apply sim_block_value|].
    intros v. now apply sim_ret. }
  eapply sim_bind; [apply sim_kebab|]. intros k. eapply sim_bind; [apply sim_rollback, sim_punct|].
  intros [e|]; cbn [option_map]; [|now apply sim_ret].
  eapply sim_bind; [apply sim_or_emit|]. intros v. now apply sim_ret.
Qed.

Lemma sim_modifier : sim (option_map si_ident) stry_parse_modifier try_parse_modifier.
Proof.
  unfold stry_parse_modifier, try_parse_modifier. eapply sim_bind; [apply sim_rollback, sim_punct|].
  intros [d|]; cbn [option_map]; [|now apply sim_ret].
  eapply sim_bind; [apply sim_any|]. intros i. now apply sim_ret.
Qed.

Lemma sim_directive : sim edir (sparse_directive E) parse_directive.
Proof.
  unfold sparse_directive, parse_directive. eapply sim_bind; [apply sim_any|]. intros name.
  eapply sim_bind_; [apply sim_punct|]. intros _.
  apply sim_bind with (f := fun b => b). { apply sim_look. intros ts. apply peek_group_erase. }
  intros [].
  { eapply sim_bind; [apply sim_braced_kebab|]. intros k. eapply sim_bind; [apply sim_block_value|].
    intros v. eapply sim_bind; [apply sim_modifier|]. intros m. now apply sim_ret. }
  eapply sim_bind; [apply sim_kebab_or_str|]. intros k. eapply sim_bind; [apply sim_modifier|].
  intros m. eapply sim_bind; [apply sim_rollback, sim_punct|].
  intros [e|]; cbn [option_map]; [|now apply sim_ret].
  eapply sim_bind; [apply sim_or_emit|]. intros v. now apply sim_ret.
Qed.

Lemma sim_spread : sim (fun x => erases (snd x)) sparse_spread parse_spread.
Proof.
  unfold sparse_spread, parse_spread. eapply sim_bind; [apply sim_extract|]. intros inner.
  cbn beta. rewrite take_punct_erase. destruct (stake_punct ".." (snd inner)) as [[l r]|]; cbn.
  - now apply sim_ret.
  - apply sim_fail.
Qed.

Lemma sim_attr : sim eattr (sparse_attr E) parse_attr.
Proof.
  unfold sparse_attr, parse_attr. apply sim_bind with (f := fun b => b).
  { apply sim_look. intros ts. rewrite peek_any_erase. f_equal. apply peek2_erase.
    intros; apply peek_punct_erase. }
  intros []. { eapply sim_bind; [apply sim_unwrap_or_abort, sim_directive|]. intros d. now apply sim_ret. }
  apply sim_bind with (f := fun b => b). { apply sim_look. intros ts. apply peek_ident_erase. }
  intros []. { eapply sim_bind; [apply sim_kv|]. intros d. now apply sim_ret. }
  eapply sim_bind; [apply sim_rollback, sim_kv|]. intros [kv|]; cbn [option_map]; [now apply sim_ret|].
  eapply sim_bind; [apply sim_rollback, sim_spread|].
  intros [sp|]; cbn [option_map]; [now apply sim_ret|apply sim_fail].
Qed.

Lemma sim_attrs : sim (map eattr) (sparse_attrs E) parse_attrs.
Proof.
  intros sc ts. unfold sparse_attrs, parse_attrs. rewrite erases_length. apply sim_many, sim_attr.
Qed.

(** ** ast/element.rs, ast/children.rs *)

Lemma sim_closure_loop s n : sim erases (sclosure_loop s n) (closure_loop n).
Proof.
  induction n as [|n IH]; intros sc ts; [reflexivity|]. cbn [sclosure_loop closure_loop]. revert sc ts.
  eapply sim_bind; [apply sim_rollback, sim_punct|]. intros [p|]; cbn [option_map]; [now apply sim_ret|].
  eapply sim_bind; [apply sim_rollback, sim_tt|]. intros [t|]; cbn [option_map]; [|apply sim_fail_at].
  eapply sim_bind; [apply IH|]. intros r. now apply sim_ret.
Qed.

Lemma sim_closure_args : sim erases sparse_closure_args parse_closure_args.
Proof.
  intros sc ts. unfold sparse_closure_args, parse_closure_args. rewrite erases_length.
  generalize (S (List.length ts)); intros n. revert sc ts.
  eapply sim_bind_; [apply sim_punct|]. intros p. eapply sim_bind; [apply sim_closure_loop|].
  intros r. now apply sim_ret.
Qed.

Lemma sim_here {A A'} (f : A' -> A) k' k : (forall s, sim f (k' s) k) -> sim f (sbind shere k') k.
Proof.
  intros H sc ts. unfold sbind, shere. specialize (H (here sc ts) sc ts). rewrite <- H.
  unfold epres; cbn. reflexivity.
Qed.

Lemma sim_element pc' pc : sim (map echild) pc' pc ->
  sim eelement (sparse_element E pc') (parse_element (s_env E) pc).
Proof.
  intros Hpc. unfold sparse_element, parse_element.
  eapply sim_bind; [apply sim_tag|]. intros t. eapply sim_bind; [apply sim_selectors|]. intros sels.
  eapply sim_bind; [apply sim_attrs|]. intros attrs. eapply sim_bind; [apply sim_rollback, sim_punct|].
  intros [semi|]; cbn [option_map]; [now apply sim_ret|].
  apply sim_bind with erases; [now apply sim_look|]. intros ts.
  assert (Hc : forall d a,
    sim eelement
      (sbind (sdelimited d pc') (fun c => sret (SElement t sels attrs a (Some (snd c)))))
      (bind (delimited d pc) (fun c => ret (Element (etag t) (map eselector sels) (map eattr attrs)
         (option_map erases a) (Some c))))).
  { intros d a. eapply sim_bind; [apply sim_delimited, Hpc|]. intros c. apply sim_ret. apply eelement_eq. }
  destruct ts as [|t0 r].
  { eapply sim_bind_; [now apply (sim_emit (fun x => x))|]. intros _. now apply sim_ret. }
  set (ts := t0 :: r). change (erases ts) with (erase t0 :: erases r). cbv iota beta.
  change (erase t0 :: erases r) with (erases ts).
  rewrite !peek_group_erase, peek_punct_erase.
  destruct (peek_group Brace (erases ts)); [apply (Hc Brace None)|].
  destruct (peek_group Paren (erases ts)); [apply (Hc Paren None)|].
  destruct (peek_punct "|" (erases ts)).
  - eapply sim_bind; [apply sim_closure_args|]. intros args.
    apply sim_bind with erases; [now apply sim_look|]. intros ts'. rewrite !peek_group_erase.
    destruct (peek_group Brace (erases ts')); [apply (Hc Brace (Some args))|].
    destruct (peek_group Paren (erases ts')); [apply (Hc Paren (Some args))|].
    apply sim_here. intros s. eapply sim_bind_; [now apply (sim_emit (fun x => x))|].
    intros _. now apply sim_ret.
  - apply sim_here. intros s. eapply sim_bind_; [now apply (sim_emit (fun x => x))|]. intros _.
    eapply sim_bind_; [now apply (sim_emit (fun x => x))|]. intros _. now apply sim_ret.
Qed.

Lemma sim_child pc' pc : sim (map echild) pc' pc ->
  sim echild (sparse_child E pc') (parse_child (s_env E) pc).
Proof.
  intros Hpc. unfold sparse_child, parse_child. eapply sim_bind; [apply sim_rollback, sim_value|].
  intros [[[s [] v|s b]|b ts|p b ts]|]; cbn [option_map evalue elit];
    try (now apply sim_ret);
    try (eapply sim_bind_; [now apply (sim_emit (fun x => x))|]; intros _; now apply sim_ret).
  apply sim_bind with (f := fun b => b).
  { apply sim_look. intros ts. rewrite peek_keyword_erase.
    rewrite (peek2_erase _ (peek_punct ":")) by (intros; apply peek_punct_erase).
    now rewrite (peek2_erase _ (peek_punct "::")) by (intros; apply peek_punct_erase). }
  intros [].
  { eapply sim_bind_; [apply sim_unwrap, sim_any|]. intros i.
    eapply sim_bind_; [apply sim_unwrap, sim_punct|]. intros _.
    eapply sim_bind; [apply sim_element, Hpc|]. intros e. now apply sim_ret. }
  apply sim_bind with (f := fun b => b). { apply sim_look. intros ts. apply peek_any_erase. }
  intros []; [|apply sim_fail]. eapply sim_bind; [apply sim_element, Hpc|]. intros e. now apply sim_ret.
Qed.

Lemma sim_children n : sim (map echild) (sparse_children E n) (parse_children (s_env E) n).
Proof.
  induction n as [|n IH]; intros sc ts; [reflexivity|]. cbn [sparse_children parse_children].
  destruct ts as [|t r0]; [reflexivity|]. set (ts := t :: r0).
  change (erases ts) with (erase t :: erases r0). cbv iota beta.
  change (erase t :: erases r0) with (erases ts).
  rewrite <- (sim_child _ _ IH sc ts).
  destruct (sparse_child E (sparse_children E n) sc ts) as [[c|e s| |w|] r d]; try reflexivity.
  - set (x' := sbind _ _ sc r). cbn [epres sp_out sp_rest sp_diags eout].
    set (x := bind _ _ (erases r)).
    assert (epres (map echild) x' = x) as <-.
    { unfold x, x'. refine (sim_bind (map echild) (map echild) _ _ _ _ IH _ sc r).
      intros cs. now apply sim_ret. }
    unfold epres; cbn. now rewrite map_app.
  - assert (H : sim (map echild)
      (if speek_punct ";" r
       then sbind (semit DExtraSemi (err_span E s)) (fun _ =>
              sbind (sunwrap (sparse_punct ";")) (fun _ => sparse_children E n))
       else sbind (semit (DParse e) (err_span E s)) (fun _ =>
              sbind stake_rest (fun _ => sparse_children E n)))
      (if peek_punct ";" (erases r)
       then bind (emit DExtraSemi) (fun _ =>
              bind (unwrap (parse_punct ";")) (fun _ => parse_children (s_env E) n))
       else bind (emit (DParse e)) (fun _ =>
              bind take_rest (fun _ => parse_children (s_env E) n)))).
    { rewrite <- peek_punct_erase. destruct (speek_punct ";" r).
      - eapply sim_bind_; [now apply (sim_emit (fun x => x))|]. intros _.
        eapply sim_bind_; [apply sim_unwrap, sim_punct|]. intros _. exact IH.
      - eapply sim_bind_; [now apply (sim_emit (fun x => x))|]. intros _.
        eapply sim_bind_; [apply sim_take_rest|]. intros _. exact IH. }
    specialize (H sc r). unfold epres at 2. cbn [sp_out sp_rest sp_diags eout].
    rewrite <- H. unfold epres. cbn [sp_out sp_rest sp_diags p_out p_rest p_diags].
    now rewrite map_app.
Qed.

End Generic.

(** ** Expanders *)

Definition exout {A B} (f : A -> B) (o : xout A) : xout B :=
  match o with XRet a => XRet (f a) | XAbort => XAbort | XPanic w => XPanic w end.
Definition ex {A B} (f : A -> B) (x : SX A) : X B := XR (exout f (sx_out x)) (map fst (sx_diags x)).

Lemma ex_ret {A B} (f : A -> B) a : ex f (sxret a) = xret (f a).
Proof. reflexivity. Qed.
Lemma ex_bind {A A' B B'} (f : A' -> A) (g : B' -> B) m' m k' k :
  ex f m' = m -> (forall a, ex g (k' a) = k (f a)) -> ex g (sxbind m' k') = xbind m k.
Proof.
  intros <- Hk. destruct m' as [[a| |w] d]; try reflexivity. unfold sxbind, xbind, ex; cbn.
  specialize (Hk a). unfold ex in Hk. rewrite <- Hk. cbn. now rewrite map_app.
Qed.
Lemma ex_seq {A A'} (f : A' -> A) l : ex (map f) (sxseq l) = xseq (map (ex f) l).
Proof.
  induction l as [|m r IH]; [reflexivity|]. cbn [sxseq xseq map].
  apply ex_bind with f; [reflexivity|]. intros a. apply ex_bind with (map f); [exact IH|]. reflexivity.
Qed.
(** With the expansion forgetting more than spans. *)
Lemma ex_ext {A B} (f g : A -> B) x : (forall a, f a = g a) -> ex f x = ex g x.
Proof. intros H. destruct x as [[a| |w] d]; unfold ex; cbn; now rewrite ?H. Qed.

Lemma erase_lit_tokens l : erases (slit_tokens l) = lit_tokens (elit l).
Proof. now destruct l as [s k v|s []]. Qed.
Lemma erase_gpath s l : erases (sgpath s l) = gpath l.
Proof. unfold sgpath, gpath. rewrite erases_flat. apply flat_map_ext. reflexivity. Qed.
Lemma erase_colons l : erases (colons l) = colon2.
Proof. now destruct l as [|a [|b [|c r]]]. Qed.
Lemma erase_opt_colons o : erases (opt_colons o) = if is_some o then colon2 else [].
Proof. destruct o; [apply erase_colons|reflexivity]. Qed.
Lemma erase_seg_tokens s : erases (sseg_tokens s) = seg_tokens (eseg s).
Proof.
  destruct s as [i [|tf ts|ts]]; [reflexivity| |reflexivity].
  unfold sseg_tokens, seg_tokens. cbn [sseg_args sseg_ident eseg seg_args seg_ident eargs].
  change (erases (?a :: ?b)) with (erase a :: erases b). rewrite erases_app, erase_opt_colons. reflexivity.
Qed.
Lemma erase_path_tokens p : erases (spath_tokens p) = path_tokens (epath p).
Proof.
  destruct p as [l f m]. unfold spath_tokens, path_tokens. cbn [s_leading s_first s_more epath leading segs].
  rewrite !erases_app, erase_opt_colons, erase_seg_tokens. f_equal.
  revert f. induction m as [|[c s] r IH]; intros f; cbn [map flat_map segs_tokens fst snd].
  - apply app_nil_r.
  - rewrite !erases_app, erase_colons, erase_seg_tokens. specialize (IH s).
    cbn [segs_tokens] in IH. rewrite <- IH, <- app_assoc. reflexivity.
Qed.

Lemma ex_value E v : ex erases (svalue_tokens E v) = value_tokens (evalue v).
Proof.
  destruct v as [l|b ts|[p|] b ts]; cbn [svalue_tokens value_tokens evalue option_map].
  - rewrite ex_ret. now rewrite erase_lit_tokens.
  - reflexivity.
  - destruct (ident_is (si_ident p) "f"); reflexivity.
  - reflexivity.
Qed.
Lemma ex_opt_value E v : ex erases (sopt_value_tokens E v) = opt_value_tokens (option_map evalue v).
Proof. destruct v; [apply ex_value|reflexivity]. Qed.
Lemma evalue_or_true v : evalue (svalue_or_true v) = value_or_true (option_map evalue v).
Proof. now destruct v. Qed.
Lemma ekey_string k : key_string (ekey k) = skey_string k.
Proof. now destruct k. Qed.
Lemma erase_key_lit E k : erase (key_lit E k) = TLit LkStr (key_string (ekey k)).
Proof. now destruct k. Qed.
Lemma erase_colored k : erase (sto_str_colored k) = to_str_colored (ekebab k).
Proof.
  unfold sto_str_colored, to_str_colored. cbn [sgroup erase ekebab k_spans k_repr]. f_equal.
  rewrite map_app. f_equal. induction (sk_spans k) as [|s r IH]; [reflexivity|].
  cbn [flat_map List.length repeat List.concat]. rewrite map_app, IH. reflexivity.
Qed.
Lemma ex_snake E k : ex si_ident (sxsnake E k) = xsnake (ekebab k).
Proof.
  unfold sxsnake, xsnake, sto_snake_ident, to_snake_ident. cbn [ekebab k_repr].
  now destruct (new_raw _).
Qed.
Lemma ex_ident_or_emit E k : ex si_ident (sto_ident_or_emit E k) = to_ident_or_emit (ekey k).
Proof. destruct k; [apply ex_snake|reflexivity]. Qed.
Lemma ex_modifier m :
  ex (fun x => x) (semit_error_if_modifier m) = emit_error_if_modifier (option_map si_ident m).
Proof. now destruct m. Qed.

Lemma ex_turbofish_seg E s : ex eseg (sturbofish_seg E s) = turbofish_seg (eseg s).
Proof. now destruct s as [i [|[l|] ts|ts]]. Qed.
Lemma ex_turbofishify E p : ex epath (sturbofishify E p) = turbofishify (epath p).
Proof.
  unfold sturbofishify, turbofishify. cbn [epath segs leading map xseq].
  destruct p as [l f m]; cbn [s_leading s_first s_more].
  transitivity (xbind (turbofish_seg (eseg f)) (fun a =>
    xbind (xseq (map turbofish_seg (map (fun x => eseg (snd x)) m))) (fun r =>
      xret (Path (is_some l) (a :: r))))).
  - apply ex_bind with eseg; [apply ex_turbofish_seg|]. intros a.
    apply ex_bind with (map (fun x : list span * spath_seg => eseg (snd x))).
    + rewrite ex_seq, !map_map. f_equal. apply map_ext. intros [c s]. cbn [fst snd].
      transitivity (xbind (turbofish_seg (eseg s)) xret).
      * apply ex_bind with eseg; [apply ex_turbofish_seg|reflexivity].
      * destruct (turbofish_seg (eseg s)) as [[x| |w] d]; cbn; try reflexivity.
        now rewrite app_nil_r.
    + reflexivity.
  - destruct (turbofish_seg (eseg f)) as [[x| |w] d]; try reflexivity. cbn.
    destruct (xseq _) as [[y| |w] d']; cbn; try reflexivity. now rewrite !app_nil_r.
Qed.

Definition epair (x : sident * list stt) : ident * list tt := (si_ident (fst x), erases (snd x)).
Lemma ex_use E d : ex epair (suse_directive_fn_value E d) = use_directive_fn_value (edir d).
Proof.
  unfold suse_directive_fn_value, use_directive_fn_value. cbn [edir d_dir d_key d_modifier d_value].
  apply ex_bind with (f := fun x => x). { now destruct (ident_is _ _). }
  intros _. apply ex_bind with si_ident; [apply ex_ident_or_emit|]. intros f.
  apply ex_bind with (f := fun x => x); [apply ex_modifier|]. intros _.
  destruct (sd_value d) as [v|]; cbn [option_map]; [|reflexivity].
  apply ex_bind with erases; [apply ex_value|]. intros ts. rewrite ex_ret. unfold epair; cbn [fst snd].
  now rewrite erases_app, erase_gpath.
Qed.

Lemma ex_event E d : ex erases (sevent_listener_event_path E d) = event_listener_event_path (edir d).
Proof.
  unfold sevent_listener_event_path, event_listener_event_path. cbn [edir d_dir d_key d_modifier d_value].
  apply ex_bind with (f := fun x => x). { now destruct (ident_is _ _). }
  intros _. apply ex_bind with si_ident. { destruct (sd_key d); [apply ex_snake|reflexivity]. }
  intros ev. destruct (sd_modifier d) as [m|]; cbn [option_map].
  - now destruct (ident_is (si_ident m) "undelegated").
  - reflexivity.
Qed.

Lemma partition_erase l :
  partition sel_is_class (map eselector l) =
  (map eselector (fst (partition ssel_is_class l)), map eselector (snd (partition ssel_is_class l))).
Proof.
  induction l as [|s r IH]; [reflexivity|]. cbn [map partition]. rewrite IH.
  destruct s; cbn [eselector sel_is_class ssel_is_class]; destruct (partition ssel_is_class r); reflexivity.
Qed.
Lemma sel_kebab_erase s : sel_kebab (eselector s) = ekebab (ssel_kebab s).
Proof. now destruct s. Qed.
Lemma flat_map_map {A B C} (f : B -> list C) (g : A -> B) l : flat_map f (map g l) = flat_map (fun x => f (g x)) l.
Proof. induction l as [|x r IH]; [reflexivity|]. cbn. now rewrite IH. Qed.

Lemma erase_xml_selectors l : erases (sxml_selectors_tokens l) = xml_selectors_tokens (map eselector l).
Proof.
  unfold sxml_selectors_tokens, xml_selectors_tokens. rewrite partition_erase.
  destruct (partition ssel_is_class l) as [c i]. cbn [fst snd].
  rewrite erases_app, !erases_flat, !flat_map_map. f_equal; apply flat_map_ext; intros s;
    rewrite sel_kebab_erase, <- erase_colored; reflexivity.
Qed.

Lemma ex_xml_kv E a k : ex erases (sxml_kv_attribute_tokens E a k) = xml_kv_attribute_tokens (ekv a) k.
Proof.
  unfold sxml_kv_attribute_tokens, xml_kv_attribute_tokens. cbn [ekv kv_key kv_value ekebab k_repr].
  destruct (String.eqb (sk_repr (skv_key a)) "ref").
  { apply ex_bind with erases; [apply ex_value|]. reflexivity. }
  destruct (_ && _).
  { apply ex_bind with erases; [apply ex_value|]. intros v. reflexivity. }
  apply ex_bind with si_ident; [apply ex_snake|]. intros i.
  apply ex_bind with erases; [apply ex_value|]. reflexivity.
Qed.

Lemma ex_xml_directive E d : ex erases (sxml_directive_tokens E d) = xml_directive_tokens (edir d).
Proof.
  unfold sxml_directive_tokens, xml_directive_tokens. cbn [edir d_dir d_key d_modifier d_value].
  set (name := ident_to_string (si_ident (sd_dir d))).
  destruct (_ || _).
  { apply ex_bind with (f := fun x => x); [apply ex_modifier|]. intros _.
    apply ex_bind with erases; [apply ex_opt_value|]. intros v. rewrite ex_ret.
    rewrite <- (erase_key_lit E). reflexivity. }
  destruct (String.eqb name "prop").
  { apply ex_bind with (f := fun x => x); [apply ex_modifier|]. intros _.
    apply ex_bind with erases; [apply ex_opt_value|]. intros v. rewrite ex_ret.
    rewrite <- (erase_key_lit E). reflexivity. }
  destruct (String.eqb name "on").
  { apply ex_bind with erases; [apply ex_event|]. intros p.
    apply ex_bind with erases; [apply ex_opt_value|]. intros v. rewrite ex_ret.
    unfold smethod, method. cbn. rewrite map_app. reflexivity. }
  destruct (String.eqb name "use").
  { apply ex_bind with epair; [apply ex_use|]. intros fv. reflexivity. }
  destruct (_ || _); reflexivity.
Qed.

Lemma ex_spread E dd r : erases (sxml_spread_tokens E dd r) = xml_spread_tokens (erases r).
Proof. reflexivity. Qed.

Definition erun (x : span * list stt) : list tt := erases (snd x).
Definition enode (n : snode) : X (list tt) := ex erases (snd n).
Lemma ex_run nodes : ex (map erun) (srun nodes) = xseq (map enode nodes).
Proof.
  unfold srun. rewrite ex_seq, map_map. f_equal. apply map_ext. intros [s x]. unfold enode; cbn [fst snd].
  transitivity (xbind (ex erases x) xret).
  - now apply ex_bind with erases.
  - destruct (ex erases x) as [[y| |w] d]; cbn; try reflexivity. now rewrite app_nil_r.
Qed.
Lemma ex_child_methods nodes :
  ex erases (sxml_child_methods_tokens nodes) = xml_child_methods_tokens (map enode nodes).
Proof.
  unfold sxml_child_methods_tokens, xml_child_methods_tokens.
  apply ex_bind with (map erun); [apply ex_run|]. intros l. rewrite ex_ret, erases_flat, flat_map_map.
  reflexivity.
Qed.

Lemma ex_component_kv E a : ex erases (scomponent_kv_attribute_tokens E a) = component_kv_attribute_tokens (ekv a).
Proof.
  unfold scomponent_kv_attribute_tokens, component_kv_attribute_tokens. cbn [ekv kv_key kv_value].
  apply ex_bind with si_ident; [apply ex_snake|]. intros i.
  apply ex_bind with erases; [apply ex_value|]. reflexivity.
Qed.
Lemma ex_clone E d : ex erases (scomponent_clone_tokens E d) = component_clone_tokens (edir d).
Proof.
  unfold scomponent_clone_tokens, component_clone_tokens. cbn [edir d_dir d_key d_modifier d_value].
  apply ex_bind with si_ident; [apply ex_ident_or_emit|]. intros i.
  apply ex_bind with (f := fun x => x); [apply ex_modifier|]. intros _.
  apply ex_bind with (f := fun x => x). { now destruct (sd_value d). } reflexivity.
Qed.

Lemma erase_fragment l s : erases (schildren_fragment_tokens l s) = children_fragment_tokens (map erases l).
Proof.
  unfold schildren_fragment_tokens, children_fragment_tokens. rewrite erases_app, erase_gpath.
  change (erases [spar s [spar s ?x]]) with [par [par (erases x)]].
  rewrite flat_map_map, erases_flat.
  rewrite (flat_map_ext _ (fun x => erases x ++ [pu ","])); [reflexivity|].
  intros x. apply erases_app.
Qed.
Lemma ex_children E nodes args clones :
  ex erases (scomponent_children_tokens E nodes args clones) =
  component_children_tokens (map enode nodes) (option_map erases args) (erases clones).
Proof.
  unfold scomponent_children_tokens, component_children_tokens.
  apply ex_bind with (map erun); [apply ex_run|]. intros l. rewrite ex_ret. f_equal.
  assert (Hf : forall s, erases (schildren_fragment_tokens (map snd l) s) =
    children_fragment_tokens (map erun l)).
  { intros s. rewrite erase_fragment, map_map. reflexivity. }
  unfold smethod, method.
  change (erases [spu Call "."; ?n; spar Call [sgroup Call Brace ?x]]) with
    [pu "."; erase n; par [TGroup Brace (erases x)]].
  rewrite erases_app. destruct args as [args|]; cbn [option_map].
  - change (erases (?a :: ?b)) with (erase a :: erases b). now rewrite erases_app, Hf.
  - rewrite erases_app, erase_gpath.
    change (erases [spar Call (skw ?c "move" :: soror ?c ++ ?f)]) with
      [par (kw "move" :: oror ++ erases f)]. now rewrite Hf.
Qed.

Lemma ex_any_attr E d :
  option_map (ex erases) (sdirective_to_any_attr_path E d) = directive_to_any_attr_path (edir d).
Proof.
  unfold sdirective_to_any_attr_path, directive_to_any_attr_path. cbn [edir d_dir d_key d_modifier d_value].
  rewrite !ekey_string, <- evalue_or_true.
  set (name := ident_to_string (si_ident (sd_dir d))).
  destruct (_ || _).
  { cbn [option_map]. f_equal. apply ex_bind with erases; [apply ex_value|]. reflexivity. }
  destruct (String.eqb name "attr").
  { cbn [option_map]. f_equal.
    destruct (attribute_kind_from (skey_string (sd_key d)));
      try (apply ex_bind with si_ident; [apply ex_ident_or_emit|]; intros i);
      (apply ex_bind with erases; [apply ex_value|]); reflexivity. }
  destruct (String.eqb name "prop").
  { cbn [option_map]. f_equal. apply ex_bind with si_ident; [apply ex_ident_or_emit|]. intros i.
    apply ex_bind with erases; [apply ex_value|]. reflexivity. }
  destruct (String.eqb name "on").
  { cbn [option_map]. f_equal. apply ex_bind with erases; [apply ex_event|]. intros p.
    apply ex_bind with erases; [apply ex_opt_value|]. intros v. rewrite ex_ret. f_equal.
    rewrite !erases_app, !erase_gpath.
    change (erases [spar Call ?x]) with [par (erases x)]. now rewrite !erases_app. }
  destruct (String.eqb name "use"); [|reflexivity].
  cbn [option_map]. f_equal. apply ex_bind with epair; [apply ex_use|]. reflexivity.
Qed.

Lemma xml_tag_path_erase E t : option_map erases (sxml_tag_path E t) = xml_tag_path (etag t).
Proof. now destruct t. Qed.
Lemma kind_of_erase t : kind_of (etag t) = skind_of t.
Proof. now destruct t. Qed.

Definition e3 (x : list stt * list stt * list stt) : list tt * list tt * list tt :=
  (erases (fst (fst x)), erases (snd (fst x)), erases (snd x)).
Lemma ex_xml_attr_loop E k l : forall acc,
  ex e3 (sxml_attr_loop E k l acc) = xml_attr_loop k (map eattr l) (e3 acc).
Proof.
  induction l as [|a r IH]; intros [[kvs dirs] sps]; [reflexivity|].
  destruct a as [kv|d|b dd s]; cbn [map eattr sxml_attr_loop xml_attr_loop e3 fst snd].
  - apply ex_bind with erases; [apply ex_xml_kv|]. intros t. rewrite IH. unfold e3; cbn [fst snd].
    now rewrite erases_app.
  - apply ex_bind with erases; [apply ex_xml_directive|]. intros t. rewrite IH. unfold e3; cbn [fst snd].
    now rewrite erases_app.
  - rewrite IH. unfold e3; cbn [fst snd]. now rewrite erases_app.
Qed.

Lemma ex_xml E t sels attrs nodes :
  option_map (ex erases) (sxml_to_tokens E t sels attrs nodes) =
  xml_to_tokens (etag t) (map eselector sels) (map eattr attrs) (option_map (map enode) nodes).
Proof.
  unfold sxml_to_tokens, xml_to_tokens. rewrite <- (xml_tag_path_erase E), kind_of_erase.
  destruct (sxml_tag_path E t) as [tp|]; [|reflexivity]. cbn [option_map]. f_equal.
  apply ex_bind with e3; [apply (ex_xml_attr_loop E (skind_of t) attrs ([], [], []))|].
  intros [[kvs dirs] sps]. cbn [e3 fst snd].
  apply ex_bind with erases. { destruct nodes; [apply ex_child_methods|reflexivity]. }
  intros ch. rewrite ex_ret. now rewrite !erases_app, erase_xml_selectors.
Qed.

Lemma edir_class s k : edir (sclass_directive s k) = class_directive (ekebab k).
Proof. reflexivity. Qed.
Lemma edir_id s l : edir (sid_directive s l) = id_directive l.
Proof. reflexivity. Qed.
Lemma ex_expect o : ex erases (sexpect_path o) = expect_path (option_map (ex erases) o).
Proof. now destruct o. Qed.
Lemma ex_component_selectors E l :
  ex (map erases) (scomponent_selectors E l) = component_selectors (map eselector l).
Proof.
  unfold scomponent_selectors, component_selectors. rewrite partition_erase.
  destruct (partition ssel_is_class l) as [c i]. cbn [fst snd].
  apply ex_bind with (map erases).
  { rewrite ex_seq, !map_map. f_equal. apply map_ext. intros s.
    rewrite ex_expect, ex_any_attr, edir_class, sel_kebab_erase. reflexivity. }
  intros cl. destruct i as [|s r]; [reflexivity|]. cbn [map]. cbv iota beta.
  apply ex_bind with erases.
  { rewrite ex_expect, ex_any_attr, edir_id. do 3 f_equal.
    cbn [map]. rewrite sel_kebab_erase. f_equal. rewrite map_map. apply map_ext. intros x.
    now rewrite sel_kebab_erase. }
  intros t. rewrite ex_ret, map_app. reflexivity.
Qed.

Definition ec (x : list stt * list (list stt) * list stt) : list tt * list (list tt) * list tt :=
  (erases (fst (fst x)), map erases (snd (fst x)), erases (snd x)).
Lemma ex_component_attr_loop E slot l : forall acc,
  ex ec (scomponent_attr_loop E slot l acc) = component_attr_loop slot (map eattr l) (ec acc).
Proof.
  induction l as [|a r IH]; intros [[props dirs] clones]; [reflexivity|].
  destruct a as [kv|d|b dd s]; cbn [map eattr scomponent_attr_loop component_attr_loop ec fst snd].
  - apply ex_bind with erases; [apply ex_component_kv|]. intros t. rewrite IH. unfold ec; cbn [fst snd].
    now rewrite erases_app.
  - change (d_dir (edir d)) with (si_ident (sd_dir d)).
    change (d_modifier (edir d)) with (option_map si_ident (sd_modifier d)).
    destruct (String.eqb _ _).
    { apply ex_bind with (f := fun x => x); [apply ex_modifier|]. intros _.
      apply ex_bind with erases; [apply ex_clone|]. intros t. rewrite IH. unfold ec; cbn [fst snd].
      now rewrite erases_app. }
    destruct slot.
    { apply ex_bind with (f := fun x => x); [reflexivity|]. intros _. apply IH. }
    rewrite <- (ex_any_attr E). destruct (sdirective_to_any_attr_path E d) as [m|]; cbn [option_map].
    + apply ex_bind with erases; [reflexivity|]. intros t. rewrite IH. unfold ec; cbn [fst snd].
      now rewrite map_app.
    + apply ex_bind with (f := fun x => x); [reflexivity|]. intros _. apply IH.
  - destruct slot.
    { apply ex_bind with (f := fun x => x); [reflexivity|]. intros _. apply IH. }
    rewrite IH. unfold ec; cbn [fst snd]. now rewrite map_app.
Qed.

Definition emap (m : list (sident * list (list stt))) : list (ident * list (list tt)) :=
  map (fun x => (si_ident (fst x), map erases (snd x))) m.
Lemma slot_insert_erase m k t :
  emap (sslot_insert m k t) = slot_insert (emap m) (si_ident k) (erases t).
Proof.
  induction m as [|[k' l] r IH]; [reflexivity|]. cbn [sslot_insert emap map fst snd slot_insert].
  destruct (ident_eqb _ _); cbn [map fst snd].
  - now rewrite map_app.
  - f_equal. exact IH.
Qed.
Lemma slot_get_erase m k : slot_get (emap m) k = map erases (snd (sslot_get m k)).
Proof.
  induction m as [|[k' l] r IH]; [reflexivity|]. cbn [emap map fst snd slot_get sslot_get].
  destruct (ident_eqb _ _); [reflexivity|]. exact IH.
Qed.
Lemma get_ident_erase p : get_ident (epath p) = option_map si_ident (sget_ident p).
Proof. now destruct p as [[l|] [i [|tf ts|ts]] [|x r]]. Qed.

Definition eslot (x : stag * SX (list stt)) : tag * X (list tt) := (etag (fst x), ex erases (snd x)).
Lemma ex_collect E l : forall m,
  ex emap (scollect_slots E l m) = collect_slots (map eslot l) (emap m).
Proof.
  induction l as [|[t x] r IH]; intros m; [reflexivity|].
  cbn [map eslot fst snd scollect_slots collect_slots]. destruct t; try reflexivity.
  cbn [etag]. rewrite get_ident_erase. destruct (sget_ident p) as [i|]; cbn [option_map].
  - apply ex_bind with erases; [reflexivity|]. intros ts. rewrite IH. f_equal. apply slot_insert_erase.
  - apply ex_bind with (f := fun x => x); [reflexivity|]. intros _. apply IH.
Qed.

Lemma ex_slot_method k s : ex erases (sslot_method k s) = slot_method k (map erases (snd s)).
Proof.
  destruct s as [sp l]. unfold sslot_method, slot_method. cbn [fst snd].
  destruct (new_raw _) as [m|]; [|reflexivity]. rewrite ex_ret. f_equal.
  destruct l as [|a [|b r]]; try reflexivity.
  set (l := a :: b :: r). cbn [map]. cbv iota beta.
  change (erases a :: erases b :: map erases r) with (map erases l).
  assert (H : forall l, erases ((fix commas (l : list (list stt)) : list stt :=
     match l with [] => [] | [s] => s | s :: r => s ++ [spu Call ","] ++ commas r end) l) =
     (fix commas (l : list (list tt)) : list tt :=
     match l with [] => [] | [s] => s | s :: r => s ++ [pu ","] ++ commas r end) (map erases l)).
  { clear. induction l as [|x [|y r] IH]; try reflexivity.
    cbn [map]. rewrite !erases_app. f_equal. change (erases [spu Call ","]) with [pu ","]. f_equal. exact IH. }
  unfold smethod, method. rewrite <- H. reflexivity.
Qed.

Lemma ex_slots E at_ l :
  ex erases (sslots_to_tokens E at_ l) = slots_to_tokens (s_env E) at_ (map eslot l).
Proof.
  unfold sslots_to_tokens, slots_to_tokens. apply ex_bind with emap; [apply (ex_collect E l [])|].
  intros m. apply ex_bind with (map erases).
  - rewrite ex_seq, map_map.
    replace (map fst (emap m)) with (map (fun x => si_ident (fst x)) m) by (unfold emap; now rewrite map_map).
    f_equal. apply map_ext. intros k. rewrite ex_slot_method, <- slot_get_erase. reflexivity.
  - intros r. rewrite ex_ret. f_equal. unfold erases. now rewrite concat_map.
Qed.

Lemma ex_component E at_ slot t sels attrs args nodes slots :
  option_map (ex erases) (scomponent_to_tokens E at_ slot t sels attrs args nodes slots) =
  component_to_tokens (s_env E) at_ slot (etag t) (map eselector sels) (map eattr attrs)
    (option_map erases args) (option_map (map enode) nodes) (option_map (map eslot) slots).
Proof.
  destruct t as [i|p|i|i|k]; try reflexivity.
  cbn [scomponent_to_tokens component_to_tokens etag option_map]. f_equal.
  apply ex_bind with epath; [apply ex_turbofishify|]. intros q.
  apply ex_bind with (map erases).
  { destruct slot; [destruct sels; reflexivity|apply ex_component_selectors]. }
  intros dirs0. apply ex_bind with ec; [apply (ex_component_attr_loop E slot attrs ([], dirs0, []))|].
  intros [[props dirs] clones]. cbn [ec fst snd].
  apply ex_bind with erases.
  { destruct nodes as [[|n r]|]; try reflexivity. cbn [option_map]. cbn [map].
    apply (ex_children E (n :: r) args clones). }
  intros ch. apply ex_bind with erases.
  { destruct slots as [l|]; [apply ex_slots|reflexivity]. }
  intros sl. set (s := spath_span E q).
  destruct slot; rewrite ex_ret; f_equal.
  - rewrite erases_app, erase_gpath. f_equal.
    change (erases [spar Call ?x]) with [par (erases x)].
    rewrite !erases_app, erase_path_tokens. reflexivity.
  - change (erases (?a ++ ?b)) with (erases (a ++ b)). rewrite !erases_app, erase_gpath. f_equal. f_equal.
    change (erases [spar Call ?x]) with [par (erases x)]. do 2 f_equal.
    rewrite !erases_app, erase_gpath. f_equal.
    change (erases [spar Call ?x]) with [par (erases x)]. f_equal.
    + do 2 f_equal. rewrite !erases_app, erase_path_tokens, erase_gpath.
      change (erases [spar s (spu s "&" :: ?x)]) with [par (pu "&" :: erases x)].
      rewrite erase_path_tokens. reflexivity.
    + unfold smethod, method.
      change (erases [spu Call "."; ?n; spar Call [spar Call ?x]]) with [pu "."; erase n; par [par (erases x)]].
      rewrite erases_flat, flat_map_map.
      rewrite (flat_map_ext _ (fun x => erases x ++ [pu ","])); [reflexivity|].
      intros x. apply erases_app.
Qed.

Lemma ex_element_tokens E at_ slot t sels attrs args nodes slots :
  ex erases (selement_tokens E at_ slot t sels attrs args nodes slots) =
  element_tokens (s_env E) at_ slot (etag t) (map eselector sels) (map eattr attrs)
    (option_map erases args) (option_map (map enode) nodes) (option_map (map eslot) slots).
Proof.
  unfold selement_tokens, element_tokens. destruct slot.
  - now rewrite ex_expect, ex_component.
  - rewrite <- (ex_xml E). destruct (sxml_to_tokens E t sels attrs nodes); [reflexivity|].
    cbn [option_map]. now rewrite ex_expect, ex_component.
Qed.

(** Induction over elements and the children inside them. *)
Definition schild_list (ch : option (list schild)) : list schild :=
  match ch with Some l => l | None => [] end.
Lemma selement_ind2 (Q : selement -> Prop) :
  (forall t sels attrs args ch,
     (forall e, List.In (SCElement e) (schild_list ch) -> Q e) ->
     (forall s e, List.In (SCSlot s e) (schild_list ch) -> Q e) ->
     Q (SElement t sels attrs args ch)) -> forall e, Q e.
Proof.
  intros H. fix rec 1. intros [t sels attrs args ch]. apply H.
  - destruct ch as [l|]; cbn; [|tauto].
    induction l as [|c l IH]; intros e Hin; [destruct Hin|]. destruct Hin as [Hin|Hin]; [|now apply IH].
    destruct c as [v|e'|s e']; try discriminate. injection Hin as <-. apply rec.
  - destruct ch as [l|]; cbn; [|tauto].
    induction l as [|c l IH]; intros s e Hin; [destruct Hin|]. destruct Hin as [Hin|Hin]; [|now apply (IH s)].
    destruct c as [v|e'|s' e']; try discriminate. injection Hin as _ <-. apply rec.
Qed.

Lemma sexpand_element_eq E at_ slot t sels attrs args ch :
  sexpand_element E at_ slot (SElement t sels attrs args ch) =
  selement_tokens E at_ slot t sels attrs args
    (option_map (sexpand_nodes E at_ 0) ch) (option_map (sexpand_slots E at_ 0) ch).
Proof.
  cbn [sexpand_element]. f_equal; destruct ch as [l|]; cbn [option_map]; try reflexivity; f_equal.
  - generalize 0. induction l as [|[v|e|s e] r IH]; intros n; cbn [sexpand_nodes]; [reflexivity| | |];
      rewrite <- ?IH; reflexivity.
  - generalize 0. induction l as [|[v|e|s e] r IH]; intros n; cbn [sexpand_slots]; [reflexivity| | |];
      rewrite <- ?IH; reflexivity.
Qed.

Lemma expand_element_eq' E at_ slot t sels attrs args ch :
  expand_element E at_ slot (Element t sels attrs args ch) =
  element_tokens E at_ slot t sels attrs args
    (option_map (expand_nodes E at_ 0) ch) (option_map (expand_slots E at_ 0) ch).
Proof.
  cbn [expand_element]. f_equal.
  - destruct ch as [l|]; cbn [option_map]; auto. f_equal. generalize 0 as n.
    induction l as [|[v|e|e] l IH]; intros n; cbn [expand_nodes expand_node]; auto; f_equal; apply IH.
  - destruct ch as [l|]; cbn [option_map]; auto. f_equal. generalize 0 as n.
    induction l as [|[v|e|e] l IH]; intros n; cbn [expand_slots]; auto; f_equal; apply IH.
Qed.

Lemma ex_into_render x y : ex erases x = y ->
  ex erases (sxbind x (fun ts => sxret (sinto_render ts))) = xbind y (fun ts => xret (into_render ts)).
Proof. intros H. now apply ex_bind with erases. Qed.

Lemma ex_nodes E at_ l :
  (forall e, List.In (SCElement e) l -> forall at_ slot,
     ex erases (sexpand_element E at_ slot e) = expand_element (s_env E) at_ slot (eelement e)) ->
  forall n, map enode (sexpand_nodes E at_ n l) = expand_nodes (s_env E) at_ n (map echild l).
Proof.
  induction l as [|c r IH]; intros H n; [reflexivity|].
  assert (Hr : forall n, map enode (sexpand_nodes E at_ n r) = expand_nodes (s_env E) at_ n (map echild r)).
  { apply IH. intros e He. apply H. now right. }
  destruct c as [v|e|s e]; cbn [map echild sexpand_nodes expand_nodes sexpand_node expand_node]; rewrite ?Hr.
  - unfold enode at 1; cbn [snd]. f_equal. apply ex_into_render, ex_value.
  - unfold enode at 1; cbn [snd]. f_equal. apply ex_into_render, H. now left.
  - reflexivity.
Qed.
Lemma etag_of e : el_tag (eelement e) = etag (sel_tag e).
Proof. now destruct e. Qed.
Lemma ex_slot_list E at_ l :
  (forall s e, List.In (SCSlot s e) l -> forall at_ slot,
     ex erases (sexpand_element E at_ slot e) = expand_element (s_env E) at_ slot (eelement e)) ->
  forall n, map eslot (sexpand_slots E at_ n l) = expand_slots (s_env E) at_ n (map echild l).
Proof.
  induction l as [|c r IH]; intros H n; [reflexivity|].
  assert (Hr : forall n, map eslot (sexpand_slots E at_ n r) = expand_slots (s_env E) at_ n (map echild r)).
  { apply IH. intros s e He. apply (H s). now right. }
  destruct c as [v|e|s e]; cbn [map echild sexpand_slots expand_slots]; rewrite ?Hr; try reflexivity.
  unfold eslot at 1; cbn [fst snd]. rewrite etag_of. f_equal. f_equal. apply (H s). now left.
Qed.

Theorem ex_element E e : forall at_ slot,
  ex erases (sexpand_element E at_ slot e) = expand_element (s_env E) at_ slot (eelement e).
Proof.
  induction e as [t sels attrs args ch IHe IHs] using selement_ind2. intros at_ slot.
  rewrite sexpand_element_eq, eelement_eq, expand_element_eq', ex_element_tokens.
  destruct ch as [l|]; cbn [option_map schild_list] in *; [|reflexivity].
  now rewrite ex_nodes, ex_slot_list.
Qed.

Lemma ex_node E at_ c : ex erases (sexpand_node E at_ c) = expand_node (s_env E) at_ (echild c).
Proof.
  destruct c as [v|e|s e]; cbn [sexpand_node expand_node echild]; [| |reflexivity].
  - apply ex_into_render, ex_value.
  - apply ex_into_render, ex_element.
Qed.

Lemma ex_root E cs : ex erases (sroot_tokens E cs) = root_tokens (s_env E) (map echild cs).
Proof.
  assert (Hs : forall cs, match find sis_slot cs with Some _ => true | None => false end =
    existsb is_slot (map echild cs)).
  { clear. induction cs as [|[v|e|s e] r IH]; cbn; auto. }
  assert (Hm : ex erases
     match find sis_slot cs with
     | Some c => sxabort DRootSlot (node_span E c)
     | None =>
         sxbind (srun (sexpand_nodes E [] 0 cs)) (fun l =>
         sxret [sgroup Call Brace ([spu Call "#"; sgroup Call Bracket [skw Call "allow";
            spar Call [skw Call "unused_braces"]]] ++ schildren_fragment_tokens (map snd l) Call)])
     end =
     if existsb is_slot (map echild cs) then xabort DRootSlot
     else
       xbind (xseq (expand_nodes (s_env E) [] 0 (map echild cs))) (fun l =>
       xret [TGroup Brace
               ([pu "#"; TGroup Bracket [kw "allow"; par [kw "unused_braces"]]]
                ++ children_fragment_tokens l)])).
  { rewrite <- Hs. destruct (find sis_slot cs); [reflexivity|].
    apply ex_bind with (map erun).
    - rewrite ex_run, ex_nodes; [reflexivity|]. intros e _ at_ slot. apply ex_element.
    - intros l. rewrite ex_ret. f_equal. change (erases [sgroup Call Brace ?x]) with [TGroup Brace (erases x)].
      rewrite erases_app, erase_fragment, map_map. reflexivity. }
  unfold sroot_tokens, root_tokens. destruct cs as [|c [|c' r]]; [exact Hm| |exact Hm].
  cbn [map]. destruct c as [v|e|s e]; [| |reflexivity];
    (apply ex_bind with erases; [apply ex_node|]; intros ts; rewrite ex_ret; f_equal).
Qed.

(** ** The macro *)

Theorem erase_mview E input : same_generic E ->
  eresult (smview E input) = mview (s_env E) (erases input).
Proof.
  intros HG. unfold smview, mview.
  pose proof (sim_children E HG (S (size (erases input))) Call input) as Hp.
  rewrite <- Hp. destruct (sparse_children E _ Call input) as [[cs|e s| |w|] r ds]; cbn; try reflexivity.
  - pose proof (ex_root E cs) as Hx. rewrite <- Hx.
    destruct (sroot_tokens E cs) as [[ts| |w] ds']; cbn; try reflexivity.
    + rewrite <- map_app. unfold sdiag in *. now destruct (ds ++ ds').
    + now rewrite map_app.
  - now rewrite map_app.
Qed.
Theorem erase_mview_nightly E input : same_generic E ->
  eanswer (smview_nightly E input) = mview_nightly (s_env E) (erases input).
Proof.
  intros HG. unfold smview_nightly, mview_nightly.
  pose proof (sim_children E HG (S (size (erases input))) Call input) as Hp.
  rewrite <- Hp. destruct (sparse_children E _ Call input) as [[cs|e s| |w|] r ds]; cbn; try reflexivity.
  - pose proof (ex_root E cs) as Hx. rewrite <- Hx.
    destruct (sroot_tokens E cs) as [[ts| |w] ds']; cbn; try reflexivity; now rewrite map_app.
  - now rewrite map_app.
Qed.
