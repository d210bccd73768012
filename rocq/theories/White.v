(** Parsers on token streams that differ only in white space that does not matter. *)
From Verif Require Export SpecWhite SpecGrammar.
Open Scope list_scope.
Open Scope parse_scope.

(** ** Trees without white space in their code *)
Definition lcode (ts : list tt) : list tt := map loose ts.
Definition lvalue (v : value) : value :=
  match v with
  | VLit l => VLit l
  | VBlock ts => VBlock (lcode ts)
  | VBracket p ts => VBracket p (lcode ts)
  end.
Definition lkv (a : kv_attr) : kv_attr := KvAttr (kv_key a) (lvalue (kv_value a)).
Definition ldir (d : directive) : directive :=
  Directive (d_dir d) (d_key d) (d_modifier d) (option_map lvalue (d_value d)).
Definition lattr (a : attr) : attr :=
  match a with
  | AKv a => AKv (lkv a)
  | ADir d => ADir (ldir d)
  | ASpread ts => ASpread (lcode ts)
  end.
Definition largs (a : path_args) : path_args :=
  match a with PNone => PNone | PAngle b ts => PAngle b (lcode ts) | PParen ts => PParen (lcode ts) end.
Definition lseg (s : path_seg) : path_seg := PSeg (seg_ident s) (largs (seg_args s)).
Definition lpath (p : path) : path := Path (leading p) (map lseg (segs p)).
Definition ltag (t : tag) : tag := match t with TagComponent p => TagComponent (lpath p) | _ => t end.
Fixpoint lelement (e : element) : element :=
  match e with
  | Element t sels attrs args ch =>
      Element (ltag t) sels (map lattr attrs) (option_map lcode args)
        (option_map
           (fix go (l : list child) : list child :=
              match l with [] => [] | c :: r => wchild c :: go r end) ch)
  end
with wchild (c : child) : child :=
  match c with
  | CValue v => CValue (lvalue v)
  | CElement e => CElement (lelement e)
  | CSlot e => CSlot (lelement e)
  end.
Lemma lelement_eq t sels attrs args ch : lelement (Element t sels attrs args ch) =
  Element (ltag t) sels (map lattr attrs) (option_map lcode args) (option_map (map wchild) ch).
Proof.
  cbn. f_equal.
Qed.

(** Equal but for white space. *)
Definition eqv {A} (f : A -> A) (a b : A) : Prop := f a = f b.

Lemma same_loose ts ts' : same_text ts ts' -> lcode ts = lcode ts'.
Proof. induction 1; cbn; unfold lcode in *; cbn; congruence. Qed.
Lemma same_length ts ts' : same_text ts ts' -> List.length ts = List.length ts'.
Proof. induction 1; cbn; congruence. Qed.
Lemma tt_size_group d g : tt_size (TGroup d g) = S (size g).
Proof. reflexivity. Qed.
Lemma same_size ts ts' : same_text ts ts' -> size ts = size ts'.
Proof.
  induction 1; [reflexivity|..]; unfold size in *; cbn [fold_right]; rewrite ?tt_size_group; unfold size; cbn; congruence.
Qed.

Section White.
Variable E : env.
Hypothesis HE : env_ok E.

Definition sp (ts ts' : list tt) : Prop := same_text ts ts' /\ plain_generics E ts.

Inductive spv : list tt -> list tt -> Prop :=
| v_nil : spv [] []
| v_ident i ts ts' : sp ts ts' -> spv (TIdent i :: ts) (TIdent i :: ts')
| v_lit k s ts ts' : sp ts ts' -> spv (TLit k s :: ts) (TLit k s :: ts')
| v_punct c s s' ts ts' : (matters c ts -> s = s') -> sp ts ts' -> spv (TPunct c s :: ts) (TPunct c s' :: ts')
| v_group d g g' ts ts' : sp g g' -> sp ts ts' -> spv (TGroup d g :: ts) (TGroup d g' :: ts').

Lemma place_trans ts u v : place_of ts u -> place_of u v -> place_of ts v.
Proof. intros H. induction 1; auto; [eapply po_tail|eapply po_group]; eauto. Qed.
Lemma plain_place ts u : plain_generics E ts -> place_of ts u -> plain_generics E u.
Proof. intros H Hu v Hv. apply H. eapply place_trans; eauto. Qed.
Lemma plain_tail t ts : plain_generics E (t :: ts) -> plain_generics E ts.
Proof. intros H. apply (plain_place (t :: ts)); auto. apply (po_tail _ t). constructor. Qed.
Lemma plain_group d g ts : plain_generics E (TGroup d g :: ts) -> plain_generics E g.
Proof. intros H. apply (plain_place (TGroup d g :: ts)); auto. apply (po_group _ d g ts). constructor. Qed.
Lemma sp_view ts ts' : sp ts ts' -> spv ts ts'.
Proof.
  intros [H Hp]. pose proof (fun t r (e : ts = t :: r) => plain_tail t r (eq_ind _ (plain_generics E) Hp _ e)) as Ht.
  destruct H; constructor; try split; eauto. subst. apply (plain_group d g ts Hp).
Qed.
Lemma sp_length ts ts' : sp ts ts' -> List.length ts = List.length ts'.
Proof. intros [H _]. now apply same_length. Qed.
Lemma sp_loose ts ts' : sp ts ts' -> lcode ts = lcode ts'.
Proof. intros [H _]. now apply same_loose. Qed.
Lemma sp_skipn n : forall ts ts', sp ts ts' -> sp (skipn n ts) (skipn n ts').
Proof. induction n as [|n IH]; intros ts ts' H; auto. destruct (sp_view _ _ H); cbn; auto. Qed.

(** ** Results *)
Inductive rp {A} (R : A -> A -> Prop) : pres A -> pres A -> Prop :=
| rp_ret a a' r r' d : R a a' -> sp r r' -> rp R (PR (Ret a) r d) (PR (Ret a') r' d)
| rp_fail e r r' d : sp r r' -> rp R (PR (Fail e) r d) (PR (Fail e) r' d)
| rp_abort r r' d : sp r r' -> rp R (PR Abort r d) (PR Abort r' d)
| rp_panic w r r' d : sp r r' -> rp R (PR (Panic w) r d) (PR (Panic w) r' d)
| rp_nofuel r r' d : sp r r' -> rp R (PR NoFuel r d) (PR NoFuel r' d).
Definition rel {A} (R : A -> A -> Prop) (m m' : P A) : Prop := forall ts ts', sp ts ts' -> rp R (m ts) (m' ts').
Definition ro {A} (R : A -> A -> Prop) (x y : option A) : Prop :=
  match x, y with Some a, Some b => R a b | None, None => True | _, _ => False end.

Lemma r_ret {A} (R : A -> A -> Prop) a b : R a b -> rel R (ret a) (ret b).
Proof. intros H ts ts' Hs. now constructor. Qed.
Lemma r_fail {A} (R : A -> A -> Prop) e : rel R (fail e) (fail e).
Proof. intros ts ts' Hs. now constructor. Qed.
Lemma r_emit d : rel eq (emit d) (emit d).
Proof. intros ts ts' Hs. now constructor. Qed.
Lemma r_bind {A B} (R : A -> A -> Prop) (S : B -> B -> Prop) m m' f f' : rel R m m' ->
  (forall a b, R a b -> rel S (f a) (f' b)) -> rel S (bind m f) (bind m' f').
Proof.
  intros Hm Hf ts ts' Hs. unfold bind. destruct (Hm _ _ Hs) as [a b r r' d Hab Hr| | | |]; try (constructor; assumption).
  destruct (Hf _ _ Hab _ _ Hr); cbn; now constructor.
Qed.
Lemma r_look {A} (R : A -> A -> Prop) f f' : (forall ts ts', sp ts ts' -> R (f ts) (f' ts')) -> rel R (look f) (look f').
Proof. intros H ts ts' Hs. constructor; auto. Qed.
Lemma r_unwrap {A} (R : A -> A -> Prop) m m' : rel R m m' -> rel R (unwrap m) (unwrap m').
Proof. intros H ts ts' Hs. unfold unwrap. destruct (H _ _ Hs); now constructor. Qed.
Lemma r_unwrap_or_abort {A} (R : A -> A -> Prop) m m' : rel R m m' -> rel R (unwrap_or_abort m) (unwrap_or_abort m').
Proof. intros H ts ts' Hs. unfold unwrap_or_abort. destruct (H _ _ Hs); now constructor. Qed.
Lemma r_rollback {A} (R : A -> A -> Prop) m m' : rel R m m' -> rel (ro R) (rollback_err m) (rollback_err m').
Proof. intros H ts ts' Hs. unfold rollback_err. destruct (H _ _ Hs); now constructor. Qed.
Lemma r_or_panic {A} w (o : option A) : rel eq (or_panic w o) (or_panic w o).
Proof. destruct o; intros ts ts' Hs; now constructor. Qed.
Lemma rel_weaken {A} (R S : A -> A -> Prop) m m' : (forall a b, R a b -> S a b) -> rel R m m' -> rel S m m'.
Proof. intros H Hm ts ts' Hs. destruct (Hm _ _ Hs); constructor; auto. Qed.
Lemma rel_fun {A} (R : A -> A -> Prop) (f f' : list tt -> P A) :
  (forall ts ts', sp ts ts' -> rel R (f ts) (f' ts')) -> rel R (fun ts => f ts ts) (fun ts => f' ts ts).
Proof. intros H ts ts' Hs. now apply H. Qed.

(** ** Punctuation *)

(** The punctuation that white space can split. *)
Inductive known : string -> Prop :=
| k_one c : known (String c "")
| k_two c d s : List.In (c, d) [(":", ":"); (".", "."); ("<", "<"); ("<", "=")]%char ->
    known (String d s) -> known (String c (String d s)).
Lemma take_two c d s c' p r : take_punct (String c (String d s)) (TPunct c' p :: r) =
  if Ascii.eqb c' "'" then None
  else if Ascii.eqb c' c then match p with Joint => take_punct (String d s) r | Alone => None end else None.
Proof. cbn [take_punct cur_punct]. now destruct (Ascii.eqb c' "'"). Qed.
Lemma r_take s : known s -> forall ts ts', sp ts ts' -> ro sp (take_punct s ts) (take_punct s ts').
Proof.
  induction 1 as [c|c d s Hin Hk IH]; intros ts ts' Hs; destruct (sp_view _ _ Hs) as [|i r r' Hr|k v r r' Hr|c' p p' r r' Hm Hr|x g g' r r' Hg Hr]; try exact I.
  - cbn. destruct (Ascii.eqb c' "'"); [exact I|]. destruct (Ascii.eqb c' c); [exact Hr|exact I].
  - rewrite !take_two. destruct (Ascii.eqb c' "'"); [exact I|]. destruct (Ascii.eqb_spec c' c) as [->|]; [|exact I].
    specialize (IH _ _ Hr).
    assert (Hd : matters c r \/ (take_punct (String d s) r = None /\ take_punct (String d s) r' = None)).
    { destruct (sp_view _ _ Hr) as [|i u u' Hu|k v u u' Hu|e q q' u u' Hq Hu|x g g' u u' Hg Hu]; try (right; split; reflexivity).
      destruct (Ascii.eqb_spec e d) as [->|Hne]; [left; right; eauto|right].
      cbn. destruct (Ascii.eqb e "'"); [split; reflexivity|]. apply Ascii.eqb_neq in Hne. rewrite Hne. split; reflexivity. }
    destruct Hd as [Hd|(Hd & Hd')]; [rewrite (Hm Hd); destruct p'; [exact I|exact IH]|rewrite Hd, Hd'; destruct p, p'; exact I].
Qed.
Lemma r_peek s ts ts' : known s -> sp ts ts' -> peek_punct s ts = peek_punct s ts'.
Proof.
  intros Hk Hs. unfold peek_punct. pose proof (r_take s Hk _ _ Hs) as H. destruct (take_punct s ts), (take_punct s ts'); now try destruct H.
Qed.
Lemma r_punct s : known s -> rel eq (parse_punct s) (parse_punct s).
Proof.
  intros Hk ts ts' Hs. unfold parse_punct. pose proof (r_take s Hk _ _ Hs) as H.
  destruct (take_punct s ts), (take_punct s ts'); try now destruct H. all: now constructor.
Qed.

(** ** Looking ahead *)
Lemma p_group d ts ts' : sp ts ts' -> peek_group d ts = peek_group d ts'.
Proof. intros H. now destruct (sp_view _ _ H). Qed.
Lemma p_any ts ts' : sp ts ts' -> peek_any ts = peek_any ts'.
Proof. intros H. now destruct (sp_view _ _ H). Qed.
Lemma p_ident ts ts' : sp ts ts' -> peek_ident ts = peek_ident ts'.
Proof. intros H. now destruct (sp_view _ _ H). Qed.
Lemma p_keyword s ts ts' : sp ts ts' -> peek_keyword s ts = peek_keyword s ts'.
Proof. intros H. now destruct (sp_view _ _ H). Qed.
Lemma p_found ts ts' : sp ts ts' -> found_in ts = found_in ts'.
Proof. intros H. now destruct (sp_view _ _ H). Qed.
Lemma r_skip ts ts' : sp ts ts' -> ro sp (skip ts) (skip ts').
Proof.
  intros H. destruct (sp_view _ _ H) as [|i r r' Hr|k v r r' Hr|c p p' r r' Hm Hr|x g g' r r' Hg Hr]; cbn; auto.
  destruct (Ascii.eqb_spec c "'") as [->|Hn].
  - rewrite (Hm (or_introl eq_refl)). destruct p'; cbn; auto. destruct (sp_view _ _ Hr); cbn; auto.
  - destruct p, p'; cbn; auto.
Qed.
Lemma p_peek2 f ts ts' : (forall u u', sp u u' -> f u = f u') -> sp ts ts' -> peek2 f ts = peek2 f ts'.
Proof. intros Hf H. unfold peek2. pose proof (r_skip _ _ H) as Hs. destruct (skip ts), (skip ts'); try now destruct Hs. now apply Hf. Qed.
Lemma p_peek3 f ts ts' : (forall u u', sp u u' -> f u = f u') -> sp ts ts' -> peek3 f ts = peek3 f ts'.
Proof.
  intros Hf H. unfold peek3. pose proof (r_skip _ _ H) as Hs. destruct (skip ts), (skip ts'); try now destruct Hs.
  pose proof (r_skip _ _ Hs) as Hs'. destruct (skip l), (skip l0); try now destruct Hs'. now apply Hf.
Qed.
Lemma r_lit_take ts ts' : sp ts ts' -> ro (fun x y => fst x = fst y /\ sp (snd x) (snd y)) (take_lit ts) (take_lit ts').
Proof.
  intros H. destruct (sp_view _ _ H) as [|i r r' Hr|k v r r' Hr|c p p' r r' Hm Hr|x g g' r r' Hg Hr]; cbn; auto.
  - destruct (ident_is i "true"); cbn; auto. destruct (ident_is i "false"); cbn; auto.
  - destruct (sp_view _ _ Hr) as [| |k v u u' Hu| |]; cbn; auto. destruct (Ascii.eqb c "-"); cbn; auto. destruct k; cbn; auto.
Qed.
Lemma p_lit ts ts' : sp ts ts' -> peek_lit ts = peek_lit ts'.
Proof. intros H. unfold peek_lit. pose proof (r_lit_take _ _ H) as Hl. destruct (take_lit ts), (take_lit ts'); now try destruct Hl. Qed.

(** ** Primitive parsers *)
Lemma r_any : rel eq parse_any parse_any.
Proof. intros ts ts' H. unfold parse_any. destruct (sp_view _ _ H); cbn; now constructor. Qed.
Lemma r_ident : rel eq parse_ident parse_ident.
Proof.
  intros ts ts' H. unfold parse_ident. pose proof (sp_view _ _ H) as Hv.
  destruct Hv; try (now constructor). destruct (accept_as_ident i); now constructor.
Qed.
Lemma r_lit : rel eq parse_lit parse_lit.
Proof.
  intros ts ts' H. unfold parse_lit. pose proof (r_lit_take _ _ H) as Hl.
  destruct (take_lit ts) as [[]|], (take_lit ts') as [[]|]; try now destruct Hl. destruct Hl as [Ha Hb]; cbn in *; subst; now constructor. now constructor.
Qed.
Lemma r_lit_int : rel eq parse_lit_int parse_lit_int.
Proof.
  intros ts ts' H. unfold parse_lit_int. pose proof (r_lit_take _ _ H) as Hl.
  destruct (take_lit ts) as [[l r]|], (take_lit ts') as [[l' r']|]; try (now destruct Hl); [|now constructor].
  destruct Hl as [Ha Hb]; cbn in *; subst. destruct l' as [[]|]; now constructor.
Qed.
Lemma r_lit_str : rel eq parse_lit_str parse_lit_str.
Proof.
  intros ts ts' H. unfold parse_lit_str. pose proof (r_lit_take _ _ H) as Hl.
  destruct (take_lit ts) as [[l r]|], (take_lit ts') as [[l' r']|]; try (now destruct Hl); [|now constructor].
  destruct Hl as [Ha Hb]; cbn in *; subst. destruct l' as [[]|]; now constructor.
Qed.
Lemma r_tt : rel (eqv loose) parse_tt parse_tt.
Proof.
  intros ts ts' H. unfold parse_tt. destruct (sp_view _ _ H); constructor; auto; try reflexivity.
  unfold eqv. cbn. f_equal. now apply sp_loose.
Qed.
Lemma r_extract d : rel sp (extract d) (extract d).
Proof.
  intros ts ts' H. unfold extract. pose proof (sp_view _ _ H) as Hv. destruct Hv; try (now constructor).
  destruct (delim_eqb d d0); now constructor.
Qed.
Lemma r_rest : rel sp take_rest take_rest.
Proof.
  intros ts ts' H. constructor; auto. replace ([] : list tt) with (skipn (List.length ts) ts) at 1 by apply skipn_all.
  replace ([] : list tt) with (skipn (List.length ts') ts') by apply skipn_all. rewrite <- (sp_length _ _ H). now apply sp_skipn.
Qed.
Lemma r_delimited {A} (R : A -> A -> Prop) d m m' : rel R m m' -> rel R (delimited d m) (delimited d m').
Proof.
  intros Hm ts ts' H. unfold delimited. pose proof (sp_view _ _ H) as Hv.
  destruct Hv as [| | | |x g g' r r' Hg Hr]; try (now constructor).
  destruct (delim_eqb d x); [|now constructor].
  destruct (Hm _ _ Hg) as [a b u u' ds Hab Hu| | | |]; try (now constructor).
  destruct (sp_view _ _ Hu); now constructor.
Qed.

(** ** Paths *)
Lemma r_generic ts ts' : sp ts ts' ->
  match generic_args E ts, generic_args E ts' with
  | inl (g, r), inl (g', r') => lcode g = lcode g' /\ sp r r'
  | inr r, inr r' => sp r r'
  | _, _ => False
  end.
Proof.
  intros H. pose proof H as [Hs Hp]. pose proof (sp_length _ _ H) as HL.
  pose proof (Hp ts (po_all ts) ts' Hs) as Hg. destruct HE as (He1 & He2 & _).
  destruct (generic_args E ts) as [[g r]|r] eqn:E1, (generic_args E ts') as [[g' r']|r'] eqn:E2; try now destruct Hg.
  - destruct (He1 _ _ _ E1) as (-> & _). destruct (He1 _ _ _ E2) as (-> & _).
    rewrite !app_length in HL.
    assert (Hl : List.length g = List.length g') by (apply (Nat.add_cancel_r _ _ (List.length r)); rewrite Hg at 2; exact HL).
    pose proof (sp_skipn (List.length g) _ _ H) as Hk. rewrite Hl in Hk at 2. rewrite !skipn_app, !skipn_all, !Nat.sub_diag in Hk. cbn in Hk.
    split; [|exact Hk]. apply sp_loose in H. unfold lcode in *. rewrite !map_app in H.
    apply (f_equal (firstn (List.length g))) in H. rewrite Hl in H at 2. rewrite !firstn_app, !map_length, Hl, !Nat.sub_diag in H. cbn in H.
    rewrite !app_nil_r in H. rewrite <- Hl in H at 1. rewrite <- (map_length loose g), <- (map_length loose g'), !firstn_all in H. exact H.
  - destruct (He2 _ _ E1) as (u & ->). destruct (He2 _ _ E2) as (u' & ->). rewrite !app_length in HL.
    assert (Hl : List.length u = List.length u') by (apply (Nat.add_cancel_r _ _ (List.length r)); rewrite Hg at 2; exact HL).
    pose proof (sp_skipn (List.length u) _ _ H) as Hk. rewrite Hl in Hk at 2. now rewrite !skipn_app, !skipn_all, !Nat.sub_diag in Hk.
Qed.
Lemma k_colon : known "::". Proof. apply k_two; [cbn; auto|apply k_one]. Qed.
Lemma k_dots : known "..". Proof. apply k_two; [cbn; auto|apply k_one]. Qed.
Lemma k_le : known "<=". Proof. apply k_two; [cbn; auto|apply k_one]. Qed.
Lemma k_shl : known "<<=". Proof. apply k_two; [cbn; auto|apply k_le]. Qed.
Lemma r_angle : rel (eqv largs) (parse_angle E) (parse_angle E).
Proof.
  intros ts ts' H. unfold parse_angle. pose proof (r_take _ k_colon _ _ H) as Ht.
  destruct (take_punct "::" ts) as [u|], (take_punct "::" ts') as [u'|]; try now destruct Ht.
  - pose proof (r_generic _ _ Ht) as Hg. destruct (generic_args E u) as [[]|], (generic_args E u') as [[]|]; try (now destruct Hg); [|now constructor].
    destruct Hg as [Ha Hb]. constructor; auto. unfold eqv. cbn. now rewrite Ha.
  - pose proof (r_generic _ _ H) as Hg. destruct (generic_args E ts) as [[]|], (generic_args E ts') as [[]|]; try (now destruct Hg); [|now constructor].
    destruct Hg as [Ha Hb]. constructor; auto. unfold eqv. cbn. now rewrite Ha.
Qed.
(** Case on a condition that both look at. *)
Lemma r_if {A} (R : A -> A -> Prop) (f : list tt -> bool) m1 m2 m1' m2' : (forall ts ts', sp ts ts' -> f ts = f ts') ->
  rel R m1 m1' -> rel R m2 m2' ->
  rel R (bind (look f) (fun b => if b then m1 else m2)) (bind (look f) (fun b => if b then m1' else m2')).
Proof. intros Hf H1 H2. eapply r_bind; [apply r_look, Hf|]. intros b ? <-. destruct b; auto. Qed.
Lemma r_map {A B} (R : A -> A -> Prop) (S : B -> B -> Prop) m m' (f f' : A -> B) : rel R m m' -> (forall a b, R a b -> S (f a) (f' b)) ->
  rel S (x <- m ;; ret (f x)) (x <- m' ;; ret (f' x)).
Proof. intros Hm Hf. eapply r_bind; [exact Hm|]. intros a b Hab. apply r_ret; auto. Qed.
Lemma r_seg : rel (eqv lseg) (parse_seg E) (parse_seg E).
Proof.
  unfold parse_seg. apply r_if.
  - intros ts ts' H. now rewrite (p_keyword "super" _ _ H), (p_keyword "self" _ _ H), (p_keyword "crate" _ _ H).
  - eapply r_map; [apply r_any|]. now intros a ? <-.
  - eapply r_bind; [apply (r_look eq), p_keyword|]. intros b ? <-.
    eapply (r_bind eq); [destruct b; [apply r_any|apply r_ident]|]. intros i ? <-. apply r_if.
    + intros ts ts' H.
      now rewrite (r_peek "<" _ _ (k_one _) H), (r_peek "<=" _ _ k_le H), (r_peek "<<=" _ _ k_shl H), (r_peek "::" _ _ k_colon H),
        (p_peek3 _ _ _ (fun u u' => r_peek "<" u u' (k_one _)) H).
    + eapply r_map; [apply r_angle|]. intros a b' Hab. unfold eqv, lseg in *. cbn. now rewrite Hab.
    + now apply r_ret.
Qed.
Lemma r_segs n : rel (eqv (map lseg)) (parse_segs_rest E n) (parse_segs_rest E n).
Proof.
  induction n as [|n IH]; [intros ts ts' H; now constructor|]. intros ts ts' H. cbn [parse_segs_rest].
  rewrite (r_peek "::" _ _ k_colon H), (p_peek3 _ _ _ (p_group Paren) H).
  destruct (_ && _); [|now constructor]. revert ts ts' H.
  eapply r_bind; [apply r_punct, k_colon|]. intros _ _ _. eapply r_bind; [apply r_seg|]. intros a b Hab.
  eapply r_map; [apply IH|]. intros l l' Hl. unfold eqv in *. cbn. now rewrite Hab, Hl.
Qed.
Lemma r_path : rel (eqv lpath) (parse_path E) (parse_path E).
Proof.
  intros ts ts' H. unfold parse_path. rewrite (sp_length _ _ H). revert ts ts' H. intros ts ts'. generalize (List.length ts'). intros n. revert ts ts'.
  eapply r_bind; [apply r_rollback, r_punct, k_colon|]. intros a b Hab. eapply r_bind; [apply r_seg|]. intros s s' Hs.
  eapply r_map; [apply r_segs|]. intros l l' Hl. unfold eqv, lpath in *. cbn.
  destruct a, b; try now destruct Hab. all: now rewrite Hs, Hl.
Qed.

(** ** Values and names *)
Lemma r_value : rel (eqv lvalue) parse_value parse_value.
Proof.
  unfold parse_value. apply r_if; [apply p_group| |apply r_if; [| |apply r_if; [apply p_group| |apply r_if; [apply p_lit| |apply r_fail]]]].
  - eapply r_map; [apply r_unwrap, r_extract|]. intros a b Hab. apply sp_loose in Hab. unfold eqv. cbn. now rewrite Hab.
  - intros ts ts' H. now rewrite (p_any _ _ H), (p_peek2 _ _ _ (p_group Bracket) H).
  - eapply r_bind; [apply r_unwrap, r_any|]. intros i ? <-. eapply r_map; [apply r_unwrap, r_extract|].
    intros a b Hab. apply sp_loose in Hab. unfold eqv. cbn. now rewrite Hab.
  - eapply r_map; [apply r_unwrap, r_extract|]. intros a b Hab. apply sp_loose in Hab. unfold eqv. cbn. now rewrite Hab.
  - eapply r_map; [apply r_unwrap, r_lit|]. now intros a ? <-.
Qed.
Lemma r_value_or : rel (eqv lvalue) parse_or_emit_err parse_or_emit_err.
Proof.
  unfold parse_or_emit_err. eapply r_bind; [apply r_rollback, r_value|]. intros [v|] [v'|] Hv; try now destruct Hv.
  - now apply r_ret.
  - eapply r_bind; [apply (r_look eq), p_ident|]. intros h ? <-. eapply r_bind; [apply r_emit|]. intros _ _ _. now apply r_ret.
Qed.
Lemma r_kebab_segment k : rel eq (kebab_segment k) (kebab_segment k).
Proof.
  unfold kebab_segment. eapply r_bind; [apply r_rollback, r_any|]. intros [i|] [i'|] Hi; try now destruct Hi.
  - cbn in Hi. subst i'. eapply (r_bind eq); [destruct (i_raw i); [apply r_emit|now apply r_ret]|]. intros _ _ _. now apply r_ret.
  - eapply r_bind; [apply r_rollback, r_lit_int|]. intros [s|] [s'|] Hs; try (now destruct Hs); [cbn in Hs; subst|]; now apply r_ret.
Qed.
Lemma r_kebab_loop n : forall second k, rel eq (kebab_loop n second k) (kebab_loop n second k).
Proof.
  induction n as [|n IH]; intros second k; [intros ts ts' H; now constructor|]. cbn [kebab_loop].
  intros ts ts' H. revert ts ts' H. apply (r_bind (ro eq)); [apply r_rollback, r_punct, k_one|].
  intros [u|] [u'|] Hu; try now destruct Hu.
  - eapply r_bind; [apply r_kebab_segment|]. intros k' ? <-. apply IH.
  - destruct (negb _); [now apply r_ret|]. eapply r_bind; [apply r_kebab_segment|]. intros k' ? <-. apply IH.
Qed.
Lemma r_kebab : rel eq parse_kebab parse_kebab.
Proof.
  intros ts ts' H. unfold parse_kebab. rewrite (sp_length _ _ H). generalize (List.length ts'). intros n. revert ts ts' H.
  eapply r_bind; [apply r_rollback, r_any|]. intros i i' Hi. eapply (r_bind eq).
  - destruct i, i'; try now destruct Hi. cbn in Hi. subst. now apply r_ret.
    eapply r_bind; [apply r_rollback, r_punct, k_one|]. intros [u|] [u'|] Hu; try now destruct Hu. now apply r_ret.
    intros ts ts' H. rewrite (p_found _ _ H). now constructor.
  - intros k ? <-. apply r_kebab_loop.
Qed.
Lemma r_kebab_or_str : rel eq parse_kebab_or_str parse_kebab_or_str.
Proof.
  unfold parse_kebab_or_str. eapply r_bind; [apply r_rollback, r_lit_str|]. intros [s|] [s'|] Hs; try (now destruct Hs).
  - cbn in Hs. subst. now apply r_ret.
  - eapply r_map; [apply r_kebab|]. now intros a ? <-.
Qed.
Lemma r_block_value k : rel (eqv lvalue) (into_block_value k) (into_block_value k).
Proof. unfold into_block_value, snake. eapply r_map; [apply r_or_panic|]. now intros i ? <-. Qed.

(** ** Tags and attributes *)
Lemma r_tag : rel (eqv ltag) (parse_tag E) (parse_tag E).
Proof.
  unfold parse_tag. apply r_if.
  - intros ts ts' H. now rewrite (r_peek "::" _ _ k_colon H), (p_peek2 _ _ _ (fun u u' => r_peek "::" u u' k_colon) H),
      (p_peek2 _ _ _ (fun u u' => r_peek "<" u u' (k_one _)) H).
  - eapply r_map; [apply r_path|]. intros a b Hab. unfold eqv in *. cbn. now rewrite Hab.
  - eapply r_bind; [apply r_kebab|]. intros k ? <-.
    destruct (tag_kind_from _); try (eapply r_map; [apply r_or_panic|now intros i ? <-]). now apply r_ret.
Qed.
Lemma r_selector : rel eq parse_selector parse_selector.
Proof.
  unfold parse_selector. eapply r_bind; [apply r_rollback, r_punct, k_one|]. intros [u|] [u'|] Hu; try now destruct Hu.
  - eapply r_map; [apply r_kebab|]. now intros k ? <-.
  - eapply r_bind; [apply r_rollback, r_punct, k_one|]. intros [u|] [u'|] Hu'; try now destruct Hu'.
    + eapply r_map; [apply r_kebab|]. now intros k ? <-.
    + apply r_fail.
Qed.
Lemma r_many {A} (f : A -> A) n m : rel (eqv f) m m -> rel (eqv (map f)) (many n m) (many n m).
Proof.
  intros Hm. induction n as [|n IH]; [intros ts ts' H; now constructor|]. cbn [many].
  intros ts ts' H. revert ts ts' H. apply (r_bind (ro (eqv f))); [now apply r_rollback|]. intros [u|] [u'|] Hu; try now destruct Hu.
  - eapply r_map; [apply IH|]. intros l l' Hl. unfold eqv in *. cbn in *. unfold eqv in Hu. now rewrite Hu, Hl.
  - now apply r_ret.
Qed.
Lemma r_selectors : rel eq parse_selectors parse_selectors.
Proof.
  intros ts ts' H. unfold parse_selectors. rewrite (sp_length _ _ H). generalize (List.length ts'). intros n. revert ts ts' H.
  apply (rel_weaken (eqv (map (fun x => x)))); [unfold eqv; intros a b; now rewrite !map_id|]. apply (r_many (fun x : selector => x)), r_selector.
Qed.
Lemma r_kv : rel (eqv lkv) parse_kv parse_kv.
Proof.
  unfold parse_kv. apply r_if; [apply p_group|..].
  - eapply r_bind; [apply r_delimited, r_kebab|]. intros k ? <-. eapply r_map; [apply r_block_value|].
    intros a b Hab. unfold eqv, lkv in *. cbn. now rewrite Hab.
  - eapply r_bind; [apply r_kebab|]. intros k ? <-. eapply r_bind; [apply r_rollback, r_punct, k_one|].
    intros [u|] [u'|] Hu; try (now destruct Hu); [|now apply r_ret].
    eapply r_map; [apply r_value_or|]. intros a b Hab. unfold eqv, lkv in *. cbn. now rewrite Hab.
Qed.
Lemma r_modifier : rel eq try_parse_modifier try_parse_modifier.
Proof.
  unfold try_parse_modifier. eapply r_bind; [apply r_rollback, r_punct, k_one|]. intros [u|] [u'|] Hu; try now destruct Hu.
  - eapply r_map; [apply r_any|]. now intros i ? <-.
  - now apply r_ret.
Qed.
Lemma r_directive : rel (eqv ldir) parse_directive parse_directive.
Proof.
  unfold parse_directive. eapply r_bind; [apply r_any|]. intros name ? <-. eapply r_bind; [apply r_punct, k_one|]. intros _ _ _.
  apply r_if; [apply p_group|..].
  - eapply r_bind; [apply r_delimited, r_kebab|]. intros k ? <-. eapply r_bind; [apply r_block_value|]. intros v v' Hv.
    eapply r_map; [apply r_modifier|]. intros m ? <-. unfold eqv, ldir in *. cbn. now rewrite Hv.
  - eapply r_bind; [apply r_kebab_or_str|]. intros k ? <-. eapply r_bind; [apply r_modifier|]. intros m ? <-.
    eapply r_bind; [apply r_rollback, r_punct, k_one|]. intros [u|] [u'|] Hu; try now destruct Hu.
    + eapply r_map; [apply r_value_or|]. intros v v' Hv. unfold eqv, ldir in *. cbn. now rewrite Hv.
    + now apply r_ret.
Qed.
Lemma r_spread : rel (eqv lcode) parse_spread parse_spread.
Proof.
  unfold parse_spread. eapply r_bind; [apply r_extract|]. intros g g' Hg. pose proof (r_take _ k_dots _ _ Hg) as Ht.
  destruct (take_punct ".." g), (take_punct ".." g'); try (now destruct Ht); [|apply r_fail].
  apply r_ret. now apply sp_loose.
Qed.
Lemma r_attr : rel (eqv lattr) parse_attr parse_attr.
Proof.
  unfold parse_attr. apply r_if.
  - intros ts ts' H. now rewrite (p_any _ _ H), (p_peek2 _ _ _ (fun u u' => r_peek ":" u u' (k_one _)) H).
  - eapply r_map; [apply r_unwrap_or_abort, r_directive|]. intros a b Hab. unfold eqv in *. cbn. now rewrite Hab.
  - apply r_if; [apply p_ident|..].
    + eapply r_map; [apply r_kv|]. intros a b Hab. unfold eqv in *. cbn. now rewrite Hab.
    + eapply r_bind; [apply r_rollback, r_kv|]. intros [u|] [u'|] Hu; try now destruct Hu.
      * apply r_ret. unfold eqv in *. cbn in *. unfold eqv in Hu. now rewrite Hu.
      * eapply r_bind; [apply r_rollback, r_spread|]. intros [w|] [w'|] Hw; try (now destruct Hw); [|apply r_fail].
        apply r_ret. unfold eqv in *. cbn in *. unfold eqv in Hw. now rewrite Hw.
Qed.
Lemma r_attrs : rel (eqv (map lattr)) parse_attrs parse_attrs.
Proof.
  intros ts ts' H. unfold parse_attrs. rewrite (sp_length _ _ H). generalize (List.length ts'). intros n. revert ts ts' H.
  apply r_many, r_attr.
Qed.

(** ** Elements and children *)
Lemma r_closure_loop n : rel (eqv lcode) (closure_loop n) (closure_loop n).
Proof.
  induction n as [|n IH]; [intros ts ts' H; now constructor|]. cbn [closure_loop]. intros ts ts' H. revert ts ts' H.
  apply (r_bind (ro eq)); [apply r_rollback, r_punct, k_one|]. intros [u|] [u'|] Hu; try now destruct Hu.
  - now apply r_ret.
  - eapply r_bind; [apply r_rollback, r_tt|]. intros [t|] [t'|] Ht; try (now destruct Ht); [|apply r_fail].
    eapply r_map; [apply IH|]. intros l l' Hl. unfold eqv, lcode in *. cbn in *. unfold eqv in Ht. now rewrite Ht, Hl.
Qed.
Lemma r_closure : rel (eqv lcode) parse_closure_args parse_closure_args.
Proof.
  intros ts ts' H. unfold parse_closure_args. rewrite (sp_length _ _ H). generalize (List.length ts'). intros n. revert ts ts' H.
  eapply r_bind; [apply r_punct, k_one|]. intros _ _ _. eapply r_map; [apply r_closure_loop|].
  intros l l' Hl. unfold eqv, lcode in *. cbn. now rewrite Hl.
Qed.
Lemma r_element pc pc' : rel (eqv (map wchild)) pc pc' -> rel (eqv lelement) (parse_element E pc) (parse_element E pc').
Proof.
  intros Hpc. unfold parse_element. eapply r_bind; [apply r_tag|]. intros t t' Ht. eapply r_bind; [apply r_selectors|]. intros sels ? <-.
  eapply r_bind; [apply r_attrs|]. intros at_ at' Ha. eapply r_bind; [apply r_rollback, r_punct, k_one|].
  assert (Hel : forall a a' c c', option_map lcode a = option_map lcode a' -> option_map (map wchild) c = option_map (map wchild) c' ->
            eqv lelement (Element t sels at_ a c) (Element t' sels at' a' c')).
  { intros a a' c c' H1 H2. unfold eqv in *. rewrite !lelement_eq. now rewrite Ht, Ha, H1, H2. }
  intros [u|] [u'|] Hu; try (now destruct Hu); [now apply r_ret, Hel|].
  eapply (r_bind sp); [apply r_look; auto|]. intros ts ts' Hts.
  assert (Hne : (ts = [] /\ ts' = []) \/ (ts <> [] /\ ts' <> [])).
  { destruct (sp_view _ _ Hts); [now left|right; split; discriminate..]. }
  assert (Hmatch : forall (A : Type) (l : list tt) (x y : A), l <> [] -> match l with [] => x | _ => y end = y) by (intros ? []; congruence).
  destruct Hne as [(-> & ->)|(H1 & H2)].
  - eapply r_bind; [apply r_emit|]. intros _ _ _. now apply r_ret, Hel.
  - rewrite !Hmatch by assumption. rewrite (p_group Brace _ _ Hts), (p_group Paren _ _ Hts), (r_peek "|" _ _ (k_one _) Hts).
    destruct (peek_group Brace ts').
    { eapply r_map; [apply r_delimited, Hpc|]. intros c c' Hc. apply Hel; [reflexivity|]. cbn. now rewrite Hc. }
    destruct (peek_group Paren ts').
    { eapply r_map; [apply r_delimited, Hpc|]. intros c c' Hc. apply Hel; [reflexivity|]. cbn. now rewrite Hc. }
    destruct (peek_punct "|" ts').
    + eapply r_bind; [apply r_closure|]. intros args args' Hargs. eapply (r_bind sp); [apply r_look; auto|]. intros us us' Hus.
      rewrite (p_group Brace _ _ Hus), (p_group Paren _ _ Hus).
      assert (Hs : option_map lcode (Some args) = option_map lcode (Some args')) by (cbn; now rewrite Hargs).
      destruct (peek_group Brace us').
      { eapply r_map; [apply r_delimited, Hpc|]. intros c c' Hc. apply Hel; [exact Hs|]. cbn. now rewrite Hc. }
      destruct (peek_group Paren us').
      { eapply r_map; [apply r_delimited, Hpc|]. intros c c' Hc. apply Hel; [exact Hs|]. cbn. now rewrite Hc. }
      eapply r_bind; [apply r_emit|]. intros _ _ _. now apply r_ret, Hel.
    + eapply r_bind; [apply r_emit|]. intros _ _ _. eapply r_bind; [apply r_emit|]. intros _ _ _. now apply r_ret, Hel.
Qed.
Lemma r_child pc pc' : rel (eqv (map wchild)) pc pc' -> rel (eqv wchild) (parse_child E pc) (parse_child E pc').
Proof.
  intros Hpc. unfold parse_child. eapply r_bind; [apply r_rollback, r_value|]. intros [v|] [v'|] Hv; try now destruct Hv.
  - destruct v as [l|g|p g], v' as [l'|g'|p' g']; unfold ro, eqv in Hv; cbn in Hv; try discriminate Hv.
    + injection Hv as ->. destruct l' as [[] s|b]; try (eapply r_bind; [apply r_emit|]; intros _ _ _); now apply r_ret.
    + apply r_ret. unfold eqv. cbn. now rewrite Hv.
    + apply r_ret. unfold eqv. cbn. now rewrite Hv.
  - apply r_if.
    + intros ts ts' H. now rewrite (p_keyword "slot" _ _ H), (p_peek2 _ _ _ (fun u u' => r_peek ":" u u' (k_one _)) H),
        (p_peek2 _ _ _ (fun u u' => r_peek "::" u u' k_colon) H).
    + eapply r_bind; [apply r_unwrap, r_any|]. intros _ _ _. eapply r_bind; [apply r_unwrap, r_punct, k_one|]. intros _ _ _.
      eapply r_map; [now apply r_element|]. intros a b Hab. unfold eqv in *. cbn. now rewrite Hab.
    + apply r_if; [apply p_any| |apply r_fail]. eapply r_map; [now apply r_element|]. intros a b Hab. unfold eqv in *. cbn. now rewrite Hab.
Qed.
Lemma r_children n : rel (eqv (map wchild)) (parse_children E n) (parse_children E n).
Proof.
  induction n as [|n IH]; [intros ts ts' H; now constructor|]. intros ts ts' H. cbn [parse_children].
  assert (Hne : (ts = [] /\ ts' = []) \/ (ts <> [] /\ ts' <> [])).
  { destruct (sp_view _ _ H); [now left|right; split; discriminate..]. }
  assert (Hmatch : forall (A : Type) (l : list tt) (x y : A), l <> [] -> match l with [] => x | _ => y end = y) by (intros ? []; congruence).
  destruct Hne as [(-> & ->)|(H1 & H2)]; [now constructor|]. rewrite !Hmatch by assumption.
  destruct (r_child _ _ IH _ _ H) as [c c' r r' d Hc Hr|e r r' d Hr|r r' d Hr|w r r' d Hr|r r' d Hr]; try (now constructor).
  - cbn zeta.
    assert (Hx : rel (eqv (map wchild)) (cs <- parse_children E n ;; ret (c :: cs)) (cs <- parse_children E n ;; ret (c' :: cs))).
    { eapply r_bind; [apply IH|]. intros l l' Hl. apply r_ret. unfold eqv in *. cbn. now rewrite Hc, Hl. }
    destruct (Hx _ _ Hr); cbn; now constructor.
  - cbn zeta. rewrite (r_peek ";" _ _ (k_one _) Hr). destruct (peek_punct ";" r').
    + assert (Hx : rel (eqv (map wchild)) (emit DExtraSemi ;;; unwrap (parse_punct ";") ;;; parse_children E n)
                     (emit DExtraSemi ;;; unwrap (parse_punct ";") ;;; parse_children E n)).
      { eapply r_bind; [apply r_emit|]. intros _ _ _. eapply r_bind; [apply r_unwrap, r_punct, k_one|]. intros _ _ _. apply IH. }
      destruct (Hx _ _ Hr); cbn; now constructor.
    + assert (Hx : rel (eqv (map wchild)) (emit (DParse e) ;;; take_rest ;;; parse_children E n)
                     (emit (DParse e) ;;; take_rest ;;; parse_children E n)).
      { eapply r_bind; [apply r_emit|]. intros _ _ _. eapply r_bind; [apply r_rest|]. intros _ _ _. apply IH. }
      destruct (Hx _ _ Hr); cbn; now constructor.
Qed.
End White.
