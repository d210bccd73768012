(** Spans are only copied and joined: related spans in the input give related
    spans in the result.  (Proofs; the statements of interest are in
    [Properties16.v].) *)
From Verif Require Export Erase.
Open Scope list_scope.

Inductive ropt {A B} (P : A -> B -> Prop) : option A -> option B -> Prop :=
| ropt_some a b : P a b -> ropt P (Some a) (Some b)
| ropt_none : ropt P None None.
Inductive rprod {A A' B B'} (P : A -> A' -> Prop) (Q : B -> B' -> Prop) : A * B -> A' * B' -> Prop :=
| rprod_intro a a' b b' : P a a' -> Q b b' -> rprod P Q (a, b) (a', b').
Inductive rsum {A A' B B'} (P : A -> A' -> Prop) (Q : B -> B' -> Prop) : A + B -> A' + B' -> Prop :=
| rsum_l a a' : P a a' -> rsum P Q (inl a) (inl a')
| rsum_r b b' : Q b b' -> rsum P Q (inr b) (inr b').
#[export] Hint Constructors ropt rprod rsum Forall2 : move.

Section Relation.
Variable R : span -> span -> Prop.

Inductive rds : dspan -> dspan -> Prop :=
| rds_intro a a' b b' c c' : R a a' -> R b b' -> R c c' -> rds (DSpan a b c) (DSpan a' b' c').
Inductive rtt : stt -> stt -> Prop :=
| rtt_ident s s' i : R s s' -> rtt (SIdent s i) (SIdent s' i)
| rtt_punct s s' c sp : R s s' -> rtt (SPunct s c sp) (SPunct s' c sp)
| rtt_lit s s' k v : R s s' -> rtt (SLit s k v) (SLit s' k v)
| rtt_group s s' d ts ts' : rds s s' -> Forall2 rtt ts ts' -> rtt (SGroup s d ts) (SGroup s' d ts').
Definition rts := Forall2 rtt.
Inductive rid : sident -> sident -> Prop :=
| rid_intro s s' i : R s s' -> rid (SId s i) (SId s' i).

Inductive rdiag : sdiag -> sdiag -> Prop :=
| rdiag_intro d s s' : R s s' -> rdiag (d, s) (d, s').
Definition rdiags := Forall2 rdiag.

Inductive rlit : slit -> slit -> Prop :=
| rlit_tok s s' k v : R s s' -> rlit (SLitTok s k v) (SLitTok s' k v)
| rlit_bool s s' b : R s s' -> rlit (SLitBool s b) (SLitBool s' b).
Inductive rvalue : svalue -> svalue -> Prop :=
| rv_lit l l' : rlit l l' -> rvalue (SVLit l) (SVLit l')
| rv_block b b' ts ts' : rds b b' -> rts ts ts' -> rvalue (SVBlock b ts) (SVBlock b' ts')
| rv_bracket p p' b b' ts ts' : ropt rid p p' -> rds b b' -> rts ts ts' ->
    rvalue (SVBracket p b ts) (SVBracket p' b' ts').
Inductive rkebab : skebab -> skebab -> Prop :=
| rk_intro v l l' : Forall2 R l l' -> rkebab (SKebab v l) (SKebab v l').
Inductive rkey : skebab_or_str -> skebab_or_str -> Prop :=
| rkey_kebab k k' : rkebab k k' -> rkey (SKKebab k) (SKKebab k')
| rkey_str s s' v : R s s' -> rkey (SKStr s v) (SKStr s' v).
Inductive rkv : skv_attr -> skv_attr -> Prop :=
| rkv_intro k k' v v' : rkebab k k' -> rvalue v v' -> rkv (SKvAttr k v) (SKvAttr k' v').
Inductive rdir : sdirective -> sdirective -> Prop :=
| rdir_intro d d' k k' m m' v v' : rid d d' -> rkey k k' -> ropt rid m m' -> ropt rvalue v v' ->
    rdir (SDirective d k m v) (SDirective d' k' m' v').
Inductive rattr : sattr -> sattr -> Prop :=
| ra_kv a a' : rkv a a' -> rattr (SAKv a) (SAKv a')
| ra_dir d d' : rdir d d' -> rattr (SADir d) (SADir d')
| ra_spread b b' l l' ts ts' : rds b b' -> Forall2 R l l' -> rts ts ts' ->
    rattr (SASpread b l ts) (SASpread b' l' ts').
Inductive rsel : sselector -> sselector -> Prop :=
| rsel_id s s' k k' : R s s' -> rkebab k k' -> rsel (SSelId s k) (SSelId s' k')
| rsel_class s s' k k' : R s s' -> rkebab k k' -> rsel (SSelClass s k) (SSelClass s' k').
Inductive rargs : spath_args -> spath_args -> Prop :=
| rargs_none : rargs SPNone SPNone
| rargs_angle l l' ts ts' : ropt (Forall2 R) l l' -> rts ts ts' -> rargs (SPAngle l ts) (SPAngle l' ts')
| rargs_paren ts ts' : rts ts ts' -> rargs (SPParen ts) (SPParen ts').
Inductive rseg : spath_seg -> spath_seg -> Prop :=
| rseg_intro i i' a a' : rid i i' -> rargs a a' -> rseg (SPSeg i a) (SPSeg i' a').
Inductive rpath : spath -> spath -> Prop :=
| rpath_intro l l' s s' m m' : ropt (Forall2 R) l l' -> rseg s s' ->
    Forall2 (rprod (Forall2 R) rseg) m m' -> rpath (SPath l s m) (SPath l' s' m').
Inductive rtag : stag -> stag -> Prop :=
| rtag_html i i' : rid i i' -> rtag (STagHtml i) (STagHtml i')
| rtag_comp p p' : rpath p p' -> rtag (STagComponent p) (STagComponent p')
| rtag_svg i i' : rid i i' -> rtag (STagSvg i) (STagSvg i')
| rtag_math i i' : rid i i' -> rtag (STagMath i) (STagMath i')
| rtag_web k k' : rkebab k k' -> rtag (STagWeb k) (STagWeb k').
Inductive relem : selement -> selement -> Prop :=
| relem_intro t t' s s' a a' g g' c c' : rtag t t' -> Forall2 rsel s s' -> Forall2 rattr a a' ->
    ropt rts g g' -> ropt (Forall2 rchild) c c' -> relem (SElement t s a g c) (SElement t' s' a' g' c')
with rchild : schild -> schild -> Prop :=
| rc_value v v' : rvalue v v' -> rchild (SCValue v) (SCValue v')
| rc_elem e e' : relem e e' -> rchild (SCElement e) (SCElement e')
| rc_slot s s' e e' : R s s' -> relem e e' -> rchild (SCSlot s e) (SCSlot s' e').

Inductive rout {A} (P : A -> A -> Prop) : soutcome A -> soutcome A -> Prop :=
| rout_ret a a' : P a a' -> rout P (SRet a) (SRet a')
| rout_fail e s s' : R s s' -> rout P (SFail e s) (SFail e s')
| rout_abort : rout P SAbort SAbort
| rout_panic w : rout P (SPanic w) (SPanic w)
| rout_fuel : rout P SNoFuel SNoFuel.
Inductive rres {A} (P : A -> A -> Prop) : spres A -> spres A -> Prop :=
| rres_intro o o' r r' d d' : rout P o o' -> rts r r' -> rdiags d d' -> rres P (SPR o r d) (SPR o' r' d').
Definition rp {A} (P : A -> A -> Prop) (m m' : SP A) : Prop :=
  forall sc sc' ts ts', R sc sc' -> rts ts ts' -> rres P (m sc ts) (m' sc' ts').

Inductive rxres {A} (P : A -> A -> Prop) : SX A -> SX A -> Prop :=
| rx_ret a a' d d' : P a a' -> rdiags d d' -> rxres P (SXR (XRet a) d) (SXR (XRet a') d')
| rx_abort d d' : rdiags d d' -> rxres P (SXR XAbort d) (SXR XAbort d')
| rx_panic w d d' : rdiags d d' -> rxres P (SXR (XPanic w) d) (SXR (XPanic w) d').

Inductive rresult : sresult -> sresult -> Prop :=
| rr_expanded ts ts' : rts ts ts' -> rresult (SExpanded ts) (SExpanded ts')
| rr_errors d d' : rdiags d d' -> rresult (SErrors d) (SErrors d')
| rr_panicked w : rresult (SPanicked w) (SPanicked w)
| rr_fuel : rresult SNoFuelLeft SNoFuelLeft.
Inductive ranswer : sanswer -> sanswer -> Prop :=
| rn_gave ts ts' d d' : rts ts ts' -> rdiags d d' -> ranswer (SGave ts d) (SGave ts' d')
| rn_crashed w : ranswer (SCrashed w) (SCrashed w)
| rn_fuel : ranswer SOutOfFuel SOutOfFuel.
End Relation.
#[export] Hint Constructors rds rtt rid rdiag rlit rvalue rkebab rkey rkv rdir rattr rsel rargs rseg
  rpath rtag relem rchild rout rres rxres rresult ranswer : move.
#[export] Hint Unfold rts rdiags : move.

Lemma f2_app {A B} (P : A -> B -> Prop) a a' b b' : Forall2 P a a' -> Forall2 P b b' -> Forall2 P (a ++ b) (a' ++ b').
Proof. intros. now apply Forall2_app. Qed.
Lemma f2_flat {A B C D} (P : A -> B -> Prop) (Q : C -> D -> Prop) f g l l' :
  Forall2 P l l' -> (forall a b, P a b -> Forall2 Q (f a) (g b)) -> Forall2 Q (flat_map f l) (flat_map g l').
Proof. intros H Hf. induction H; cbn; [constructor|]. apply f2_app; auto. Qed.
Lemma f2_map {A B C D} (P : A -> B -> Prop) (Q : C -> D -> Prop) f g l l' :
  Forall2 P l l' -> (forall a b, P a b -> Q (f a) (g b)) -> Forall2 Q (map f l) (map g l').
Proof. intros H Hf. induction H; cbn; constructor; auto. Qed.
Lemma f2_concat {A B} (P : A -> B -> Prop) l l' :
  Forall2 (Forall2 P) l l' -> Forall2 P (List.concat l) (List.concat l').
Proof. intros H. induction H; cbn; [constructor|]. apply f2_app; auto. Qed.
Lemma f2_last {A} (P : A -> A -> Prop) l l' d d' : Forall2 P l l' -> P d d' -> P (List.last l d) (List.last l' d').
Proof. intros H. induction H as [|x y l l' Hx Hl IH]; cbn; auto. destruct Hl; auto. Qed.
Lemma f2_hd {A} (P : A -> A -> Prop) l l' d d' : Forall2 P l l' -> P d d' -> P (hd d l) (hd d' l').
Proof. now intros []. Qed.
#[export] Hint Resolve f2_app : move.

Lemma stt_ind2 (P : stt -> Prop) :
  (forall s i, P (SIdent s i)) -> (forall s c sp, P (SPunct s c sp)) -> (forall s k v, P (SLit s k v)) ->
  (forall s d ts, Forall P ts -> P (SGroup s d ts)) -> forall t, P t.
Proof.
  intros H1 H2 H3 H4. fix rec 1. intros [s i|s c sp|s k v|s d ts]; [apply H1|apply H2|apply H3|apply H4].
  induction ts as [|t r IH]; constructor; [apply rec|exact IH].
Qed.

Section Parsers.
Variable R : span -> span -> Prop.
Variables E E' : senv.
Hypothesis HC : R Call Call.
Hypothesis HJ : forall a a' b b', R a a' -> R b b' -> ropt R (s_join E a b) (s_join E' a' b').
Hypothesis HG : forall sc sc' ts ts', R sc sc' -> rts R ts ts' ->
  rsum (rprod (rts R) (rts R)) (rprod (rts R) R) (s_generic E sc ts) (s_generic E' sc' ts').
Hypothesis HE : s_env E = s_env E'.

Lemma r_erase t : forall t', rtt R t t' -> erase t = erase t'.
Proof.
  induction t as [s i|s c sp|s k v|s d ts IH] using stt_ind2; intros t' H; inversion H; subst; try reflexivity.
  cbn. f_equal. clear H. match goal with H : Forall2 _ ts _ |- _ => induction H as [|a b l l' Ha Hl IHl] end; [reflexivity|].
  cbn. inversion IH; subst. f_equal; auto.
Qed.
Lemma r_erases ts ts' : rts R ts ts' -> erases ts = erases ts'.
Proof. unfold rts. induction 1 as [|t t' r r' Ht Hr IH]; [reflexivity|]. cbn. f_equal; [now apply r_erase|exact IH]. Qed.
Lemma r_length ts ts' : rts R ts ts' -> List.length ts = List.length ts'.
Proof. unfold rts. induction 1; cbn; congruence. Qed.

Lemma r_joinx a a' b b' : R a a' -> R b b' -> R (joinx E a b) (joinx E' a' b').
Proof. intros Ha Hb. unfold joinx. now destruct (HJ _ _ _ _ Ha Hb). Qed.
Lemma r_tspan t t' : rtt R t t' -> R (tspan t) (tspan t').
Proof. intros []; auto. now destruct H. Qed.
Lemma r_stream ts ts' : rts R ts ts' -> R (stream_span E ts) (stream_span E' ts').
Proof.
  intros H. destruct H as [|t t' r r' Ht Hr]; [exact HC|]. unfold stream_span.
  destruct Hr as [|u u' r r' Hu Hr]; [now apply r_tspan|]. apply r_joinx; [now apply r_tspan|].
  apply r_tspan. apply (f2_last (rtt R)); [now constructor|exact Ht].
Qed.
Lemma r_same s s' : R s s' -> rds R (same_span s) (same_span s').
Proof. now constructor. Qed.
Lemma r_skw s s' w : R s s' -> rtt R (skw s w) (skw s' w).
Proof. now constructor. Qed.
Lemma r_spu s s' w : R s s' -> rtt R (spu s w) (spu s' w).
Proof. now constructor. Qed.
Lemma r_sstr s s' w : R s s' -> rtt R (sstr s w) (sstr s' w).
Proof. now constructor. Qed.
Lemma r_sgroup s s' d ts ts' : R s s' -> rts R ts ts' -> rtt R (sgroup s d ts) (sgroup s' d ts').
Proof. intros. constructor; [now apply r_same|assumption]. Qed.
Lemma r_spar s s' ts ts' : R s s' -> rts R ts ts' -> rtt R (spar s ts) (spar s' ts').
Proof. intros. now apply r_sgroup. Qed.
Lemma r_colon2 s s' : R s s' -> rts R (scolon2 s) (scolon2 s').
Proof. intros. repeat constructor; assumption. Qed.
Lemma r_oror s s' : R s s' -> rts R (soror s) (soror s').
Proof. intros. repeat constructor; assumption. Qed.
Lemma r_gpath s s' l : R s s' -> rts R (sgpath s l) (sgpath s' l).
Proof.
  intros H. unfold sgpath, rts. induction l; cbn; [constructor|]. repeat (constructor; [now constructor|]). exact IHl.
Qed.
Lemma r_stoken i i' : rid R i i' -> rtt R (stoken i) (stoken i').
Proof. intros []. now constructor. Qed.
Lemma r_id_span i i' : rid R i i' -> R (si_span i) (si_span i').
Proof. now intros []. Qed.
Lemma r_id_ident i i' : rid R i i' -> si_ident i = si_ident i'.
Proof. now intros []. Qed.
Hint Resolve r_joinx r_tspan r_stream r_same r_skw r_spu r_sstr r_sgroup r_spar r_colon2 r_oror r_gpath r_stoken r_id_span : move.

(** ** The monad *)

Lemma rp_ret {A} (P : A -> A -> Prop) a a' : P a a' -> rp R P (sret a) (sret a').
Proof. intros H sc sc' ts ts' Hs Ht. unfold sret. auto 6 with move. Qed.
Lemma rp_bind {A B} (P : A -> A -> Prop) (Q : B -> B -> Prop) m m' f f' :
  rp R P m m' -> (forall a a', P a a' -> rp R Q (f a) (f' a')) -> rp R Q (sbind m f) (sbind m' f').
Proof.
  intros Hm Hf sc sc' ts ts' Hs Ht. unfold sbind. destruct (Hm _ _ _ _ Hs Ht) as [o o' r r' d d' Ho Hr Hd].
  destruct Ho as [a a' Ha|e s s' He| |w|]; try (constructor; auto with move; fail).
  specialize (Hf _ _ Ha _ _ _ _ Hs Hr). destruct Hf as [o o' r2 r2' d2 d2' Ho Hr2 Hd2]. cbn.
  constructor; auto with move.
Qed.
Lemma rp_rollback {A} (P : A -> A -> Prop) m m' : rp R P m m' -> rp R (ropt P) (srollback m) (srollback m').
Proof.
  intros Hm sc sc' ts ts' Hs Ht. unfold srollback. destruct (Hm _ _ _ _ Hs Ht) as [o o' r r' d d' Ho Hr Hd].
  destruct Ho; constructor; auto with move.
Qed.
Lemma rp_unwrap {A} (P : A -> A -> Prop) m m' : rp R P m m' -> rp R P (sunwrap m) (sunwrap m').
Proof.
  intros Hm sc sc' ts ts' Hs Ht. unfold sunwrap. destruct (Hm _ _ _ _ Hs Ht) as [o o' r r' d d' Ho Hr Hd].
  destruct Ho; constructor; auto with move.
Qed.
Lemma rp_unwrap_or_abort {A} (P : A -> A -> Prop) m m' :
  rp R P m m' -> rp R P (sunwrap_or_abort E m) (sunwrap_or_abort E' m').
Proof.
  intros Hm sc sc' ts ts' Hs Ht. unfold sunwrap_or_abort. destruct (Hm _ _ _ _ Hs Ht) as [o o' r r' d d' Ho Hr Hd].
  destruct Ho; constructor; auto with move. apply f2_app; [assumption|]. constructor; [|constructor].
  constructor. now apply r_joinx.
Qed.
Lemma r_here sc sc' ts ts' : R sc sc' -> rts R ts ts' -> R (here sc ts) (here sc' ts').
Proof. intros Hs Ht. destruct Ht as [|t t' r r' Ht _]; [exact Hs|]. destruct Ht; auto. now destruct H. Qed.
Hint Resolve r_here : move.
Lemma rp_fail {A} (P : A -> A -> Prop) e : rp R P (sfail e) (sfail e).
Proof. intros sc sc' ts ts' Hs Ht. unfold sfail. auto 6 with move. Qed.
Lemma rp_fail_at {A} (P : A -> A -> Prop) e s s' : R s s' -> rp R P (sfail_at e s) (sfail_at e s').
Proof. intros H sc sc' ts ts' Hs Ht. unfold sfail_at. auto 6 with move. Qed.
Lemma rp_emit d s s' : R s s' -> rp R eq (semit d s) (semit d s').
Proof. intros H sc sc' ts ts' Hs Ht. unfold semit. constructor; auto 6 with move. Qed.
Lemma rp_look {A} (P : A -> A -> Prop) f f' :
  (forall ts ts', rts R ts ts' -> P (f ts) (f' ts')) -> rp R P (slook f) (slook f').
Proof. intros H sc sc' ts ts' Hs Ht. unfold slook. constructor; auto 6 with move. Qed.
Lemma rp_look_eq {A} (f : list stt -> A) (g : list tt -> A) :
  (forall ts, f ts = g (erases ts)) -> rp R eq (slook f) (slook f).
Proof. intros H. apply rp_look. intros ts ts' Ht. now rewrite !H, (r_erases ts ts'). Qed.
Lemma rp_here : rp R R shere shere.
Proof. intros sc sc' ts ts' Hs Ht. unfold shere. constructor; auto 6 with move. Qed.
Lemma rp_panic {A} (P : A -> A -> Prop) w : rp R P (sppanic w) (sppanic w).
Proof. intros sc sc' ts ts' Hs Ht. unfold sppanic. auto 6 with move. Qed.
Lemma rp_or_panic {A} (P : A -> A -> Prop) w o o' : ropt P o o' -> rp R P (sor_panic w o) (sor_panic w o').
Proof. intros []; [now apply rp_ret|apply rp_panic]. Qed.

(** ** syn *)

Lemma r_take_punct w : forall ts ts', rts R ts ts' ->
  ropt (rprod (Forall2 R) (rts R)) (stake_punct w ts) (stake_punct w ts').
Proof.
  induction w as [|ch w' IH]; intros ts ts' H; [constructor|]. cbn [stake_punct].
  destruct H as [|t t' r r' Ht Hr]; [constructor|].
  destruct Ht as [s s' i Hs|s s' c sp Hs|s s' k v Hs|s s' d g g' Hs Hg]; cbn; try (constructor; fail).
  destruct (Ascii.eqb c "'"); [constructor|]. destruct (Ascii.eqb c ch); [|constructor].
  destruct w' as [|ch' w'']; [auto with move|]. destruct sp; [constructor|].
  destruct (IH r r' Hr) as [[l x] [l' x'] Hx|]; [|constructor]. inversion Hx; subst. auto 6 with move.
Qed.
Lemma rp_punct w : rp R (Forall2 R) (sparse_punct w) (sparse_punct w).
Proof.
  intros sc sc' ts ts' Hs Ht. unfold sparse_punct.
  destruct (r_take_punct w ts ts' Ht) as [[l x] [l' x'] Hx|]; [|auto 6 with move].
  inversion Hx; subst. auto with move.
Qed.
Lemma r_punct_span l l' : Forall2 R l l' -> R (punct_span l) (punct_span l').
Proof. now intros []. Qed.
Hint Resolve r_punct_span : move.
Lemma rp_any : rp R (rid R) sparse_any sparse_any.
Proof.
  intros sc sc' ts ts' Hs Ht. assert (Hh := r_here _ _ _ _ Hs Ht).
  unfold sparse_any. destruct Ht as [|t t' r r' Ht Hr]; [auto with move|].
  destruct Ht; auto 7 with move.
Qed.
Lemma rp_ident : rp R (rid R) sparse_ident sparse_ident.
Proof.
  intros sc sc' ts ts' Hs Ht. assert (Hh := r_here _ _ _ _ Hs Ht).
  unfold sparse_ident. destruct Ht as [|t t' r r' Ht Hr]; [auto with move|].
  destruct Ht; try destruct (accept_as_ident i); auto 7 with move.
Qed.
Lemma r_take_lit ts ts' : rts R ts ts' ->
  ropt (rprod (rlit R) (rts R)) (stake_lit E ts) (stake_lit E' ts').
Proof.
  intros H. destruct H as [|t t' r r' Ht Hr]; [constructor|].
  destruct Ht as [s s' i Hs|s s' c sp Hs|s s' k v Hs|s s' d g g' Hs Hg]; cbn [stake_lit]; auto with move.
  - destruct (ident_is i "true"); [auto with move|]. destruct (ident_is i "false"); auto with move.
  - destruct Hr as [|t t' r r' Ht Hr]; [constructor|]. destruct Ht; auto with move.
    destruct (Ascii.eqb c "-"); [|constructor]. destruct k; auto with move.
Qed.
Lemma rp_lit : rp R (rlit R) (sparse_lit E) (sparse_lit E').
Proof.
  intros sc sc' ts ts' Hs Ht. unfold sparse_lit.
  destruct (r_take_lit ts ts' Ht) as [[l x] [l' x'] Hx|]; [|auto 6 with move].
  inversion Hx; subst. auto with move.
Qed.
Lemma rp_lit_int : rp R (rprod R eq) (sparse_lit_int E) (sparse_lit_int E').
Proof.
  intros sc sc' ts ts' Hs Ht. unfold sparse_lit_int.
  destruct (r_take_lit ts ts' Ht) as [[l x] [l' x'] Hx|]; [|auto 6 with move].
  inversion Hx as [? ? ? ? Hl Hr]; subst. destruct Hl; [destruct k|]; auto 7 with move.
Qed.
Lemma rp_lit_str : rp R (rprod R eq) (sparse_lit_str E) (sparse_lit_str E').
Proof.
  intros sc sc' ts ts' Hs Ht. unfold sparse_lit_str.
  destruct (r_take_lit ts ts' Ht) as [[l x] [l' x'] Hx|]; [|auto 6 with move].
  inversion Hx as [? ? ? ? Hl Hr]; subst. destruct Hl; [destruct k|]; auto 7 with move.
Qed.
Lemma rp_tt : rp R (rtt R) sparse_tt sparse_tt.
Proof.
  intros sc sc' ts ts' Hs Ht. assert (Hh := r_here _ _ _ _ Hs Ht).
  destruct Ht as [|t t' r r' Ht Hr]; cbn; auto with move.
Qed.
Lemma rp_rest : rp R (rts R) stake_rest stake_rest.
Proof. intros sc sc' ts ts' Hs Ht. unfold stake_rest. auto 6 with move. Qed.
Lemma rp_extract d : rp R (rprod (rds R) (rts R)) (sextract d) (sextract d).
Proof.
  intros sc sc' ts ts' Hs Ht. assert (Hh := r_here _ _ _ _ Hs Ht).
  unfold sextract. destruct Ht as [|t t' r r' Ht Hr]; [auto with move|].
  destruct Ht as [s s' i H|s s' c sp H|s s' k v H|s s' d' g g' H Hg]; try destruct (delim_eqb d d'); auto 7 with move.
Qed.
Lemma rp_delimited {A} (P : A -> A -> Prop) d m m' : rp R P m m' ->
  rp R (rprod (rds R) P) (sdelimited d m) (sdelimited d m').
Proof.
  intros Hm sc sc' ts ts' Hs Ht. assert (Hh := r_here _ _ _ _ Hs Ht).
  unfold sdelimited. destruct Ht as [|t t' r r' Ht Hr]; [auto with move|].
  destruct Ht as [s s' i H|s s' c sp H|s s' k v H|s s' d' g g' H Hg]; try (auto 7 with move; fail).
  destruct (delim_eqb d d'); [|auto 7 with move].
  assert (Hc : R (d_close s) (d_close s')) by now destruct H.
  destruct (Hm _ _ _ _ Hc Hg) as [o o' x x' ds ds' Ho Hx Hd].
  destruct Ho; try (auto 7 with move; fail). destruct Hx; auto 9 with move.
Qed.

(** ** Paths *)

Ltac looks := first
  [ apply rp_look_eq with (g := peek_group Bracket); intros; apply peek_group_erase
  | apply rp_look_eq with (g := peek_group Brace); intros; apply peek_group_erase
  | apply rp_look_eq with (g := peek_lit); intros; apply peek_lit_erase
  | apply rp_look_eq with (g := peek_any); intros; apply peek_any_erase
  | apply rp_look_eq with (g := peek_ident); intros; apply peek_ident_erase
  | apply rp_look_eq with (g := peek_keyword "Self"); intros; apply peek_keyword_erase ].

Lemma rp_angle : rp R (rargs R) (sparse_angle E) (sparse_angle E').
Proof.
  intros sc sc' ts ts' Hs Ht. unfold sparse_angle.
  destruct (r_take_punct "::" ts ts' Ht) as [[l x] [l' x'] Hx|].
  - inversion Hx as [? ? ? ? Hl Hr]; subst. destruct (HG _ _ _ _ Hs Hr) as [[] [] H|[] [] H]; inversion H; subst; auto 7 with move.
  - destruct (HG _ _ _ _ Hs Ht) as [[] [] H|[] [] H]; inversion H; subst; auto 7 with move.
Qed.
Lemma rp_seg : rp R (rseg R) (sparse_seg E) (sparse_seg E').
Proof.
  unfold sparse_seg. eapply rp_bind.
  { apply rp_look_eq with (g := fun ts => peek_keyword "super" ts || peek_keyword "self" ts || peek_keyword "crate" ts).
    intros ts. now rewrite !peek_keyword_erase. }
  intros b ? <-. destruct b.
  - eapply rp_bind; [apply rp_any|]. intros i i' Hi. apply rp_ret. auto with move.
  - eapply rp_bind; [looks|]. intros b ? <-. eapply rp_bind; [destruct b; [apply rp_any|apply rp_ident]|].
    intros i i' Hi. eapply rp_bind.
    { apply rp_look_eq with (g := fun ts =>
        (peek_punct "<" ts && negb (peek_punct "<=" ts) && negb (peek_punct "<<=" ts))
        || (peek_punct "::" ts && peek3 (peek_punct "<") ts)).
      intros ts. rewrite !peek_punct_erase. do 2 f_equal. apply peek3_erase, peek_punct_erase. }
    intros c ? <-. destruct c.
    + eapply rp_bind; [apply rp_angle|]. intros a a' Ha. apply rp_ret. auto with move.
    + apply rp_ret. auto with move.
Qed.
Lemma rp_segs n : rp R (Forall2 (rprod (Forall2 R) (rseg R))) (sparse_segs_rest E n) (sparse_segs_rest E' n).
Proof.
  induction n as [|n IH]; intros sc sc' ts ts' Hs Ht; cbn [sparse_segs_rest]; [auto with move|].
  assert (Hb : speek_punct "::" ts && negb (speek3 (speek_group Paren) ts) =
               speek_punct "::" ts' && negb (speek3 (speek_group Paren) ts')).
  { rewrite !peek_punct_erase, !(peek3_erase (speek_group Paren) (peek_group Paren) _ (peek_group_erase Paren)).
    now rewrite (r_erases ts ts'). }
  rewrite <- Hb. destruct (speek_punct "::" ts && negb (speek3 (speek_group Paren) ts)); [|auto with move].
  match goal with |- rres R _ (?m sc ts) (?m' sc' ts') =>
    assert (H : rp R (Forall2 (rprod (Forall2 R) (rseg R))) m m'); [|now apply H] end.
  eapply rp_bind; [apply rp_punct|]. intros c c' Hc. eapply rp_bind; [apply rp_seg|]. intros g g' Hg.
  eapply rp_bind; [apply IH|]. intros l l' Hl. apply rp_ret. auto with move.
Qed.
Lemma rp_path : rp R (rpath R) (sparse_path E) (sparse_path E').
Proof.
  intros sc sc' ts ts' Hs Ht. unfold sparse_path. rewrite <- (r_length ts ts' Ht).
  match goal with |- rres R _ (?m sc ts) (?m' sc' ts') =>
    assert (H : rp R (rpath R) m m'); [|now apply H] end.
  eapply rp_bind; [apply rp_rollback, rp_punct|]. intros c c' Hc. eapply rp_bind; [apply rp_seg|]. intros g g' Hg.
  eapply rp_bind; [apply rp_segs|]. intros l l' Hl. apply rp_ret. auto with move.
Qed.

(** ** ast/*.rs *)

Lemma rp_value : rp R (rvalue R) (sparse_value E) (sparse_value E').
Proof.
  unfold sparse_value. eapply rp_bind; [looks|]. intros b ? <-. destruct b.
  { eapply rp_bind; [apply rp_unwrap, rp_extract|]. intros x x' []. apply rp_ret. cbn. auto with move. }
  eapply rp_bind.
  { apply rp_look_eq with (g := fun ts => peek_any ts && peek2 (peek_group Bracket) ts).
    intros ts. rewrite peek_any_erase. f_equal. apply peek2_erase, peek_group_erase. }
  intros b ? <-. destruct b.
  { eapply rp_bind; [apply rp_unwrap, rp_any|]. intros i i' Hi.
    eapply rp_bind; [apply rp_unwrap, rp_extract|]. intros x x' []. apply rp_ret. cbn. auto with move. }
  eapply rp_bind; [looks|]. intros b ? <-. destruct b.
  { eapply rp_bind; [apply rp_unwrap, rp_extract|]. intros x x' []. apply rp_ret. cbn. auto with move. }
  eapply rp_bind.
  { apply rp_look. intros ts ts' Ht. instantiate (1 := eq).
    rewrite (peek_lit_erase E), (peek_lit_erase E'). now rewrite (r_erases ts ts'). }
  intros b ? <-. destruct b; [|apply rp_fail].
  eapply rp_bind; [apply rp_unwrap, rp_lit|]. intros l l' Hl. apply rp_ret. auto with move.
Qed.
Lemma r_missing s s' : R s s' -> rvalue R (smissing_value s) (smissing_value s').
Proof. intros H. unfold smissing_value. auto with move. Qed.
Lemma rp_or_emit s s' : R s s' -> rp R (rvalue R) (sparse_or_emit_err E s) (sparse_or_emit_err E' s').
Proof.
  intros H. unfold sparse_or_emit_err. eapply rp_bind; [apply rp_rollback, rp_value|]. intros v v' [x x' Hx|].
  { now apply rp_ret. }
  eapply rp_bind; [apply rp_look; intros ts ts' Ht; exact Ht|]. intros ts ts' Ht.
  apply (rp_bind R).
  { destruct Ht; [now apply rp_ret|apply rp_here]. }
  intros p p' Hp.
  rewrite !peek_ident_erase, (r_erases ts ts' Ht).
  eapply rp_bind; [now apply rp_emit|]. intros _ _ _. apply rp_ret. now apply r_missing.
Qed.
Lemma r_true : rvalue R snew_true snew_true.
Proof. unfold snew_true. auto with move. Qed.
Hint Resolve r_true r_missing : move.
Lemma rp_segment k k' : rkebab R k k' -> rp R (rkebab R) (skebab_segment E k) (skebab_segment E' k').
Proof.
  intros [v l l' Hl]. unfold skebab_segment. eapply rp_bind; [apply rp_rollback, rp_any|]. intros i i' [x x' Hx|].
  - destruct Hx as [s s' i0 Hs]. cbn [si_ident si_span]. eapply (rp_bind eq).
    { destruct (i_raw i0); [now apply rp_emit|now apply rp_ret]. }
    intros _ _ _. apply rp_ret. cbn. auto with move.
  - eapply rp_bind; [apply rp_rollback, rp_lit_int|]. intros n n' [x x' Hx|].
    + destruct Hx as [s s' i0 ? Hs <-]. apply rp_ret. cbn. auto with move.
    + apply rp_ret. auto with move.
Qed.
Lemma rp_kebab_loop n : forall b k k', rkebab R k k' -> rp R (rkebab R) (skebab_loop E n b k) (skebab_loop E' n b k').
Proof.
  induction n as [|n IH]; intros b k k' Hk sc sc' ts ts' Hs Ht; cbn [skebab_loop]; [auto with move|].
  match goal with |- rres R _ (?m sc ts) (?m' sc' ts') =>
    assert (H : rp R (rkebab R) m m'); [|now apply H] end.
  destruct Hk as [v l l' Hl]. cbn [sk_repr sk_spans].
  eapply rp_bind; [apply rp_rollback, rp_punct|]. intros c c' [x x' Hx|].
  - eapply rp_bind; [apply rp_segment; auto with move|]. intros; now apply IH.
  - destruct (negb (b && String.eqb v "-")); [apply rp_ret; auto with move|].
    eapply rp_bind; [apply rp_segment; auto with move|]. intros; now apply IH.
Qed.
Lemma rp_kebab : rp R (rkebab R) (sparse_kebab E) (sparse_kebab E').
Proof.
  intros sc sc' ts ts' Hs Ht. unfold sparse_kebab. rewrite <- (r_length ts ts' Ht).
  match goal with |- rres R _ (?m sc ts) (?m' sc' ts') =>
    assert (H : rp R (rkebab R) m m'); [|now apply H] end.
  eapply rp_bind; [apply rp_rollback, rp_any|]. intros i i' Hi.
  apply (rp_bind (rkebab R)); [|intros; now apply rp_kebab_loop].
  destruct Hi as [x x' [s s' i Hx]|]; [apply rp_ret; auto with move|].
  eapply rp_bind; [apply rp_rollback, rp_punct|]. intros c c' [x x' Hx|]; [apply rp_ret; auto with move|].
  intros sa sb ta tb Hsa Hta. cbv beta. rewrite (r_erases _ _ Hta). now apply rp_fail.
Qed.
Lemma r_kspan k k' : rkebab R k k' -> R (kspan E k) (kspan E' k').
Proof.
  intros [v l l' Hl]. unfold kspan. cbn. apply r_joinx; [now apply f2_hd|now apply f2_last].
Qed.
Hint Resolve r_kspan : move.
Lemma r_snake k k' : rkebab R k k' -> ropt (rid R) (sto_snake_ident E k) (sto_snake_ident E' k').
Proof.
  intros H. unfold sto_snake_ident. assert (Hs := r_kspan _ _ H). destruct H. cbn [sk_repr].
  destruct (new_raw _); cbn; auto with move.
Qed.
Lemma rp_snake k k' : rkebab R k k' -> rp R (rid R) (ssnake E k) (ssnake E' k').
Proof.
  intros H. unfold ssnake. replace (sk_repr k) with (sk_repr k') by now destruct H.
  now apply rp_or_panic, r_snake.
Qed.
Lemma rp_kebab_or_str : rp R (rkey R) (sparse_kebab_or_str E) (sparse_kebab_or_str E').
Proof.
  unfold sparse_kebab_or_str. eapply rp_bind; [apply rp_rollback, rp_lit_str|]. intros i i' [x x' Hx|].
  - destruct Hx as [s s' v ? Hs <-]. apply rp_ret. cbn. auto with move.
  - eapply rp_bind; [apply rp_kebab|]. intros; apply rp_ret; auto with move.
Qed.
Lemma rp_braced : rp R (rprod (rds R) (rkebab R)) (sparse_braced_kebab E) (sparse_braced_kebab E').
Proof. apply rp_delimited, rp_kebab. Qed.
Lemma rp_block k k' : rprod (rds R) (rkebab R) k k' -> rp R (rvalue R) (sinto_block_value E k) (sinto_block_value E' k').
Proof.
  intros []. unfold sinto_block_value. cbn. eapply rp_bind; [now apply rp_snake|]. intros. apply rp_ret. auto with move.
Qed.
Lemma rp_tag : rp R (rtag R) (sparse_tag E) (sparse_tag E').
Proof.
  unfold sparse_tag. eapply rp_bind.
  { apply rp_look_eq with (g := fun ts => peek2 (peek_punct "::") ts || peek_punct "::" ts || peek2 (peek_punct "<") ts).
    intros ts. rewrite !peek_punct_erase, !(peek2_erase _ _ _ (peek_punct_erase _)). reflexivity. }
  intros b ? <-. destruct b.
  { eapply rp_bind; [apply rp_path|]. intros; apply rp_ret; auto with move. }
  eapply rp_bind; [apply rp_kebab|]. intros k k' Hk. replace (sk_repr k') with (sk_repr k) by now destruct Hk.
  destruct (tag_kind_from (sk_repr k)).
  5: apply rp_ret; auto with move.
  all: eapply rp_bind; [now apply rp_snake|]; intros i i' [s s' i0 Hs]; apply rp_ret; auto 8 with move.
Qed.
Lemma rp_selector : rp R (rsel R) (sparse_selector E) (sparse_selector E').
Proof.
  unfold sparse_selector. eapply rp_bind; [apply rp_rollback, rp_punct|]. intros c c' [x x' Hx|].
  { eapply rp_bind; [apply rp_kebab|]. intros; apply rp_ret; auto with move. }
  eapply rp_bind; [apply rp_rollback, rp_punct|]. intros d d' [x x' Hx|]; [|apply rp_fail].
  eapply rp_bind; [apply rp_kebab|]. intros; apply rp_ret; auto with move.
Qed.
Lemma rp_many {A} (P : A -> A -> Prop) m m' n : rp R P m m' -> rp R (Forall2 P) (smany n m) (smany n m').
Proof.
  intros Hm. induction n as [|n IH]; intros sc sc' ts ts' Hs Ht; cbn [smany]; [auto with move|].
  match goal with |- rres R _ (?m sc ts) (?m' sc' ts') =>
    assert (H : rp R (Forall2 P) m m'); [|now apply H] end.
  eapply rp_bind; [apply rp_rollback, Hm|]. intros c c' [x x' Hx|]; [|apply rp_ret; auto with move].
  eapply rp_bind; [apply IH|]. intros; apply rp_ret; auto with move.
Qed.
Lemma rp_selectors : rp R (Forall2 (rsel R)) (sparse_selectors E) (sparse_selectors E').
Proof.
  intros sc sc' ts ts' Hs Ht. unfold sparse_selectors. rewrite <- (r_length ts ts' Ht).
  apply rp_many; [apply rp_selector|assumption..].
Qed.
Lemma rp_kv : rp R (rkv R) (sparse_kv E) (sparse_kv E').
Proof.
  unfold sparse_kv. eapply rp_bind; [looks|]. intros b ? <-. destruct b.
  { eapply rp_bind; [apply rp_braced|]. intros k k' Hk. eapply rp_bind; [now apply rp_block|].
    intros v v' Hv. apply rp_ret. destruct Hk; cbn; auto with move. }
  eapply rp_bind; [apply rp_kebab|]. intros k k' Hk.
  eapply rp_bind; [apply rp_rollback, rp_punct|]. intros c c' [x x' Hx|]; [|apply rp_ret; auto with move].
  eapply rp_bind; [apply rp_or_emit; auto with move|]. intros; apply rp_ret; auto with move.
Qed.
Lemma rp_modifier : rp R (ropt (rid R)) stry_parse_modifier stry_parse_modifier.
Proof.
  unfold stry_parse_modifier.
  eapply rp_bind; [apply rp_rollback, rp_punct|]. intros c c' [x x' Hx|]; [|apply rp_ret; auto with move].
  eapply rp_bind; [apply rp_any|]. intros; apply rp_ret; auto with move.
Qed.
Lemma rp_directive : rp R (rdir R) (sparse_directive E) (sparse_directive E').
Proof.
  unfold sparse_directive. eapply rp_bind; [apply rp_any|]. intros n n' Hn.
  eapply rp_bind; [apply rp_punct|]. intros _ _ _.
  eapply rp_bind; [looks|]. intros b ? <-. destruct b.
  { eapply rp_bind; [apply rp_braced|]. intros k k' Hk. eapply rp_bind; [now apply rp_block|].
    intros v v' Hv. eapply rp_bind; [apply rp_modifier|]. intros m m' Hm.
    apply rp_ret. destruct Hk; cbn; auto with move. }
  eapply rp_bind; [apply rp_kebab_or_str|]. intros k k' Hk.
  eapply rp_bind; [apply rp_modifier|]. intros m m' Hm.
  eapply rp_bind; [apply rp_rollback, rp_punct|]. intros c c' [x x' Hx|]; [|apply rp_ret; auto with move].
  eapply rp_bind; [apply rp_or_emit; auto with move|]. intros; apply rp_ret; auto with move.
Qed.
Lemma rp_spread : rp R (rprod (rprod (rds R) (Forall2 R)) (rts R)) sparse_spread sparse_spread.
Proof.
  unfold sparse_spread. eapply rp_bind; [apply rp_extract|]. intros x x' [b b' ts ts' Hb Ht]. cbn [snd fst].
  destruct (r_take_punct ".." ts ts' Ht) as [[l y] [l' y'] Hy|]; [|apply rp_fail].
  inversion Hy; subst. apply rp_ret; auto with move.
Qed.
Lemma rp_attr : rp R (rattr R) (sparse_attr E) (sparse_attr E').
Proof.
  unfold sparse_attr. eapply rp_bind.
  { apply rp_look_eq with (g := fun ts => peek_any ts && peek2 (peek_punct ":") ts).
    intros ts. rewrite peek_any_erase. f_equal. apply peek2_erase, peek_punct_erase. }
  intros b ? <-. destruct b.
  { eapply rp_bind; [apply rp_unwrap_or_abort, rp_directive|]. intros; apply rp_ret; auto with move. }
  eapply rp_bind; [looks|]. intros b ? <-. destruct b.
  { eapply rp_bind; [apply rp_kv|]. intros; apply rp_ret; auto with move. }
  eapply rp_bind; [apply rp_rollback, rp_kv|]. intros c c' [x x' Hx|]; [apply rp_ret; auto with move|].
  eapply rp_bind; [apply rp_rollback, rp_spread|]. intros d d' [x x' Hx|]; [|apply rp_fail].
  destruct Hx as [? ? ? ? [] ?]. apply rp_ret; cbn; auto with move.
Qed.
Lemma rp_attrs : rp R (Forall2 (rattr R)) (sparse_attrs E) (sparse_attrs E').
Proof.
  intros sc sc' ts ts' Hs Ht. unfold sparse_attrs. rewrite <- (r_length ts ts' Ht).
  apply rp_many; [apply rp_attr|assumption..].
Qed.
Lemma rp_closure_loop n : forall s s', R s s' -> rp R (rts R) (sclosure_loop s n) (sclosure_loop s' n).
Proof.
  induction n as [|n IH]; intros s s' H sc sc' ts ts' Hs Ht; cbn [sclosure_loop]; [auto with move|].
  match goal with |- rres R _ (?m sc ts) (?m' sc' ts') =>
    assert (Hm : rp R (rts R) m m'); [|now apply Hm] end.
  eapply rp_bind; [apply rp_rollback, rp_punct|]. intros c c' [x x' Hx|]; [apply rp_ret; auto with move|].
  eapply rp_bind; [apply rp_rollback, rp_tt|]. intros d d' [x x' Hx|]; [|now apply rp_fail_at].
  eapply rp_bind; [now apply IH|]. intros; apply rp_ret; auto with move.
Qed.
Lemma rp_closure_args : rp R (rts R) sparse_closure_args sparse_closure_args.
Proof.
  intros sc sc' ts ts' Hs Ht. unfold sparse_closure_args. rewrite <- (r_length ts ts' Ht).
  match goal with |- rres R _ (?m sc ts) (?m' sc' ts') =>
    assert (Hm : rp R (rts R) m m'); [|now apply Hm] end.
  eapply rp_bind; [apply rp_punct|]. intros c c' Hc.
  eapply rp_bind; [apply rp_closure_loop; auto with move|]. intros; apply rp_ret; auto with move.
Qed.
Lemma r_colons l l' : Forall2 R l l' -> rts R (colons l) (colons l').
Proof. intros Hl. destruct Hl as [|? ? ? ? H1 [|? ? ? ? H2 []]]; try (apply r_colon2; exact HC). cbn; auto with move. Qed.
Lemma r_seg_tokens s s' : rseg R s s' -> rts R (sseg_tokens s) (sseg_tokens s').
Proof.
  intros [i i' a a' Hi Ha]. unfold sseg_tokens. cbn. constructor; [auto with move|].
  destruct Ha as [|l l' ts ts' Hl Ht|]; auto with move. apply f2_app; [|assumption].
  destruct Hl as [l l' Hl|]; [now apply r_colons|constructor].
Qed.
Lemma r_path_tokens p p' : rpath R p p' -> rts R (spath_tokens p) (spath_tokens p').
Proof.
  intros [l l' s s' m m' Hl Hs Hm]. unfold spath_tokens. cbn [s_leading s_first s_more]. apply f2_app; [|apply f2_app].
  - destruct Hl; cbn; [now apply r_colons|constructor].
  - now apply r_seg_tokens.
  - eapply f2_flat; [exact Hm|]. intros x x' []. cbn [fst snd]. apply f2_app; [now apply r_colons|now apply r_seg_tokens].
Qed.
Lemma r_path_span p p' : rpath R p p' -> R (spath_span E p) (spath_span E' p').
Proof. intros. now apply r_stream, r_path_tokens. Qed.
Lemma r_tag_span t t' : rtag R t t' -> R (tag_span E t) (tag_span E' t').
Proof. intros []; cbn; auto using r_path_span with move. Qed.
Hint Resolve r_path_tokens r_path_span r_tag_span : move.

Lemma rp_element pc pc' : rp R (Forall2 (rchild R)) pc pc' -> rp R (relem R) (sparse_element E pc) (sparse_element E' pc').
Proof.
  intros Hpc. unfold sparse_element. eapply rp_bind; [apply rp_tag|]. intros t t' Ht.
  eapply rp_bind; [apply rp_selectors|]. intros s s' Hs. eapply rp_bind; [apply rp_attrs|]. intros a a' Ha.
  eapply rp_bind; [apply rp_rollback, rp_punct|]. intros c c' [x x' Hx|]; [apply rp_ret; auto with move|].
  eapply rp_bind; [apply rp_look; intros ts ts' H; exact H|]. intros ts ts' Hts.
  assert (Hone : forall d g g', ropt (rts R) g g' ->
    rp R (relem R) (sbind (sdelimited d pc) (fun c => sret (SElement t s a g (Some (snd c)))))
                   (sbind (sdelimited d pc') (fun c => sret (SElement t' s' a' g' (Some (snd c)))))).
  { intros d g g' Hg. eapply rp_bind; [apply rp_delimited, Hpc|]. intros x x' []. apply rp_ret. cbn. auto with move. }
  assert (He := r_erases _ _ Hts).
  destruct Hts as [|u u' r r' Hu Hr].
  { eapply rp_bind; [apply rp_emit; auto with move|]. intros. apply rp_ret; auto with move. }
  rewrite !peek_group_erase, !peek_punct_erase, <- He.
  destruct (peek_group Brace _); [apply Hone; constructor|]. destruct (peek_group Paren _); [apply Hone; constructor|].
  destruct (peek_punct "|" _).
  - eapply rp_bind; [apply rp_closure_args|]. intros g g' Hg.
    eapply rp_bind; [apply rp_look; intros ts ts' H; exact H|]. intros ts ts' Hts.
    rewrite !peek_group_erase, (r_erases _ _ Hts).
    destruct (peek_group Brace _); [apply Hone; now constructor|]. destruct (peek_group Paren _); [apply Hone; now constructor|].
    eapply rp_bind; [apply rp_here|]. intros p p' Hp. eapply rp_bind; [now apply rp_emit|]. intros. apply rp_ret; auto with move.
  - eapply rp_bind; [apply rp_here|]. intros p p' Hp. eapply rp_bind; [now apply rp_emit|]. intros.
    eapply rp_bind; [apply rp_emit; auto with move|]. intros. apply rp_ret; auto with move.
Qed.
Lemma rp_child pc pc' : rp R (Forall2 (rchild R)) pc pc' -> rp R (rchild R) (sparse_child E pc) (sparse_child E' pc').
Proof.
  intros Hpc. unfold sparse_child. eapply rp_bind; [apply rp_rollback, rp_value|]. intros v v' [x x' Hx|].
  - destruct Hx as [l l' Hl| |]; [|apply rp_ret; auto with move..].
    assert (Hs : R (slit_span l) (slit_span l')) by now destruct Hl.
    assert (Hbad : rp R (rchild R) (sbind (semit DNonStrChild (slit_span l)) (fun _ => sret (SCValue (SVLit (SLitTok Call LkStr "")))))
                     (sbind (semit DNonStrChild (slit_span l')) (fun _ => sret (SCValue (SVLit (SLitTok Call LkStr "")))))).
    { eapply rp_bind; [now apply rp_emit|]. intros. apply rp_ret; auto with move. }
    destruct Hl; [destruct k|]; auto. apply rp_ret; auto with move.
  - eapply rp_bind.
    { apply rp_look_eq with (g := fun ts => peek_keyword "slot" ts && peek2 (peek_punct ":") ts
                                  && negb (peek2 (peek_punct "::") ts)).
      intros ts. rewrite peek_keyword_erase, !(peek2_erase _ _ _ (peek_punct_erase _)). reflexivity. }
    intros b ? <-. destruct b.
    { eapply rp_bind; [apply rp_unwrap, rp_any|]. intros i i' Hi. eapply rp_bind; [apply rp_unwrap, rp_punct|]. intros.
      eapply rp_bind; [now apply rp_element|]. intros. apply rp_ret; auto with move. }
    eapply rp_bind; [looks|]. intros b ? <-. destruct b; [|apply rp_fail].
    eapply rp_bind; [now apply rp_element|]. intros. apply rp_ret; auto with move.
Qed.
Lemma rp_children n : rp R (Forall2 (rchild R)) (sparse_children E n) (sparse_children E' n).
Proof.
  induction n as [|n IH]; intros sc sc' ts ts' Hs Ht; cbn [sparse_children]; [auto with move|].
  destruct Ht as [|t t' r r' Ht Hr]; [auto with move|].
  assert (Hts : rts R (t :: r) (t' :: r')) by now constructor.
  destruct (rp_child _ _ IH _ _ _ _ Hs Hts) as [o o' x x' d d' Ho Hx Hd].
  assert (Happ : forall A (P : A -> A -> Prop) y y', rres R P y y' ->
    rres R P (SPR (sp_out y) (sp_rest y) (d ++ sp_diags y)) (SPR (sp_out y') (sp_rest y') (d' ++ sp_diags y'))).
  { intros A P y y' []. cbn. constructor; auto with move. }
  destruct Ho; try (auto with move; fail); apply Happ.
  - match goal with |- rres R _ (?m sc x) (?m' sc' x') =>
      assert (Hm : rp R (Forall2 (rchild R)) m m'); [|now apply Hm] end.
    eapply rp_bind; [apply IH|]. intros; apply rp_ret; auto with move.
  - rewrite !peek_punct_erase, (r_erases _ _ Hx). assert (He : R (err_span E s) (err_span E' s')) by now apply r_joinx.
    match goal with |- rres R _ (?m sc x) (?m' sc' x') =>
      assert (Hm : rp R (Forall2 (rchild R)) m m'); [|now apply Hm] end.
    destruct (peek_punct ";" _).
    + eapply rp_bind; [now apply rp_emit|]. intros. eapply rp_bind; [apply rp_unwrap, rp_punct|]. intros. exact IH.
    + eapply rp_bind; [now apply rp_emit|]. intros. eapply rp_bind; [apply rp_rest|]. intros. exact IH.
Qed.

(** ** Expansion *)

Hint Extern 1 (Forall2 _ (scolon2 _) _) => apply r_colon2 : move.
Hint Extern 1 (Forall2 _ (soror _) _) => apply r_oror : move.
Hint Extern 1 (Forall2 _ (sgpath _ _) _) => apply r_gpath : move.
Hint Extern 1 (Forall2 _ (spath_tokens _) _) => apply r_path_tokens : move.
Ltac mv := repeat first
  [ assumption | match goal with |- rts R _ _ => red end | apply r_colon2 | apply r_oror | apply r_gpath | apply r_path_tokens
  | apply r_spar | apply r_sgroup | match goal with |- Forall2 _ (_ ++ _) (_ ++ _) => apply f2_app end
  | match goal with |- rprod _ _ (_, _) (_, _) => constructor | |- Forall2 _ [] [] => constructor | |- Forall2 _ (_ :: _) (_ :: _) => constructor end
  | solve [auto with move] ].
Notation rx := (rxres R).

Lemma rx_ret' {A} (P : A -> A -> Prop) a a' : P a a' -> rx P (sxret a) (sxret a').
Proof. intros. unfold sxret. auto with move. Qed.
Lemma rx_bind {A B} (P : A -> A -> Prop) (Q : B -> B -> Prop) m m' f f' :
  rx P m m' -> (forall a a', P a a' -> rx Q (f a) (f' a')) -> rx Q (sxbind m f) (sxbind m' f').
Proof.
  intros Hm Hf. destruct Hm as [a a' d d' Ha Hd| |]; cbn; auto with move.
  destruct (Hf _ _ Ha); cbn; constructor; auto with move.
Qed.
Lemma rx_emit d s s' : R s s' -> rx eq (sxemit d s) (sxemit d s').
Proof. intros. unfold sxemit. constructor; auto with move. Qed.
Lemma rx_abort' {A} (P : A -> A -> Prop) d s s' : R s s' -> rx P (sxabort d s) (sxabort d s').
Proof. intros. unfold sxabort. constructor; auto with move. Qed.
Lemma rx_panic' {A} (P : A -> A -> Prop) w : rx P (sxpanic w) (sxpanic w).
Proof. intros. unfold sxpanic. constructor; auto with move. Qed.
Lemma rx_seq {A} (P : A -> A -> Prop) l l' : Forall2 (rx P) l l' -> rx (Forall2 P) (sxseq l) (sxseq l').
Proof.
  intros H. induction H as [|m m' r r' Hm Hr IH]; cbn; [apply rx_ret'; constructor|].
  eapply rx_bind; [exact Hm|]. intros a a' Ha. eapply rx_bind; [exact IH|]. intros. apply rx_ret'. auto with move.
Qed.
Lemma rx_snake k k' : rkebab R k k' -> rx (rid R) (sxsnake E k) (sxsnake E' k').
Proof.
  intros H. unfold sxsnake. destruct (r_snake _ _ H); [now apply rx_ret'|].
  replace (sk_repr k') with (sk_repr k) by now destruct H. apply rx_panic'.
Qed.
Lemma r_block_span b b' ts ts' : rds R b b' -> rts R ts ts' -> R (block_span E b ts) (block_span E' b' ts').
Proof.
  intros Hb Ht. assert (Hs := r_stream _ _ Ht). destruct Ht; cbn; [now destruct Hb|exact Hs].
Qed.
Lemma r_whole b b' : rds R b b' -> R (d_whole b) (d_whole b').
Proof. now intros []. Qed.
Hint Resolve r_whole r_block_span : move.
Lemma rx_value v v' : rvalue R v v' -> rx (rts R) (svalue_tokens E v) (svalue_tokens E' v').
Proof.
  intros [l l' Hl|b b' ts ts' Hb Ht|p p' b b' ts ts' Hp Hb Ht]; cbn [svalue_tokens].
  - apply rx_ret'. destruct Hl as [|? ? [] ?]; cbn; auto with move.
  - apply rx_ret'. auto with move.
  - destruct Hp as [p p' [s s' i Hs]|].
    + cbn [si_ident si_span]. destruct (ident_is i "f").
      * apply rx_ret'. constructor; [auto with move|]. mv.
      * eapply rx_bind; [now apply rx_emit|]. intros. apply rx_ret'. constructor.
    + apply rx_ret'. constructor; [auto with move|]. mv.
Qed.
Lemma rx_opt_value v v' : ropt (rvalue R) v v' -> rx (rts R) (sopt_value_tokens E v) (sopt_value_tokens E' v').
Proof. intros []; cbn; [now apply rx_value|apply rx_ret'; constructor]. Qed.
Lemma r_or_true v v' : ropt (rvalue R) v v' -> rvalue R (svalue_or_true v) (svalue_or_true v').
Proof. intros []; cbn; auto with move. Qed.
Hint Resolve r_or_true : move.
Lemma r_key_string k k' : rkey R k k' -> skey_string k = skey_string k'.
Proof. intros [? ? []|]; reflexivity. Qed.
Lemma r_kebab_lit k k' : rkebab R k k' -> rtt R (kebab_lit E k) (kebab_lit E' k').
Proof. intros H. unfold kebab_lit. replace (sk_repr k') with (sk_repr k) by now destruct H. auto with move. Qed.
Lemma r_key_lit k k' : rkey R k k' -> rtt R (key_lit E k) (key_lit E' k').
Proof. intros []; cbn; [now apply r_kebab_lit|auto with move]. Qed.
Lemma r_colored k k' : rkebab R k k' -> rtt R (sto_str_colored k) (sto_str_colored k').
Proof.
  intros [v l l' Hl]. unfold sto_str_colored. cbn. apply r_sgroup; [exact HC|]. apply f2_app; [|auto with move].
  eapply f2_flat; [exact Hl|]. intros. auto 10 with move.
Qed.
Hint Resolve r_kebab_lit r_key_lit r_colored : move.
Lemma rx_ident_or_emit k k' : rkey R k k' -> rx (rid R) (sto_ident_or_emit E k) (sto_ident_or_emit E' k').
Proof.
  intros []; cbn [sto_ident_or_emit]; [now apply rx_snake|]. eapply rx_bind; [now apply rx_emit|]. intros. apply rx_ret'. auto with move.
Qed.
Lemma rx_modifier m m' : ropt (rid R) m m' -> rx eq (semit_error_if_modifier m) (semit_error_if_modifier m').
Proof. intros []; cbn; [apply rx_emit; auto with move|now apply rx_ret']. Qed.
Lemma rx_turbofish_seg s s' : rseg R s s' -> rx (rseg R) (sturbofish_seg E s) (sturbofish_seg E' s').
Proof.
  intros [i i' a a' Hi Ha]. unfold sturbofish_seg. cbn.
  destruct Ha as [|l l' ts ts' Hl Ht|]; [apply rx_ret'; auto with move| |apply rx_abort'; auto with move].
  destruct Hl; apply rx_ret'; auto 7 with move.
Qed.
Lemma rx_turbofishify p p' : rpath R p p' -> rx (rpath R) (sturbofishify E p) (sturbofishify E' p').
Proof.
  intros [l l' s s' m m' Hl Hs Hm]. unfold sturbofishify. cbn.
  eapply rx_bind; [now apply rx_turbofish_seg|]. intros f f' Hf.
  eapply rx_bind.
  { apply rx_seq. eapply f2_map; [exact Hm|]. intros x x' []. cbn.
    eapply (rx_bind (rseg R) (rprod (Forall2 R) (rseg R))); [now apply rx_turbofish_seg|]. intros. apply rx_ret'. auto with move. }
  intros. apply rx_ret'. auto with move.
Qed.
Lemma r_dir_name d d' : rdir R d d' -> si_ident (sd_dir d) = si_ident (sd_dir d').
Proof. intros []. cbn. now apply r_id_ident. Qed.
Lemma rx_use d d' : rdir R d d' ->
  rx (rprod (rid R) (rts R)) (suse_directive_fn_value E d) (suse_directive_fn_value E' d').
Proof.
  intros H. unfold suse_directive_fn_value. rewrite <- (r_dir_name _ _ H). destruct H as [n n' k k' m m' v v' Hn Hk Hm Hv]. cbn.
  apply (rx_bind eq). { destruct (ident_is _ _); [now apply rx_ret'|apply rx_panic']. }
  intros. eapply rx_bind; [now apply rx_ident_or_emit|]. intros f f' Hf.
  eapply rx_bind; [now apply rx_modifier|]. intros. destruct Hv.
  - eapply rx_bind; [now apply rx_value|]. intros. apply rx_ret'. constructor; [assumption|]. mv.
  - apply rx_ret'. mv.
Qed.
Lemma rx_event d d' : rdir R d d' -> rx (rts R) (sevent_listener_event_path E d) (sevent_listener_event_path E' d').
Proof.
  intros H. unfold sevent_listener_event_path. rewrite <- (r_dir_name _ _ H). destruct H as [n n' k k' m m' v v' Hn Hk Hm Hv].
  cbn [sd_dir sd_key sd_modifier sd_value].
  apply (rx_bind eq). { destruct (ident_is _ _); [now apply rx_ret'|apply rx_panic']. }
  intros. apply (rx_bind (rid R)).
  { destruct Hk; [now apply rx_snake|]. eapply rx_bind; [now apply rx_emit|]. intros. apply rx_ret'. auto with move. }
  intros e e' He.
  assert (Hb : rts R (sgpath Call ["leptos"; "tachys"; "html"; "event"] ++ scolon2 Call)
                     (sgpath Call ["leptos"; "tachys"; "html"; "event"] ++ scolon2 Call)) by (mv).
  destruct Hm as [m m' [s s' i Hs]|].
  - cbn [si_ident si_span]. destruct (ident_is i "undelegated").
    + apply rx_ret'. apply f2_app; [exact Hb|]. constructor; [now constructor|]. constructor; [|constructor].
      apply r_spar; [exact HC|]. apply f2_app; [exact Hb|]. auto with move.
    + eapply rx_bind; [now apply rx_emit|]. intros. apply rx_ret'. apply f2_app; [exact Hb|]. auto with move.
  - apply rx_ret'. apply f2_app; [exact Hb|]. auto with move.
Qed.
Lemma r_method n n' ts ts' : rid R n n' -> rts R ts ts' -> rts R (smethod n ts) (smethod n' ts').
Proof. intros. unfold smethod. auto 7 with move. Qed.
Ltac mv' := repeat first [apply r_method | progress mv].
Hint Extern 1 (Forall2 _ (smethod _ _) _) => apply r_method : move.
Lemma r_wd s s' w : R s s' -> rid R (swd s w) (swd s' w).
Proof. now constructor. Qed.
Hint Resolve r_wd : move.
Lemma r_partition l l' : Forall2 (rsel R) l l' ->
  Forall2 (rsel R) (fst (partition ssel_is_class l)) (fst (partition ssel_is_class l')) /\
  Forall2 (rsel R) (snd (partition ssel_is_class l)) (snd (partition ssel_is_class l')).
Proof.
  intros H. induction H as [|x x' l l' Hx Hl [IH1 IH2]]; cbn; [auto with move|].
  destruct (partition ssel_is_class l), (partition ssel_is_class l').
  destruct Hx; cbn in *; auto with move.
Qed.
Lemma r_prefix x x' : rsel R x x' -> R (prefix_span x) (prefix_span x').
Proof. now intros []. Qed.
Lemma r_sel_kebab x x' : rsel R x x' -> rkebab R (ssel_kebab x) (ssel_kebab x').
Proof. now intros []. Qed.
Hint Resolve r_prefix r_sel_kebab : move.
Lemma r_xml_selectors l l' : Forall2 (rsel R) l l' -> rts R (sxml_selectors_tokens l) (sxml_selectors_tokens l').
Proof.
  intros H. unfold sxml_selectors_tokens. destruct (r_partition _ _ H) as [H1 H2].
  destruct (partition ssel_is_class l), (partition ssel_is_class l'). cbn [fst snd] in *. apply f2_app.
  - eapply f2_flat; [exact H1|]. intros. apply r_method; auto 10 with move.
  - eapply f2_flat; [exact H2|]. intros. apply r_method; auto 10 with move.
Qed.
Lemma rx_xml_kv a a' k : rkv R a a' -> rx (rts R) (sxml_kv_attribute_tokens E a k) (sxml_kv_attribute_tokens E' a' k).
Proof.
  intros [n n' v v' Hn Hv]. unfold sxml_kv_attribute_tokens. cbn [skv_key skv_value].
  replace (sk_repr n') with (sk_repr n) by now destruct Hn.
  destruct (String.eqb (sk_repr n) "ref").
  { eapply rx_bind; [now apply rx_value|]. intros. apply rx_ret', r_method; auto with move. }
  match goal with |- context [if ?b then _ else _] => destruct b end.
  - eapply rx_bind; [now apply rx_value|]. intros. apply rx_ret', r_method; [auto with move|].
    mv.
  - eapply rx_bind; [now apply rx_snake|]. intros. eapply rx_bind; [now apply rx_value|]. intros.
    apply rx_ret', r_method; auto with move.
Qed.
Lemma rx_xml_dir d d' : rdir R d d' -> rx (rts R) (sxml_directive_tokens E d) (sxml_directive_tokens E' d').
Proof.
  intros H. unfold sxml_directive_tokens. rewrite <- (r_dir_name _ _ H).
  assert (Hd := H). destruct H as [n n' k k' m m' v v' Hn Hk Hm Hv]. cbn [sd_dir sd_key sd_modifier sd_value].
  repeat match goal with |- rx _ (if ?b then _ else _) _ => destruct b end.
  - eapply rx_bind; [now apply rx_modifier|]. intros. eapply rx_bind; [now apply rx_opt_value|]. intros.
    apply rx_ret', r_method; [auto with move|]. auto 9 with move.
  - eapply rx_bind; [now apply rx_modifier|]. intros. eapply rx_bind; [now apply rx_opt_value|]. intros.
    apply rx_ret', r_method; [auto with move|]. auto 9 with move.
  - eapply rx_bind; [now apply rx_event|]. intros. eapply rx_bind; [now apply rx_opt_value|]. intros.
    apply rx_ret', r_method; [auto with move|]. mv.
  - eapply rx_bind; [now apply rx_use|]. intros x x' []. cbn [fst snd].
    apply rx_ret', r_method; [auto with move|]. auto 9 with move.
  - eapply rx_bind; [apply rx_emit; auto with move|]. intros. apply rx_ret'; constructor.
  - eapply rx_bind; [apply rx_emit; auto with move|]. intros. apply rx_ret'; constructor.
Qed.
Lemma r_dotdot l l' : Forall2 R l l' -> R (dotdot_span E l) (dotdot_span E' l').
Proof. intros. apply r_joinx; [now apply f2_hd|now apply f2_last]. Qed.
Lemma r_spread l l' ts ts' : Forall2 R l l' -> rts R ts ts' ->
  rts R (sxml_spread_tokens E l ts) (sxml_spread_tokens E' l' ts').
Proof. intros. apply r_method; [|assumption]. apply r_wd. now apply r_dotdot. Qed.
Lemma r_into_render ts ts' : rts R ts ts' -> rts R (sinto_render ts) (sinto_render ts').
Proof. intros. unfold sinto_render. mv. Qed.

Definition rnode : snode -> snode -> Prop := rprod R (rx (rts R)).
Lemma rx_run l l' : Forall2 rnode l l' -> rx (Forall2 (rprod R (rts R))) (srun l) (srun l').
Proof.
  intros H. apply rx_seq. eapply f2_map; [exact H|]. intros x x' []. cbn.
  eapply rx_bind; [eassumption|]. intros. apply rx_ret'. auto with move.
Qed.
Lemma rx_child_methods l l' : Forall2 rnode l l' ->
  rx (rts R) (sxml_child_methods_tokens l) (sxml_child_methods_tokens l').
Proof.
  intros H. unfold sxml_child_methods_tokens. eapply rx_bind; [now apply rx_run|]. intros. apply rx_ret'.
  eapply f2_flat; [eassumption|]. intros ? ? []. apply r_method; cbn; auto with move.
Qed.
Lemma r_value_span v v' : rvalue R v v' -> R (svalue_span v) (svalue_span v').
Proof. intros [? ? []| |]; cbn; auto with move. Qed.
Hint Resolve r_value_span : move.
Lemma rx_component_kv a a' : rkv R a a' ->
  rx (rts R) (scomponent_kv_attribute_tokens E a) (scomponent_kv_attribute_tokens E' a').
Proof.
  intros H. assert (Hs : R (kv_span E a) (kv_span E' a')) by (destruct H; apply r_joinx; cbn; auto with move).
  unfold scomponent_kv_attribute_tokens. destruct H. cbn [skv_key skv_value].
  eapply rx_bind; [now apply rx_snake|]. intros. eapply rx_bind; [now apply rx_value|]. intros.
  apply rx_ret'. mv.
Qed.
Lemma rx_clone d d' : rdir R d d' -> rx (rts R) (scomponent_clone_tokens E d) (scomponent_clone_tokens E' d').
Proof.
  intros [n n' k k' m m' v v' Hn Hk Hm Hv]. unfold scomponent_clone_tokens. cbn [sd_dir sd_key sd_modifier sd_value].
  eapply rx_bind; [now apply rx_ident_or_emit|]. intros. eapply rx_bind; [now apply rx_modifier|]. intros.
  apply (rx_bind eq). { destruct Hv; [apply rx_emit; auto with move|now apply rx_ret']. }
  intros. apply rx_ret'. mv.
Qed.
Lemma r_fragment l l' s s' : Forall2 (rts R) l l' -> R s s' ->
  rts R (schildren_fragment_tokens l s) (schildren_fragment_tokens l' s').
Proof.
  intros H Hs. unfold schildren_fragment_tokens. apply f2_app; [auto with move|]. constructor; [|constructor].
  apply r_spar; [assumption|]. constructor; [|constructor]. apply r_spar; [assumption|].
  eapply f2_flat; [exact H|]. intros. mv.
Qed.
Lemma rx_children l l' args args' clones clones' : Forall2 rnode l l' -> ropt (rts R) args args' -> rts R clones clones' ->
  rx (rts R) (scomponent_children_tokens E l args clones) (scomponent_children_tokens E' l' args' clones').
Proof.
  intros H Ha Hc. unfold scomponent_children_tokens.
  assert (Hs : R (match l with [] => Call | n :: _ => fst n end) (match l' with [] => Call | n :: _ => fst n end)).
  { destruct H as [|? ? ? ? [] _]; cbn; auto. }
  eapply rx_bind; [now apply rx_run|]. intros x x' Hx.
  assert (Hm : Forall2 (rts R) (map snd x) (map snd x')).
  { eapply f2_map; [exact Hx|]. now intros ? ? []. }
  apply rx_ret', r_method; [auto with move|]. constructor; [|constructor]. apply r_sgroup; [exact HC|].
  apply f2_app; [assumption|]. destruct Ha as [a a' Ha|].
  - constructor; [auto with move|]. apply f2_app; [assumption|]. apply r_fragment; auto with move.
  - apply f2_app; [auto with move|]. constructor; [|constructor]. apply r_spar; [exact HC|].
    constructor; [auto with move|]. apply f2_app; [auto with move|]. now apply r_fragment.
Qed.
Lemma rx_any_attr d d' : rdir R d d' ->
  ropt (rx (rts R)) (sdirective_to_any_attr_path E d) (sdirective_to_any_attr_path E' d').
Proof.
  intros H. unfold sdirective_to_any_attr_path. rewrite <- (r_dir_name _ _ H).
  assert (Hd := H). destruct H as [n n' k k' m m' v v' Hn Hk Hm Hv]. cbn [sd_dir sd_key sd_modifier sd_value].
  rewrite <- (r_key_string _ _ Hk).
  repeat match goal with |- ropt _ (if ?b then _ else _) _ => destruct b end; constructor.
  - eapply rx_bind; [apply rx_value; auto with move|]. intros. apply rx_ret'. mv.
  - destruct (attribute_kind_from _).
    1,2: eapply rx_bind; [now apply rx_ident_or_emit|]; intros i i' Hi; eapply rx_bind; [apply rx_value; auto with move|]; intros;
      apply rx_ret'; rewrite <- (r_id_ident _ _ Hi); mv.
    + eapply rx_bind; [apply rx_value; auto with move|]. intros. apply rx_ret'. mv.
    + eapply rx_bind; [now apply rx_ident_or_emit|]; intros i i' Hi; eapply rx_bind; [apply rx_value; auto with move|]; intros.
      apply rx_ret'. mv.
  - eapply rx_bind; [now apply rx_ident_or_emit|]; intros i i' Hi; eapply rx_bind; [apply rx_value; auto with move|]; intros.
    apply rx_ret'. mv.
  - eapply rx_bind; [now apply rx_event|]. intros. eapply rx_bind; [now apply rx_opt_value|]. intros.
    apply rx_ret'. mv.
  - eapply rx_bind; [now apply rx_use|]. intros x x' []. cbn [fst snd]. apply rx_ret'. mv.
Qed.
Lemma r_xml_tag t t' : rtag R t t' -> ropt (rts R) (sxml_tag_path E t) (sxml_tag_path E' t').
Proof. intros []; cbn [sxml_tag_path]; constructor; mv. Qed.
Notation r3 := (rprod (rprod (rts R) (rts R)) (rts R)).
Lemma rx_xml_loop k l l' : Forall2 (rattr R) l l' -> forall acc acc', r3 acc acc' ->
  rx r3 (sxml_attr_loop E k l acc) (sxml_attr_loop E' k l' acc').
Proof.
  intros H. induction H as [|a a' r r' Ha Hr IH]; intros acc acc' Hacc; cbn [sxml_attr_loop]; [now apply rx_ret'|].
  destruct Hacc as [? ? ? ? [] ?].
  destruct Ha.
  - eapply rx_bind; [now apply rx_xml_kv|]. intros. apply IH. auto with move.
  - eapply rx_bind; [now apply rx_xml_dir|]. intros. apply IH. auto with move.
  - apply IH. constructor; [auto with move|]. apply f2_app; [assumption|]. now apply r_spread.
Qed.
Lemma r_kind t t' : rtag R t t' -> skind_of t = skind_of t'.
Proof. now intros []. Qed.
Lemma rx_xml t t' sels sels' attrs attrs' n n' : rtag R t t' -> Forall2 (rsel R) sels sels' ->
  Forall2 (rattr R) attrs attrs' -> ropt (Forall2 rnode) n n' ->
  ropt (rx (rts R)) (sxml_to_tokens E t sels attrs n) (sxml_to_tokens E' t' sels' attrs' n').
Proof.
  intros Ht Hs Ha Hn. unfold sxml_to_tokens. rewrite <- (r_kind _ _ Ht).
  destruct (r_xml_tag _ _ Ht) as [p p' Hp|]; constructor.
  eapply rx_bind; [apply rx_xml_loop; [exact Ha|auto with move]|]. intros x x' [? ? ? ? [] ?].
  apply (rx_bind (rts R)). { destruct Hn; [now apply rx_child_methods|apply rx_ret'; constructor]. }
  intros. apply rx_ret'. repeat apply f2_app; auto. now apply r_xml_selectors.
Qed.
Lemma rx_expect o o' : ropt (rx (rts R)) o o' -> rx (rts R) (sexpect_path o) (sexpect_path o').
Proof. intros []; cbn; [assumption|apply rx_panic']. Qed.
Lemma rx_component_selectors l l' : Forall2 (rsel R) l l' ->
  rx (Forall2 (rts R)) (scomponent_selectors E l) (scomponent_selectors E' l').
Proof.
  intros H. unfold scomponent_selectors. destruct (r_partition _ _ H) as [H1 H2].
  destruct (partition ssel_is_class l) as [c i], (partition ssel_is_class l') as [c' i']. cbn [fst snd] in *.
  eapply rx_bind.
  { apply rx_seq. eapply f2_map; [exact H1|]. intros. apply rx_expect, rx_any_attr. unfold sclass_directive. auto with move. }
  intros x x' Hx. destruct H2 as [|f f' r r' Hf Hr]; [now apply rx_ret'|].
  assert (Hm : map (fun s => sk_repr (ssel_kebab s)) (f :: r) = map (fun s => sk_repr (ssel_kebab s)) (f' :: r')).
  { assert (Hall : Forall2 (rsel R) (f :: r) (f' :: r')) by now constructor. clear - Hall.
    induction Hall as [|y y' l l' Hy Hl IH]; [reflexivity|]. cbn. f_equal; [|exact IH]. now destruct Hy as [? ? ? ? ? []|? ? ? ? ? []]. }
  rewrite <- Hm. eapply rx_bind.
  { apply rx_expect, rx_any_attr. unfold sid_directive. repeat constructor; auto with move. }
  intros. apply rx_ret'. auto with move.
Qed.
Notation rc3 := (rprod (rprod (rts R) (Forall2 (rts R))) (rts R)).
Lemma rx_comp_loop slot l l' : Forall2 (rattr R) l l' -> forall acc acc', rc3 acc acc' ->
  rx rc3 (scomponent_attr_loop E slot l acc) (scomponent_attr_loop E' slot l' acc').
Proof.
  intros H. induction H as [|a a' r r' Ha Hr IH]; intros acc acc' Hacc; cbn [scomponent_attr_loop]; [now apply rx_ret'|].
  assert (Hacc' := Hacc). destruct Hacc as [? ? ? ? [] ?].
  destruct Ha as [|d d' Hd|].
  - eapply rx_bind; [now apply rx_component_kv|]. intros. apply IH. auto with move.
  - rewrite <- (r_dir_name _ _ Hd).
    assert (Hs : R (si_span (sd_dir d)) (si_span (sd_dir d'))) by (destruct Hd; cbn; auto with move).
    destruct (String.eqb _ "clone").
    + apply (rx_bind eq). { destruct Hd. now apply rx_modifier. }
      intros. eapply rx_bind; [now apply rx_clone|]. intros. apply IH. auto with move.
    + destruct slot.
      * eapply rx_bind; [now apply rx_emit|]. intros. now apply IH.
      * destruct (rx_any_attr _ _ Hd) as [x x' Hx|].
        -- eapply rx_bind; [exact Hx|]. intros. apply IH. auto with move.
        -- eapply rx_bind; [now apply rx_emit|]. intros. now apply IH.
  - destruct slot.
    + eapply rx_bind; [apply rx_emit; auto with move|]. intros. now apply IH.
    + apply IH. auto with move.
Qed.
Notation rmap := (Forall2 (rprod (rid R) (Forall2 (rts R)))).
Lemma r_insert m m' k k' t t' : rmap m m' -> rid R k k' -> rts R t t' -> rmap (sslot_insert m k t) (sslot_insert m' k' t').
Proof.
  intros H Hk Ht. induction H as [|x x' l l' Hx Hl IH]; cbn [sslot_insert]; [auto 6 with move|].
  destruct Hx as [i i' v v' Hi Hv]. rewrite (r_id_ident _ _ Hk), (r_id_ident _ _ Hi).
  destruct (ident_eqb _ _); auto 6 with move.
Qed.
Lemma r_get m m' k : rmap m m' -> rprod R (Forall2 (rts R)) (sslot_get m k) (sslot_get m' k).
Proof.
  intros H. induction H as [|x x' l l' Hx Hl IH]; cbn [sslot_get]; [auto with move|].
  destruct Hx as [i i' v v' Hi Hv]. rewrite (r_id_ident _ _ Hi). destruct (ident_eqb _ _); auto with move.
Qed.
Lemma r_get_ident p p' : rpath R p p' -> ropt (rid R) (sget_ident p) (sget_ident p').
Proof. intros [? ? ? ? ? ? [] [? ? ? ? ? []] []]; cbn; auto with move. Qed.
Definition rslot : (stag * SX (list stt)) -> (stag * SX (list stt)) -> Prop := rprod (rtag R) (rx (rts R)).
Lemma rx_collect l l' : Forall2 rslot l l' -> forall m m', rmap m m' -> rx rmap (scollect_slots E l m) (scollect_slots E' l' m').
Proof.
  intros H. induction H as [|x x' l l' Hx Hl IH]; intros m m' Hm; cbn [scollect_slots]; [now apply rx_ret'|].
  destruct Hx as [t t' y y' Ht Hy]. destruct Ht as [|p p' Hp| | |]; try apply rx_panic'.
  destruct (r_get_ident _ _ Hp).
  - eapply rx_bind; [exact Hy|]. intros. apply IH. now apply r_insert.
  - eapply rx_bind; [apply rx_emit; auto with move|]. intros. now apply IH.
Qed.
Lemma rx_slot_method k s s' : rprod R (Forall2 (rts R)) s s' -> rx (rts R) (sslot_method k s) (sslot_method k s').
Proof.
  intros [p p' l l' Hp Hl]. unfold sslot_method. cbn [fst snd]. destruct (new_raw _) as [m|]; [|apply rx_panic'].
  apply rx_ret'.
  assert (Hc : rts R ((fix commas (l : list (list stt)) : list stt :=
                         match l with [] => [] | [s] => s | s :: r => s ++ [spu Call ","] ++ commas r end) l)
                     ((fix commas (l : list (list stt)) : list stt :=
                         match l with [] => [] | [s] => s | s :: r => s ++ [spu Call ","] ++ commas r end) l')).
  { clear - Hl HC. induction Hl as [|x x' l l' Hx Hl IH]; [constructor|]. destruct Hl; [exact Hx|].
    apply f2_app; [exact Hx|]. constructor; [now constructor|exact IH]. }
  destruct Hl as [|x x' l l' Hx [|y y' r r' Hy Hl]]; apply r_method; auto with move; mv; exact Hc.
Qed.
Lemma rx_slots at_ l l' : Forall2 rslot l l' -> rx (rts R) (sslots_to_tokens E at_ l) (sslots_to_tokens E' at_ l').
Proof.
  intros H. unfold sslots_to_tokens. eapply rx_bind; [apply rx_collect; [exact H|constructor]|]. intros m m' Hm.
  assert (Hk : map (fun x => si_ident (fst x)) m = map (fun x => si_ident (fst x)) m').
  { clear - Hm. induction Hm as [|x x' l l' Hx Hl IH]; [reflexivity|]. cbn. f_equal; [|exact IH]. destruct Hx. now apply r_id_ident. }
  rewrite <- HE, <- Hk. eapply rx_bind.
  { apply rx_seq. induction (slot_order _ _ _); cbn; [constructor|]. constructor; [|assumption].
    now apply rx_slot_method, r_get. }
  intros. apply rx_ret'. now apply f2_concat.
Qed.
Lemma rx_component at_ slot t t' sels sels' attrs attrs' args args' n n' s s' : rtag R t t' -> Forall2 (rsel R) sels sels' ->
  Forall2 (rattr R) attrs attrs' -> ropt (rts R) args args' -> ropt (Forall2 rnode) n n' -> ropt (Forall2 rslot) s s' ->
  ropt (rx (rts R)) (scomponent_to_tokens E at_ slot t sels attrs args n s)
                    (scomponent_to_tokens E' at_ slot t' sels' attrs' args' n' s').
Proof.
  intros Ht Hs Ha Hg Hn Hl. destruct Ht as [|p p' Hp| | |]; cbn [scomponent_to_tokens]; constructor.
  eapply rx_bind; [now apply rx_turbofishify|]. clear p p' Hp. intros p p' Hp.
  apply (rx_bind (Forall2 (rts R))).
  { destruct slot; [|now apply rx_component_selectors]. destruct Hs; [apply rx_ret'; constructor|].
    eapply rx_bind; [apply rx_emit; auto with move|]. intros. apply rx_ret'; constructor. }
  intros d d' Hd. eapply rx_bind; [apply rx_comp_loop; [exact Ha|auto with move]|].
  intros x x' [? ? cl cl' [pr pr' ds ds' Hpr Hds] Hcl].
  apply (rx_bind (rts R)).
  { destruct Hn as [l l' Hn|]; [|apply rx_ret'; constructor]. destruct Hn; [apply rx_ret'; constructor|].
    apply rx_children; auto with move. }
  intros ch ch' Hch. apply (rx_bind (rts R)).
  { destruct Hl; [now apply rx_slots|apply rx_ret'; constructor]. }
  intros sl sl' Hsl. assert (Hps := r_path_span _ _ Hp). assert (Hpt := r_path_tokens _ _ Hp).
  assert (Hd' : rts R (flat_map (fun d => d ++ [spu Call ","]) ds) (flat_map (fun d => d ++ [spu Call ","]) ds')).
  { eapply f2_flat; [exact Hds|]. intros. mv. }
  destruct slot; apply rx_ret'; mv'.
Qed.
Lemma rx_element_tokens at_ slot t t' sels sels' attrs attrs' args args' n n' s s' : rtag R t t' -> Forall2 (rsel R) sels sels' ->
  Forall2 (rattr R) attrs attrs' -> ropt (rts R) args args' -> ropt (Forall2 rnode) n n' -> ropt (Forall2 rslot) s s' ->
  rx (rts R) (selement_tokens E at_ slot t sels attrs args n s) (selement_tokens E' at_ slot t' sels' attrs' args' n' s').
Proof.
  intros Ht Hs Ha Hg Hn Hl. unfold selement_tokens. destruct slot; [now apply rx_expect, rx_component|].
  destruct (rx_xml _ _ _ _ _ _ _ _ Ht Hs Ha Hn) as [x x' Hx|]; [exact Hx|now apply rx_expect, rx_component].
Qed.

Lemma r_node_span c c' : rchild R c c' -> R (node_span E c) (node_span E' c').
Proof. intros [|? ? []|? ? ? ? ? []]; cbn; auto with move. Qed.
Hint Resolve r_node_span : move.

Lemma rx_nodes at_ l l' : Forall2 (rchild R) l l' ->
  (forall e, List.In (SCElement e) l -> forall e' at_ slot, relem R e e' ->
     rx (rts R) (sexpand_element E at_ slot e) (sexpand_element E' at_ slot e')) ->
  forall n, Forall2 rnode (sexpand_nodes E at_ n l) (sexpand_nodes E' at_ n l').
Proof.
  intros H. induction H as [|c c' l l' Hc Hl IH]; intros He n; cbn [sexpand_nodes]; [constructor|].
  assert (Hr : forall n, Forall2 rnode (sexpand_nodes E at_ n l) (sexpand_nodes E' at_ n l')).
  { apply IH. intros e Hin. apply He. now right. }
  assert (Hs := r_node_span _ _ Hc).
  destruct Hc as [v v' Hv|e e' Hee|]; [| |apply Hr]; constructor; try apply Hr; constructor; try exact Hs; cbn [sexpand_node].
  - eapply rx_bind; [now apply rx_value|]. intros. now apply rx_ret', r_into_render.
  - eapply rx_bind; [apply He; [now left|exact Hee]|]. intros. now apply rx_ret', r_into_render.
Qed.
Lemma rx_slot_list at_ l l' : Forall2 (rchild R) l l' ->
  (forall s e, List.In (SCSlot s e) l -> forall e' at_ slot, relem R e e' ->
     rx (rts R) (sexpand_element E at_ slot e) (sexpand_element E' at_ slot e')) ->
  forall n, Forall2 rslot (sexpand_slots E at_ n l) (sexpand_slots E' at_ n l').
Proof.
  intros H. induction H as [|c c' l l' Hc Hl IH]; intros He n; cbn [sexpand_slots]; [constructor|].
  assert (Hr : forall n, Forall2 rslot (sexpand_slots E at_ n l) (sexpand_slots E' at_ n l')).
  { apply IH. intros s e Hin. apply (He s). now right. }
  destruct Hc as [v v' Hv|e e' Hee|s s' e e' Hs Hee]; [apply Hr|apply Hr|]. constructor; [|apply Hr].
  constructor; [now destruct Hee|]. apply (He s); [now left|exact Hee].
Qed.
Lemma rx_element e : forall e' at_ slot, relem R e e' ->
  rx (rts R) (sexpand_element E at_ slot e) (sexpand_element E' at_ slot e').
Proof.
  induction e as [t sels attrs args ch IH1 IH2] using selement_ind2. intros e' at_ slot He.
  inversion He as [? t' ? s' ? a' ? g' ? c' Ht Hs Ha Hg Hc]; subst. rewrite !sexpand_element_eq.
  apply rx_element_tokens; auto; destruct Hc; cbn [option_map]; constructor.
  - now apply rx_nodes.
  - now apply rx_slot_list.
Qed.
Lemma rx_node at_ c c' : rchild R c c' -> rx (rts R) (sexpand_node E at_ c) (sexpand_node E' at_ c').
Proof.
  intros [v v' Hv|e e' Hee|]; cbn [sexpand_node].
  - eapply rx_bind; [now apply rx_value|]. intros. now apply rx_ret', r_into_render.
  - eapply rx_bind; [apply rx_element, Hee|]. intros. now apply rx_ret', r_into_render.
  - apply rx_ret'. constructor.
Qed.
Lemma r_find_slot l l' : Forall2 (rchild R) l l' -> ropt (rchild R) (find sis_slot l) (find sis_slot l').
Proof.
  intros H. induction H as [|c c' l l' Hc Hl IH]; cbn [find]; [constructor|].
  destruct Hc; cbn [sis_slot]; auto with move.
Qed.
Lemma rx_root l l' : Forall2 (rchild R) l l' -> rx (rts R) (sroot_tokens E l) (sroot_tokens E' l').
Proof.
  intros H.
  assert (Hmany : rx (rts R)
    (match find sis_slot l with
     | Some c => sxabort DRootSlot (node_span E c)
     | None => sxbind (srun (sexpand_nodes E [] 0 l)) (fun x =>
         sxret [sgroup Call Brace ([spu Call "#"; sgroup Call Bracket [skw Call "allow"; spar Call [skw Call "unused_braces"]]]
           ++ schildren_fragment_tokens (map snd x) Call)])
     end)
    (match find sis_slot l' with
     | Some c => sxabort DRootSlot (node_span E' c)
     | None => sxbind (srun (sexpand_nodes E' [] 0 l')) (fun x =>
         sxret [sgroup Call Brace ([spu Call "#"; sgroup Call Bracket [skw Call "allow"; spar Call [skw Call "unused_braces"]]]
           ++ schildren_fragment_tokens (map snd x) Call)])
     end)).
  { destruct (r_find_slot _ _ H) as [c c' Hc|]; [apply rx_abort'; auto with move|].
    eapply rx_bind; [apply rx_run, rx_nodes; [exact H|intros; now apply rx_element]|].
    intros x x' Hx. apply rx_ret'. mv. apply r_fragment; [|exact HC]. eapply f2_map; [exact Hx|]. now intros ? ? []. }
  unfold sroot_tokens. destruct H as [|c c' r r' Hc Hr]; [exact Hmany|]. destruct Hr; [|exact Hmany].
  assert (Hn := rx_node [0] _ _ Hc).
  destruct Hc; [| |now apply rx_abort']; (eapply rx_bind; [exact Hn|]; intros; apply rx_ret'; mv).
Qed.

Theorem r_mview i i' : rts R i i' -> rresult R (smview E i) (smview E' i').
Proof.
  intros H. unfold smview. rewrite <- (r_erases _ _ H).
  destruct (rp_children (S (size (erases i))) _ _ _ _ HC H) as [o o' x x' d d' Ho Hx Hd].
  destruct Ho as [l l' Hl|e s s' Hs| | |]; auto with move.
  - destruct (rx_root _ _ Hl) as [a a' y y' Ha Hy|y y' Hy|]; auto with move.
    assert (Hdd : rdiags R (d ++ y) (d' ++ y')) by auto with move. destruct Hdd; auto with move.
  - assert (R (err_span E s) (err_span E' s')) by now apply r_joinx. auto 6 with move.
Qed.
Theorem r_mview_nightly i i' : rts R i i' -> ranswer R (smview_nightly E i) (smview_nightly E' i').
Proof.
  intros H. unfold smview_nightly. rewrite <- (r_erases _ _ H).
  assert (Hdum : rts R sdummy sdummy) by (unfold sdummy; mv).
  destruct (rp_children (S (size (erases i))) _ _ _ _ HC H) as [o o' x x' d d' Ho Hx Hd].
  destruct Ho as [l l' Hl|e s s' Hs| | |]; auto with move.
  - destruct (rx_root _ _ Hl) as [a a' y y' Ha Hy|y y' Hy|]; auto with move.
  - assert (R (err_span E s) (err_span E' s')) by now apply r_joinx. auto 6 with move.
Qed.
End Parsers.
