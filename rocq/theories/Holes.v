(** Views with holes give expansions with holes.  (Proofs; the statements of
    interest are in [Properties33.v].) *)
From Verif Require Export SpecBlind Blind SLex SpanExamples.
Open Scope list_scope.
Close Scope sexpand_scope.

(** ** Holes in brackets *)

(** The marks put into the holes are longer than every literal of the view. *)
Fixpoint pad (n : nat) : string := match n with 0 => "" | S n => String "x" (pad n) end.
Lemma pad_length n : String.length (pad n) = n.
Proof. induction n; cbn; congruence. Qed.
Fixpoint longest (t : stt) : nat :=
  match t with
  | SLit _ _ v => String.length v
  | SGroup _ _ ts => list_max (map longest ts)
  | _ => 0
  end.
Fixpoint plongest (p : tpl) : nat :=
  match p with
  | PTok t => longest t
  | PGroup _ _ ts => list_max (map plongest ts)
  | PHole _ _ _ => 0
  end.
Definition mark (N n : nat) : list stt := [SLit Call LkByteStr (pad (N + n))].
Definition marked (N : nat) (ts : list stt) : option nat :=
  match ts with
  | [SLit _ LkByteStr v] => if Nat.leb N (String.length v) then Some (String.length v - N) else None
  | _ => None
  end.
Fixpoint unmark (N : nat) (t : stt) : tpl :=
  match t with
  | SGroup s d ts => match marked N ts with Some n => PHole s d n | None => PGroup s d (map (unmark N) ts) end
  | _ => PTok t
  end.
Lemma marked_mark N n : marked N (mark N n) = Some n.
Proof.
  unfold marked, mark. rewrite pad_length. replace (Nat.leb N (N + n)) with true by (symmetry; apply Nat.leb_le; lia).
  f_equal. lia.
Qed.

Lemma tpl_ind2 (P : tpl -> Prop) :
  (forall t, P (PTok t)) -> (forall s d ts, Forall P ts -> P (PGroup s d ts)) -> (forall s d n, P (PHole s d n)) -> forall p, P p.
Proof.
  intros H1 H2 H3. fix rec 1. intros [t|s d ts|s d n]; [apply H1|apply H2|apply H3].
  induction ts as [|t r IH]; constructor; [apply rec|exact IH].
Qed.
Lemma max_in l x : In x l -> x <= list_max l.
Proof. intros H. pose proof (proj1 (list_max_le l (list_max l)) (Nat.le_refl _)) as Hf. rewrite Forall_forall in Hf. now apply Hf. Qed.

Section Brackets.
Variables (E : senv) (T : list tpl) (f : nat -> list stt).
Hypothesis Hok : senv_ok E.
Hypothesis Hb : blind E T.
Hypothesis Hin : Forall in_brackets T.
Definition top : nat := S (list_max (map plongest T)).
Definition K (a b : list stt) : Prop := exists n, a = mark top n /\ b = f n.
Definition KB (a b : list stt) : Prop := False.
Definition ML (k : litkind) (v : string) : Prop := k <> LkByteStr \/ String.length v < top.
Definition SS (a b : list stt) : Prop := a = b \/ exists u, place_in T u /\ a = fills (mark top) u /\ b = fills f u.
Notation rtt := (rtt K ML SS eq eq).
Notation rts := (rts K ML SS eq eq).
Notation rto := (rto K KB ML eq eq).

Lemma same_rtt t : longest t < top -> rtt t t.
Proof.
  induction t as [s i|s c sp|s k v|s d ts IH] using stt_ind2; intros H; try (now constructor).
  - constructor; [reflexivity|]. now right.
  - constructor; [destruct s; now constructor|]. change (list_max (map longest ts) < top) in H.
    induction IH as [|t r Ht Hr IHr]; constructor; try (now left);
      change (Nat.max (longest t) (list_max (map longest r)) < top) in H; [apply Ht|apply IHr]; lia.
Qed.
Lemma fill_rtt p : in_brackets p -> plongest p < top -> (forall r, place_in T (p :: r) -> rtt (fill (mark top) p) (fill f p)).
Proof.
  induction p as [t|s d ts IH|s d n] using tpl_ind2; intros Hi Hl r Hr; cbn [fill].
  - now apply same_rtt.
  - constructor; [destruct s; now constructor|]. inversion Hi as [|? ? ? Hts|]; subst. change (list_max (map plongest ts) < top) in Hl. apply in_group in Hr.
    revert Hr. clear Hi. induction IH as [|p q Hp Hq IHq]; intros Hr; cbn [map].
    + constructor. now left.
    + inversion Hts as [|? ? Hp1 Hq1]; subst. change (Nat.max (plongest p) (list_max (map plongest q)) < top) in Hl. constructor.
      * apply (Hp Hp1) with q; [lia|exact Hr].
      * apply IHq; first [assumption|lia|now apply in_tail in Hr].
      * right. exists (p :: q). auto.
  - inversion Hi; subst. apply rtt_bracket; [destruct s; now constructor|]. now exists n.
Qed.
Lemma fills_rts : rts (fills (mark top) T) (fills f T).
Proof.
  assert (Hl : Forall (fun p => plongest p < top) T).
  { apply Forall_forall. intros p Hp. unfold top. apply Nat.lt_succ_r, max_in, in_map, Hp. }
  assert (Hr : forall u, place_in T u -> Forall in_brackets u -> Forall (fun p => plongest p < top) u -> rts (fills (mark top) u) (fills f u)).
  { induction u as [|p u IH]; intros Hu H1 H2; cbn [fills map].
    - constructor. now left.
    - inversion H1; inversion H2; subst. constructor.
      + now apply (fill_rtt p) with u.
      + apply IH; auto. now apply in_tail in Hu.
      + right. exists (p :: u). auto. }
  apply Hr; auto. constructor.
Qed.

Lemma rts_split g : forall g' r r', List.length g = List.length g' -> rts (g ++ r) (g' ++ r') ->
  Forall2 rto g g' /\ rts r r'.
Proof.
  induction g as [|t g IH]; intros [|t' g'] r r' Hl H; try discriminate; cbn in *; [auto|].
  inversion H; subst. destruct (IH g' r r') as [H1 H2]; [lia|assumption|]. split; [|assumption].
  constructor; [|assumption]. now apply r_out with SS.
Qed.
Lemma rts_length a b : rts a b -> List.length a = List.length b.
Proof. apply r_length. Qed.
Lemma generic_r sc sc' ts ts' : sc = sc' -> rts ts ts' -> SS ts ts' ->
  rsum (rprod (Forall2 rto) rts) (rprod rts eq) (s_generic E sc ts) (s_generic E sc' ts').
Proof.
  intros <- Ht Hs.
  assert (Hg : match s_generic E sc ts, s_generic E sc ts' with
    | inl (g, _), inl (g', _) => List.length g = List.length g'
    | inr (r, s), inr (r', s') => List.length r = List.length r' /\ s = s'
    | _, _ => False
    end).
  { destruct Hs as [<-|(u & Hu & -> & ->)]; [|now apply Hb]. destruct (s_generic E sc ts) as [[]|[]]; auto. }
  destruct Hok as (_ & _ & Hl & Hr & _).
  destruct (s_generic E sc ts) as [[g r]|[r s]] eqn:E1, (s_generic E sc ts') as [[g' r']|[r' s']] eqn:E2; try contradiction.
  - apply Hl in E1, E2. subst. destruct (rts_split _ _ _ _ Hg Ht). constructor. now constructor.
  - apply Hr in E1, E2. destruct E1 as ((u & ->) & _), E2 as ((u' & ->) & _). destruct Hg as [Hg <-].
    constructor. constructor; [|reflexivity]. apply (rts_split u u'); [|assumption].
    apply rts_length in Ht. rewrite !app_length in Ht. lia.
Qed.

Lemma unmark_fill t : forall t', rto t t' -> t' = fill f (unmark top t).
Proof.
  induction t as [s i|s c sp|s k v|s d ts IH] using stt_ind2; intros t' H; inversion H as [| | |? ? ? ? ? Hs Hts|? ? ? ? ? Hs HK]; subst; cbn [unmark fill];
    try reflexivity.
  - assert (Hm : marked top ts = None).
    { destruct ts as [|[| |s0 [] v|] [|]]; try reflexivity. cbn [marked]. inversion Hts as [|? ? ? ? Hlit]; subst.
      inversion Hlit as [| |? ? ? ? ? HM| |]; subst. destruct HM as [HM|HM]; [now destruct HM|].
      replace (Nat.leb top (String.length v)) with false; [reflexivity|]. symmetry. now apply Nat.leb_gt. }
    rewrite Hm. cbn. f_equal; [destruct Hs; subst; reflexivity|]. clear H Hm.
    induction Hts as [|a b l l' Hab Hl IHl]; [reflexivity|]. inversion IH; subst. cbn. f_equal; auto.
  - destruct HK as [(n & -> & ->)|[]]. rewrite marked_mark. cbn. f_equal. destruct Hs; subst; reflexivity.
Qed.
Lemma unmarks_fill ts ts' : Forall2 rto ts ts' -> ts' = fills f (map (unmark top) ts).
Proof. induction 1 as [|t t' r r' Ht Hr IH]; [reflexivity|]. cbn. f_equal; [now apply unmark_fill|exact IH]. Qed.
Lemma diags_same d d' : rdiags eq d d' -> d' = d.
Proof. induction 1 as [|x x' r r' Hx Hr IH]; [reflexivity|]. f_equal; [|exact IH]. now destruct Hx; subst. Qed.

Lemma HL k v : k <> LkByteStr -> ML k v.
Proof. now left. Qed.
Lemma join_r a a' b b' : a = a' -> b = b' -> ropt eq (s_join E a b) (s_join E a' b').
Proof. intros <- <-. destruct (s_join E a b); now constructor. Qed.
Lemma block_r b b' ts ts' : rds eq b b' -> KB ts ts' -> block_span E b ts = block_span E b' ts'.
Proof. intros _ []. Qed.

Lemma space_r s s' c sp sp' r r' : sp = sp' -> SS (SPunct s c sp :: r) (SPunct s' c sp' :: r') -> matters c (erases r) -> sp = sp'.
Proof. auto. Qed.
Lemma blind_result : rresult K KB ML eq eq (smview E (fills (mark top) T)) (smview E (fills f T)).
Proof.
  destruct Hok as (He & Hg & _).
  apply (r_mview K KB ML HL SS (or_introl eq_refl) eq (fun sp => eq_refl) space_r eq E E eq_refl join_r generic_r eq_refl block_r He Hg Hg).
  apply fills_rts.
Qed.
Lemma blind_answer : ranswer K KB ML eq eq (smview_nightly E (fills (mark top) T)) (smview_nightly E (fills f T)).
Proof.
  destruct Hok as (He & Hg & _).
  apply (r_mview_nightly K KB ML HL SS (or_introl eq_refl) eq (fun sp => eq_refl) space_r eq E E eq_refl join_r generic_r eq_refl block_r He Hg Hg).
  apply fills_rts.
Qed.
End Brackets.

(** ** Holes for code *)

(** Trees with the tokens [g c] for the code [c]; no other token has a place. *)
Section Lift.
Variable g : list tt -> list stt.
Definition nospan : dspan := same_span Call.
Fixpoint lt (t : tt) : stt :=
  match t with
  | TIdent i => SIdent Call i
  | TPunct c sp => SPunct Call c sp
  | TLit k v => SLit Call k v
  | TGroup d ts => SGroup nospan d (map lt ts)
  end.
Definition lid (i : ident) : sident := SId Call i.
Definition llit (l : lit) : slit :=
  match l with LitTok k v => SLitTok Call k v | LitBool b => SLitBool Call b end.
Definition lvalue (v : value) : svalue :=
  match v with
  | VLit l => SVLit (llit l)
  | VBlock ts => SVBlock nospan (g ts)
  | VBracket p ts => SVBracket (option_map lid p) nospan (g ts)
  end.
Definition lkebab (k : kebab) : skebab := SKebab (k_repr k) (repeat Call (k_spans k)).
Definition lkey (k : kebab_or_str) : skebab_or_str :=
  match k with KKebab k => SKKebab (lkebab k) | KStr s => SKStr Call s end.
Definition lattr (a : attr) : sattr :=
  match a with
  | AKv (KvAttr k v) => SAKv (SKvAttr (lkebab k) (lvalue v))
  | ADir (Directive d k m v) => SADir (SDirective (lid d) (lkey k) (option_map lid m) (option_map lvalue v))
  | ASpread r => SASpread nospan [Call; Call] (map lt r)
  end.
Definition lsel (s : selector) : sselector :=
  match s with SelId k => SSelId Call (lkebab k) | SelClass k => SSelClass Call (lkebab k) end.
Definition lcolons (b : bool) : option (list span) := if b then Some [Call; Call] else None.
Definition largs (a : path_args) : spath_args :=
  match a with
  | PNone => SPNone
  | PAngle b ts => SPAngle (lcolons b) (map lt ts)
  | PParen ts => SPParen (map lt ts)
  end.
Definition lseg (s : path_seg) : spath_seg := SPSeg (lid (seg_ident s)) (largs (seg_args s)).
Definition lpath (p : path) : spath :=
  match segs p with
  | [] => SPath None (SPSeg (lid (Id false "")) SPNone) []
  | s :: r => SPath (lcolons (leading p)) (lseg s) (map (fun s => ([Call; Call], lseg s)) r)
  end.
Definition ltag (t : tag) : stag :=
  match t with
  | TagHtml i => STagHtml (lid i)
  | TagComponent p => STagComponent (lpath p)
  | TagSvg i => STagSvg (lid i)
  | TagMath i => STagMath (lid i)
  | TagWeb k => STagWeb (lkebab k)
  end.
Fixpoint lelement (e : element) : selement :=
  match e with
  | Element t sels attrs args ch =>
      SElement (ltag t) (map lsel sels) (map lattr attrs) (option_map (map lt) args)
        (option_map
           (fix go (l : list child) : list schild :=
              match l with [] => [] | c :: r => lchild c :: go r end) ch)
  end
with lchild (c : child) : schild :=
  match c with
  | CValue v => SCValue (lvalue v)
  | CElement e => SCElement (lelement e)
  | CSlot e => SCSlot Call (lelement e)
  end.
End Lift.

Lemma tree_ind2 (P : element -> Prop) (Q : child -> Prop) :
  (forall t sels attrs args ch, (forall l, ch = Some l -> Forall Q l) -> P (Element t sels attrs args ch)) ->
  (forall v, Q (CValue v)) -> (forall e, P e -> Q (CElement e)) -> (forall e, P e -> Q (CSlot e)) ->
  (forall e, P e) /\ (forall c, Q c).
Proof.
  intros H1 H2 H3 H4.
  assert (He : forall e, P e).
  { fix rec 1. intros [t sels attrs args ch]. apply H1. intros l Hl. destruct ch as [l0|]; [|discriminate].
    injection Hl as <-. induction l0 as [|c r IH]; constructor; [|exact IH].
    destruct c as [v|e|e]; [apply H2|apply H3, rec|apply H4, rec]. }
  split; [exact He|]. intros [v|e|e]; auto.
Qed.

Lemma lelement_eq g t sels attrs args ch : lelement g (Element t sels attrs args ch) =
  SElement (ltag t) (map lsel sels) (map (lattr g) attrs) (option_map (map lt) args) (option_map (map (lchild g)) ch).
Proof. now destruct ch. Qed.
Lemma recode_element_eq f t sels attrs args ch : recode_element f (Element t sels attrs args ch) =
  Element t sels (map (recode_attr f) attrs) args (option_map (map (recode f)) ch).
Proof. now destruct ch. Qed.

Lemma tt_ind2 (P : tt -> Prop) :
  (forall i, P (TIdent i)) -> (forall c sp, P (TPunct c sp)) -> (forall k v, P (TLit k v)) ->
  (forall d ts, Forall P ts -> P (TGroup d ts)) -> forall t, P t.
Proof.
  intros H1 H2 H3 H4. fix rec 1. intros [i|c sp|k v|d ts]; [apply H1|apply H2|apply H3|apply H4].
  induction ts as [|t r IH]; constructor; [apply rec|exact IH].
Qed.
Lemma erase_lt t : erase (lt t) = t.
Proof.
  induction t as [| | |d ts IH] using tt_ind2; try reflexivity. cbn. f_equal. rewrite map_map.
  induction IH as [|t r Ht Hr IHr]; [reflexivity|]. cbn. now f_equal.
Qed.
Lemma erases_lt ts : erases (map lt ts) = ts.
Proof. unfold erases. rewrite map_map. induction ts; [reflexivity|]. cbn. now rewrite erase_lt, IHts. Qed.

(** *** Forgetting the places again *)

Section Erase.
Variables (g : list tt -> list stt) (f : list tt -> list tt).
Hypothesis Hg : forall c, erases (g c) = f c.
(** Some tree with places is [recode f] of this one: the paths are not empty. *)
Lemma e_lid o : option_map si_ident (option_map lid o) = o.
Proof. now destruct o. Qed.
Lemma e_lvalue v : evalue (lvalue g v) = recode_value f v.
Proof. destruct v as [[]|ts|p ts]; cbn; rewrite ?Hg, ?e_lid; reflexivity. Qed.
Lemma e_lkebab k : ekebab (lkebab k) = k.
Proof. destruct k. unfold ekebab, lkebab. cbn. now rewrite repeat_length. Qed.
Lemma e_lkey k : ekey (lkey k) = k.
Proof. destruct k; cbn; [now rewrite e_lkebab|reflexivity]. Qed.
Lemma e_lattr a : eattr (lattr g a) = recode_attr f a.
Proof.
  destruct a as [[k v]|[d k m v]|r]; cbn.
  - unfold ekv. cbn. now rewrite e_lkebab, e_lvalue.
  - unfold edir. cbn. rewrite e_lkey, e_lid. destruct v; cbn; [now rewrite e_lvalue|reflexivity].
  - now rewrite erases_lt.
Qed.
Lemma e_lsel s : eselector (lsel s) = s.
Proof. destruct s; cbn; now rewrite e_lkebab. Qed.
Lemma e_lcolons b : is_some (lcolons b) = b.
Proof. now destruct b. Qed.
Lemma e_lseg s : eseg (lseg s) = s.
Proof. destruct s as [i a]. unfold eseg, lseg. cbn. destruct a; cbn; rewrite ?e_lcolons, ?erases_lt; reflexivity. Qed.
Lemma e_ltag t s : t = etag s -> etag (ltag t) = t.
Proof.
  destruct t as [i|p|i|i|k]; intros Ht; cbn; try reflexivity; [|now rewrite e_lkebab].
  destruct s as [|p'| | |]; try discriminate. injection Ht as ->. unfold lpath, epath. cbn.
  rewrite e_lcolons, e_lseg, map_map. cbn. do 2 f_equal. rewrite map_map. f_equal.
  apply map_ext. intros. apply e_lseg.
Qed.
Lemma e_tree :
  (forall e s, recode_element f e = eelement s -> eelement (lelement g e) = recode_element f e) /\
  (forall c s, recode f c = echild s -> echild (lchild g c) = recode f c).
Proof.
  apply tree_ind2.
  - intros t sels attrs args ch IH [t' sels' attrs' args' ch'] H. rewrite recode_element_eq, eelement_eq in H. injection H as Ht _ _ _ Hc.
    rewrite recode_element_eq, lelement_eq, eelement_eq. f_equal.
    + now apply e_ltag with t'.
    + rewrite map_map. erewrite map_ext; [apply map_id|]. apply e_lsel.
    + rewrite map_map. apply map_ext. apply e_lattr.
    + destruct args; cbn; [now rewrite erases_lt|reflexivity].
    + destruct ch as [l|], ch' as [l'|]; try discriminate; [|reflexivity]. cbn in *. injection Hc as Hc. f_equal. rewrite map_map.
      specialize (IH l eq_refl). clear - IH Hc. revert l' Hc. induction IH as [|c r Hc0 Hr IHr]; intros [|c' l'] Hc; try discriminate; [reflexivity|].
      cbn in *. injection Hc as H1 H2. f_equal; [now apply Hc0 with c'|now apply IHr with l'].
  - intros v s _. cbn. now rewrite e_lvalue.
  - intros e IH [|s|] H; try discriminate. cbn in *. injection H as H. f_equal. now apply IH with s.
  - intros e IH [| |? s] H; try discriminate. cbn in *. injection H as H. f_equal. now apply IH with s.
Qed.
Lemma e_trees cs : forall ss, map (recode f) cs = map echild ss -> map echild (map (lchild g) cs) = map (recode f) cs.
Proof.
  induction cs as [|c cs IH]; intros [|s ss] H; try discriminate; [reflexivity|]. cbn in *. injection H as H1 H2. f_equal.
  - now apply (proj2 e_tree) with s.
  - now apply IH with ss.
Qed.
End Erase.

(** *** Trees with marks and trees with code *)

Definition off : dspan := same_span (Src 0 0 0).
Definition code_mark (c : list tt) : list stt := [SIdent Call (Id false "x"); SGroup off Paren (map lt c)].
Definition code_of (ts : list stt) : option (list tt) :=
  match ts with
  | [_; SGroup (DSpan (Src _ _ _) _ _) _ c] => Some (erases c)
  | _ => None
  end.
Fixpoint uncode (t : stt) : utpl :=
  match t with
  | SGroup _ d ts => match code_of ts with Some c => UHole d c | None => UGroup d (map uncode ts) end
  | _ => UTok (erase t)
  end.

Section Code.
Variables (E : env) (f : list tt -> list tt).
Definition code (c : list tt) : list stt := map lt (f c).
Definition KC (a b : list stt) : Prop := exists c, a = code_mark c /\ b = code c.
Definition anylit (k : litkind) (v : string) : Prop := True.
Definition RC (a b : span) : Prop := a = Call /\ b = Call.
Notation rto := (rto KC KC anylit eq RC).
Notation rchild := (rchild KC KC anylit eq RC).
Notation relem := (relem KC KC anylit eq RC).
Notation rvalue := (rvalue KC KC anylit eq RC).
Notation EC := (with_spans E no_join).

Lemma RC_call : RC Call Call. Proof. now split. Qed.
Lemma RC_same : rds RC nospan nospan.
Proof. constructor; apply RC_call. Qed.
Hint Resolve RC_call RC_same : move.
Lemma refl_lt t : rto (lt t) (lt t).
Proof.
  induction t as [| | |d ts IH] using tt_ind2; cbn; try (constructor; first [apply RC_call|exact I|reflexivity]).
  constructor; [apply RC_same|]. induction IH; cbn; constructor; auto.
Qed.
Lemma refl_lts ts : Forall2 rto (map lt ts) (map lt ts).
Proof. induction ts; cbn; constructor; auto using refl_lt. Qed.
Lemma refl_lid i : rid RC (lid i) (lid i).
Proof. constructor. apply RC_call. Qed.
Lemma refl_olid o : ropt (rid RC) (option_map lid o) (option_map lid o).
Proof. destruct o; constructor. apply refl_lid. Qed.
Hint Resolve refl_lts refl_lid refl_olid : move.
Lemma r_lvalue v : rvalue (lvalue code_mark v) (lvalue code v).
Proof.
  destruct v as [[]|ts|p ts]; cbn.
  - repeat constructor.
  - repeat constructor.
  - constructor; [apply RC_same|]. right. now exists ts.
  - constructor; [apply refl_olid|apply RC_same|]. right. now exists ts.
Qed.
Lemma r_lkebab k : rkebab RC (lkebab k) (lkebab k).
Proof. constructor. induction (k_spans k); cbn; constructor; auto. apply RC_call. Qed.
Hint Resolve r_lvalue r_lkebab : move.
Lemma r_lkey k : rkey RC (lkey k) (lkey k).
Proof. destruct k; constructor; [apply r_lkebab|apply RC_call]. Qed.
Hint Resolve r_lkey : move.
Lemma r_lattr a : rattr KC KC anylit eq RC (lattr code_mark a) (lattr code a).
Proof.
  destruct a as [[k v]|[d k m v]|r]; cbn.
  - constructor. constructor; [apply r_lkebab|apply r_lvalue].
  - constructor. constructor; [apply refl_lid|apply r_lkey|apply refl_olid|]. destruct v; constructor; apply r_lvalue.
  - constructor; [apply RC_same|auto with move|apply refl_lts].
Qed.
Lemma r_lsel s : rsel RC (lsel s) (lsel s).
Proof. destruct s; constructor; auto with move. Qed.
Lemma r_lcolons b : ropt (Forall2 RC) (lcolons b) (lcolons b).
Proof. destruct b; cbn; auto with move. Qed.
Lemma r_lseg s : rseg KC KC anylit eq RC (lseg s) (lseg s).
Proof.
  unfold lseg. constructor; [apply refl_lid|]. destruct (seg_args s); constructor; first [apply refl_lts|apply r_lcolons].
Qed.
Lemma r_ltag t : rtag KC KC anylit eq RC (ltag t) (ltag t).
Proof.
  destruct t as [i|p|i|i|k]; cbn; constructor; auto with move. unfold lpath. destruct (segs p) as [|s r].
  - repeat constructor.
  - constructor; [apply r_lcolons|apply r_lseg|]. induction r; cbn; constructor; auto. constructor; [auto with move|apply r_lseg].
Qed.
Lemma r_ltree :
  (forall e, relem (lelement code_mark e) (lelement code e)) /\ (forall c, rchild (lchild code_mark c) (lchild code c)).
Proof.
  apply tree_ind2.
  - intros t sels attrs args ch IH. rewrite !lelement_eq. constructor.
    + apply r_ltag.
    + induction sels; cbn; constructor; auto using r_lsel.
    + induction attrs; cbn; constructor; auto using r_lattr.
    + destruct args; cbn; constructor. apply refl_lts.
    + destruct ch as [l|]; cbn; constructor. specialize (IH l eq_refl). induction IH; cbn; constructor; auto.
  - intros v. constructor. apply r_lvalue.
  - intros e IH. now constructor.
  - intros e IH. constructor; [apply RC_call|exact IH].
Qed.
Lemma r_ltrees cs : Forall2 rchild (map (lchild code_mark) cs) (map (lchild code) cs).
Proof. induction cs; cbn; constructor; auto. apply (proj2 r_ltree). Qed.

Lemma code_join a a' b b' : RC a a' -> RC b b' -> ropt RC (s_join EC a b) (s_join EC a' b').
Proof. constructor. Qed.
Lemma code_block b b' ts ts' : rds RC b b' -> KC ts ts' -> RC (block_span EC b ts) (block_span EC b' ts').
Proof.
  intros Hb (c & -> & ->). destruct Hb as [? ? ? ? ? ? [-> ->] [-> ->] [-> ->]]. split; [reflexivity|].
  unfold code. destruct (f c) as [|t [|t' r]]; cbn; try reflexivity; destruct t; reflexivity.
Qed.
Lemma erase_code t : forall t', rto t t' -> erase t' = ufill f (uncode t).
Proof.
  induction t as [s i|s c sp|s k v|s d ts IH] using stt_ind2; intros t' H;
    inversion H as [| | |? ? ? ? ? Hs Hts|? ? ? ? ? Hs HK]; subst; cbn [uncode ufill erase]; try reflexivity.
  - assert (Hc : code_of ts = None).
    { destruct ts as [|t0 [|[| | |[[|? ? ?] ? ?] d0 c0] [|]]]; try reflexivity. inversion Hts as [|? ? ? ? _ Hts']; subst.
      inversion Hts' as [|? ? ? ? Hbad _]; subst. exfalso.
      inversion Hbad as [| | |? ? ? ? ? Hd|? ? ? ? ? Hd]; subst; inversion Hd as [? ? ? ? ? ? [Hx _]]; discriminate. }
    rewrite Hc. cbn [ufill]. f_equal. clear H Hc. rewrite map_map.
    induction Hts as [|a b l l' Hab Hl IHl]; [reflexivity|]. inversion IH; subst. cbn. f_equal; auto.
  - assert (HK' : KC ts ts') by (destruct HK; assumption). destruct HK' as (c & -> & ->). cbn. f_equal.
    unfold code. fold (erases (map lt (f c))). fold (erases (map lt c)). now rewrite !erases_lt.
Qed.
Lemma erases_code ts ts' : Forall2 rto ts ts' -> erases ts' = map (ufill f) (map uncode ts).
Proof. induction 1 as [|t t' r r' Ht Hr IH]; [reflexivity|]. cbn. f_equal; [now apply erase_code|exact IH]. Qed.
Lemma code_diags d d' : rdiags RC d d' -> map fst d' = map fst d.
Proof. induction 1 as [|x x' r r' Hx Hr IH]; [reflexivity|]. cbn. f_equal; [|exact IH]. now destruct Hx. Qed.

Lemma code_root cs ss : map (recode f) cs = map echild ss ->
  root_tokens E (map (recode f) cs) =
  ex (map (fun t => ufill f (uncode t))) (sroot_tokens EC (map (lchild code_mark) cs)).
Proof.
  intros H. rewrite <- (e_trees code f (fun c => erases_lt (f c)) cs ss H).
  change (root_tokens E) with (root_tokens (s_env EC)). rewrite <- ex_root.
  destruct (rx_root KC KC anylit (fun _ _ _ => I) (fun _ _ => True) I eq (fun sp => eq_refl) RC EC EC RC_call code_join eq_refl code_block _ _ (r_ltrees cs))
    as [a a' d d' Ha Hd|d d' Hd|w d d' Hd]; unfold ex; cbn; rewrite (code_diags _ _ Hd); try reflexivity.
  do 2 f_equal. rewrite (erases_code _ _ Ha). now rewrite map_map.
Qed.
End Code.
