(** The model with spans, part 2: syn's cursor and parse.rs (see [Syn.v]). *)
From Verif Require Export STokens.
Open Scope list_scope.

(** ** Parse monad *)

(** Errors carry the span they are at, diagnostics too. *)
Inductive soutcome (A : Type) :=
| SRet (a : A)
| SFail (e : perr) (s : span)
| SAbort
| SPanic (w : panic)
| SNoFuel.
Arguments SRet {A}. Arguments SFail {A}. Arguments SAbort {A}.
Arguments SPanic {A}. Arguments SNoFuel {A}.
Definition sdiag := (diag * span)%type.
Record spres (A : Type) := SPR { sp_out : soutcome A; sp_rest : list stt; sp_diags : list sdiag }.
Arguments SPR {A}. Arguments sp_out {A}. Arguments sp_rest {A}. Arguments sp_diags {A}.

(** A function taking a [ParseStream]: its scope (where errors at the end of the
    stream are reported: the call site, or the closing delimiter of the group)
    and its tokens. *)
Definition SP (A : Type) := span -> list stt -> spres A.

Definition sret {A} (a : A) : SP A := fun _ ts => SPR (SRet a) ts [].
Definition sfail_at {A} (e : perr) (s : span) : SP A := fun _ ts => SPR (SFail e s) ts [].
Definition sppanic {A} (w : panic) : SP A := fun _ ts => SPR (SPanic w) ts [].
Definition semit (d : diag) (s : span) : SP unit := fun _ ts => SPR (SRet Datatypes.tt) ts [(d, s)].
Definition sbind {A B} (m : SP A) (f : A -> SP B) : SP B := fun sc ts =>
  match m sc ts with
  | SPR (SRet a) r d => let x := f a sc r in SPR (sp_out x) (sp_rest x) (d ++ sp_diags x)
  | SPR (SFail e s) r d => SPR (SFail e s) r d
  | SPR SAbort r d => SPR SAbort r d
  | SPR (SPanic w) r d => SPR (SPanic w) r d
  | SPR SNoFuel r d => SPR SNoFuel r d
  end.
Declare Scope sparse_scope.
Delimit Scope sparse_scope with sparse.
Notation "x <- m ;; k" := (sbind m (fun x => k))
  (at level 61, m at next level, right associativity) : sparse_scope.
Notation "m ;;; k" := (sbind m (fun _ => k))
  (at level 61, right associativity) : sparse_scope.
Close Scope expand_scope.
Open Scope sparse_scope.

Definition slook {A} (f : list stt -> A) : SP A := fun _ ts => SPR (SRet (f ts)) ts [].
Definition sunwrap {A} (m : SP A) : SP A := fun sc ts =>
  match m sc ts with
  | SPR (SFail _ _) r d => SPR (SPanic PUnwrap) r d
  | x => x
  end.
(** [syn::Error::span]: the error's start and end joined. *)
Definition err_span (E : senv) (s : span) : span := joinx E s s.
Definition sunwrap_or_abort {A} (E : senv) (m : SP A) : SP A := fun sc ts =>
  match m sc ts with
  | SPR (SFail e s) r d => SPR SAbort r (d ++ [(DAbortParse e, err_span E s)])
  | x => x
  end.
Definition sor_panic {A} (w : panic) (o : option A) : SP A :=
  match o with Some a => sret a | None => sppanic w end.
Definition srollback {A} (m : SP A) : SP (option A) := fun sc ts =>
  match m sc ts with
  | SPR (SRet a) r d => SPR (SRet (Some a)) r d
  | SPR (SFail _ _) _ d => SPR (SRet None) ts d
  | SPR SAbort r d => SPR SAbort r d
  | SPR (SPanic w) r d => SPR (SPanic w) r d
  | SPR SNoFuel r d => SPR SNoFuel r d
  end.

(** ** syn primitives *)

(** [ParseBuffer::span], also where [ParseBuffer::error] and [StepCursor::error]
    put their error: the next token (the opening delimiter of a group), or the
    scope at the end. *)
Definition here (sc : span) (ts : list stt) : span :=
  match ts with
  | [] => sc
  | SGroup s _ _ :: _ => d_open s
  | t :: _ => tspan t
  end.
Definition shere : SP span := fun sc ts => SPR (SRet (here sc ts)) ts [].
(** [Err(input.error(..))] *)
Definition sfail {A} (e : perr) : SP A := fun sc ts => SPR (SFail e (here sc ts)) ts [].

Definition scur_punct (ts : list stt) : option (span * ascii * spacing * list stt) :=
  match ts with
  | SPunct s c sp :: r => if Ascii.eqb c "'" then None else Some (s, c, sp, r)
  | _ => None
  end.
(** Also gives the span of each character. *)
Fixpoint stake_punct (w : string) (ts : list stt) : option (list span * list stt) :=
  match w with
  | EmptyString => None
  | String ch w' =>
      match scur_punct ts with
      | None => None
      | Some (s, c, sp, r) =>
          if Ascii.eqb c ch then
            match w' with
            | EmptyString => Some ([s], r)
            | _ => match sp with
                   | Joint => match stake_punct w' r with Some (l, r') => Some (s :: l, r') | None => None end
                   | Alone => None
                   end
            end
          else None
      end
  end.
Definition speek_punct (w : string) (ts : list stt) : bool :=
  match stake_punct w ts with Some _ => true | None => false end.
Definition sparse_punct (w : string) : SP (list span) := fun sc ts =>
  match stake_punct w ts with
  | Some (l, r) => SPR (SRet l) r []
  | None => SPR (SFail (EPunct w) (here sc ts)) ts []
  end.
(** The [span] field of a one-character token. *)
Definition punct_span (l : list span) : span := hd Call l.

Definition speek_group (d : delim) (ts : list stt) : bool :=
  match ts with SGroup _ d' _ :: _ => delim_eqb d d' | _ => false end.
Definition sskip (ts : list stt) : option (list stt) :=
  match ts with
  | [] => None
  | SPunct _ c Joint :: r =>
      if Ascii.eqb c "'" then
        match r with SIdent _ _ :: r' => Some r' | _ => Some r end
      else Some r
  | _ :: r => Some r
  end.
Definition speek2 (f : list stt -> bool) (ts : list stt) : bool :=
  match sskip ts with Some r => f r | None => false end.
Definition speek3 (f : list stt -> bool) (ts : list stt) : bool :=
  match sskip ts with
  | Some r => match sskip r with Some r' => f r' | None => false end
  | None => false
  end.
Definition speek_any (ts : list stt) : bool :=
  match ts with SIdent _ _ :: _ => true | _ => false end.
Definition speek_ident (ts : list stt) : bool :=
  match ts with SIdent _ i :: _ => accept_as_ident i | _ => false end.
Definition speek_keyword (w : string) (ts : list stt) : bool :=
  match ts with SIdent _ i :: _ => ident_is i w | _ => false end.
Definition sparse_any : SP sident := fun sc ts =>
  match ts with
  | SIdent s i :: r => SPR (SRet (SId s i)) r []
  | _ => SPR (SFail (EIdent (found_in (erases ts))) (here sc ts)) ts []
  end.
Definition sparse_ident : SP sident := fun sc ts =>
  match ts with
  | SIdent s i :: r =>
      if accept_as_ident i then SPR (SRet (SId s i)) r [] else SPR (SFail (EIdent (found_in (erases ts))) (here sc ts)) ts []
  | _ => SPR (SFail (EIdent (found_in (erases ts))) (here sc ts)) ts []
  end.

(** [syn::Lit] with its span. *)
Inductive slit :=
| SLitTok (s : span) (k : litkind) (v : string)
| SLitBool (s : span) (b : bool).
Definition slit_span (l : slit) : span := match l with SLitTok s _ _ | SLitBool s _ => s end.
Definition slit_tokens (l : slit) : list stt :=
  match l with
  | SLitTok s k v => [SLit s k v]
  | SLitBool s true => [skw s "true"]
  | SLitBool s false => [skw s "false"]
  end.
(** A negative number spans from the [-] on. *)
Definition stake_lit (E : senv) (ts : list stt) : option (slit * list stt) :=
  match ts with
  | SLit s k v :: r => Some (SLitTok s k v, r)
  | SIdent s i :: r =>
      if ident_is i "true" then Some (SLitBool s true, r)
      else if ident_is i "false" then Some (SLitBool s false, r)
      else None
  | SPunct s c _ :: SLit s' k v :: r =>
      if Ascii.eqb c "-" then
        match k with
        | LkInt | LkFloat => Some (SLitTok (joinx E s s') k ("-" ++ v), r)
        | _ => None
        end
      else None
  | _ => None
  end.
Definition sparse_lit (E : senv) : SP slit := fun sc ts =>
  match stake_lit E ts with
  | Some (l, r) => SPR (SRet l) r []
  | None => SPR (SFail ELit (here sc ts)) ts []
  end.
Definition speek_lit (E : senv) (ts : list stt) : bool :=
  match stake_lit E ts with Some _ => true | None => false end.
Definition sparse_lit_int (E : senv) : SP (span * string) := fun sc ts =>
  match stake_lit E ts with
  | Some (SLitTok s LkInt v, r) => SPR (SRet (s, v)) r []
  | Some (_, r) => SPR (SFail ELit (here sc ts)) r []
  | None => SPR (SFail ELit (here sc ts)) ts []
  end.
Definition sparse_lit_str (E : senv) : SP (span * string) := fun sc ts =>
  match stake_lit E ts with
  | Some (SLitTok s LkStr v, r) => SPR (SRet (s, v)) r []
  | Some (_, r) => SPR (SFail ELit (here sc ts)) r []
  | None => SPR (SFail ELit (here sc ts)) ts []
  end.
Definition sparse_tt : SP stt := fun sc ts =>
  match ts with
  | t :: r => SPR (SRet t) r []
  | [] => SPR (SFail (EIdent (found_in (erases ts))) (here sc ts)) ts []
  end.
Definition stake_rest : SP (list stt) := fun _ ts => SPR (SRet ts) [] [].

(** Also gives the delimiter's spans. *)
Definition sextract (d : delim) : SP (dspan * list stt) := fun sc ts =>
  match ts with
  | SGroup s d' inner :: r =>
      if delim_eqb d d' then SPR (SRet (s, inner)) r [] else SPR (SFail (EPunct "group") (here sc ts)) ts []
  | _ => SPR (SFail (EPunct "group") (here sc ts)) ts []
  end.
(** [braced::<T>] and [parenthesized::<T>], parse.rs:43-77; inside, the scope is the
    closing delimiter. *)
Definition sdelimited {A} (d : delim) (m : SP A) : SP (dspan * A) := fun sc ts =>
  match ts with
  | SGroup s d' inner :: r =>
      if delim_eqb d d' then
        match m (d_close s) inner with
        | SPR (SRet a) [] ds => SPR (SRet (s, a)) r ds
        | SPR (SRet a) ((_ :: _) as left) ds =>
            SPR (SFail (match d with Paren => EParenExtra | _ => EBraceExtra end) (here (d_close s) left)) ts ds
        | SPR (SFail e se) _ ds => SPR (SFail e se) ts ds
        | SPR SAbort _ ds => SPR SAbort ts ds
        | SPR (SPanic w) _ ds => SPR (SPanic w) ts ds
        | SPR SNoFuel _ ds => SPR SNoFuel ts ds
        end
      else SPR (SFail (match d with Paren => EParenNotFound | _ => EBraceNotFound end) (here sc ts)) ts []
  | _ => SPR (SFail (match d with Paren => EParenNotFound | _ => EBraceNotFound end) (here sc ts)) ts []
  end.

(** ** syn::Path *)

Inductive spath_args :=
| SPNone
| SPAngle (turbofish : option (list span)) (ts : list stt)
| SPParen (ts : list stt).
Record spath_seg := SPSeg { sseg_ident : sident; sseg_args : spath_args }.
(** The spans are those of the [::] in front and between the segments. *)
Record spath := SPath {
  s_leading : option (list span); s_first : spath_seg; s_more : list (list span * spath_seg)
}.

(** [::] with its own spans. *)
Definition colons (l : list span) : list stt :=
  match l with
  | [a; b] => [SPunct a ":" Joint; SPunct b ":" Alone]
  | _ => scolon2 Call
  end.
Definition opt_colons (o : option (list span)) : list stt :=
  match o with Some l => colons l | None => [] end.
Definition sseg_tokens (s : spath_seg) : list stt :=
  stoken (sseg_ident s) ::
  match sseg_args s with
  | SPNone => []
  | SPAngle tf ts => opt_colons tf ++ ts
  | SPParen ts => ts
  end.
Definition spath_tokens (p : spath) : list stt :=
  opt_colons (s_leading p) ++ sseg_tokens (s_first p)
  ++ flat_map (fun x => colons (fst x) ++ sseg_tokens (snd x)) (s_more p).
Definition spath_span (E : senv) (p : spath) : span := stream_span E (spath_tokens p).
Definition sget_ident (p : spath) : option sident :=
  match p with
  | SPath None (SPSeg i SPNone) [] => Some i
  | _ => None
  end.

Definition sparse_angle (E : senv) : SP spath_args := fun sc ts =>
  let '(tf, ts1) :=
    match stake_punct "::" ts with Some (l, r) => (Some l, r) | None => (None, ts) end in
  match s_generic E sc ts1 with
  | inl (used, r) => SPR (SRet (SPAngle tf used)) r []
  | inr (r, s) => SPR (SFail EGenerics s) r []
  end.
Definition sparse_seg (E : senv) : SP spath_seg :=
  is_kw <- slook (fun ts => speek_keyword "super" ts || speek_keyword "self" ts
                            || speek_keyword "crate" ts) ;;
  if is_kw : bool then i <- sparse_any ;; sret (SPSeg i SPNone)
  else
    is_self <- slook (speek_keyword "Self") ;;
    i <- (if is_self : bool then sparse_any else sparse_ident) ;;
    angle <- slook (fun ts =>
      (speek_punct "<" ts && negb (speek_punct "<=" ts) && negb (speek_punct "<<=" ts))
      || (speek_punct "::" ts && speek3 (speek_punct "<") ts)) ;;
    if angle : bool then a <- sparse_angle E ;; sret (SPSeg i a)
    else sret (SPSeg i SPNone).
Fixpoint sparse_segs_rest (E : senv) (n : nat) : SP (list (list span * spath_seg)) := fun sc ts =>
  match n with
  | 0 => SPR SNoFuel ts []
  | S n' =>
      if speek_punct "::" ts && negb (speek3 (speek_group Paren) ts) then
        (c <- sparse_punct "::" ;;
         s <- sparse_seg E ;;
         r <- sparse_segs_rest E n' ;;
         sret ((c, s) :: r)) sc ts
      else SPR (SRet []) ts []
  end.
Definition sparse_path (E : senv) : SP spath := fun sc ts =>
  (l <- srollback (sparse_punct "::") ;;
   s <- sparse_seg E ;;
   r <- sparse_segs_rest E (S (List.length ts)) ;;
   sret (SPath l s r)) sc ts.
