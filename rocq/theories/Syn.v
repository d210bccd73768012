(** The parse monad, the syn primitives the crate uses, and parse.rs. *)
From Verif Require Export Tokens.

(** ** Parse monad *)

(** Outcome of a parser: [Ok], [Err], or an unwinding abort / panic.
    [NoFuel] is an artefact of the model (proved unreachable). *)
Inductive outcome (A : Type) :=
| Ret (a : A)
| Fail (e : perr)
| Abort
| Panic (w : panic)
| NoFuel.
Arguments Ret {A}. Arguments Fail {A}. Arguments Abort {A}.
Arguments Panic {A}. Arguments NoFuel {A}.

(** What running a parser on a [ParseStream] does: the outcome, where the
    stream is afterwards (also after an [Err]), and the diagnostics emitted. *)
Record pres (A : Type) := PR { p_out : outcome A; p_rest : list tt; p_diags : list diag }.
Arguments PR {A}. Arguments p_out {A}. Arguments p_rest {A}. Arguments p_diags {A}.

(** A function taking a [ParseStream]. *)
Definition P (A : Type) := list tt -> pres A.

Definition ret {A} (a : A) : P A := fun ts => PR (Ret a) ts [].
Definition fail {A} (e : perr) : P A := fun ts => PR (Fail e) ts [].
Definition ppanic {A} (w : panic) : P A := fun ts => PR (Panic w) ts [].
Definition emit (d : diag) : P unit := fun ts => PR (Ret Datatypes.tt) ts [d].

(** Sequencing with [?]. *)
Definition bind {A B} (m : P A) (f : A -> P B) : P B := fun ts =>
  match m ts with
  | PR (Ret a) r d => let x := f a r in PR (p_out x) (p_rest x) (d ++ p_diags x)
  | PR (Fail e) r d => PR (Fail e) r d
  | PR Abort r d => PR Abort r d
  | PR (Panic w) r d => PR (Panic w) r d
  | PR NoFuel r d => PR NoFuel r d
  end.

Declare Scope parse_scope.
Delimit Scope parse_scope with parse.
Notation "x <- m ;; k" := (bind m (fun x => k))
  (at level 61, m at next level, right associativity) : parse_scope.
Notation "' pat <- m ;; k" := (bind m (fun x => match x with pat => k end))
  (at level 61, pat pattern, m at next level, right associativity) : parse_scope.
Notation "m ;;; k" := (bind m (fun _ => k))
  (at level 61, right associativity) : parse_scope.
Open Scope parse_scope.

(** Look at the stream without moving it ([input.peek], [input.is_empty], ...). *)
Definition look {A} (f : list tt -> A) : P A := fun ts => PR (Ret (f ts)) ts [].

(** [Option::unwrap] / [Result::unwrap] on a parse result: an [Err] becomes a
    panic (ast/value.rs:47,55,56,63,66, ast/children.rs:75,76,116). *)
Definition unwrap {A} (m : P A) : P A := fun ts =>
  match m ts with
  | PR (Fail _) r d => PR (Panic PUnwrap) r d
  | x => x
  end.

(** [ResultExt::unwrap_or_abort], error_ext.rs:16-25. *)
Definition unwrap_or_abort {A} (m : P A) : P A := fun ts =>
  match m ts with
  | PR (Fail e) r d => PR Abort r (d ++ [DAbortParse e])
  | x => x
  end.

(** A value whose construction may panic ([None]). *)
Definition or_panic {A} (w : panic) (o : option A) : P A :=
  match o with Some a => ret a | None => ppanic w end.

(** [rollback_err], parse.rs:79-91: runs the parser on a fork and only moves
    the stream if it succeeded.  Diagnostics are not rolled back. *)
Definition rollback_err {A} (m : P A) : P (option A) := fun ts =>
  match m ts with
  | PR (Ret a) r d => PR (Ret (Some a)) r d
  | PR (Fail _) _ d => PR (Ret None) ts d
  | PR Abort r d => PR Abort r d
  | PR (Panic w) r d => PR (Panic w) r d
  | PR NoFuel r d => PR NoFuel r d
  end.

(** ** syn primitives
    These model syn 2's [parse.rs]/[token.rs]/[buffer.rs]/[lit.rs], which the
    crate calls but /repo does not contain. *)

(** [Cursor::punct]: any punctuation except a lifetime's quote. *)
Definition cur_punct (ts : list tt) : option (ascii * spacing * list tt) :=
  match ts with
  | TPunct c sp :: r => if Ascii.eqb c "'" then None else Some (c, sp, r)
  | _ => None
  end.

(** [Cursor::ident]. *)
Definition cur_ident (ts : list tt) : option (ident * list tt) :=
  match ts with TIdent i :: r => Some (i, r) | _ => None end.

(** [token::parsing::punct]: the characters of a punctuation token must follow
    each other, all but the last one [Joint].  (Note that [:] matches the
    first half of [::].) *)
Fixpoint take_punct (s : string) (ts : list tt) : option (list tt) :=
  match s with
  | EmptyString => None
  | String ch s' =>
      match cur_punct ts with
      | None => None
      | Some (c, sp, r) =>
          if Ascii.eqb c ch then
            match s' with
            | EmptyString => Some r
            | _ => match sp with Joint => take_punct s' r | Alone => None end
            end
          else None
      end
  end.

(** [input.peek(Token![s])] for punctuation. *)
Definition peek_punct (s : string) (ts : list tt) : bool :=
  match take_punct s ts with Some _ => true | None => false end.

(** [<Token![s]>::parse(input)]. *)
Definition parse_punct (s : string) : P unit := fun ts =>
  match take_punct s ts with
  | Some r => PR (Ret Datatypes.tt) r []
  | None => PR (Fail (EPunct s)) ts []
  end.

(** [input.peek(syn::token::Brace)] etc. *)
Definition delim_eqb (a b : delim) : bool :=
  match a, b with
  | Paren, Paren | Bracket, Bracket | Brace, Brace => true
  | _, _ => false
  end.
Definition peek_group (d : delim) (ts : list tt) : bool :=
  match ts with TGroup d' _ :: _ => delim_eqb d d' | _ => false end.

(** [Cursor::skip]: skip one token tree; a lifetime counts as one. *)
Definition skip (ts : list tt) : option (list tt) :=
  match ts with
  | [] => None
  | TPunct c Joint :: r =>
      if Ascii.eqb c "'" then
        match r with TIdent _ :: r' => Some r' | _ => Some r end
      else Some r
  | _ :: r => Some r
  end.

(** [input.peek2(..)] and [input.peek3(..)]. *)
Definition peek2 (f : list tt -> bool) (ts : list tt) : bool :=
  match skip ts with Some r => f r | None => false end.
Definition peek3 (f : list tt -> bool) (ts : list tt) : bool :=
  match skip ts with
  | Some r => match skip r with Some r' => f r' | None => false end
  | None => false
  end.

(** [input.peek(syn::Ident::peek_any)]. *)
Definition peek_any (ts : list tt) : bool :=
  match ts with TIdent _ :: _ => true | _ => false end.

(** Identifiers [syn::Ident] does not accept (syn's [accept_as_ident]). *)
Definition rust_keywords : list string :=
  ["_"; "abstract"; "as"; "async"; "await"; "become"; "box"; "break"; "const";
   "continue"; "crate"; "do"; "dyn"; "else"; "enum"; "extern"; "false"; "final";
   "fn"; "for"; "if"; "impl"; "in"; "let"; "loop"; "macro"; "match"; "mod";
   "move"; "mut"; "override"; "priv"; "pub"; "ref"; "return"; "Self"; "self";
   "static"; "struct"; "super"; "trait"; "true"; "try"; "type"; "typeof";
   "unsafe"; "unsized"; "use"; "virtual"; "where"; "while"; "yield"].

Definition accept_as_ident (i : ident) : bool :=
  negb (existsb (String.eqb (ident_to_string i)) rust_keywords).

(** [input.peek(syn::Ident)]. *)
Definition peek_ident (ts : list tt) : bool :=
  match ts with TIdent i :: _ => accept_as_ident i | _ => false end.

(** [input.peek(kw::slot)], [input.peek(Token![super])], ... *)
Definition peek_keyword (s : string) (ts : list tt) : bool :=
  match ts with TIdent i :: _ => ident_is i s | _ => false end.

(** [syn::Ident::parse_any]. *)
Definition parse_any : P ident := fun ts =>
  match cur_ident ts with
  | Some (i, r) => PR (Ret i) r []
  | None => PR (Fail (EIdent (found_in ts))) ts []
  end.

(** [syn::Ident::parse]. *)
Definition parse_ident : P ident := fun ts =>
  match ts with
  | TIdent i :: r => if accept_as_ident i then PR (Ret i) r [] else PR (Fail (EIdent (found_in ts))) ts []
  | _ => PR (Fail (EIdent (found_in ts))) ts []
  end.

(** [syn::Lit]: a literal token or a boolean. *)
Inductive lit :=
| LitTok (k : litkind) (s : string)
| LitBool (b : bool).

(** [Lit::to_tokens]. *)
Definition lit_tokens (l : lit) : list tt :=
  match l with
  | LitTok k s => [TLit k s]
  | LitBool true => [kw "true"]
  | LitBool false => [kw "false"]
  end.

(** [syn::Lit::parse]: a literal, [true]/[false], or [-] followed by a number. *)
Definition take_lit (ts : list tt) : option (lit * list tt) :=
  match ts with
  | TLit k s :: r => Some (LitTok k s, r)
  | TIdent i :: r =>
      if ident_is i "true" then Some (LitBool true, r)
      else if ident_is i "false" then Some (LitBool false, r)
      else None
  | TPunct c _ :: TLit k s :: r =>
      if Ascii.eqb c "-" then
        match k with
        | LkInt | LkFloat => Some (LitTok k ("-" ++ s), r)
        | _ => None
        end
      else None
  | _ => None
  end.

Definition parse_lit : P lit := fun ts =>
  match take_lit ts with
  | Some (l, r) => PR (Ret l) r []
  | None => PR (Fail ELit) ts []
  end.

(** [input.peek(syn::Lit)]. *)
Definition peek_lit (ts : list tt) : bool :=
  match take_lit ts with Some _ => true | None => false end.

(** [syn::LitInt::parse]; the result is [int.to_string()]. *)
Definition parse_lit_int : P string := fun ts =>
  match take_lit ts with
  | Some (LitTok LkInt s, r) => PR (Ret s) r []
  | Some (_, r) => PR (Fail ELit) r []
  | None => PR (Fail ELit) ts []
  end.

(** [syn::LitStr::parse]; the result is the string value. *)
Definition parse_lit_str : P string := fun ts =>
  match take_lit ts with
  | Some (LitTok LkStr s, r) => PR (Ret s) r []
  | Some (_, r) => PR (Fail ELit) r []
  | None => PR (Fail ELit) ts []
  end.

(** [TokenTree::parse]. *)
Definition parse_tt : P tt := fun ts =>
  match ts with
  | t :: r => PR (Ret t) r []
  | [] => PR (Fail (EIdent (found_in ts))) ts []
  end.

(** [parse::take_rest], parse.rs:94-96. *)
Definition take_rest : P (list tt) := fun ts => PR (Ret ts) [] [].

(** [syn::braced!]/[bracketed!]/[parenthesized!] as wrapped in
    extract_parenthesized, extract_bracketed, extract_braced, parse.rs:6-22:
    yields the content of the group. *)
Definition extract (d : delim) : P (list tt) := fun ts =>
  match ts with
  | TGroup d' inner :: r =>
      if delim_eqb d d' then PR (Ret inner) r [] else PR (Fail (EPunct "group")) ts []
  | _ => PR (Fail (EPunct "group")) ts []
  end.

(** [bracketed_tokens] and [braced_tokens], parse.rs:24-34. *)
Definition group_tokens (d : delim) : P (list tt) := extract d.

(** [braced::<T>] and [parenthesized::<T>], parse.rs:43-57 and 63-77: parse the
    content of a group with [m]; the stream only moves if [m] succeeds and
    consumes the whole content. *)
Definition delimited {A} (d : delim) (m : P A) : P A := fun ts =>
  match ts with
  | TGroup d' inner :: r =>
      if delim_eqb d d' then
        match m inner with
        | PR (Ret a) [] ds => PR (Ret a) r ds
        | PR (Ret a) (_ :: _) ds =>
            PR (Fail (match d with Paren => EParenExtra | _ => EBraceExtra end)) ts ds
        | PR (Fail e) _ ds => PR (Fail e) ts ds
        | PR Abort _ ds => PR Abort ts ds
        | PR (Panic w) _ ds => PR (Panic w) ts ds
        | PR NoFuel _ ds => PR NoFuel ts ds
        end
      else PR (Fail (match d with Paren => EParenNotFound | _ => EBraceNotFound end)) ts []
  | _ => PR (Fail (match d with Paren => EParenNotFound | _ => EBraceNotFound end)) ts []
  end.

(** ** External behaviour *)

(** What the model does not define: syn's [AngleBracketedGenericArguments]
    parser (run on a stream that starts with [<]; the result is the consumed
    tokens and the rest, or the position after a failure), and the iteration
    order of the [HashMap] in expand.rs:344, as a function of the place of the
    component in the tree and of the keys in insertion order. *)
Record env := Env {
  generic_args : list tt -> (list tt * list tt) + list tt;
  slot_order : list nat -> list ident -> list ident
}.

(** ** syn::Path *)

(** One [syn::PathSegment]: its identifier and its arguments: none, or
    angle-bracketed (with or without a leading [::] before the [<]), or
    parenthesised ([Fn(A)], never produced by [Path::parse]). *)
Inductive path_args :=
| PNone
| PAngle (turbofish : bool) (ts : list tt)
| PParen (ts : list tt).
Record path_seg := PSeg { seg_ident : ident; seg_args : path_args }.
Record path := Path { leading : bool; segs : list path_seg }.

(** [ToTokens] of path segments and paths. *)
Definition seg_tokens (s : path_seg) : list tt :=
  TIdent (seg_ident s) ::
  match seg_args s with
  | PNone => []
  | PAngle tf ts => (if tf then colon2 else []) ++ ts
  | PParen ts => ts
  end.
Fixpoint segs_tokens (l : list path_seg) : list tt :=
  match l with
  | [] => []
  | [s] => seg_tokens s
  | s :: r => seg_tokens s ++ colon2 ++ segs_tokens r
  end.
Definition path_tokens (p : path) : list tt :=
  (if leading p then colon2 else []) ++ segs_tokens (segs p).

(** [Path::get_ident]. *)
Definition get_ident (p : path) : option ident :=
  match p with
  | Path false [PSeg i PNone] => Some i
  | _ => None
  end.

(** [AngleBracketedGenericArguments::parse]: an optional [::], then [<...>]. *)
Definition parse_angle (E : env) : P path_args := fun ts =>
  let '(tf, ts1) :=
    match take_punct "::" ts with Some r => (true, r) | None => (false, ts) end in
  match generic_args E ts1 with
  | inl (used, r) => PR (Ret (PAngle tf used)) r []
  | inr r => PR (Fail EGenerics) r []
  end.

(** [PathSegment::parse_helper(input, expr_style = false)] (syn without the
    "full" feature). *)
Definition parse_seg (E : env) : P path_seg :=
  is_kw <- look (fun ts => peek_keyword "super" ts || peek_keyword "self" ts
                           || peek_keyword "crate" ts) ;;
  if is_kw : bool then i <- parse_any ;; ret (PSeg i PNone)
  else
    is_self <- look (peek_keyword "Self") ;;
    i <- (if is_self : bool then parse_any else parse_ident) ;;
    angle <- look (fun ts =>
      (peek_punct "<" ts && negb (peek_punct "<=" ts) && negb (peek_punct "<<=" ts))
      || (peek_punct "::" ts && peek3 (peek_punct "<") ts)) ;;
    if angle : bool then a <- parse_angle E ;; ret (PSeg i a)
    else ret (PSeg i PNone).

(** [Path::parse_rest]: more segments while [::] follows, except [::(].
    The fuel is the stream length. *)
Fixpoint parse_segs_rest (E : env) (n : nat) : P (list path_seg) := fun ts =>
  match n with
  | 0 => PR NoFuel ts []
  | S n' =>
      if peek_punct "::" ts && negb (peek3 (peek_group Paren) ts) then
        (parse_punct "::" ;;;
         s <- parse_seg E ;;
         r <- parse_segs_rest E n' ;;
         ret (s :: r)) ts
      else PR (Ret []) ts []
  end.

(** [syn::Path::parse]. *)
Definition parse_path (E : env) : P path := fun ts =>
  (l <- rollback_err (parse_punct "::") ;;
   s <- parse_seg E ;;
   r <- parse_segs_rest E (S (List.length ts)) ;;
   ret (Path (match l with Some _ => true | None => false end) (s :: r))) ts.
