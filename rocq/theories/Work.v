(** How much work the parser does: the parser of Parse.v once more, counting
    steps.  That it is the same parser is proved in WorkFacts.v.

    One step is one of: a look at the stream without moving it ([peek],
    [is_empty]; it inspects a bounded number of tokens), taking one token, a
    fork ([rollback_err]), opening a group, or making a report.  Copying tokens
    takes as many steps as they weigh; text that is copied, searched or
    converted takes steps for each of its characters. *)
From Verif Require Export Parse.

(** ** Weight *)

(** The size of a token stream, with the characters of its identifiers and
    literals. *)
Fixpoint weigh (t : tt) : nat :=
  match t with
  | TIdent i => S (String.length (i_name i))
  | TPunct _ _ => 1
  | TLit _ s => S (String.length s)
  | TGroup _ ts => S (fold_right (fun x n => weigh x + n) 0 ts)
  end.
Definition weight (ts : list tt) : nat := fold_right (fun x n => weigh x + n) 0 ts.

(** ** The parse monad with a counter *)

Definition WP (A : Type) := list tt -> nat * pres A.

(** [n] steps that do not move the stream. *)
Definition pay (n : nat) : WP unit := fun ts => (n, PR (Ret Datatypes.tt) ts []).
(** A parser of Syn.v, at a price. *)
Definition priced {A} (c : list tt -> nat) (m : P A) : WP A := fun ts => (c ts, m ts).

Definition w_ret {A} (a : A) : WP A := priced (fun _ => 0) (ret a).
Definition w_fail {A} (e : perr) : WP A := priced (fun _ => 0) (fail e).
Definition w_emit (d : diag) : WP unit := priced (fun _ => 1) (emit d).

Definition w_bind {A B} (m : WP A) (f : A -> WP B) : WP B := fun ts =>
  match m ts with
  | (n, PR (Ret a) r d) =>
      let y := f a r in
      (n + fst y, PR (p_out (snd y)) (p_rest (snd y)) (d ++ p_diags (snd y)))
  | (n, PR (Fail e) r d) => (n, PR (Fail e) r d)
  | (n, PR Abort r d) => (n, PR Abort r d)
  | (n, PR (Panic w) r d) => (n, PR (Panic w) r d)
  | (n, PR NoFuel r d) => (n, PR NoFuel r d)
  end.

Declare Scope work_scope.
Delimit Scope work_scope with work.
Notation "x <- m ;; k" := (w_bind m (fun x => k))
  (at level 61, m at next level, right associativity) : work_scope.
Notation "m ;;; k" := (w_bind m (fun _ => k))
  (at level 61, right associativity) : work_scope.
Close Scope parse_scope.
Open Scope work_scope.

Definition w_look {A} (f : list tt -> A) : WP A := priced (fun _ => 1) (look f).

(** Handling of an [Err] costs nothing. *)
Definition w_unwrap {A} (m : WP A) : WP A := fun ts =>
  match m ts with
  | (n, PR (Fail _) r d) => (n, PR (Panic PUnwrap) r d)
  | x => x
  end.
Definition w_unwrap_or_abort {A} (m : WP A) : WP A := fun ts =>
  match m ts with
  | (n, PR (Fail e) r d) => (S n, PR Abort r (d ++ [DAbortParse e]))
  | x => x
  end.

(** [rollback_err], parse.rs:79-91: one step for the fork. *)
Definition w_rollback_err {A} (m : WP A) : WP (option A) := fun ts =>
  match m ts with
  | (n, PR (Ret a) r d) => (S n, PR (Ret (Some a)) r d)
  | (n, PR (Fail _) _ d) => (S n, PR (Ret None) ts d)
  | (n, PR Abort r d) => (S n, PR Abort r d)
  | (n, PR (Panic w) r d) => (S n, PR (Panic w) r d)
  | (n, PR NoFuel r d) => (S n, PR NoFuel r d)
  end.

(** ** syn primitives *)

Definition w_parse_punct (s : string) : WP unit := priced (fun _ => String.length s) (parse_punct s).
Definition w_parse_any : WP ident := priced (fun _ => 1) parse_any.
Definition w_parse_ident : WP ident := priced (fun _ => 1) parse_ident.
Definition w_parse_lit : WP lit := priced (fun _ => 2) parse_lit.
Definition w_parse_lit_int : WP string := priced (fun _ => 2) parse_lit_int.
Definition w_parse_lit_str : WP string := priced (fun _ => 2) parse_lit_str.

(** The weight of the token that is copied. *)
Definition next_weight (ts : list tt) : nat := match ts with t :: _ => weigh t | [] => 1 end.
Definition w_parse_tt : WP tt := priced next_weight parse_tt.
Definition w_take_rest : WP (list tt) := priced (fun ts => S (weight ts)) take_rest.
Definition w_group_tokens (d : delim) : WP (list tt) := 
  priced (fun ts => if peek_group d ts then next_weight ts else 1) (group_tokens d).
(** Opening a group without reading its content. *)
Definition w_extract (d : delim) : WP (list tt) := priced (fun _ => 1) (extract d).

(** [braced::<T>] and [parenthesized::<T>], parse.rs:43-57 and 63-77. *)
Definition w_delimited {A} (d : delim) (m : WP A) : WP A := fun ts =>
  match ts with
  | TGroup d' inner :: _ =>
      if delim_eqb d d' then (S (fst (m inner)), delimited d (fun i => snd (m i)) ts)
      else (1, delimited d (fun i => snd (m i)) ts)
  | _ => (1, delimited d (fun i => snd (m i)) ts)
  end.

(** ** syn::Path *)

Section Work.
(** The steps of syn's parser for generic arguments are not modelled: [G] says
    how many it makes. *)
Variable G : list tt -> nat.

(** [AngleBracketedGenericArguments::parse]: an optional [::], then [<...>]. *)
Definition w_parse_angle (E : env) : WP path_args :=
  priced (fun ts => 3 + G match take_punct "::" ts with Some r => r | None => ts end)
    (parse_angle E).

(** [PathSegment::parse_helper(input, expr_style = false)] (syn without the
    "full" feature). *)
Definition w_parse_seg (E : env) : WP path_seg :=
  is_kw <- w_look (fun ts => peek_keyword "super" ts || peek_keyword "self" ts
                           || peek_keyword "crate" ts) ;;
  if is_kw : bool then i <- w_parse_any ;; w_ret (PSeg i PNone)
  else
    is_self <- w_look (peek_keyword "Self") ;;
    i <- (if is_self : bool then w_parse_any else w_parse_ident) ;;
    angle <- w_look (fun ts =>
      (peek_punct "<" ts && negb (peek_punct "<=" ts) && negb (peek_punct "<<=" ts))
      || (peek_punct "::" ts && peek3 (peek_punct "<") ts)) ;;
    if angle : bool then a <- w_parse_angle E ;; w_ret (PSeg i a)
    else w_ret (PSeg i PNone).

(** [Path::parse_rest]: more segments while [::] follows, except [::(].
    The fuel is the stream length. *)
Fixpoint w_parse_segs_rest (E : env) (n : nat) : WP (list path_seg) := fun ts =>
  match n with
  | 0 => (1, PR NoFuel ts [])
  | S n' =>
      if peek_punct "::" ts && negb (peek3 (peek_group Paren) ts) then
        (pay 2 ;;; w_parse_punct "::" ;;;
         s <- w_parse_seg E ;;
         r <- w_parse_segs_rest E n' ;;
         w_ret (s :: r)) ts
      else (2, PR (Ret []) ts [])
  end.

(** [syn::Path::parse]. *)
Definition w_parse_path (E : env) : WP path := fun ts =>
  (l <- w_rollback_err (w_parse_punct "::") ;;
   s <- w_parse_seg E ;;
   r <- w_parse_segs_rest E (S (List.length ts)) ;;
   w_ret (Path (match l with Some _ => true | None => false end) (s :: r))) ts.

(** [Value::parse], ast/value.rs:44-72. *)
Definition w_parse_value : WP value :=
  br <- w_look (peek_group Bracket) ;;
  if br : bool then ts <- w_unwrap (w_group_tokens Bracket) ;; w_ret (VBracket None ts)
  else
    pre <- w_look (fun ts => peek_any ts && peek2 (peek_group Bracket) ts) ;;
    if pre : bool then
      i <- w_unwrap w_parse_any ;;
      ts <- w_unwrap (w_group_tokens Bracket) ;;
      w_ret (VBracket (Some i) ts)
    else
      bc <- w_look (peek_group Brace) ;;
      if bc : bool then ts <- w_unwrap (w_group_tokens Brace) ;; w_ret (VBlock ts)
      else
        li <- w_look peek_lit ;;
        if li : bool then l <- w_unwrap w_parse_lit ;; w_ret (VLit l)
        else w_fail EValue.

(** [Value::parse_or_emit_err], ast/value.rs:124-151. *)
Definition w_parse_or_emit_err : WP value :=
  v <- w_rollback_err w_parse_value ;;
  match v with
  | Some v => w_ret v
  | None =>
      help <- w_look peek_ident ;;
      w_emit (DExpectedValue help) ;;;
      w_ret missing_value
  end.

(** ** ast/ident.rs *)

(** The "add ident or number" step of [KebabIdent::parse], ast/ident.rs:147-158. *)
Definition w_kebab_segment (k : kebab) : WP kebab :=
  i <- w_rollback_err w_parse_any ;;
  match i with
  | Some i =>
      (if i_raw i then w_emit DRawInKebab else w_ret Datatypes.tt) ;;;
      pay (String.length (i_name i)) ;;;
      w_ret (Kebab (k_repr k ++ i_name i) (S (k_spans k)))
  | None =>
      n <- w_rollback_err w_parse_lit_int ;;
      match n with
      | Some s => pay (String.length s) ;;; w_ret (Kebab (k_repr k ++ s) (S (k_spans k)))
      | None => w_ret k
      end
  end.

(** The loop of [KebabIdent::parse], ast/ident.rs:133-159; [second] is
    [is_second_token]. *)
Fixpoint w_kebab_loop (n : nat) (second : bool) (k : kebab) : WP kebab := fun ts =>
  match n with
  | 0 => (1, PR NoFuel ts [])
  | S n' =>
      (d <- w_rollback_err (w_parse_punct "-") ;;
       match d with
       | Some _ =>
           pay 1 ;;;
           k' <- w_kebab_segment (Kebab (k_repr k ++ "-") (k_spans k)) ;;
           w_kebab_loop n' false k'
       | None =>
           if negb (second && String.eqb (k_repr k) "-") then w_ret k
           else
             k' <- w_kebab_segment k ;;
             w_kebab_loop n' false k'
       end) ts
  end.

(** [KebabIdent::parse], ast/ident.rs:109-164. *)
Definition w_parse_kebab : WP kebab := fun ts =>
  (i <- w_rollback_err w_parse_any ;;
   k <- match i with
        | Some i => pay (String.length (i_name i)) ;;; w_ret (Kebab (i_name i) 1)
        | None =>
            d <- w_rollback_err (w_parse_punct "-") ;;
            match d with
            | Some _ => w_ret (Kebab "-" 1)
            | None => fun r => w_fail (EKebab (found_in r)) r
            end
        end ;;
   w_kebab_loop (S (S (List.length ts))) true k) ts.

(** [to_snake_ident] inside a parser: the text is copied, and checked to be an
    identifier. *)
Definition w_snake (k : kebab) : WP ident :=
  priced (fun _ => 2 * S (String.length (k_repr k))) (snake k).

(** [TagKind::from], ast/tag.rs:100-112: two binary searches (in lists of 63 and
    31 names) with at most twelve comparisons, and the search for a dash. *)
Definition kind_steps (s : string) : nat := 14 * S (String.length s).

(** [KebabIdentOrStr::parse], ast/ident.rs:218-226. *)
Definition w_parse_kebab_or_str : WP kebab_or_str :=
  s <- w_rollback_err w_parse_lit_str ;;
  match s with
  | Some s => w_ret (KStr s)
  | None => k <- w_parse_kebab ;; w_ret (KKebab k)
  end.

(** [BracedKebabIdent::parse], ast/ident.rs:255-260. *)
Definition w_parse_braced_kebab : WP kebab := w_delimited Brace w_parse_kebab.

(** [BracedKebabIdent::into_block_value], ast/ident.rs:247-252. *)
Definition w_into_block_value (k : kebab) : WP value :=
  i <- w_snake k ;; w_ret (VBlock [TIdent i]).

(** ** ast/tag.rs *)

(** [Tag::parse], ast/tag.rs:62-83. *)
Definition w_parse_tag (E : env) : WP tag :=
  is_path <- w_look (fun ts => peek2 (peek_punct "::") ts || peek_punct "::" ts
                             || peek2 (peek_punct "<") ts) ;;
  if is_path : bool then p <- w_parse_path E ;; w_ret (TagComponent p)
  else
    k <- w_parse_kebab ;;
    pay (kind_steps (k_repr k)) ;;;
    match tag_kind_from (k_repr k) with
    | KHtml => i <- w_snake k ;; w_ret (TagHtml i)
    | KComponent => i <- w_snake k ;; w_ret (TagComponent (Path false [PSeg (unraw i) PNone]))
    | KSvg => i <- w_snake k ;; w_ret (TagSvg i)
    | KMath => i <- w_snake k ;; w_ret (TagMath i)
    | KWeb => w_ret (TagWeb k)
    end.

(** ** ast/attribute/*.rs *)

(** [SelectorShorthand::parse], ast/attribute/selector.rs:57-75. *)
Definition w_parse_selector : WP selector :=
  d <- w_rollback_err (w_parse_punct ".") ;;
  match d with
  | Some _ => k <- w_parse_kebab ;; w_ret (SelClass k)
  | None =>
      h <- w_rollback_err (w_parse_punct "#") ;;
      match h with
      | Some _ => k <- w_parse_kebab ;; w_ret (SelId k)
      | None => w_fail ESelector
      end
  end.

(** The [while let Some(inner) = rollback_err(input, ..) { vec.push(inner) }]
    loop of [SelectorShorthands::parse] (ast/attribute/selector.rs:84-93) and
    [Attrs::parse] (ast/attribute.rs:55-63). *)
Fixpoint w_many {A} (n : nat) (m : WP A) : WP (list A) := fun ts =>
  match n with
  | 0 => (1, PR NoFuel ts [])
  | S n' =>
      (x <- w_rollback_err m ;;
       match x with
       | Some x => r <- w_many n' m ;; w_ret (x :: r)
       | None => w_ret []
       end) ts
  end.

(** [SelectorShorthands::parse], ast/attribute/selector.rs:84-93. *)
Definition w_parse_selectors : WP (list selector) := fun ts =>
  w_many (S (List.length ts)) w_parse_selector ts.

(** [KvAttr::parse], ast/attribute/kv.rs:41-62. *)
Definition w_parse_kv : WP kv_attr :=
  br <- w_look (peek_group Brace) ;;
  if br : bool then
    k <- w_parse_braced_kebab ;;
    v <- w_into_block_value k ;;
    w_ret (KvAttr k v)
  else
    k <- w_parse_kebab ;;
    eq <- w_rollback_err (w_parse_punct "=") ;;
    match eq with
    | Some _ => v <- w_parse_or_emit_err ;; w_ret (KvAttr k v)
    | None => w_ret (KvAttr k new_true)
    end.

(** [try_parse_modifier], ast/attribute/directive.rs:44-49. *)
Definition w_try_parse_modifier : WP (option ident) :=
  c <- w_rollback_err (w_parse_punct ":") ;;
  match c with
  | Some _ => i <- w_parse_any ;; w_ret (Some i)
  | None => w_ret None
  end.

(** [Directive::parse], ast/attribute/directive.rs:39-76. *)
Definition w_parse_directive : WP directive :=
  name <- w_parse_any ;;
  w_parse_punct ":" ;;;
  br <- w_look (peek_group Brace) ;;
  if br : bool then
    k <- w_parse_braced_kebab ;;
    v <- w_into_block_value k ;;
    m <- w_try_parse_modifier ;;
    w_ret (Directive name (KKebab k) m (Some v))
  else
    k <- w_parse_kebab_or_str ;;
    m <- w_try_parse_modifier ;;
    eq <- w_rollback_err (w_parse_punct "=") ;;
    match eq with
    | Some _ => v <- w_parse_or_emit_err ;; w_ret (Directive name k m (Some v))
    | None => w_ret (Directive name k m None)
    end.

(** [SpreadAttr::parse], ast/attribute/spread_attrs.rs:19-36 (the error leaves
    the stream after the group, which its only caller rolls back). *)
Definition w_parse_spread : WP (list tt) :=
  inner <- w_extract Brace ;;
  match take_punct ".." inner with
  | Some rest => pay (2 + weight rest) ;;; w_ret rest
  | None => pay 2 ;;; w_fail ESpread
  end.

(** [Attr::parse], ast/attribute.rs:22-44. *)
Definition w_parse_attr : WP attr :=
  is_dir <- w_look (fun ts => peek_any ts && peek2 (peek_punct ":") ts) ;;
  if is_dir : bool then
    d <- w_unwrap_or_abort w_parse_directive ;; w_ret (ADir d)
  else
    is_id <- w_look peek_ident ;;
    if is_id : bool then kv <- w_parse_kv ;; w_ret (AKv kv)
    else
      kv <- w_rollback_err w_parse_kv ;;
      match kv with
      | Some kv => w_ret (AKv kv)
      | None =>
          sp <- w_rollback_err w_parse_spread ;;
          match sp with
          | Some sp => w_ret (ASpread sp)
          | None => w_fail EAttr
          end
      end.

(** [Attrs::parse], ast/attribute.rs:55-63. *)
Definition w_parse_attrs : WP (list attr) := fun ts =>
  w_many (S (List.length ts)) w_parse_attr ts.

(** ** ast/element.rs, ast/children.rs *)

(** The loop of [parse_closure_args], ast/element.rs:164-177; the result does
    not include the first pipe. *)
Fixpoint w_closure_loop (n : nat) : WP (list tt) := fun ts =>
  match n with
  | 0 => (1, PR NoFuel ts [])
  | S n' =>
      (p <- w_rollback_err (w_parse_punct "|") ;;
       match p with
       | Some _ => w_ret [pu "|"]
       | None =>
           t <- w_rollback_err w_parse_tt ;;
           match t with
           | Some t => r <- w_closure_loop n' ;; w_ret (t :: r)
           | None => w_fail EClosure
           end
       end) ts
  end.

(** [parse_closure_args], ast/element.rs:158-178.  The pipes are re-emitted by
    [Token![|]::to_tokens] and therefore have spacing [Alone]. *)
Definition w_parse_closure_args : WP (list tt) := fun ts =>
  (w_parse_punct "|" ;;;
   r <- w_closure_loop (S (List.length ts)) ;;
   w_ret (pu "|" :: r)) ts.

(** [Element::parse], ast/element.rs:53-107; [pc] is [Children::parse]. *)
Definition w_parse_element (E : env) (pc : WP (list child)) : WP element :=
  t <- w_parse_tag E ;;
  sels <- w_parse_selectors ;;
  attrs <- w_parse_attrs ;;
  semi <- w_rollback_err (w_parse_punct ";") ;;
  match semi with
  | Some _ => w_ret (Element t sels attrs None None)
  | None =>
      ts <- w_look (fun ts => ts) ;;
      match ts with
      | [] => w_emit DUnterminated ;;; w_ret (Element t sels attrs None None)
      | _ =>
          if peek_group Brace ts then
            c <- w_delimited Brace pc ;; w_ret (Element t sels attrs None (Some c))
          else if peek_group Paren ts then
            c <- w_delimited Paren pc ;; w_ret (Element t sels attrs None (Some c))
          else if peek_punct "|" ts then
            args <- w_parse_closure_args ;;
            ts' <- w_look (fun ts => ts) ;;
            if peek_group Brace ts' then
              c <- w_delimited Brace pc ;; w_ret (Element t sels attrs (Some args) (Some c))
            else if peek_group Paren ts' then
              c <- w_delimited Paren pc ;; w_ret (Element t sels attrs (Some args) (Some c))
            else
              w_emit DNoChildrenAfterArgs ;;;
              w_ret (Element t sels attrs (Some args) None)
          else
            w_emit DUnknownAttr ;;;
            w_emit DNoChildElements ;;;
            w_ret (Element t sels attrs None None)
      end
  end.

(** [Child::parse], ast/children.rs:59-86. *)
Definition w_parse_child (E : env) (pc : WP (list child)) : WP child :=
  v <- w_rollback_err w_parse_value ;;
  match v with
  | Some (VLit (LitTok LkStr s)) => w_ret (CValue (VLit (LitTok LkStr s)))
  | Some (VLit _) => w_emit DNonStrChild ;;; w_ret (CValue (VLit (LitTok LkStr "")))
  | Some v => w_ret (CValue v)
  | None =>
      is_slot <- w_look (fun ts => peek_keyword "slot" ts && peek2 (peek_punct ":") ts
                                 && negb (peek2 (peek_punct "::") ts)) ;;
      if is_slot : bool then
        w_unwrap w_parse_any ;;;
        w_unwrap (w_parse_punct ":") ;;;
        e <- w_parse_element E pc ;; w_ret (CSlot e)
      else
        id <- w_look peek_any ;;
        if id : bool then e <- w_parse_element E pc ;; w_ret (CElement e)
        else w_fail EChild
  end.

(** [Children::parse], ast/children.rs:99-129. *)
Fixpoint w_parse_children (E : env) (n : nat) : WP (list child) := fun ts =>
  match n with
  | 0 => (1, PR NoFuel ts [])
  | S n' =>
      match ts with
      | [] => (1, PR (Ret []) [] [])
      | _ =>
          match w_parse_child E (w_parse_children E n') ts with
          | (k, PR (Ret c) r d) =>
              let x := (cs <- w_parse_children E n' ;; w_ret (c :: cs)) r in
              (S k + fst x, PR (p_out (snd x)) (p_rest (snd x)) (d ++ p_diags (snd x)))
          | (k, PR (Fail e) r d) =>
              let x :=
                (if peek_punct ";" r
                 then w_emit DExtraSemi ;;; w_unwrap (w_parse_punct ";") ;;; w_parse_children E n'
                 else w_emit (DParse e) ;;; w_take_rest ;;; w_parse_children E n') r in
              (S (S k) + fst x, PR (p_out (snd x)) (p_rest (snd x)) (d ++ p_diags (snd x)))
          | (k, PR Abort r d) => (S k, PR Abort r d)
          | (k, PR (Panic w) r d) => (S k, PR (Panic w) r d)
          | (k, PR NoFuel r d) => (S k, PR NoFuel r d)
          end
      end
  end.

(** The whole input. *)
Definition parse_steps (E : env) (input : list tt) : nat :=
  fst (w_parse_children E (S (size input)) input).
End Work.
