(** The model with spans, part 3: the ASTs and [impl Parse] blocks of ast/*.rs
    (see [Ast.v] and [Parse.v] for the parts that do not concern spans). *)
From Verif Require Export SSyn.
Open Scope list_scope.
Open Scope sparse_scope.

(** ** ASTs *)

(** [Value], ast/value.rs:28-42. *)
Inductive svalue :=
| SVLit (l : slit)
| SVBlock (b : dspan) (ts : list stt)
| SVBracket (prefix : option sident) (b : dspan) (ts : list stt).

(** [KebabIdent], ast/ident.rs:41-44; the vector of spans is never empty. *)
Record skebab := SKebab { sk_repr : string; sk_spans : list span }.

(** [KebabIdentOrStr], ast/ident.rs:187-190. *)
Inductive skebab_or_str := SKKebab (k : skebab) | SKStr (s : span) (v : string).

(** [KvAttr], ast/attribute/kv.rs:26-29. *)
Record skv_attr := SKvAttr { skv_key : skebab; skv_value : svalue }.

(** [Directive], ast/attribute/directive.rs:32-37. *)
Record sdirective := SDirective {
  sd_dir : sident; sd_key : skebab_or_str; sd_modifier : option sident; sd_value : option svalue
}.

(** [Attr], ast/attribute.rs:16-20; [SpreadAttr], ast/attribute/spread_attrs.rs:13-17:
    braces, [..] and the rest. *)
Inductive sattr :=
| SAKv (a : skv_attr)
| SADir (d : sdirective)
| SASpread (b : dspan) (dotdot : list span) (rest : list stt).

(** [SelectorShorthand], ast/attribute/selector.rs:24-33, with the span of the symbol. *)
Inductive sselector := SSelId (s : span) (k : skebab) | SSelClass (s : span) (k : skebab).

(** [Tag], ast/tag.rs:29-36. *)
Inductive stag :=
| STagHtml (i : sident)
| STagComponent (p : spath)
| STagSvg (i : sident)
| STagMath (i : sident)
| STagWeb (k : skebab).

(** [Tag::kind], ast/tag.rs:51-59. *)
Definition skind_of (t : stag) : tag_kind :=
  match t with
  | STagHtml _ => KHtml
  | STagComponent _ => KComponent
  | STagSvg _ => KSvg
  | STagMath _ => KMath
  | STagWeb _ => KWeb
  end.

(** [Element] ast/element.rs:45-51, [NodeChild] ast/children.rs:21-24,
    [Child] ast/children.rs:54-57; a slot keeps the span of its keyword. *)
Inductive selement :=
| SElement (t : stag) (sels : list sselector) (attrs : list sattr)
           (args : option (list stt)) (children : option (list schild))
with schild :=
| SCValue (v : svalue)
| SCElement (e : selement)
| SCSlot (s : span) (e : selement).

Definition sel_tag (e : selement) := let 'SElement t _ _ _ _ := e in t.
Definition sis_slot (c : schild) : bool := match c with SCSlot _ _ => true | _ => false end.

(** ** Spans of ASTs *)

(** [KebabIdent::span], ast/ident.rs:57-62. *)
Definition kspan (E : senv) (k : skebab) : span :=
  joinx E (hd Call (sk_spans k)) (List.last (sk_spans k) Call).

(** [Value::span], ast/value.rs:115-121. *)
Definition svalue_span (v : svalue) : span :=
  match v with
  | SVLit l => slit_span l
  | SVBlock b _ | SVBracket _ b _ => d_whole b
  end.

(** [KvAttr::span], ast/attribute/kv.rs:38. *)
Definition kv_span (E : senv) (a : skv_attr) : span :=
  joinx E (kspan E (skv_key a)) (svalue_span (skv_value a)).

(** [Tag::span], ast/tag.rs:42-48. *)
Definition tag_span (E : senv) (t : stag) : span :=
  match t with
  | STagHtml i | STagSvg i | STagMath i => si_span i
  | STagWeb k => kspan E k
  | STagComponent p => spath_span E p
  end.

(** [NodeChild::span], ast/children.rs:39-44 (a slot is not a [NodeChild]). *)
Definition node_span (E : senv) (c : schild) : span :=
  match c with
  | SCValue v => svalue_span v
  | SCElement e | SCSlot _ e => tag_span E (sel_tag e)
  end.

(** [SelectorShorthand::prefix], ast/attribute/selector.rs:43-51. *)
Definition prefix_span (s : sselector) : span :=
  match s with SSelId s _ | SSelClass s _ => s end.

(** ** ast/value.rs *)

(** [Value::parse], ast/value.rs:44-72. *)
Definition sparse_value (E : senv) : SP svalue :=
  br <- slook (speek_group Bracket) ;;
  if br : bool then ts <- sunwrap (sextract Bracket) ;; sret (SVBracket None (fst ts) (snd ts))
  else
    pre <- slook (fun ts => speek_any ts && speek2 (speek_group Bracket) ts) ;;
    if pre : bool then
      i <- sunwrap sparse_any ;;
      ts <- sunwrap (sextract Bracket) ;;
      sret (SVBracket (Some i) (fst ts) (snd ts))
    else
      bc <- slook (speek_group Brace) ;;
      if bc : bool then ts <- sunwrap (sextract Brace) ;; sret (SVBlock (fst ts) (snd ts))
      else
        li <- slook (speek_lit E) ;;
        if li : bool then l <- sunwrap (sparse_lit E) ;; sret (SVLit l)
        else sfail EValue.

(** The block inserted for a missing value, ast/value.rs:146-149. *)
Definition smissing_value (s : span) : svalue :=
  SVBlock (same_span s) (sgpath s ["leptos_mview"; "MissingValueAfterEq"]).

(** [Value::parse_or_emit_err], ast/value.rs:124-151; the error is at the next token, or
    at the [=] if there is none. *)
Definition sparse_or_emit_err (E : senv) (fallback : span) : SP svalue :=
  v <- srollback (sparse_value E) ;;
  match v with
  | Some v => sret v
  | None =>
      ts <- slook (fun ts => ts) ;;
      s <- (match ts with [] => sret fallback | _ => shere end) ;;
      semit (DExpectedValue (speek_ident ts)) s ;;;
      sret (smissing_value s)
  end.

(** [Value::new_true], ast/value.rs:154. *)
Definition snew_true : svalue := SVLit (SLitBool Call true).

(** ** ast/ident.rs *)

(** The "add ident or number" step of [KebabIdent::parse], ast/ident.rs:147-158. *)
Definition skebab_segment (E : senv) (k : skebab) : SP skebab :=
  i <- srollback sparse_any ;;
  match i with
  | Some i =>
      (if i_raw (si_ident i) then semit DRawInKebab (si_span i) else sret Datatypes.tt) ;;;
      sret (SKebab (sk_repr k ++ i_name (si_ident i)) (sk_spans k ++ [si_span i]))
  | None =>
      n <- srollback (sparse_lit_int E) ;;
      match n with
      | Some n => sret (SKebab (sk_repr k ++ snd n) (sk_spans k ++ [fst n]))
      | None => sret k
      end
  end.

(** The loop of [KebabIdent::parse], ast/ident.rs:133-159. *)
Fixpoint skebab_loop (E : senv) (n : nat) (second : bool) (k : skebab) : SP skebab := fun sc ts =>
  match n with
  | 0 => SPR SNoFuel ts []
  | S n' =>
      (d <- srollback (sparse_punct "-") ;;
       match d with
       | Some _ =>
           k' <- skebab_segment E (SKebab (sk_repr k ++ "-") (sk_spans k)) ;;
           skebab_loop E n' false k'
       | None =>
           if negb (second && String.eqb (sk_repr k) "-") then sret k
           else
             k' <- skebab_segment E k ;;
             skebab_loop E n' false k'
       end) sc ts
  end.

(** [KebabIdent::parse], ast/ident.rs:109-164. *)
Definition sparse_kebab (E : senv) : SP skebab := fun sc ts =>
  (i <- srollback sparse_any ;;
   k <- match i with
        | Some i => sret (SKebab (i_name (si_ident i)) [si_span i])
        | None =>
            d <- srollback (sparse_punct "-") ;;
            match d with
            | Some d => sret (SKebab "-" [punct_span d])
            | None => fun sc r => sfail (EKebab (found_in (erases r))) sc r
            end
        end ;;
   skebab_loop E (S (S (List.length ts))) true k) sc ts.

(** [KebabIdent::to_snake_ident], ast/ident.rs:99-106. *)
Definition sto_snake_ident (E : senv) (k : skebab) : option sident :=
  option_map (SId (kspan E k)) (new_raw (dashes_to_underscores (sk_repr k))).
Definition ssnake (E : senv) (k : skebab) : SP sident :=
  sor_panic (PNewRaw (dashes_to_underscores (sk_repr k))) (sto_snake_ident E k).

(** [KebabIdentOrStr::parse], ast/ident.rs:218-226. *)
Definition sparse_kebab_or_str (E : senv) : SP skebab_or_str :=
  s <- srollback (sparse_lit_str E) ;;
  match s with
  | Some s => sret (SKStr (fst s) (snd s))
  | None => k <- sparse_kebab E ;; sret (SKKebab k)
  end.

(** [BracedKebabIdent::parse], ast/ident.rs:255-260. *)
Definition sparse_braced_kebab (E : senv) : SP (dspan * skebab) := sdelimited Brace (sparse_kebab E).

(** [BracedKebabIdent::into_block_value], ast/ident.rs:247-252. *)
Definition sinto_block_value (E : senv) (k : dspan * skebab) : SP svalue :=
  i <- ssnake E (snd k) ;; sret (SVBlock (fst k) [stoken i]).

(** ** ast/tag.rs *)

(** [Tag::parse], ast/tag.rs:62-83. *)
Definition sparse_tag (E : senv) : SP stag :=
  is_path <- slook (fun ts => speek2 (speek_punct "::") ts || speek_punct "::" ts
                              || speek2 (speek_punct "<") ts) ;;
  if is_path : bool then p <- sparse_path E ;; sret (STagComponent p)
  else
    k <- sparse_kebab E ;;
    match tag_kind_from (sk_repr k) with
    | KHtml => i <- ssnake E k ;; sret (STagHtml i)
    | KComponent =>
        i <- ssnake E k ;;
        sret (STagComponent (SPath None (SPSeg (SId (si_span i) (unraw (si_ident i))) SPNone) []))
    | KSvg => i <- ssnake E k ;; sret (STagSvg i)
    | KMath => i <- ssnake E k ;; sret (STagMath i)
    | KWeb => sret (STagWeb k)
    end.

(** ** ast/attribute/*.rs *)

(** [SelectorShorthand::parse], ast/attribute/selector.rs:57-75. *)
Definition sparse_selector (E : senv) : SP sselector :=
  d <- srollback (sparse_punct ".") ;;
  match d with
  | Some d => k <- sparse_kebab E ;; sret (SSelClass (punct_span d) k)
  | None =>
      h <- srollback (sparse_punct "#") ;;
      match h with
      | Some h => k <- sparse_kebab E ;; sret (SSelId (punct_span h) k)
      | None => sfail ESelector
      end
  end.

(** The loop of [SelectorShorthands::parse] and [Attrs::parse]. *)
Fixpoint smany {A} (n : nat) (m : SP A) : SP (list A) := fun sc ts =>
  match n with
  | 0 => SPR SNoFuel ts []
  | S n' =>
      (x <- srollback m ;;
       match x with
       | Some x => r <- smany n' m ;; sret (x :: r)
       | None => sret []
       end) sc ts
  end.

(** [SelectorShorthands::parse], ast/attribute/selector.rs:84-93. *)
Definition sparse_selectors (E : senv) : SP (list sselector) := fun sc ts =>
  smany (S (List.length ts)) (sparse_selector E) sc ts.

(** [KvAttr::parse], ast/attribute/kv.rs:41-62. *)
Definition sparse_kv (E : senv) : SP skv_attr :=
  br <- slook (speek_group Brace) ;;
  if br : bool then
    k <- sparse_braced_kebab E ;;
    v <- sinto_block_value E k ;;
    sret (SKvAttr (snd k) v)
  else
    k <- sparse_kebab E ;;
    eq <- srollback (sparse_punct "=") ;;
    match eq with
    | Some eq => v <- sparse_or_emit_err E (punct_span eq) ;; sret (SKvAttr k v)
    | None => sret (SKvAttr k snew_true)
    end.

(** [try_parse_modifier], ast/attribute/directive.rs:44-49. *)
Definition stry_parse_modifier : SP (option sident) :=
  c <- srollback (sparse_punct ":") ;;
  match c with
  | Some _ => i <- sparse_any ;; sret (Some i)
  | None => sret None
  end.

(** [Directive::parse], ast/attribute/directive.rs:39-76. *)
Definition sparse_directive (E : senv) : SP sdirective :=
  name <- sparse_any ;;
  sparse_punct ":" ;;;
  br <- slook (speek_group Brace) ;;
  if br : bool then
    k <- sparse_braced_kebab E ;;
    v <- sinto_block_value E k ;;
    m <- stry_parse_modifier ;;
    sret (SDirective name (SKKebab (snd k)) m (Some v))
  else
    k <- sparse_kebab_or_str E ;;
    m <- stry_parse_modifier ;;
    eq <- srollback (sparse_punct "=") ;;
    match eq with
    | Some eq => v <- sparse_or_emit_err E (punct_span eq) ;; sret (SDirective name k m (Some v))
    | None => sret (SDirective name k m None)
    end.

(** [SpreadAttr::parse], ast/attribute/spread_attrs.rs:19-36. *)
Definition sparse_spread : SP (dspan * list span * list stt) :=
  inner <- sextract Brace ;;
  match stake_punct ".." (snd inner) with
  | Some (l, rest) => sret (fst inner, l, rest)
  | None => sfail ESpread
  end.

(** [Attr::parse], ast/attribute.rs:22-44. *)
Definition sparse_attr (E : senv) : SP sattr :=
  is_dir <- slook (fun ts => speek_any ts && speek2 (speek_punct ":") ts) ;;
  if is_dir : bool then
    d <- sunwrap_or_abort E (sparse_directive E) ;; sret (SADir d)
  else
    is_id <- slook speek_ident ;;
    if is_id : bool then kv <- sparse_kv E ;; sret (SAKv kv)
    else
      kv <- srollback (sparse_kv E) ;;
      match kv with
      | Some kv => sret (SAKv kv)
      | None =>
          sp <- srollback sparse_spread ;;
          match sp with
          | Some sp => sret (SASpread (fst (fst sp)) (snd (fst sp)) (snd sp))
          | None => sfail EAttr
          end
      end.

(** [Attrs::parse], ast/attribute.rs:55-63. *)
Definition sparse_attrs (E : senv) : SP (list sattr) := fun sc ts =>
  smany (S (List.length ts)) (sparse_attr E) sc ts.

(** ** ast/element.rs, ast/children.rs *)

(** The loop of [parse_closure_args], ast/element.rs:164-177; [first] is the span of
    the first pipe, where "closure arguments not closed" is reported. *)
Fixpoint sclosure_loop (first : span) (n : nat) : SP (list stt) := fun sc ts =>
  match n with
  | 0 => SPR SNoFuel ts []
  | S n' =>
      (p <- srollback (sparse_punct "|") ;;
       match p with
       | Some p => sret [spu (punct_span p) "|"]
       | None =>
           t <- srollback sparse_tt ;;
           match t with
           | Some t => r <- sclosure_loop first n' ;; sret (t :: r)
           | None => sfail_at EClosure first
           end
       end) sc ts
  end.

(** [parse_closure_args], ast/element.rs:158-178. *)
Definition sparse_closure_args : SP (list stt) := fun sc ts =>
  (p <- sparse_punct "|" ;;
   r <- sclosure_loop (punct_span p) (S (List.length ts)) ;;
   sret (spu (punct_span p) "|" :: r)) sc ts.

(** [Element::parse], ast/element.rs:53-107; [pc] is [Children::parse]. *)
Definition sparse_element (E : senv) (pc : SP (list schild)) : SP selement :=
  t <- sparse_tag E ;;
  sels <- sparse_selectors E ;;
  attrs <- sparse_attrs E ;;
  semi <- srollback (sparse_punct ";") ;;
  match semi with
  | Some _ => sret (SElement t sels attrs None None)
  | None =>
      ts <- slook (fun ts => ts) ;;
      match ts with
      | [] => semit DUnterminated (tag_span E t) ;;; sret (SElement t sels attrs None None)
      | _ =>
          if speek_group Brace ts then
            c <- sdelimited Brace pc ;; sret (SElement t sels attrs None (Some (snd c)))
          else if speek_group Paren ts then
            c <- sdelimited Paren pc ;; sret (SElement t sels attrs None (Some (snd c)))
          else if speek_punct "|" ts then
            args <- sparse_closure_args ;;
            ts' <- slook (fun ts => ts) ;;
            if speek_group Brace ts' then
              c <- sdelimited Brace pc ;; sret (SElement t sels attrs (Some args) (Some (snd c)))
            else if speek_group Paren ts' then
              c <- sdelimited Paren pc ;; sret (SElement t sels attrs (Some args) (Some (snd c)))
            else
              s <- shere ;;
              semit DNoChildrenAfterArgs s ;;;
              sret (SElement t sels attrs (Some args) None)
          else
            s <- shere ;;
            semit DUnknownAttr s ;;;
            semit DNoChildElements (joinx E (tag_span E t) s) ;;;
            sret (SElement t sels attrs None None)
      end
  end.

(** [Child::parse], ast/children.rs:59-86. *)
Definition sparse_child (E : senv) (pc : SP (list schild)) : SP schild :=
  v <- srollback (sparse_value E) ;;
  match v with
  | Some (SVLit (SLitTok s LkStr v)) => sret (SCValue (SVLit (SLitTok s LkStr v)))
  | Some (SVLit l) =>
      semit DNonStrChild (slit_span l) ;;; sret (SCValue (SVLit (SLitTok Call LkStr "")))
  | Some v => sret (SCValue v)
  | None =>
      is_slot <- slook (fun ts => speek_keyword "slot" ts && speek2 (speek_punct ":") ts
                                  && negb (speek2 (speek_punct "::") ts)) ;;
      if is_slot : bool then
        i <- sunwrap sparse_any ;;
        sunwrap (sparse_punct ":") ;;;
        e <- sparse_element E pc ;; sret (SCSlot (si_span i) e)
      else
        id <- slook speek_any ;;
        if id : bool then e <- sparse_element E pc ;; sret (SCElement e)
        else sfail EChild
  end.

(** [Children::parse], ast/children.rs:99-129. *)
Fixpoint sparse_children (E : senv) (n : nat) : SP (list schild) := fun sc ts =>
  match n with
  | 0 => SPR SNoFuel ts []
  | S n' =>
      match ts with
      | [] => SPR (SRet []) [] []
      | _ =>
          match sparse_child E (sparse_children E n') sc ts with
          | SPR (SRet c) r d =>
              let x := (cs <- sparse_children E n' ;; sret (c :: cs)) sc r in
              SPR (sp_out x) (sp_rest x) (d ++ sp_diags x)
          | SPR (SFail e s) r d =>
              let x :=
                (if speek_punct ";" r
                 then semit DExtraSemi (err_span E s) ;;; sunwrap (sparse_punct ";") ;;;
                      sparse_children E n'
                 else semit (DParse e) (err_span E s) ;;; stake_rest ;;; sparse_children E n') sc r in
              SPR (sp_out x) (sp_rest x) (d ++ sp_diags x)
          | SPR SAbort r d => SPR SAbort r d
          | SPR (SPanic w) r d => SPR (SPanic w) r d
          | SPR SNoFuel r d => SPR SNoFuel r d
          end
      end
  end.
