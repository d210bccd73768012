(** The [impl Parse] blocks of ast/*.rs. *)
From Verif Require Export Ast.

(** ** ast/value.rs *)

(** [Value::parse], ast/value.rs:44-72. *)
Definition parse_value : P value :=
  br <- look (peek_group Bracket) ;;
  if br : bool then ts <- unwrap (group_tokens Bracket) ;; ret (VBracket None ts)
  else
    pre <- look (fun ts => peek_any ts && peek2 (peek_group Bracket) ts) ;;
    if pre : bool then
      i <- unwrap parse_any ;;
      ts <- unwrap (group_tokens Bracket) ;;
      ret (VBracket (Some i) ts)
    else
      bc <- look (peek_group Brace) ;;
      if bc : bool then ts <- unwrap (group_tokens Brace) ;; ret (VBlock ts)
      else
        li <- look peek_lit ;;
        if li : bool then l <- unwrap parse_lit ;; ret (VLit l)
        else fail EValue.

(** The block inserted for a missing value, ast/value.rs:146-149. *)
Definition missing_value : value := VBlock (gpath ["leptos_mview"; "MissingValueAfterEq"]).

(** [Value::parse_or_emit_err], ast/value.rs:124-151. *)
Definition parse_or_emit_err : P value :=
  v <- rollback_err parse_value ;;
  match v with
  | Some v => ret v
  | None =>
      help <- look peek_ident ;;
      emit (DExpectedValue help) ;;;
      ret missing_value
  end.

(** [Value::new_true], ast/value.rs:154. *)
Definition new_true : value := VLit (LitBool true).

(** ** ast/ident.rs *)

(** The "add ident or number" step of [KebabIdent::parse], ast/ident.rs:147-158. *)
Definition kebab_segment (k : kebab) : P kebab :=
  i <- rollback_err parse_any ;;
  match i with
  | Some i =>
      (if i_raw i then emit DRawInKebab else ret Datatypes.tt) ;;;
      ret (Kebab (k_repr k ++ i_name i) (S (k_spans k)))
  | None =>
      n <- rollback_err parse_lit_int ;;
      match n with
      | Some s => ret (Kebab (k_repr k ++ s) (S (k_spans k)))
      | None => ret k
      end
  end.

(** The loop of [KebabIdent::parse], ast/ident.rs:133-159; [second] is
    [is_second_token]. *)
Fixpoint kebab_loop (n : nat) (second : bool) (k : kebab) : P kebab := fun ts =>
  match n with
  | 0 => PR NoFuel ts []
  | S n' =>
      (d <- rollback_err (parse_punct "-") ;;
       match d with
       | Some _ =>
           k' <- kebab_segment (Kebab (k_repr k ++ "-") (k_spans k)) ;;
           kebab_loop n' false k'
       | None =>
           if negb (second && String.eqb (k_repr k) "-") then ret k
           else
             k' <- kebab_segment k ;;
             kebab_loop n' false k'
       end) ts
  end.

(** [KebabIdent::parse], ast/ident.rs:109-164. *)
Definition parse_kebab : P kebab := fun ts =>
  (i <- rollback_err parse_any ;;
   k <- match i with
        | Some i => ret (Kebab (i_name i) 1)
        | None =>
            d <- rollback_err (parse_punct "-") ;;
            match d with
            | Some _ => ret (Kebab "-" 1)
            | None => fun r => fail (EKebab (found_in r)) r
            end
        end ;;
   kebab_loop (S (S (List.length ts))) true k) ts.

(** [str::replace('-', "_")] in [KebabIdent::to_snake_ident], ast/ident.rs:100. *)
Fixpoint dashes_to_underscores (s : string) : string :=
  match s with
  | EmptyString => EmptyString
  | String c r =>
      String (if Ascii.eqb c "-" then "_"%char else c) (dashes_to_underscores r)
  end.

(** [KebabIdent::to_snake_ident], ast/ident.rs:99-106; [None] is the panic of
    [Ident::new_raw]. *)
Definition to_snake_ident (k : kebab) : option ident :=
  new_raw (dashes_to_underscores (k_repr k)).

(** [to_snake_ident] inside a parser. *)
Definition snake (k : kebab) : P ident :=
  or_panic (PNewRaw (dashes_to_underscores (k_repr k))) (to_snake_ident k).

(** [KebabIdentOrStr::parse], ast/ident.rs:218-226. *)
Definition parse_kebab_or_str : P kebab_or_str :=
  s <- rollback_err parse_lit_str ;;
  match s with
  | Some s => ret (KStr s)
  | None => k <- parse_kebab ;; ret (KKebab k)
  end.

(** [BracedKebabIdent::parse], ast/ident.rs:255-260. *)
Definition parse_braced_kebab : P kebab := delimited Brace parse_kebab.

(** [BracedKebabIdent::into_block_value], ast/ident.rs:247-252. *)
Definition into_block_value (k : kebab) : P value :=
  i <- snake k ;; ret (VBlock [TIdent i]).

(** ** ast/tag.rs *)

(** The list of [is_svg_element], ast/tag.rs:130-194. *)
Definition svg_list : list string :=
  ["animate"; "animateMotion"; "animateTransform"; "circle"; "clipPath"; "defs";
   "desc"; "discard"; "ellipse"; "feBlend"; "feColorMatrix"; "feComponentTransfer";
   "feComposite"; "feConvolveMatrix"; "feDiffuseLighting"; "feDisplacementMap";
   "feDistantLight"; "feDropShadow"; "feFlood"; "feFuncA"; "feFuncB"; "feFuncG";
   "feFuncR"; "feGaussianBlur"; "feImage"; "feMerge"; "feMergeNode"; "feMorphology";
   "feOffset"; "fePointLight"; "feSpecularLighting"; "feSpotLight"; "feTile";
   "feTurbulence"; "filter"; "foreignObject"; "g"; "hatch"; "hatchpath"; "image";
   "line"; "linearGradient"; "marker"; "mask"; "metadata"; "mpath"; "path";
   "pattern"; "polygon"; "polyline"; "radialGradient"; "rect"; "set"; "stop"; "svg";
   "switch"; "symbol"; "text"; "textPath"; "tspan"; "use"; "use_"; "view"].

(** The list of [is_math_ml_element], ast/tag.rs:203-235. *)
Definition math_list : list string :=
  ["annotation"; "maction"; "math"; "menclose"; "merror"; "mfenced"; "mfrac"; "mi";
   "mmultiscripts"; "mn"; "mo"; "mover"; "mpadded"; "mphantom"; "mprescripts";
   "mroot"; "mrow"; "ms"; "mspace"; "msqrt"; "mstyle"; "msub"; "msubsup"; "msup";
   "mtable"; "mtd"; "mtext"; "mtr"; "munder"; "munderover"; "semantics"].

(** [slice::binary_search(..).is_ok()], ast/tag.rs:195-196 and 236-237:
    halving of the interval [lo, hi) with byte-wise string comparison.  The fuel
    is the list length. *)
Fixpoint bsearch (n : nat) (l : list string) (lo hi : nat) (x : string) : bool :=
  match n with
  | 0 => false
  | S n' =>
      if Nat.ltb lo hi then
        let mid := lo + Nat.div2 (hi - lo) in
        match nth_error l mid with
        | None => false
        | Some y =>
            match String.compare y x with
            | Eq => true
            | Lt => bsearch n' l (S mid) hi x
            | Gt => bsearch n' l lo mid x
            end
        end
      else false
  end.
Definition binary_search (l : list string) (x : string) : bool :=
  bsearch (S (List.length l)) l 0 (List.length l) x.

(** [char::is_ascii_uppercase] on a byte. *)
Definition is_upper (c : ascii) : bool :=
  (Nat.leb 65 (nat_of_ascii c) && Nat.leb (nat_of_ascii c) 90)%bool.

(** [is_component], ast/tag.rs:122-124. *)
Definition is_component (s : string) : bool :=
  match s with String c _ => is_upper c | EmptyString => false end.

(** [is_svg_element], ast/tag.rs:129-197. *)
Definition is_svg_element (s : string) : bool := binary_search svg_list s.

(** [is_math_ml_element], ast/tag.rs:202-238. *)
Definition is_math_ml_element (s : string) : bool := binary_search math_list s.

(** [str::contains('-')]. *)
Fixpoint contains_dash (s : string) : bool :=
  match s with
  | EmptyString => false
  | String c r => Ascii.eqb c "-" || contains_dash r
  end.

(** [is_web_component], ast/tag.rs:247. *)
Definition is_web_component (s : string) : bool := contains_dash s.

(** [TagKind::from], ast/tag.rs:100-112. *)
Definition tag_kind_from (s : string) : tag_kind :=
  if is_component s then KComponent
  else if is_svg_element s then KSvg
  else if is_web_component s then KWeb
  else if is_math_ml_element s then KMath
  else KHtml.

(** [Tag::parse], ast/tag.rs:62-83. *)
Definition parse_tag (E : env) : P tag :=
  is_path <- look (fun ts => peek2 (peek_punct "::") ts || peek_punct "::" ts
                             || peek2 (peek_punct "<") ts) ;;
  if is_path : bool then p <- parse_path E ;; ret (TagComponent p)
  else
    k <- parse_kebab ;;
    match tag_kind_from (k_repr k) with
    | KHtml => i <- snake k ;; ret (TagHtml i)
    | KComponent => i <- snake k ;; ret (TagComponent (Path false [PSeg (unraw i) PNone]))
    | KSvg => i <- snake k ;; ret (TagSvg i)
    | KMath => i <- snake k ;; ret (TagMath i)
    | KWeb => ret (TagWeb k)
    end.

(** ** ast/attribute/*.rs *)

(** [SelectorShorthand::parse], ast/attribute/selector.rs:57-75. *)
Definition parse_selector : P selector :=
  d <- rollback_err (parse_punct ".") ;;
  match d with
  | Some _ => k <- parse_kebab ;; ret (SelClass k)
  | None =>
      h <- rollback_err (parse_punct "#") ;;
      match h with
      | Some _ => k <- parse_kebab ;; ret (SelId k)
      | None => fail ESelector
      end
  end.

(** The [while let Some(inner) = rollback_err(input, ..) { vec.push(inner) }]
    loop of [SelectorShorthands::parse] (ast/attribute/selector.rs:84-93) and
    [Attrs::parse] (ast/attribute.rs:55-63). *)
Fixpoint many {A} (n : nat) (m : P A) : P (list A) := fun ts =>
  match n with
  | 0 => PR NoFuel ts []
  | S n' =>
      (x <- rollback_err m ;;
       match x with
       | Some x => r <- many n' m ;; ret (x :: r)
       | None => ret []
       end) ts
  end.

(** [SelectorShorthands::parse], ast/attribute/selector.rs:84-93. *)
Definition parse_selectors : P (list selector) := fun ts =>
  many (S (List.length ts)) parse_selector ts.

(** [KvAttr::parse], ast/attribute/kv.rs:41-62. *)
Definition parse_kv : P kv_attr :=
  br <- look (peek_group Brace) ;;
  if br : bool then
    k <- parse_braced_kebab ;;
    v <- into_block_value k ;;
    ret (KvAttr k v)
  else
    k <- parse_kebab ;;
    eq <- rollback_err (parse_punct "=") ;;
    match eq with
    | Some _ => v <- parse_or_emit_err ;; ret (KvAttr k v)
    | None => ret (KvAttr k new_true)
    end.

(** [try_parse_modifier], ast/attribute/directive.rs:44-49. *)
Definition try_parse_modifier : P (option ident) :=
  c <- rollback_err (parse_punct ":") ;;
  match c with
  | Some _ => i <- parse_any ;; ret (Some i)
  | None => ret None
  end.

(** [Directive::parse], ast/attribute/directive.rs:39-76. *)
Definition parse_directive : P directive :=
  name <- parse_any ;;
  parse_punct ":" ;;;
  br <- look (peek_group Brace) ;;
  if br : bool then
    k <- parse_braced_kebab ;;
    v <- into_block_value k ;;
    m <- try_parse_modifier ;;
    ret (Directive name (KKebab k) m (Some v))
  else
    k <- parse_kebab_or_str ;;
    m <- try_parse_modifier ;;
    eq <- rollback_err (parse_punct "=") ;;
    match eq with
    | Some _ => v <- parse_or_emit_err ;; ret (Directive name k m (Some v))
    | None => ret (Directive name k m None)
    end.

(** [SpreadAttr::parse], ast/attribute/spread_attrs.rs:19-36 (the error leaves
    the stream after the group, which its only caller rolls back). *)
Definition parse_spread : P (list tt) :=
  inner <- extract Brace ;;
  match take_punct ".." inner with
  | Some rest => ret rest
  | None => fail ESpread
  end.

(** [Attr::parse], ast/attribute.rs:22-44. *)
Definition parse_attr : P attr :=
  is_dir <- look (fun ts => peek_any ts && peek2 (peek_punct ":") ts) ;;
  if is_dir : bool then
    d <- unwrap_or_abort parse_directive ;; ret (ADir d)
  else
    is_id <- look peek_ident ;;
    if is_id : bool then kv <- parse_kv ;; ret (AKv kv)
    else
      kv <- rollback_err parse_kv ;;
      match kv with
      | Some kv => ret (AKv kv)
      | None =>
          sp <- rollback_err parse_spread ;;
          match sp with
          | Some sp => ret (ASpread sp)
          | None => fail EAttr
          end
      end.

(** [Attrs::parse], ast/attribute.rs:55-63. *)
Definition parse_attrs : P (list attr) := fun ts =>
  many (S (List.length ts)) parse_attr ts.

(** ** ast/element.rs, ast/children.rs *)

(** The loop of [parse_closure_args], ast/element.rs:164-177; the result does
    not include the first pipe. *)
Fixpoint closure_loop (n : nat) : P (list tt) := fun ts =>
  match n with
  | 0 => PR NoFuel ts []
  | S n' =>
      (p <- rollback_err (parse_punct "|") ;;
       match p with
       | Some _ => ret [pu "|"]
       | None =>
           t <- rollback_err parse_tt ;;
           match t with
           | Some t => r <- closure_loop n' ;; ret (t :: r)
           | None => fail EClosure
           end
       end) ts
  end.

(** [parse_closure_args], ast/element.rs:158-178.  The pipes are re-emitted by
    [Token![|]::to_tokens] and therefore have spacing [Alone]. *)
Definition parse_closure_args : P (list tt) := fun ts =>
  (parse_punct "|" ;;;
   r <- closure_loop (S (List.length ts)) ;;
   ret (pu "|" :: r)) ts.

(** [Element::parse], ast/element.rs:53-107; [pc] is [Children::parse]. *)
Definition parse_element (E : env) (pc : P (list child)) : P element :=
  t <- parse_tag E ;;
  sels <- parse_selectors ;;
  attrs <- parse_attrs ;;
  semi <- rollback_err (parse_punct ";") ;;
  match semi with
  | Some _ => ret (Element t sels attrs None None)
  | None =>
      ts <- look (fun ts => ts) ;;
      match ts with
      | [] => emit DUnterminated ;;; ret (Element t sels attrs None None)
      | _ =>
          if peek_group Brace ts then
            c <- delimited Brace pc ;; ret (Element t sels attrs None (Some c))
          else if peek_group Paren ts then
            c <- delimited Paren pc ;; ret (Element t sels attrs None (Some c))
          else if peek_punct "|" ts then
            args <- parse_closure_args ;;
            ts' <- look (fun ts => ts) ;;
            if peek_group Brace ts' then
              c <- delimited Brace pc ;; ret (Element t sels attrs (Some args) (Some c))
            else if peek_group Paren ts' then
              c <- delimited Paren pc ;; ret (Element t sels attrs (Some args) (Some c))
            else
              emit DNoChildrenAfterArgs ;;;
              ret (Element t sels attrs (Some args) None)
          else
            emit DUnknownAttr ;;;
            emit DNoChildElements ;;;
            ret (Element t sels attrs None None)
      end
  end.

(** [Child::parse], ast/children.rs:59-86. *)
Definition parse_child (E : env) (pc : P (list child)) : P child :=
  v <- rollback_err parse_value ;;
  match v with
  | Some (VLit (LitTok LkStr s)) => ret (CValue (VLit (LitTok LkStr s)))
  | Some (VLit _) => emit DNonStrChild ;;; ret (CValue (VLit (LitTok LkStr "")))
  | Some v => ret (CValue v)
  | None =>
      is_slot <- look (fun ts => peek_keyword "slot" ts && peek2 (peek_punct ":") ts
                                 && negb (peek2 (peek_punct "::") ts)) ;;
      if is_slot : bool then
        unwrap parse_any ;;;
        unwrap (parse_punct ":") ;;;
        e <- parse_element E pc ;; ret (CSlot e)
      else
        id <- look peek_any ;;
        if id : bool then e <- parse_element E pc ;; ret (CElement e)
        else fail EChild
  end.

(** [Children::parse], ast/children.rs:99-129. *)
Fixpoint parse_children (E : env) (n : nat) : P (list child) := fun ts =>
  match n with
  | 0 => PR NoFuel ts []
  | S n' =>
      match ts with
      | [] => PR (Ret []) [] []
      | _ =>
          match parse_child E (parse_children E n') ts with
          | PR (Ret c) r d =>
              let x := (cs <- parse_children E n' ;; ret (c :: cs)) r in
              PR (p_out x) (p_rest x) (d ++ p_diags x)
          | PR (Fail e) r d =>
              let x :=
                (if peek_punct ";" r
                 then emit DExtraSemi ;;; unwrap (parse_punct ";") ;;; parse_children E n'
                 else emit (DParse e) ;;; take_rest ;;; parse_children E n') r in
              PR (p_out x) (p_rest x) (d ++ p_diags x)
          | PR Abort r d => PR Abort r d
          | PR (Panic w) r d => PR (Panic w) r d
          | PR NoFuel r d => PR NoFuel r d
          end
      end
  end.
