(** expand.rs, expand/subroutines.rs, expand/utils.rs and the [ToTokens] impls. *)
From Verif Require Export Parse.

(** ** Expansion monad: tokens, abort or panic, plus diagnostics *)

Inductive xout (A : Type) := XRet (a : A) | XAbort | XPanic (w : panic).
Arguments XRet {A}. Arguments XAbort {A}. Arguments XPanic {A}.
Record X (A : Type) := XR { x_out : xout A; x_diags : list diag }.
Arguments XR {A}. Arguments x_out {A}. Arguments x_diags {A}.

Definition xret {A} (a : A) : X A := XR (XRet a) [].
Definition xpanic {A} (w : panic) : X A := XR (XPanic w) [].
Definition xemit (d : diag) : X unit := XR (XRet Datatypes.tt) [d].
(** [abort!]: emits and unwinds. *)
Definition xabort {A} (d : diag) : X A := XR XAbort [d].
Definition xbind {A B} (m : X A) (f : A -> X B) : X B :=
  match m with
  | XR (XRet a) d => let y := f a in XR (x_out y) (d ++ x_diags y)
  | XR XAbort d => XR XAbort d
  | XR (XPanic w) d => XR (XPanic w) d
  end.
Declare Scope expand_scope.
Delimit Scope expand_scope with expand.
Notation "x <- m ;; k" := (xbind m (fun x => k))
  (at level 61, m at next level, right associativity) : expand_scope.
Notation "' pat <- m ;; k" := (xbind m (fun x => match x with pat => k end))
  (at level 61, pat pattern, m at next level, right associativity) : expand_scope.
Notation "m ;;; k" := (xbind m (fun _ => k))
  (at level 61, right associativity) : expand_scope.
Close Scope parse_scope.
Open Scope list_scope.
Open Scope expand_scope.

(** Run a list of expansions in order, collecting the results. *)
Fixpoint xseq {A} (l : list (X A)) : X (list A) :=
  match l with
  | [] => xret []
  | m :: r => a <- m ;; x <- xseq r ;; xret (a :: x)
  end.

(** [to_snake_ident] inside an expander, ast/ident.rs:99-106. *)
Definition xsnake (k : kebab) : X ident :=
  match to_snake_ident k with
  | Some i => xret i
  | None => xpanic (PNewRaw (dashes_to_underscores (k_repr k)))
  end.

(** ** ToTokens of the basic ASTs *)

(** [Value::to_tokens], ast/value.rs:74-108. *)
Definition value_tokens (v : value) : X (list tt) :=
  match v with
  | VLit l => xret (lit_tokens l)
  | VBlock ts => xret [TGroup Brace ts]
  | VBracket None ts => xret (kw "move" :: oror ++ [TGroup Brace ts])
  | VBracket (Some p) ts =>
      if ident_is p "f" then
        xret (kw "move" :: oror ++ gpath ["std"; "format"] ++ [pu "!"; par ts])
      else xemit DPrefix ;;; xret []
  end.

(** [#value] for an [Option<Value>]: nothing if absent. *)
Definition opt_value_tokens (v : option value) : X (list tt) :=
  match v with Some v => value_tokens v | None => xret [] end.

(** [value.clone().unwrap_or_else(Value::new_true)],
    expand/subroutines.rs:377,389,399,406,415. *)
Definition value_or_true (v : option value) : value :=
  match v with Some v => v | None => new_true end.

(** [KebabIdent::to_lit_str], ast/ident.rs:72 and
    [KebabIdentOrStr::to_lit_str] / [to_unspanned_string], ast/ident.rs:193-198
    and 210-215, which only differ in spans. *)
Definition key_string (k : kebab_or_str) : string :=
  match k with KKebab k => k_repr k | KStr s => s end.

(** [KebabIdent::to_str_colored], ast/ident.rs:83-89, with [span::color_all],
    span.rs:18-23: a block with one dummy [let __x = ();] per span. *)
Definition to_str_colored (k : kebab) : tt :=
  TGroup Brace
    (List.concat (repeat [kw "let"; kw "__x"; pu "="; par []; pu ";"] (k_spans k))
     ++ [TLit LkStr (k_repr k)]).

(** [KebabIdentOrStr::to_ident_or_emit], ast/ident.rs:200-208. *)
Definition to_ident_or_emit (k : kebab_or_str) : X ident :=
  match k with
  | KKebab k => xsnake k
  | KStr _ => xemit DExpectedIdent ;;; xret (Id false "__invalid_identifier_found_str")
  end.

(** ** expand/utils.rs *)

(** [char::to_ascii_lowercase] on a byte. *)
Definition to_lower (c : ascii) : ascii :=
  if is_upper c then ascii_of_nat (nat_of_ascii c + 32) else c.

(** The loop of [upper_camel_to_snake_case], expand/utils.rs:11-17; [empty] is
    [new.is_empty()]. *)
Fixpoint camel_loop (empty : bool) (s : string) : string :=
  match s with
  | EmptyString => EmptyString
  | String c r =>
      if is_upper c && negb empty
      then String "_" (String (to_lower c) (camel_loop false r))
      else String (to_lower c) (camel_loop false r)
  end.

(** [upper_camel_to_snake_case], expand/utils.rs:8-20. *)
Definition upper_camel_to_snake_case (s : string) : string := camel_loop true s.

(** [emit_error_if_modifier], expand/utils.rs:22-29. *)
Definition emit_error_if_modifier (m : option ident) : X unit :=
  match m with Some _ => xemit DModifier | None => xret Datatypes.tt end.

(** [turbofishify], expand/utils.rs:33-47. *)
Definition turbofish_seg (s : path_seg) : X path_seg :=
  match seg_args s with
  | PNone => xret s
  | PAngle _ ts => xret (PSeg (seg_ident s) (PAngle true ts))
  | PParen _ => xabort DFnGenerics
  end.
Definition turbofishify (p : path) : X path :=
  l <- xseq (map turbofish_seg (segs p)) ;; xret (Path (leading p) l).

(** ** expand/subroutines.rs: shared *)

(** [use_directive_fn_value], expand/subroutines.rs:31-47 (the [assert_eq!] on
    line 38 holds at both call sites, which match on the directive name). *)
Definition use_directive_fn_value (d : directive) : X (ident * list tt) :=
  (if ident_is (d_dir d) "use" then xret Datatypes.tt else xpanic PUnwrap) ;;;
  f <- to_ident_or_emit (d_key d) ;;
  emit_error_if_modifier (d_modifier d) ;;;
  match d_value d with
  | None => xret (f, [par []; pu "."; kw "into"; par []])
  | Some v =>
      v <- value_tokens v ;;
      xret (f, gpath ["std"; "convert"; "Into"; "into"] ++ [par v])
  end.

(** [event_listener_event_path], expand/subroutines.rs:49-83. *)
Definition event_listener_event_path (d : directive) : X (list tt) :=
  (if ident_is (d_dir d) "on" then xret Datatypes.tt else xpanic PUnwrap) ;;;
  ev <- match d_key d with
        | KKebab k => xsnake k
        | KStr _ => xemit DEventType ;;; xret (Id false "invalid_event")
        end ;;
  let base := gpath ["leptos"; "tachys"; "html"; "event"] ++ colon2 in
  match d_modifier d with
  | Some m =>
      if ident_is m "undelegated" then
        xret (base ++ [TIdent m; par (base ++ [TIdent ev])])
      else
        xemit DUnknownOnModifier ;;; xret (base ++ [TIdent ev])
  | None => xret (base ++ [TIdent ev])
  end.

(** [AttributeKind], expand/subroutines.rs:86-97. *)
Inductive attribute_kind := AkClass | AkStyle | AkCustom | AkOther.

(** [str::starts_with] *)
Fixpoint starts_with (p s : string) : bool :=
  match p, s with
  | EmptyString, _ => true
  | String a p', String b s' => Ascii.eqb a b && starts_with p' s'
  | String _ _, EmptyString => false
  end.

(** [AttributeKind::from], expand/subroutines.rs:105-117. *)
Definition attribute_kind_from (s : string) : attribute_kind :=
  if String.eqb s "class" then AkClass
  else if String.eqb s "style" then AkStyle
  else if contains_dash s && negb (starts_with "aria-" s) then AkCustom
  else AkOther.

(** ** expand/subroutines.rs: html/xml only *)

(** [.name(args)] *)
Definition method (name : ident) (args : list tt) : list tt := [pu "."; TIdent name; par args].

(** [SelectorShorthand::ident], ast/attribute/selector.rs:36-41. *)
Definition sel_kebab (s : selector) : kebab := match s with SelId k | SelClass k => k end.
Definition sel_is_class (s : selector) : bool :=
  match s with SelClass _ => true | SelId _ => false end.

(** [xml_selectors_tokens], expand/subroutines.rs:125-143. *)
Definition xml_selectors_tokens (sels : list selector) : list tt :=
  let '(classes, ids) := partition sel_is_class sels in
  flat_map (fun c => method (Id false "class")
                       [par [to_str_colored (sel_kebab c); pu ","; kw "true"]]) classes
  ++ flat_map (fun i => method (Id false "id") [to_str_colored (sel_kebab i)]) ids.

(** [xml_kv_attribute_tokens], expand/subroutines.rs:145-173. *)
Definition xml_kv_attribute_tokens (a : kv_attr) (k : tag_kind) : X (list tt) :=
  let key := k_repr (kv_key a) in
  if String.eqb key "ref" then
    v <- value_tokens (kv_value a) ;; xret (method (Id false "node_ref") v)
  else
    let ak := attribute_kind_from key in
    let is_web_or_svg := match k with KSvg | KWeb => true | _ => false end in
    let is_custom := match ak with AkCustom => true | _ => false end in
    let is_class_or_style := match ak with AkClass | AkStyle => true | _ => false end in
    if (is_web_or_svg || is_custom) && negb is_class_or_style then
      v <- value_tokens (kv_value a) ;;
      xret (method (Id false "attr")
              ([TLit LkStr key; pu ","]
               ++ gpath ["leptos"; "prelude"; "IntoAttributeValue"; "into_attribute_value"]
               ++ [par v]))
    else
      i <- xsnake (kv_key a) ;;
      v <- value_tokens (kv_value a) ;;
      xret (method i v).

(** [xml_directive_tokens], expand/subroutines.rs:175-214. *)
Definition xml_directive_tokens (d : directive) : X (list tt) :=
  let name := ident_to_string (d_dir d) in
  if String.eqb name "class" || String.eqb name "style" then
    emit_error_if_modifier (d_modifier d) ;;;
    v <- opt_value_tokens (d_value d) ;;
    xret (method (d_dir d) [par ([TLit LkStr (key_string (d_key d)); pu ","] ++ v)])
  else if String.eqb name "prop" then
    emit_error_if_modifier (d_modifier d) ;;;
    v <- opt_value_tokens (d_value d) ;;
    xret (method (d_dir d) ([TLit LkStr (key_string (d_key d)); pu ","] ++ v))
  else if String.eqb name "on" then
    p <- event_listener_event_path d ;;
    v <- opt_value_tokens (d_value d) ;;
    xret (method (d_dir d) (p ++ [pu ","] ++ v))
  else if String.eqb name "use" then
    fv <- use_directive_fn_value d ;;
    xret (method (Id false "directive") ([TIdent (fst fv); pu ","] ++ snd fv))
  else if String.eqb name "attr" || String.eqb name "clone" then
    xemit (DNotOnElements name) ;;; xret []
  else xemit DUnknownDirective ;;; xret [].

(** [xml_spread_tokens], expand/subroutines.rs:216-222. *)
Definition xml_spread_tokens (rest : list tt) : list tt :=
  method (Id false "add_any_attr") rest.

(** [NodeChild::to_tokens], ast/children.rs:26-36, given the expansion of the
    value or element. *)
Definition into_render (ts : list tt) : list tt :=
  gpath ["leptos"; "prelude"; "IntoRender"; "into_render"] ++ [par ts].

(** [xml_child_methods_tokens], expand/subroutines.rs:234-245, given the
    expansions of the children. *)
Definition xml_child_methods_tokens (nodes : list (X (list tt))) : X (list tt) :=
  l <- xseq nodes ;; xret (flat_map (fun c => method (Id false "child") c) l).

(** ** expand/subroutines.rs: component only *)

(** [component_kv_attribute_tokens], expand/subroutines.rs:251-254. *)
Definition component_kv_attribute_tokens (a : kv_attr) : X (list tt) :=
  i <- xsnake (kv_key a) ;;
  v <- value_tokens (kv_value a) ;;
  xret (method i v).

(** [component_clone_tokens], expand/subroutines.rs:257-265. *)
Definition component_clone_tokens (d : directive) : X (list tt) :=
  i <- to_ident_or_emit (d_key d) ;;
  emit_error_if_modifier (d_modifier d) ;;;
  match d_value d with Some _ => xemit DCloneValue | None => xret Datatypes.tt end ;;;
  xret [kw "let"; TIdent i; pu "="; TIdent i; pu "."; kw "clone"; par []; pu ";"].

(** [children_fragment_tokens], expand.rs:46-55, given the children's tokens. *)
Definition children_fragment_tokens (nodes : list (list tt)) : list tt :=
  gpath ["leptos"; "prelude"; "View"; "new"] ++
  [par [par (flat_map (fun c => c ++ [pu ","]) nodes)]].

(** [component_children_tokens], expand/subroutines.rs:302-341. *)
Definition component_children_tokens (nodes : list (X (list tt)))
    (args : option (list tt)) (clones : list tt) : X (list tt) :=
  l <- xseq nodes ;;
  let fragment := children_fragment_tokens l in
  let wrapped :=
    match args with
    | Some args => kw "move" :: args ++ fragment
    | None =>
        gpath ["leptos"; "children"; "ToChildren"; "to_children"]
        ++ [par (kw "move" :: oror ++ fragment)]
    end in
  xret (method (Id false "children") [TGroup Brace (clones ++ wrapped)]).

(** [directive_to_any_attr_path], expand/subroutines.rs:371-441; [None] is the
    unknown directive. *)
Definition directive_to_any_attr_path (d : directive) : option (X (list tt)) :=
  let name := ident_to_string (d_dir d) in
  let html := gpath ["leptos"; "tachys"; "html"] in
  if String.eqb name "class" || String.eqb name "style" then
    Some (v <- value_tokens (value_or_true (d_value d)) ;;
          xret (html ++ colon2 ++ [kw name] ++ colon2 ++ [TIdent (d_dir d)]
                ++ [par [par ([TLit LkStr (key_string (d_key d)); pu ","] ++ v)]]))
  else if String.eqb name "attr" then
    Some
      match attribute_kind_from (key_string (d_key d)) with
      | AkClass | AkStyle =>
          i <- to_ident_or_emit (d_key d) ;;
          v <- value_tokens (value_or_true (d_value d)) ;;
          xret (html ++ colon2 ++ [TIdent (unraw i)] ++ colon2 ++ [TIdent i] ++ [par v])
      | AkCustom =>
          v <- value_tokens (value_or_true (d_value d)) ;;
          xret (html ++ gpath ["attribute"; "custom"; "custom_attribute"]
                ++ [par ([TLit LkStr (key_string (d_key d)); pu ","] ++ v)])
      | AkOther =>
          i <- to_ident_or_emit (d_key d) ;;
          v <- value_tokens (value_or_true (d_value d)) ;;
          xret (html ++ gpath ["attribute"] ++ colon2 ++ [TIdent i; par v])
      end
  else if String.eqb name "prop" then
    Some
      (i <- to_ident_or_emit (d_key d) ;;
       v <- value_tokens (value_or_true (d_value d)) ;;
       xret (html ++ gpath ["property"] ++ colon2 ++ [TIdent i; par v]))
  else if String.eqb name "on" then
    Some
      (p <- event_listener_event_path d ;;
       v <- opt_value_tokens (d_value d) ;;
       xret (html ++ gpath ["event"; "on"] ++ [par (p ++ [pu ","] ++ v)]))
  else if String.eqb name "use" then
    Some
      (fv <- use_directive_fn_value d ;;
       xret (html ++ gpath ["directive"; "directive"]
             ++ [par ([TIdent (fst fv); pu ","] ++ snd fv)]))
  else None.

(** ** expand.rs *)

(** The tag path of [xml_to_tokens], expand.rs:86-96; [None] for a component. *)
Definition xml_tag_path (t : tag) : option (list tt) :=
  match t with
  | TagComponent _ => None
  | TagHtml i => Some (gpath ["leptos"; "tachys"; "html"; "element"] ++ colon2 ++ [TIdent i; par []])
  | TagSvg i => Some (gpath ["leptos"; "tachys"; "svg"; "element"] ++ colon2 ++ [TIdent i; par []])
  | TagMath i => Some (gpath ["leptos"; "tachys"; "math"; "element"] ++ colon2 ++ [TIdent i; par []])
  | TagWeb k =>
      Some (gpath ["leptos"; "tachys"; "html"; "element"; "custom"] ++ [par [TLit LkStr (k_repr k)]])
  end.

(** The three token streams filled by the loop of [xml_to_tokens],
    expand.rs:102-114: (attrs, directives, spread_attrs). *)
Fixpoint xml_attr_loop (k : tag_kind) (l : list attr) (acc : list tt * list tt * list tt)
  : X (list tt * list tt * list tt) :=
  match l with
  | [] => xret acc
  | a :: r =>
      let '(kvs, dirs, sps) := acc in
      match a with
      | AKv kv => t <- xml_kv_attribute_tokens kv k ;; xml_attr_loop k r (kvs ++ t, dirs, sps)
      | ADir d => t <- xml_directive_tokens d ;; xml_attr_loop k r (kvs, dirs ++ t, sps)
      | ASpread s => xml_attr_loop k r (kvs, dirs, sps ++ xml_spread_tokens s)
      end
  end.

(** [xml_to_tokens], expand.rs:85-128, given the expansions of the non-slot
    children; [None] for a component. *)
Definition xml_to_tokens (t : tag) (sels : list selector) (attrs : list attr)
    (nodes : option (list (X (list tt)))) : option (X (list tt)) :=
  match xml_tag_path t with
  | None => None
  | Some tag_path =>
      Some
        ('(kvs, dirs, sps) <- xml_attr_loop (kind_of t) attrs ([], [], []) ;;
         ch <- match nodes with
               | Some nodes => xml_child_methods_tokens nodes
               | None => xret []
               end ;;
         xret (tag_path ++ kvs ++ dirs ++ xml_selectors_tokens sels ++ sps ++ ch))
  end.

(** The selector part of [component_to_tokens], expand.rs:185-227: one entry
    per class, then one for all ids. *)
Definition class_directive (k : kebab) : directive :=
  Directive (Id false "class") (KKebab k) None None.
Fixpoint join_space (l : list string) : string :=
  match l with
  | [] => ""
  | [s] => s
  | s :: r => s ++ " " ++ join_space r
  end.
Definition id_directive (ids : list string) : directive :=
  Directive (Id false "attr") (KKebab (Kebab "id" 1)) None
            (Some (VLit (LitTok LkStr (join_space ids)))).
Definition expect_path (o : option (X (list tt))) : X (list tt) :=
  match o with Some x => x | None => xpanic PUnwrap end.
Definition component_selectors (sels : list selector) : X (list (list tt)) :=
  let '(classes, ids) := partition sel_is_class sels in
  cl <- xseq (map (fun s => expect_path (directive_to_any_attr_path (class_directive (sel_kebab s))))
                  classes) ;;
  match ids with
  | [] => xret cl
  | _ =>
      i <- expect_path (directive_to_any_attr_path
                          (id_directive (map (fun s => k_repr (sel_kebab s)) ids))) ;;
      xret (cl ++ [i])
  end.

(** The attribute loop of [component_to_tokens], expand.rs:229-256; the
    accumulator is (attrs, directive_paths, clones). *)
Fixpoint component_attr_loop (slot : bool) (l : list attr)
    (acc : list tt * list (list tt) * list tt) : X (list tt * list (list tt) * list tt) :=
  match l with
  | [] => xret acc
  | a :: r =>
      let '(props, dirs, clones) := acc in
      match a with
      | AKv kv =>
          t <- component_kv_attribute_tokens kv ;;
          component_attr_loop slot r (props ++ t, dirs, clones)
      | ASpread s =>
          if slot then xemit DSlotSpread ;;; component_attr_loop slot r acc
          else component_attr_loop slot r (props, dirs ++ [s], clones)
      | ADir d =>
          if String.eqb (ident_to_string (d_dir d)) "clone" then
            emit_error_if_modifier (d_modifier d) ;;;
            t <- component_clone_tokens d ;;
            component_attr_loop slot r (props, dirs, clones ++ t)
          else if slot then
            xemit (DSlotDirective (ident_to_string (d_dir d))) ;;; component_attr_loop slot r acc
          else
            match directive_to_any_attr_path d with
            | Some m => t <- m ;; component_attr_loop slot r (props, dirs ++ [t], clones)
            | None => xemit DUnknownDirective ;;; component_attr_loop slot r acc
            end
      end
  end.

(** Insertion into the [HashMap] of [slots_to_tokens], expand.rs:358-361, as an
    association list in order of first insertion. *)
Definition ident_eqb (a b : ident) : bool :=
  Bool.eqb (i_raw a) (i_raw b) && String.eqb (i_name a) (i_name b).
Fixpoint slot_insert (m : list (ident * list (list tt))) (k : ident) (t : list tt)
  : list (ident * list (list tt)) :=
  match m with
  | [] => [(k, [t])]
  | (k', l) :: r => if ident_eqb k k' then (k', l ++ [t]) :: r else (k', l) :: slot_insert r k t
  end.
Fixpoint slot_get (m : list (ident * list (list tt))) (k : ident) : list (list tt) :=
  match m with
  | [] => []
  | (k', l) :: r => if ident_eqb k k' then l else slot_get r k
  end.

(** The collecting loop of [slots_to_tokens], expand.rs:345-362, given each
    slot's tag and expansion as a slot. *)
Fixpoint collect_slots (l : list (tag * X (list tt))) (m : list (ident * list (list tt)))
  : X (list (ident * list (list tt))) :=
  match l with
  | [] => xret m
  | (t, x) :: r =>
      match t with
      | TagComponent p =>
          match get_ident p with
          | Some i => ts <- x ;; collect_slots r (slot_insert m i ts)
          | None => xemit DSlotPath ;;; collect_slots r m
          end
      | _ => xpanic PSlotTag
      end
  end.

(** One method call per slot name, expand.rs:367-385. *)
Definition slot_method (k : ident) (slots : list (list tt)) : X (list tt) :=
  let name := upper_camel_to_snake_case (i_name (unraw k)) in
  match new_raw name with
  | None => xpanic (PNewRaw name)
  | Some m =>
      xret
        match slots with
        | [s] => method m s
        | _ =>
            method m
              ([pu "<"; TGroup Bracket [kw "_"]; pu ">"] ++ colon2 ++ [kw "into_vec";
               par (gpath ["std"; "boxed"; "Box"; "new"] ++
                    [par [TGroup Bracket
                       ((fix commas (l : list (list tt)) : list tt :=
                           match l with
                           | [] => []
                           | [s] => s
                           | s :: r => s ++ [pu ","] ++ commas r
                           end) slots)]])])
        end
  end.

(** [slots_to_tokens], expand.rs:339-387; [at_] is the place of the component. *)
Definition slots_to_tokens (E : env) (at_ : list nat) (l : list (tag * X (list tt)))
  : X (list tt) :=
  m <- collect_slots l [] ;;
  r <- xseq (map (fun k => slot_method k (slot_get m k)) (slot_order E at_ (map fst m))) ;;
  xret (List.concat r).

(** [component_to_tokens::<slot>], expand.rs:161-313, given the expansions of
    the non-slot children and of the slots; [None] if not a component. *)
Definition component_to_tokens (E : env) (at_ : list nat) (slot : bool) (t : tag)
    (sels : list selector) (attrs : list attr) (args : option (list tt))
    (nodes : option (list (X (list tt)))) (slots : option (list (tag * X (list tt))))
  : option (X (list tt)) :=
  match t with
  | TagComponent p =>
      Some
        (p <- turbofishify p ;;
         dirs0 <- (if slot then
                     match sels with
                     | [] => xret []
                     | _ => xemit DSlotSelectors ;;; xret []
                     end
                   else component_selectors sels) ;;
         '(props, dirs, clones) <- component_attr_loop slot attrs ([], dirs0, []) ;;
         ch <- match nodes with
               | Some ((_ :: _) as ns) => component_children_tokens ns args clones
               | _ => xret []
               end ;;
         sl <- match slots with
               | Some l => slots_to_tokens E at_ l
               | None => xret []
               end ;;
         let build := method (Id false "build") [] in
         if slot then
           xret (gpath ["std"; "convert"; "Into"; "into"] ++
                 [par (path_tokens p ++ colon2 ++ [kw "builder"; par []] ++ props ++ ch ++ build)])
         else
           let props_builder :=
             gpath ["leptos"; "component"; "component_props_builder"]
             ++ [par (pu "&" :: path_tokens p)] in
           xret ([pu "#"; TGroup Bracket [kw "allow"; par [kw "unreachable_code"]]]
                 ++ gpath ["leptos"; "prelude"; "View"; "new"]
                 ++ [par (gpath ["leptos"; "component"; "component_view"]
                          ++ [par ([pu "&"] ++ path_tokens p ++ [pu ","] ++ props_builder
                                   ++ props ++ ch ++ sl ++ build)]
                          ++ method (Id false "add_any_attr")
                               [par (flat_map (fun d => d ++ [pu ","]) dirs)])]))
  | _ => None
  end.

(** [Element::to_tokens] (ast/element.rs:109-115) for [slot = false] and
    [component_to_tokens::<true>] as called from expand.rs:357 for [slot = true],
    given the expansions of its children. *)
Definition element_tokens (E : env) (at_ : list nat) (slot : bool) (t : tag)
    (sels : list selector) (attrs : list attr) (args : option (list tt))
    (nodes : option (list (X (list tt)))) (slots : option (list (tag * X (list tt))))
  : X (list tt) :=
  if slot then expect_path (component_to_tokens E at_ true t sels attrs args nodes slots)
  else
    match xml_to_tokens t sels attrs nodes with
    | Some x => x
    | None => expect_path (component_to_tokens E at_ false t sels attrs args nodes slots)
    end.

(** The recursion: expand an element at place [at_] (used only to name the
    hash map of that component).  Non-slot children are expanded with
    [NodeChild::to_tokens] (ast/children.rs:26-36). *)
Fixpoint expand_element (E : env) (at_ : list nat) (slot : bool) (e : element) {struct e}
  : X (list tt) :=
  match e with
  | Element t sels attrs args children =>
      let nodes :=
        (fix go (n : nat) (l : list child) : list (X (list tt)) :=
           match l with
           | [] => []
           | CValue v :: r => (ts <- value_tokens v ;; xret (into_render ts)) :: go (S n) r
           | CElement e :: r =>
               (ts <- expand_element E (n :: at_) false e ;; xret (into_render ts)) :: go (S n) r
           | CSlot _ :: r => go (S n) r
           end) in
      let slots :=
        (fix go (n : nat) (l : list child) : list (tag * X (list tt)) :=
           match l with
           | [] => []
           | CSlot e :: r => (el_tag e, expand_element E (n :: at_) true e) :: go (S n) r
           | _ :: r => go (S n) r
           end) in
      element_tokens E at_ slot t sels attrs args
        (option_map (nodes 0) children) (option_map (slots 0) children)
  end.

(** [NodeChild::to_tokens] for one non-slot child, ast/children.rs:26-36. *)
Definition expand_node (E : env) (at_ : list nat) (c : child) : X (list tt) :=
  match c with
  | CValue v => ts <- value_tokens v ;; xret (into_render ts)
  | CElement e => ts <- expand_element E at_ false e ;; xret (into_render ts)
  | CSlot _ => xret []
  end.

(** The expansions of the non-slot children of a list, in order
    ([Children::element_children], ast/children.rs:135-140). *)
Fixpoint expand_nodes (E : env) (at_ : list nat) (n : nat) (l : list child)
  : list (X (list tt)) :=
  match l with
  | [] => []
  | CSlot _ :: r => expand_nodes E at_ (S n) r
  | c :: r => expand_node E (n :: at_) c :: expand_nodes E at_ (S n) r
  end.

(** The slots of a list with their expansions ([Children::slot_children],
    ast/children.rs:143-148). *)
Fixpoint expand_slots (E : env) (at_ : list nat) (n : nat) (l : list child)
  : list (tag * X (list tt)) :=
  match l with
  | [] => []
  | CSlot e :: r => (el_tag e, expand_element E (n :: at_) true e) :: expand_slots E at_ (S n) r
  | _ :: r => expand_slots E at_ (S n) r
  end.
