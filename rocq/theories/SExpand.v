(** The model with spans, part 4: expand.rs, expand/subroutines.rs,
    expand/utils.rs and the [ToTokens] impls (see [Expand.v]).

    [quote!] gives its own tokens the span [Call], [quote_spanned!(s => ..)]
    the span [s]; interpolated tokens keep theirs.  Interpolating a [String] or
    [&str] makes a literal at [Call]. *)
From Verif Require Export SParse.
Close Scope sparse_scope.
Open Scope list_scope.

(** ** Expansion monad *)

Record SX (A : Type) := SXR { sx_out : xout A; sx_diags : list sdiag }.
Arguments SXR {A}. Arguments sx_out {A}. Arguments sx_diags {A}.
Definition sxret {A} (a : A) : SX A := SXR (XRet a) [].
Definition sxpanic {A} (w : panic) : SX A := SXR (XPanic w) [].
Definition sxemit (d : diag) (s : span) : SX unit := SXR (XRet Datatypes.tt) [(d, s)].
Definition sxabort {A} (d : diag) (s : span) : SX A := SXR XAbort [(d, s)].
Definition sxbind {A B} (m : SX A) (f : A -> SX B) : SX B :=
  match m with
  | SXR (XRet a) d => let y := f a in SXR (sx_out y) (d ++ sx_diags y)
  | SXR XAbort d => SXR XAbort d
  | SXR (XPanic w) d => SXR (XPanic w) d
  end.
Declare Scope sexpand_scope.
Delimit Scope sexpand_scope with sexpand.
Notation "x <- m ;; k" := (sxbind m (fun x => k))
  (at level 61, m at next level, right associativity) : sexpand_scope.
Notation "' pat <- m ;; k" := (sxbind m (fun x => match x with pat => k end))
  (at level 61, pat pattern, m at next level, right associativity) : sexpand_scope.
Notation "m ;;; k" := (sxbind m (fun _ => k))
  (at level 61, right associativity) : sexpand_scope.
Open Scope sexpand_scope.

Fixpoint sxseq {A} (l : list (SX A)) : SX (list A) :=
  match l with
  | [] => sxret []
  | m :: r => a <- m ;; x <- sxseq r ;; sxret (a :: x)
  end.

(** [to_snake_ident] inside an expander, ast/ident.rs:99-106. *)
Definition sxsnake (E : senv) (k : skebab) : SX sident :=
  match sto_snake_ident E k with
  | Some i => sxret i
  | None => sxpanic (PNewRaw (dashes_to_underscores (sk_repr k)))
  end.

(** ** ToTokens of the basic ASTs *)

(** The span of a block's tokens, ast/value.rs:82: the content's, or the braces' if it
    is empty. *)
Definition block_span (E : senv) (b : dspan) (ts : list stt) : span :=
  match ts with [] => d_whole b | _ => stream_span E ts end.

(** [Value::to_tokens], ast/value.rs:74-108. *)
Definition svalue_tokens (E : senv) (v : svalue) : SX (list stt) :=
  match v with
  | SVLit l => sxret (slit_tokens l)
  | SVBlock b ts => sxret [sgroup (block_span E b ts) Brace ts]
  | SVBracket None b ts =>
      let s := d_whole b in
      sxret (skw s "move" :: soror s ++ [sgroup s Brace ts])
  | SVBracket (Some p) b ts =>
      if ident_is (si_ident p) "f" then
        let s := d_whole b in
        sxret (skw s "move" :: soror s ++ sgpath s ["std"] ++ scolon2 s
               ++ [skw (si_span p) "format"; spu (si_span p) "!"; spar s ts])
      else sxemit DPrefix (si_span p) ;;; sxret []
  end.
Definition sopt_value_tokens (E : senv) (v : option svalue) : SX (list stt) :=
  match v with Some v => svalue_tokens E v | None => sxret [] end.
Definition svalue_or_true (v : option svalue) : svalue :=
  match v with Some v => v | None => snew_true end.

(** [KebabIdentOrStr::to_unspanned_string], ast/ident.rs:210-215. *)
Definition skey_string (k : skebab_or_str) : string :=
  match k with SKKebab k => sk_repr k | SKStr _ s => s end.

(** [KebabIdent::to_lit_str], ast/ident.rs:72, and [KebabIdentOrStr::to_lit_str],
    ast/ident.rs:193-198. *)
Definition kebab_lit (E : senv) (k : skebab) : stt := sstr (kspan E k) (sk_repr k).
Definition key_lit (E : senv) (k : skebab_or_str) : stt :=
  match k with SKKebab k => kebab_lit E k | SKStr s v => sstr s v end.

(** [KebabIdent::to_str_colored], ast/ident.rs:83-89, with [span::color_all],
    span.rs:18-23: the dummy variables have the spans of the sections, all else has
    none. *)
Definition sto_str_colored (k : skebab) : stt :=
  sgroup Call Brace
    (flat_map (fun s => [skw Call "let"; skw s "__x"; spu Call "="; spar Call []; spu Call ";"])
       (sk_spans k)
     ++ [sstr Call (sk_repr k)]).

(** [KebabIdentOrStr::to_ident_or_emit], ast/ident.rs:200-208. *)
Definition sto_ident_or_emit (E : senv) (k : skebab_or_str) : SX sident :=
  match k with
  | SKKebab k => sxsnake E k
  | SKStr s _ =>
      sxemit DExpectedIdent s ;;; sxret (SId s (Id false "__invalid_identifier_found_str"))
  end.

(** ** expand/utils.rs *)

(** [emit_error_if_modifier], expand/utils.rs:22-29. *)
Definition semit_error_if_modifier (m : option sident) : SX unit :=
  match m with Some m => sxemit DModifier (si_span m) | None => sxret Datatypes.tt end.

(** [turbofishify], expand/utils.rs:33-47; an added [::] comes from [parse_quote!]. *)
Definition sturbofish_seg (E : senv) (s : spath_seg) : SX spath_seg :=
  match sseg_args s with
  | SPNone => sxret s
  | SPAngle (Some l) ts => sxret s
  | SPAngle None ts => sxret (SPSeg (sseg_ident s) (SPAngle (Some [Call; Call]) ts))
  | SPParen ts => sxabort DFnGenerics (stream_span E ts)
  end.
Definition sturbofishify (E : senv) (p : spath) : SX spath :=
  f <- sturbofish_seg E (s_first p) ;;
  l <- sxseq (map (fun x => s <- sturbofish_seg E (snd x) ;; sxret (fst x, s)) (s_more p)) ;;
  sxret (SPath (s_leading p) f l).

(** ** expand/subroutines.rs: shared *)

(** [use_directive_fn_value], expand/subroutines.rs:31-47. *)
Definition suse_directive_fn_value (E : senv) (d : sdirective) : SX (sident * list stt) :=
  (if ident_is (si_ident (sd_dir d)) "use" then sxret Datatypes.tt else sxpanic PUnwrap) ;;;
  f <- sto_ident_or_emit E (sd_key d) ;;
  semit_error_if_modifier (sd_modifier d) ;;;
  match sd_value d with
  | None =>
      let s := si_span f in
      sxret (f, [spar s []; spu s "."; skw s "into"; spar s []])
  | Some v =>
      v <- svalue_tokens E v ;;
      sxret (f, sgpath Call ["std"; "convert"; "Into"; "into"] ++ [spar Call v])
  end.

(** [event_listener_event_path], expand/subroutines.rs:49-83. *)
Definition sevent_listener_event_path (E : senv) (d : sdirective) : SX (list stt) :=
  (if ident_is (si_ident (sd_dir d)) "on" then sxret Datatypes.tt else sxpanic PUnwrap) ;;;
  ev <- match sd_key d with
        | SKKebab k => sxsnake E k
        | SKStr s _ => sxemit DEventType s ;;; sxret (SId s (Id false "invalid_event"))
        end ;;
  let base := sgpath Call ["leptos"; "tachys"; "html"; "event"] ++ scolon2 Call in
  match sd_modifier d with
  | Some m =>
      if ident_is (si_ident m) "undelegated" then
        sxret (base ++ [stoken m; spar Call (base ++ [stoken ev])])
      else
        sxemit DUnknownOnModifier (si_span m) ;;; sxret (base ++ [stoken ev])
  | None => sxret (base ++ [stoken ev])
  end.

(** ** expand/subroutines.rs: html/xml only *)

(** [.name(args)] in [quote!]. *)
Definition smethod (name : sident) (args : list stt) : list stt :=
  [spu Call "."; stoken name; spar Call args].
Definition swd (s : span) (w : string) : sident := SId s (Id false w).

Definition ssel_kebab (s : sselector) : skebab := match s with SSelId _ k | SSelClass _ k => k end.
Definition ssel_is_class (s : sselector) : bool :=
  match s with SSelClass _ _ => true | SSelId _ _ => false end.

(** [xml_selectors_tokens], expand/subroutines.rs:125-143. *)
Definition sxml_selectors_tokens (sels : list sselector) : list stt :=
  let '(classes, ids) := partition ssel_is_class sels in
  flat_map (fun c => smethod (swd (prefix_span c) "class")
                       [spar Call [sto_str_colored (ssel_kebab c); spu Call ","; skw Call "true"]]) classes
  ++ flat_map (fun i => smethod (swd (prefix_span i) "id") [sto_str_colored (ssel_kebab i)]) ids.

(** [xml_kv_attribute_tokens], expand/subroutines.rs:145-173. *)
Definition sxml_kv_attribute_tokens (E : senv) (a : skv_attr) (k : tag_kind) : SX (list stt) :=
  let key := sk_repr (skv_key a) in
  if String.eqb key "ref" then
    v <- svalue_tokens E (skv_value a) ;; sxret (smethod (swd (kspan E (skv_key a)) "node_ref") v)
  else
    let ak := attribute_kind_from key in
    let is_web_or_svg := match k with KSvg | KWeb => true | _ => false end in
    let is_custom := match ak with AkCustom => true | _ => false end in
    let is_class_or_style := match ak with AkClass | AkStyle => true | _ => false end in
    if (is_web_or_svg || is_custom) && negb is_class_or_style then
      v <- svalue_tokens E (skv_value a) ;;
      sxret (smethod (swd Call "attr")
              ([sstr Call key; spu Call ","]
               ++ sgpath Call ["leptos"; "prelude"; "IntoAttributeValue"; "into_attribute_value"]
               ++ [spar Call v]))
    else
      i <- sxsnake E (skv_key a) ;;
      v <- svalue_tokens E (skv_value a) ;;
      sxret (smethod i v).

(** [xml_directive_tokens], expand/subroutines.rs:175-214. *)
Definition sxml_directive_tokens (E : senv) (d : sdirective) : SX (list stt) :=
  let name := ident_to_string (si_ident (sd_dir d)) in
  if String.eqb name "class" || String.eqb name "style" then
    semit_error_if_modifier (sd_modifier d) ;;;
    v <- sopt_value_tokens E (sd_value d) ;;
    sxret (smethod (sd_dir d) [spar Call ([key_lit E (sd_key d); spu Call ","] ++ v)])
  else if String.eqb name "prop" then
    semit_error_if_modifier (sd_modifier d) ;;;
    v <- sopt_value_tokens E (sd_value d) ;;
    sxret (smethod (sd_dir d) ([key_lit E (sd_key d); spu Call ","] ++ v))
  else if String.eqb name "on" then
    p <- sevent_listener_event_path E d ;;
    v <- sopt_value_tokens E (sd_value d) ;;
    sxret (smethod (sd_dir d) (p ++ [spu Call ","] ++ v))
  else if String.eqb name "use" then
    fv <- suse_directive_fn_value E d ;;
    sxret (smethod (swd (si_span (sd_dir d)) "directive") ([stoken (fst fv); spu Call ","] ++ snd fv))
  else if String.eqb name "attr" || String.eqb name "clone" then
    sxemit (DNotOnElements name) (si_span (sd_dir d)) ;;; sxret []
  else sxemit DUnknownDirective (si_span (sd_dir d)) ;;; sxret [].

(** [Spanned::span] of the token [..]. *)
Definition dotdot_span (E : senv) (l : list span) : span :=
  joinx E (hd Call l) (List.last l Call).

(** [xml_spread_tokens], expand/subroutines.rs:216-222. *)
Definition sxml_spread_tokens (E : senv) (dotdot : list span) (rest : list stt) : list stt :=
  smethod (swd (dotdot_span E dotdot) "add_any_attr") rest.

(** [NodeChild::to_tokens], ast/children.rs:26-36. *)
Definition sinto_render (ts : list stt) : list stt :=
  sgpath Call ["leptos"; "prelude"; "IntoRender"; "into_render"] ++ [spar Call ts].

(** Children are given as their span and their expansion. *)
Definition snode := (span * SX (list stt))%type.
Definition srun (nodes : list snode) : SX (list (span * list stt)) :=
  sxseq (map (fun n => ts <- snd n ;; sxret (fst n, ts)) nodes).

(** [xml_child_methods_tokens], expand/subroutines.rs:234-245. *)
Definition sxml_child_methods_tokens (nodes : list snode) : SX (list stt) :=
  l <- srun nodes ;; sxret (flat_map (fun c => smethod (swd (fst c) "child") (snd c)) l).

(** ** expand/subroutines.rs: component only *)

(** [component_kv_attribute_tokens], expand/subroutines.rs:251-254. *)
Definition scomponent_kv_attribute_tokens (E : senv) (a : skv_attr) : SX (list stt) :=
  i <- sxsnake E (skv_key a) ;;
  v <- svalue_tokens E (skv_value a) ;;
  let s := kv_span E a in
  sxret [spu s "."; stoken i; spar s v].

(** [component_clone_tokens], expand/subroutines.rs:257-265. *)
Definition scomponent_clone_tokens (E : senv) (d : sdirective) : SX (list stt) :=
  i <- sto_ident_or_emit E (sd_key d) ;;
  semit_error_if_modifier (sd_modifier d) ;;;
  match sd_value d with Some v => sxemit DCloneValue (svalue_span v) | None => sxret Datatypes.tt end ;;;
  sxret [skw Call "let"; stoken i; spu Call "="; stoken i; spu Call "."; skw Call "clone";
         spar Call []; spu Call ";"].

(** [children_fragment_tokens], expand.rs:46-55. *)
Definition schildren_fragment_tokens (nodes : list (list stt)) (s : span) : list stt :=
  sgpath s ["leptos"; "prelude"; "View"; "new"] ++
  [spar s [spar s (flat_map (fun c => c ++ [spu s ","]) nodes)]].

(** [component_children_tokens], expand/subroutines.rs:302-341. *)
Definition scomponent_children_tokens (E : senv) (nodes : list snode)
    (args : option (list stt)) (clones : list stt) : SX (list stt) :=
  let child_span := match nodes with [] => Call | n :: _ => fst n end in
  l <- srun nodes ;;
  let fragment :=
    schildren_fragment_tokens (map snd l)
      (match args with Some args => stream_span E args | None => Call end) in
  let wrapped :=
    match args with
    | Some args => skw (stream_span E args) "move" :: args ++ fragment
    | None =>
        sgpath Call ["leptos"; "children"; "ToChildren"; "to_children"]
        ++ [spar Call (skw child_span "move" :: soror child_span ++ fragment)]
    end in
  sxret (smethod (swd child_span "children") [sgroup Call Brace (clones ++ wrapped)]).

(** [directive_to_any_attr_path], expand/subroutines.rs:371-441. *)
Definition sdirective_to_any_attr_path (E : senv) (d : sdirective) : option (SX (list stt)) :=
  let name := ident_to_string (si_ident (sd_dir d)) in
  let html := sgpath Call ["leptos"; "tachys"; "html"] in
  if String.eqb name "class" || String.eqb name "style" then
    Some (v <- svalue_tokens E (svalue_or_true (sd_value d)) ;;
          sxret (html ++ scolon2 Call ++ [skw Call name] ++ scolon2 Call ++ [stoken (sd_dir d)]
                ++ [spar Call [spar Call ([sstr Call (skey_string (sd_key d)); spu Call ","] ++ v)]]))
  else if String.eqb name "attr" then
    Some
      match attribute_kind_from (skey_string (sd_key d)) with
      | AkClass | AkStyle =>
          i <- sto_ident_or_emit E (sd_key d) ;;
          v <- svalue_tokens E (svalue_or_true (sd_value d)) ;;
          sxret (html ++ scolon2 Call ++ [SIdent Call (unraw (si_ident i))] ++ scolon2 Call
                 ++ [stoken i] ++ [spar Call v])
      | AkCustom =>
          v <- svalue_tokens E (svalue_or_true (sd_value d)) ;;
          sxret (html ++ sgpath Call ["attribute"; "custom"; "custom_attribute"]
                ++ [spar Call ([sstr Call (skey_string (sd_key d)); spu Call ","] ++ v)])
      | AkOther =>
          i <- sto_ident_or_emit E (sd_key d) ;;
          v <- svalue_tokens E (svalue_or_true (sd_value d)) ;;
          sxret (html ++ sgpath Call ["attribute"] ++ scolon2 Call ++ [stoken i; spar Call v])
      end
  else if String.eqb name "prop" then
    Some
      (i <- sto_ident_or_emit E (sd_key d) ;;
       v <- svalue_tokens E (svalue_or_true (sd_value d)) ;;
       sxret (html ++ sgpath Call ["property"] ++ scolon2 Call ++ [stoken i; spar Call v]))
  else if String.eqb name "on" then
    Some
      (p <- sevent_listener_event_path E d ;;
       v <- sopt_value_tokens E (sd_value d) ;;
       sxret (html ++ sgpath Call ["event"; "on"] ++ [spar Call (p ++ [spu Call ","] ++ v)]))
  else if String.eqb name "use" then
    Some
      (fv <- suse_directive_fn_value E d ;;
       sxret (html ++ sgpath Call ["directive"] ++ scolon2 Call
              ++ [skw (si_span (sd_dir d)) "directive";
                  spar Call ([stoken (fst fv); spu Call ","] ++ snd fv)]))
  else None.

(** ** expand.rs *)

(** The tag path of [xml_to_tokens], expand.rs:86-96. *)
Definition sxml_tag_path (E : senv) (t : stag) : option (list stt) :=
  let element ns i :=
    Some (sgpath Call ["leptos"; "tachys"; ns; "element"] ++ scolon2 Call ++ [stoken i; spar Call []]) in
  match t with
  | STagComponent _ => None
  | STagHtml i => element "html" i
  | STagSvg i => element "svg" i
  | STagMath i => element "math" i
  | STagWeb k =>
      Some (sgpath Call ["leptos"; "tachys"; "html"; "element"] ++ scolon2 Call
            ++ [skw (kspan E k) "custom"; spar Call [kebab_lit E k]])
  end.

(** The attribute loop of [xml_to_tokens], expand.rs:102-114. *)
Fixpoint sxml_attr_loop (E : senv) (k : tag_kind) (l : list sattr)
    (acc : list stt * list stt * list stt) : SX (list stt * list stt * list stt) :=
  match l with
  | [] => sxret acc
  | a :: r =>
      let '(kvs, dirs, sps) := acc in
      match a with
      | SAKv kv => t <- sxml_kv_attribute_tokens E kv k ;; sxml_attr_loop E k r (kvs ++ t, dirs, sps)
      | SADir d => t <- sxml_directive_tokens E d ;; sxml_attr_loop E k r (kvs, dirs ++ t, sps)
      | SASpread _ dd s => sxml_attr_loop E k r (kvs, dirs, sps ++ sxml_spread_tokens E dd s)
      end
  end.

(** [xml_to_tokens], expand.rs:85-128. *)
Definition sxml_to_tokens (E : senv) (t : stag) (sels : list sselector) (attrs : list sattr)
    (nodes : option (list snode)) : option (SX (list stt)) :=
  match sxml_tag_path E t with
  | None => None
  | Some tag_path =>
      Some
        ('(kvs, dirs, sps) <- sxml_attr_loop E (skind_of t) attrs ([], [], []) ;;
         ch <- match nodes with
               | Some nodes => sxml_child_methods_tokens nodes
               | None => sxret []
               end ;;
         sxret (tag_path ++ kvs ++ dirs ++ sxml_selectors_tokens sels ++ sps ++ ch))
  end.

(** The selector part of [component_to_tokens], expand.rs:185-227: a class becomes a
    directive at its [.]; the key [id] is at the first [#]. *)
Definition sclass_directive (s : span) (k : skebab) : sdirective :=
  SDirective (swd s "class") (SKKebab k) None None.
Definition sid_directive (pound : span) (ids : list string) : sdirective :=
  SDirective (swd Call "attr") (SKKebab (SKebab "id" [pound])) None
             (Some (SVLit (SLitTok Call LkStr (join_space ids)))).
Definition sexpect_path (o : option (SX (list stt))) : SX (list stt) :=
  match o with Some x => x | None => sxpanic PUnwrap end.
Definition scomponent_selectors (E : senv) (sels : list sselector) : SX (list (list stt)) :=
  let '(classes, ids) := partition ssel_is_class sels in
  cl <- sxseq (map (fun s => sexpect_path (sdirective_to_any_attr_path E
                               (sclass_directive (prefix_span s) (ssel_kebab s)))) classes) ;;
  match ids with
  | [] => sxret cl
  | first :: _ =>
      i <- sexpect_path (sdirective_to_any_attr_path E
             (sid_directive (prefix_span first) (map (fun s => sk_repr (ssel_kebab s)) ids))) ;;
      sxret (cl ++ [i])
  end.

(** The attribute loop of [component_to_tokens], expand.rs:229-256. *)
Fixpoint scomponent_attr_loop (E : senv) (slot : bool) (l : list sattr)
    (acc : list stt * list (list stt) * list stt) : SX (list stt * list (list stt) * list stt) :=
  match l with
  | [] => sxret acc
  | a :: r =>
      let '(props, dirs, clones) := acc in
      match a with
      | SAKv kv =>
          t <- scomponent_kv_attribute_tokens E kv ;;
          scomponent_attr_loop E slot r (props ++ t, dirs, clones)
      | SASpread b _ s =>
          if slot then sxemit DSlotSpread (d_whole b) ;;; scomponent_attr_loop E slot r acc
          else scomponent_attr_loop E slot r (props, dirs ++ [s], clones)
      | SADir d =>
          if String.eqb (ident_to_string (si_ident (sd_dir d))) "clone" then
            semit_error_if_modifier (sd_modifier d) ;;;
            t <- scomponent_clone_tokens E d ;;
            scomponent_attr_loop E slot r (props, dirs, clones ++ t)
          else if slot then
            sxemit (DSlotDirective (ident_to_string (si_ident (sd_dir d)))) (si_span (sd_dir d)) ;;; scomponent_attr_loop E slot r acc
          else
            match sdirective_to_any_attr_path E d with
            | Some m => t <- m ;; scomponent_attr_loop E slot r (props, dirs ++ [t], clones)
            | None =>
                sxemit DUnknownDirective (si_span (sd_dir d)) ;;; scomponent_attr_loop E slot r acc
            end
      end
  end.

(** The [HashMap] of [slots_to_tokens], expand.rs:358-361: keys are compared without
    their spans, and the first inserted key stays. *)
Fixpoint sslot_insert (m : list (sident * list (list stt))) (k : sident) (t : list stt)
  : list (sident * list (list stt)) :=
  match m with
  | [] => [(k, [t])]
  | (k', l) :: r =>
      if ident_eqb (si_ident k) (si_ident k') then (k', l ++ [t]) :: r
      else (k', l) :: sslot_insert r k t
  end.
Fixpoint sslot_get (m : list (sident * list (list stt))) (k : ident) : span * list (list stt) :=
  match m with
  | [] => (Call, [])
  | (k', l) :: r => if ident_eqb k (si_ident k') then (si_span k', l) else sslot_get r k
  end.

(** The collecting loop of [slots_to_tokens], expand.rs:345-362. *)
Fixpoint scollect_slots (E : senv) (l : list (stag * SX (list stt))) (m : list (sident * list (list stt)))
  : SX (list (sident * list (list stt))) :=
  match l with
  | [] => sxret m
  | (t, x) :: r =>
      match t with
      | STagComponent p =>
          match sget_ident p with
          | Some i => ts <- x ;; scollect_slots E r (sslot_insert m i ts)
          | None => sxemit DSlotPath (spath_span E p) ;;; scollect_slots E r m
          end
      | _ => sxpanic PSlotTag
      end
  end.

(** One method call per slot name, expand.rs:367-385. *)
Definition sslot_method (k : ident) (slots : span * list (list stt)) : SX (list stt) :=
  let name := upper_camel_to_snake_case (i_name (unraw k)) in
  match new_raw name with
  | None => sxpanic (PNewRaw name)
  | Some m =>
      let m := SId (fst slots) m in
      sxret
        match snd slots with
        | [s] => smethod m s
        | _ =>
            smethod m
              ([spu Call "<"; sgroup Call Bracket [skw Call "_"]; spu Call ">"] ++ scolon2 Call
               ++ [skw Call "into_vec";
               spar Call (sgpath Call ["std"; "boxed"; "Box"; "new"] ++
                    [spar Call [sgroup Call Bracket
                       ((fix commas (l : list (list stt)) : list stt :=
                           match l with
                           | [] => []
                           | [s] => s
                           | s :: r => s ++ [spu Call ","] ++ commas r
                           end) (snd slots))]])])
        end
  end.

(** [slots_to_tokens], expand.rs:339-387. *)
Definition sslots_to_tokens (E : senv) (at_ : list nat) (l : list (stag * SX (list stt)))
  : SX (list stt) :=
  m <- scollect_slots E l [] ;;
  r <- sxseq (map (fun k => sslot_method k (sslot_get m k))
                  (slot_order (s_env E) at_ (map (fun x => si_ident (fst x)) m))) ;;
  sxret (List.concat r).

(** [component_to_tokens::<slot>], expand.rs:161-313. *)
Definition scomponent_to_tokens (E : senv) (at_ : list nat) (slot : bool) (t : stag)
    (sels : list sselector) (attrs : list sattr) (args : option (list stt))
    (nodes : option (list snode)) (slots : option (list (stag * SX (list stt))))
  : option (SX (list stt)) :=
  match t with
  | STagComponent p =>
      Some
        (p <- sturbofishify E p ;;
         dirs0 <- (if slot then
                     match sels with
                     | [] => sxret []
                     | first :: _ => sxemit DSlotSelectors (prefix_span first) ;;; sxret []
                     end
                   else scomponent_selectors E sels) ;;
         '(props, dirs, clones) <- scomponent_attr_loop E slot attrs ([], dirs0, []) ;;
         ch <- match nodes with
               | Some ((_ :: _) as ns) => scomponent_children_tokens E ns args clones
               | _ => sxret []
               end ;;
         sl <- match slots with
               | Some l => sslots_to_tokens E at_ l
               | None => sxret []
               end ;;
         let s := spath_span E p in
         let build := [spu s "."; skw s "build"; spar s []] in
         if slot then
           sxret (sgpath Call ["std"; "convert"; "Into"; "into"] ++
                 [spar Call (spath_tokens p ++ scolon2 Call ++ [skw Call "builder"; spar Call []]
                             ++ props ++ ch ++ build)])
         else
           let props_builder :=
             sgpath s ["leptos"; "component"; "component_props_builder"]
             ++ [spar s (spu s "&" :: spath_tokens p)] in
           sxret ([spu Call "#"; sgroup Call Bracket [skw Call "allow"; spar Call [skw Call "unreachable_code"]]]
                 ++ sgpath Call ["leptos"; "prelude"; "View"; "new"]
                 ++ [spar Call (sgpath Call ["leptos"; "component"; "component_view"]
                          ++ [spar Call ([spu Call "&"] ++ spath_tokens p ++ [spu Call ","] ++ props_builder
                                   ++ props ++ ch ++ sl ++ build)]
                          ++ smethod (swd Call "add_any_attr")
                               [spar Call (flat_map (fun d => d ++ [spu Call ","]) dirs)])]))
  | _ => None
  end.

(** [Element::to_tokens], ast/element.rs:109-115, and the slot call expand.rs:357. *)
Definition selement_tokens (E : senv) (at_ : list nat) (slot : bool) (t : stag)
    (sels : list sselector) (attrs : list sattr) (args : option (list stt))
    (nodes : option (list snode)) (slots : option (list (stag * SX (list stt))))
  : SX (list stt) :=
  if slot then sexpect_path (scomponent_to_tokens E at_ true t sels attrs args nodes slots)
  else
    match sxml_to_tokens E t sels attrs nodes with
    | Some x => x
    | None => sexpect_path (scomponent_to_tokens E at_ false t sels attrs args nodes slots)
    end.

(** The recursion, as in [expand_element]. *)
Fixpoint sexpand_element (E : senv) (at_ : list nat) (slot : bool) (e : selement) {struct e}
  : SX (list stt) :=
  match e with
  | SElement t sels attrs args children =>
      let nodes :=
        (fix go (n : nat) (l : list schild) : list snode :=
           match l with
           | [] => []
           | SCValue v :: r =>
               (svalue_span v, ts <- svalue_tokens E v ;; sxret (sinto_render ts)) :: go (S n) r
           | SCElement e :: r =>
               (tag_span E (sel_tag e),
                ts <- sexpand_element E (n :: at_) false e ;; sxret (sinto_render ts)) :: go (S n) r
           | SCSlot _ _ :: r => go (S n) r
           end) in
      let slots :=
        (fix go (n : nat) (l : list schild) : list (stag * SX (list stt)) :=
           match l with
           | [] => []
           | SCSlot _ e :: r => (sel_tag e, sexpand_element E (n :: at_) true e) :: go (S n) r
           | _ :: r => go (S n) r
           end) in
      selement_tokens E at_ slot t sels attrs args
        (option_map (nodes 0) children) (option_map (slots 0) children)
  end.

(** [NodeChild::to_tokens], ast/children.rs:26-36. *)
Definition sexpand_node (E : senv) (at_ : list nat) (c : schild) : SX (list stt) :=
  match c with
  | SCValue v => ts <- svalue_tokens E v ;; sxret (sinto_render ts)
  | SCElement e => ts <- sexpand_element E at_ false e ;; sxret (sinto_render ts)
  | SCSlot _ _ => sxret []
  end.
Fixpoint sexpand_nodes (E : senv) (at_ : list nat) (n : nat) (l : list schild) : list snode :=
  match l with
  | [] => []
  | SCSlot _ _ :: r => sexpand_nodes E at_ (S n) r
  | c :: r => (node_span E c, sexpand_node E (n :: at_) c) :: sexpand_nodes E at_ (S n) r
  end.
Fixpoint sexpand_slots (E : senv) (at_ : list nat) (n : nat) (l : list schild)
  : list (stag * SX (list stt)) :=
  match l with
  | [] => []
  | SCSlot _ e :: r => (sel_tag e, sexpand_element E (n :: at_) true e) :: sexpand_slots E at_ (S n) r
  | _ :: r => sexpand_slots E at_ (S n) r
  end.
