(** How much work the expansion does: the expander of Expand.v and Macro.v once
    more, counting steps.  That it is the same expander is proved in
    WorkXFacts.v.

    Steps are as in Work.v.  A template of [quote!] takes the steps of its tokens
    and of the text in them; a stream that is put into it ([#x]), or added to
    another stream, takes one step for each of its tokens, not counting what is
    inside groups (groups are shared, not copied).  To find the span of a stream
    or a path takes as many steps. *)
From Verif Require Export Work Macro.

(** ** The expansion monad with a counter *)

Definition WX (A : Type) := (nat * X A)%type.

Definition x_pay (n : nat) : WX unit := (n, xret Datatypes.tt).
(** An expander of Expand.v, at a price. *)
Definition x_priced {A} (n : nat) (m : X A) : WX A := (n, m).
Definition x_ret {A} (a : A) : WX A := (0, xret a).
Definition x_panic {A} (w : panic) : WX A := (1, xpanic w).
Definition x_emit (d : diag) : WX unit := (1, xemit d).
Definition x_abort {A} (d : diag) : WX A := (1, xabort d).
Definition x_bind {A B} (m : WX A) (f : A -> WX B) : WX B :=
  (fst m + match x_out (snd m) with XRet a => fst (f a) | _ => 0 end,
   xbind (snd m) (fun a => snd (f a))).

Declare Scope xwork_scope.
Delimit Scope xwork_scope with xwork.
Notation "x <- m ;; k" := (x_bind m (fun x => k))
  (at level 61, m at next level, right associativity) : xwork_scope.
Notation "' pat <- m ;; k" := (x_bind m (fun x => match x with pat => k end))
  (at level 61, pat pattern, m at next level, right associativity) : xwork_scope.
Notation "m ;;; k" := (x_bind m (fun _ => k))
  (at level 61, right associativity) : xwork_scope.
Close Scope parse_scope.
Close Scope work_scope.
Close Scope expand_scope.
Open Scope xwork_scope.

(** Collecting results takes one step each. *)
Fixpoint x_seq {A} (l : list (WX A)) : WX (list A) :=
  match l with
  | [] => x_ret []
  | m :: r => a <- m ;; x_pay 1 ;;; x <- x_seq r ;; x_ret (a :: x)
  end.

(** ** quote *)

(** A piece of a template: a token, a stream that is put in, or a group. *)
Inductive piece :=
| Tok (t : tt)
| Splice (ts : list tt)
| Grp (d : delim) (l : list piece).

Fixpoint piece_tokens (p : piece) : list tt :=
  match p with
  | Tok t => [t]
  | Splice ts => ts
  | Grp d l => [TGroup d (flat_map piece_tokens l)]
  end.
Fixpoint piece_steps (p : piece) : nat :=
  match p with
  | Tok t => weigh t
  | Splice ts => S (List.length ts)
  | Grp d l => S (fold_right (fun p n => piece_steps p + n) 0 l)
  end.
Definition quote_tokens (l : list piece) : list tt := flat_map piece_tokens l.
Definition quote_steps (l : list piece) : nat := fold_right (fun p n => piece_steps p + n) 0 l.
Definition quote (l : list piece) : WX (list tt) := (S (quote_steps l), xret (quote_tokens l)).

(** The fixed tokens of a template. *)
Definition fixed (ts : list tt) : list piece := map Tok ts.
Definition q_method (name : ident) (l : list piece) : list piece :=
  [Tok (pu "."); Tok (TIdent name); Grp Paren l].

(** [tokens.extend(ts)] *)
Definition x_extend (ts : list tt) : WX unit := x_pay (S (List.length ts)).

(** ** ToTokens of the basic ASTs *)

(** [to_snake_ident], ast/ident.rs:99-106: the text is copied, and checked. *)
Definition w_xsnake (k : kebab) : WX ident :=
  x_priced (2 * S (String.length (k_repr k))) (xsnake k).

(** [Value::to_tokens], ast/value.rs:74-108. *)
Definition w_value_tokens (v : value) : WX (list tt) :=
  r <- match v with
       | VLit l => quote (fixed (lit_tokens l))
       | VBlock ts => x_pay (S (List.length ts)) ;;; quote [Grp Brace [Splice ts]]
       | VBracket None ts => quote (fixed (kw "move" :: oror) ++ [Grp Brace [Splice ts]])
       | VBracket (Some p) ts =>
           x_pay (S (String.length (i_name p))) ;;;
           if ident_is p "f" then
             quote (fixed (kw "move" :: oror ++ gpath ["std"; "format"] ++ [pu "!"]) ++ [Grp Paren [Splice ts]])
           else x_emit DPrefix ;;; x_ret []
       end ;;
  x_extend r ;;;
  x_ret r.
Definition w_opt_value_tokens (v : option value) : WX (list tt) :=
  match v with Some v => w_value_tokens v | None => x_ret [] end.

(** [value.clone().unwrap_or_else(Value::new_true)]: the text of a literal is
    copied, tokens are shared. *)
Definition w_value_or_true (v : option value) : WX value :=
  x_pay match value_or_true v with
        | VLit l => weight (lit_tokens l)
        | VBlock _ => 1
        | VBracket None _ => 1
        | VBracket (Some p) _ => S (String.length (i_name p))
        end ;;;
  x_ret (value_or_true v).

(** [KebabIdent::to_lit_str], [KebabIdentOrStr::to_lit_str], [to_unspanned_string]. *)
Definition w_key_string (k : kebab_or_str) : WX string :=
  x_pay (S (String.length (key_string k))) ;;; x_ret (key_string k).

(** [KebabIdent::to_str_colored], ast/ident.rs:83-89: a stream for each span,
    which are put into a block. *)
Definition w_to_str_colored (k : kebab) : WX (list tt) :=
  x_pay (7 * k_spans k) ;;;
  quote [Tok (to_str_colored k)].

(** [KebabIdentOrStr::to_ident_or_emit], ast/ident.rs:200-208. *)
Definition w_to_ident_or_emit (k : kebab_or_str) : WX ident :=
  match k with
  | KKebab k => w_xsnake k
  | KStr _ => x_emit DExpectedIdent ;;; x_pay 31 ;;; x_ret (Id false "__invalid_identifier_found_str")
  end.

(** ** expand/utils.rs *)

Definition w_emit_error_if_modifier (m : option ident) : WX unit :=
  match m with Some _ => x_emit DModifier | None => x_ret Datatypes.tt end.

(** [turbofishify], expand/utils.rs:33-47, and the copy of the path it is given. *)
Definition w_turbofishify (p : path) : WX path :=
  x_pay (S (weight (path_tokens p))) ;;;
  l <- x_seq (map (fun s => x_priced 1 (turbofish_seg s)) (segs p)) ;;
  x_ret (Path (leading p) l).

(** ** expand/subroutines.rs: shared *)

(** Comparing an identifier with a fixed word. *)
Definition compare_steps (i : ident) : nat := S (String.length (i_name i)).

(** [use_directive_fn_value], expand/subroutines.rs:31-47. *)
Definition w_use_directive_fn_value (d : directive) : WX (ident * list tt) :=
  x_pay (compare_steps (d_dir d)) ;;;
  (if ident_is (d_dir d) "use" then x_ret Datatypes.tt else x_panic PUnwrap) ;;;
  f <- w_to_ident_or_emit (d_key d) ;;
  w_emit_error_if_modifier (d_modifier d) ;;;
  match d_value d with
  | None =>
      t <- quote (fixed [par []; pu "."; kw "into"; par []]) ;;
      x_ret (f, t)
  | Some v =>
      v <- w_value_tokens v ;;
      t <- quote (fixed (gpath ["std"; "convert"; "Into"; "into"]) ++ [Grp Paren [Splice v]]) ;;
      x_ret (f, t)
  end.

(** [event_listener_event_path], expand/subroutines.rs:49-83. *)
Definition w_event_listener_event_path (d : directive) : WX (list tt) :=
  x_pay (compare_steps (d_dir d)) ;;;
  (if ident_is (d_dir d) "on" then x_ret Datatypes.tt else x_panic PUnwrap) ;;;
  ev <- match d_key d with
        | KKebab k => w_xsnake k
        | KStr _ => x_emit DEventType ;;; x_pay 14 ;;; x_ret (Id false "invalid_event")
        end ;;
  let base := fixed (gpath ["leptos"; "tachys"; "html"; "event"] ++ colon2) in
  match d_modifier d with
  | Some m =>
      x_pay (compare_steps m) ;;;
      if ident_is m "undelegated" then
        quote (base ++ [Tok (TIdent m); Grp Paren (base ++ [Tok (TIdent ev)])])
      else
        x_emit DUnknownOnModifier ;;; quote (base ++ [Tok (TIdent ev)])
  | None => quote (base ++ [Tok (TIdent ev)])
  end.

(** [AttributeKind::from], expand/subroutines.rs:105-117: three comparisons with
    five letters, and the search for a dash. *)
Definition w_attribute_kind_from (s : string) : WX attribute_kind :=
  x_pay (18 + String.length s) ;;; x_ret (attribute_kind_from s).

(** ** expand/subroutines.rs: html/xml only *)

(** [xml_selectors_tokens], expand/subroutines.rs:125-143. *)
Definition w_class_method (s : selector) : WX (list tt) :=
  c <- w_to_str_colored (sel_kebab s) ;;
  quote (q_method (Id false "class") [Grp Paren ([Splice c] ++ fixed [pu ","; kw "true"])]).
Definition w_id_method (s : selector) : WX (list tt) :=
  c <- w_to_str_colored (sel_kebab s) ;;
  quote (q_method (Id false "id") [Splice c]).
Definition w_xml_selectors_tokens (sels : list selector) : WX (list tt) :=
  x_pay (S (List.length sels)) ;;;
  let '(classes, ids) := partition sel_is_class sels in
  cl <- x_seq (map w_class_method classes) ;;
  il <- x_seq (map w_id_method ids) ;;
  quote (map Splice cl ++ map Splice il).

(** [xml_kv_attribute_tokens], expand/subroutines.rs:145-173. *)
Definition w_xml_kv_attribute_tokens (a : kv_attr) (k : tag_kind) : WX (list tt) :=
  let key := k_repr (kv_key a) in
  x_pay 4 ;;;
  if String.eqb key "ref" then
    v <- w_value_tokens (kv_value a) ;; quote (q_method (Id false "node_ref") [Splice v])
  else
    ak <- w_attribute_kind_from key ;;
    let is_web_or_svg := match k with KSvg | KWeb => true | _ => false end in
    let is_custom := match ak with AkCustom => true | _ => false end in
    let is_class_or_style := match ak with AkClass | AkStyle => true | _ => false end in
    if (is_web_or_svg || is_custom) && negb is_class_or_style then
      v <- w_value_tokens (kv_value a) ;;
      quote (q_method (Id false "attr")
               (fixed ([TLit LkStr key; pu ","]
                       ++ gpath ["leptos"; "prelude"; "IntoAttributeValue"; "into_attribute_value"])
                ++ [Grp Paren [Splice v]]))
    else
      i <- w_xsnake (kv_key a) ;;
      v <- w_value_tokens (kv_value a) ;;
      quote (q_method i [Splice v]).

(** [xml_directive_tokens], expand/subroutines.rs:175-214; the name is compared
    with seven others. *)
Definition dir_steps (d : directive) : nat := 8 * compare_steps (d_dir d).
Definition w_xml_directive_tokens (d : directive) : WX (list tt) :=
  let name := ident_to_string (d_dir d) in
  x_pay (dir_steps d) ;;;
  if String.eqb name "class" || String.eqb name "style" then
    s <- w_key_string (d_key d) ;;
    w_emit_error_if_modifier (d_modifier d) ;;;
    v <- w_opt_value_tokens (d_value d) ;;
    quote (q_method (d_dir d) [Grp Paren (fixed [TLit LkStr s; pu ","] ++ [Splice v])])
  else if String.eqb name "prop" then
    s <- w_key_string (d_key d) ;;
    w_emit_error_if_modifier (d_modifier d) ;;;
    v <- w_opt_value_tokens (d_value d) ;;
    quote (q_method (d_dir d) (fixed [TLit LkStr s; pu ","] ++ [Splice v]))
  else if String.eqb name "on" then
    p <- w_event_listener_event_path d ;;
    v <- w_opt_value_tokens (d_value d) ;;
    quote (q_method (d_dir d) [Splice p; Tok (pu ","); Splice v])
  else if String.eqb name "use" then
    fv <- w_use_directive_fn_value d ;;
    quote (q_method (Id false "directive") [Tok (TIdent (fst fv)); Tok (pu ","); Splice (snd fv)])
  else if String.eqb name "attr" || String.eqb name "clone" then
    x_emit (DNotOnElements name) ;;; x_ret []
  else x_emit DUnknownDirective ;;; x_ret [].

(** [xml_spread_tokens], expand/subroutines.rs:216-222. *)
Definition w_xml_spread_tokens (rest : list tt) : WX (list tt) :=
  quote (q_method (Id false "add_any_attr") [Splice rest]).

(** [Tag::span], ast/tag.rs:42-48: that of a path is found in its tokens. *)
Definition tag_span_steps (t : tag) : nat :=
  match t with TagComponent p => S (weight (path_tokens p)) | _ => 1 end.
(** [NodeChild::span], ast/children.rs:38-45. *)
Definition child_span_steps (c : child) : nat :=
  match c with CValue _ => 1 | CElement e | CSlot e => tag_span_steps (el_tag e) end.

(** [NodeChild::to_tokens], ast/children.rs:26-36.  The span of the child, which
    [xml_child_methods_tokens] (expand/subroutines.rs:239) asks for each child and
    [component_children_tokens] (expand/subroutines.rs:308-311) for the first, is
    counted here. *)
Definition w_into_render (span : nat) (m : WX (list tt)) : WX (list tt) :=
  x_pay span ;;;
  ts <- m ;;
  x_extend ts ;;;
  r <- quote (fixed (gpath ["leptos"; "prelude"; "IntoRender"; "into_render"]) ++ [Grp Paren [Splice ts]]) ;;
  x_extend r ;;;
  x_ret r.

(** [xml_child_methods_tokens], expand/subroutines.rs:234-245. *)
Definition w_child_method (m : WX (list tt)) : WX (list tt) :=
  c <- m ;;
  r <- quote (q_method (Id false "child") [Splice c]) ;;
  x_extend r ;;;
  x_ret r.
Definition w_xml_child_methods_tokens (nodes : list (WX (list tt))) : WX (list tt) :=
  l <- x_seq (map w_child_method nodes) ;; x_ret (List.concat l).

(** ** expand/subroutines.rs: component only *)

(** [component_kv_attribute_tokens], expand/subroutines.rs:251-254. *)
Definition w_component_kv_attribute_tokens (a : kv_attr) : WX (list tt) :=
  i <- w_xsnake (kv_key a) ;;
  v <- w_value_tokens (kv_value a) ;;
  quote (q_method i [Splice v]).

(** [component_clone_tokens], expand/subroutines.rs:257-265. *)
Definition w_component_clone_tokens (d : directive) : WX (list tt) :=
  i <- w_to_ident_or_emit (d_key d) ;;
  w_emit_error_if_modifier (d_modifier d) ;;;
  match d_value d with Some _ => x_emit DCloneValue | None => x_ret Datatypes.tt end ;;;
  quote (fixed [kw "let"; TIdent i; pu "="; TIdent i; pu "."; kw "clone"; par []; pu ";"]).

(** [children_fragment_tokens], expand.rs:46-55. *)
Definition w_children_fragment_tokens (nodes : list (list tt)) : WX (list tt) :=
  quote (fixed (gpath ["leptos"; "prelude"; "View"; "new"]) ++
         [Grp Paren [Grp Paren (flat_map (fun c => [Splice c; Tok (pu ",")]) nodes)]]).

(** [component_children_tokens], expand/subroutines.rs:302-341; the span of the
    arguments is asked for twice. *)
Definition w_component_children_tokens (nodes : list (WX (list tt)))
    (args : option (list tt)) (clones : list tt) : WX (list tt) :=
  x_pay match args with Some args => 2 * S (List.length args) | None => 1 end ;;;
  l <- x_seq nodes ;;
  fragment <- w_children_fragment_tokens l ;;
  wrapped <-
    match args with
    | Some args => quote [Tok (kw "move"); Splice args; Splice fragment]
    | None =>
        closure <- quote (fixed (kw "move" :: oror) ++ [Splice fragment]) ;;
        quote (fixed (gpath ["leptos"; "children"; "ToChildren"; "to_children"]) ++ [Grp Paren [Splice closure]])
    end ;;
  quote (q_method (Id false "children") [Grp Brace [Splice clones; Splice wrapped]]).

(** [directive_to_any_attr_path], expand/subroutines.rs:371-441, after the name of
    the directive has been compared. *)
Definition w_directive_to_any_attr_path (d : directive) : option (WX (list tt)) :=
  let name := ident_to_string (d_dir d) in
  let html := gpath ["leptos"; "tachys"; "html"] in
  if String.eqb name "class" || String.eqb name "style" then
    Some (s <- w_key_string (d_key d) ;;
          v <- w_value_or_true (d_value d) ;;
          x_pay (compare_steps (d_dir d)) ;;;
          v <- w_value_tokens v ;;
          quote (fixed (html ++ colon2 ++ [kw name] ++ colon2 ++ [TIdent (d_dir d)])
                 ++ [Grp Paren [Grp Paren (fixed [TLit LkStr s; pu ","] ++ [Splice v])]]))
  else if String.eqb name "attr" then
    Some
      (s <- w_key_string (d_key d) ;;
       ak <- w_attribute_kind_from s ;;
       match ak with
       | AkClass | AkStyle =>
           i <- w_to_ident_or_emit (d_key d) ;;
           v <- w_value_or_true (d_value d) ;;
           x_pay (compare_steps i) ;;;
           v <- w_value_tokens v ;;
           quote (fixed (html ++ colon2 ++ [TIdent (unraw i)] ++ colon2 ++ [TIdent i]) ++ [Grp Paren [Splice v]])
       | AkCustom =>
           s <- w_key_string (d_key d) ;;
           v <- w_value_or_true (d_value d) ;;
           v <- w_value_tokens v ;;
           quote (fixed (html ++ gpath ["attribute"; "custom"; "custom_attribute"])
                  ++ [Grp Paren (fixed [TLit LkStr s; pu ","] ++ [Splice v])])
       | AkOther =>
           i <- w_to_ident_or_emit (d_key d) ;;
           v <- w_value_or_true (d_value d) ;;
           v <- w_value_tokens v ;;
           quote (fixed (html ++ gpath ["attribute"] ++ colon2 ++ [TIdent i]) ++ [Grp Paren [Splice v]])
       end)
  else if String.eqb name "prop" then
    Some
      (i <- w_to_ident_or_emit (d_key d) ;;
       v <- w_value_or_true (d_value d) ;;
       v <- w_value_tokens v ;;
       quote (fixed (html ++ gpath ["property"] ++ colon2 ++ [TIdent i]) ++ [Grp Paren [Splice v]]))
  else if String.eqb name "on" then
    Some
      (p <- w_event_listener_event_path d ;;
       v <- w_opt_value_tokens (d_value d) ;;
       quote (fixed (html ++ gpath ["event"; "on"]) ++ [Grp Paren [Splice p; Tok (pu ","); Splice v]]))
  else if String.eqb name "use" then
    Some
      (fv <- w_use_directive_fn_value d ;;
       quote (fixed (html ++ gpath ["directive"; "directive"])
              ++ [Grp Paren [Tok (TIdent (fst fv)); Tok (pu ","); Splice (snd fv)]]))
  else None.

(** ** expand.rs *)

(** The tag path of [xml_to_tokens], expand.rs:86-96. *)
Definition w_xml_tag_path (t : tag) : option (WX (list tt)) :=
  match xml_tag_path t with
  | Some ts => Some (quote (fixed ts))
  | None => None
  end.

(** The loop of [xml_to_tokens], expand.rs:102-114. *)
Fixpoint w_xml_attr_loop (k : tag_kind) (l : list attr) (acc : list tt * list tt * list tt)
  : WX (list tt * list tt * list tt) :=
  match l with
  | [] => x_ret acc
  | a :: r =>
      let '(kvs, dirs, sps) := acc in
      match a with
      | AKv kv =>
          t <- w_xml_kv_attribute_tokens kv k ;;
          x_extend t ;;; w_xml_attr_loop k r (kvs ++ t, dirs, sps)
      | ADir d =>
          t <- w_xml_directive_tokens d ;;
          x_extend t ;;; w_xml_attr_loop k r (kvs, dirs ++ t, sps)
      | ASpread s =>
          t <- w_xml_spread_tokens s ;;
          x_extend t ;;; w_xml_attr_loop k r (kvs, dirs, sps ++ t)
      end
  end.

(** [xml_to_tokens], expand.rs:85-128.  The selectors are turned into tokens before
    the attributes there; they cannot fail. *)
Definition w_xml_to_tokens (t : tag) (sels : list selector) (attrs : list attr)
    (nodes : option (list (WX (list tt)))) : option (WX (list tt)) :=
  match w_xml_tag_path t with
  | None => None
  | Some tag_path =>
      Some
        (tag_path <- tag_path ;;
         sel <- w_xml_selectors_tokens sels ;;
         '(kvs, dirs, sps) <- w_xml_attr_loop (kind_of t) attrs ([], [], []) ;;
         ch <- match nodes with
               | Some nodes => w_xml_child_methods_tokens nodes
               | None => x_ret []
               end ;;
         quote (map Splice [tag_path; kvs; dirs; sel; sps; ch]))
  end.

(** The selector part of [component_to_tokens], expand.rs:185-227: the name of each
    selector is copied; ids are joined. *)
Definition w_expect_path (o : option (WX (list tt))) : WX (list tt) :=
  match o with Some x => x | None => x_panic PUnwrap end.
Definition copy_steps (k : kebab) : nat := S (String.length (k_repr k)) + k_spans k.
Definition w_component_selectors (sels : list selector) : WX (list (list tt)) :=
  let '(classes, ids) := partition sel_is_class sels in
  cl <- x_seq (map (fun s =>
                      x_pay (S (copy_steps (sel_kebab s))) ;;;
                      x_pay (dir_steps (class_directive (sel_kebab s))) ;;;
                      w_expect_path (w_directive_to_any_attr_path (class_directive (sel_kebab s))))
                   classes) ;;
  match ids with
  | [] => x_ret cl
  | _ =>
      x_pay (fold_right (fun s n => S (copy_steps (sel_kebab s)) + n) 0 ids) ;;;
      let joined := id_directive (map (fun s => k_repr (sel_kebab s)) ids) in
      x_pay (S (String.length (join_space (map (fun s => k_repr (sel_kebab s)) ids)))) ;;;
      x_pay (dir_steps joined) ;;;
      i <- w_expect_path (w_directive_to_any_attr_path joined) ;;
      x_ret (cl ++ [i])
  end.

(** The attribute loop of [component_to_tokens], expand.rs:229-256. *)
Fixpoint w_component_attr_loop (slot : bool) (l : list attr)
    (acc : list tt * list (list tt) * list tt) : WX (list tt * list (list tt) * list tt) :=
  match l with
  | [] => x_ret acc
  | a :: r =>
      let '(props, dirs, clones) := acc in
      match a with
      | AKv kv =>
          t <- w_component_kv_attribute_tokens kv ;;
          x_extend t ;;; w_component_attr_loop slot r (props ++ t, dirs, clones)
      | ASpread s =>
          if slot then x_emit DSlotSpread ;;; w_component_attr_loop slot r acc
          else x_pay 1 ;;; w_component_attr_loop slot r (props, dirs ++ [s], clones)
      | ADir d =>
          x_pay (2 * dir_steps d) ;;;
          if String.eqb (ident_to_string (d_dir d)) "clone" then
            w_emit_error_if_modifier (d_modifier d) ;;;
            t <- w_component_clone_tokens d ;;
            x_extend t ;;; w_component_attr_loop slot r (props, dirs, clones ++ t)
          else if slot then
            x_emit (DSlotDirective (ident_to_string (d_dir d))) ;;; w_component_attr_loop slot r acc
          else
            match w_directive_to_any_attr_path d with
            | Some m => t <- m ;; x_pay 1 ;;; w_component_attr_loop slot r (props, dirs ++ [t], clones)
            | None => x_emit DUnknownDirective ;;; w_component_attr_loop slot r acc
            end
      end
  end.

(** The collecting loop of [slots_to_tokens], expand.rs:345-362: the name is copied
    and looked up in the hash map. *)
Fixpoint w_collect_slots (l : list (tag * WX (list tt))) (m : list (ident * list (list tt)))
  : WX (list (ident * list (list tt))) :=
  match l with
  | [] => x_ret m
  | (t, x) :: r =>
      match t with
      | TagComponent p =>
          match get_ident p with
          | Some i =>
              ts <- x ;;
              x_pay (2 * compare_steps i) ;;;
              w_collect_slots r (slot_insert m i ts)
          | None =>
              x_pay (tag_span_steps t) ;;;
              x_emit DSlotPath ;;; w_collect_slots r m
          end
      | _ => x_panic PSlotTag
      end
  end.

(** One method call per slot name, expand.rs:367-385: the name is copied without
    [r#], changed, and checked. *)
Fixpoint commas (l : list (list tt)) : list piece :=
  match l with
  | [] => []
  | [s] => [Splice s]
  | s :: r => [Splice s; Tok (pu ",")] ++ commas r
  end.
Definition w_slot_method (k : ident) (slots : list (list tt)) : WX (list tt) :=
  let name := upper_camel_to_snake_case (i_name (unraw k)) in
  x_pay (S (String.length (i_name k)) + 2 * S (String.length name)) ;;;
  match new_raw name with
  | None => x_panic (PNewRaw name)
  | Some m =>
      r <- match slots with
           | [s] => quote (q_method m [Splice s])
           | _ =>
               quote (q_method m
                 (fixed ([pu "<"; TGroup Bracket [kw "_"]; pu ">"] ++ colon2 ++ [kw "into_vec"]) ++
                  [Grp Paren (fixed (gpath ["std"; "boxed"; "Box"; "new"]) ++
                              [Grp Paren [Grp Bracket (commas slots)]])]))
           end ;;
      x_extend r ;;;
      x_ret r
  end.

(** [slots_to_tokens], expand.rs:339-387. *)
Definition w_slots_to_tokens (E : env) (at_ : list nat) (l : list (tag * WX (list tt)))
  : WX (list tt) :=
  m <- w_collect_slots l [] ;;
  r <- x_seq (map (fun k => w_slot_method k (slot_get m k)) (slot_order E at_ (map fst m))) ;;
  x_ret (List.concat r).

(** [component_to_tokens::<slot>], expand.rs:161-313; the span of the path is asked
    for twice. *)
Definition w_component_to_tokens (E : env) (at_ : list nat) (slot : bool) (t : tag)
    (sels : list selector) (attrs : list attr) (args : option (list tt))
    (nodes : option (list (WX (list tt)))) (slots : option (list (tag * WX (list tt))))
  : option (WX (list tt)) :=
  match t with
  | TagComponent p =>
      Some
        (p <- w_turbofishify p ;;
         dirs0 <- (if slot then
                     match sels with
                     | [] => x_ret []
                     | _ => x_emit DSlotSelectors ;;; x_ret []
                     end
                   else w_component_selectors sels) ;;
         '(props, dirs, clones) <- w_component_attr_loop slot attrs ([], dirs0, []) ;;
         ch <- match nodes with
               | Some ((_ :: _) as ns) => w_component_children_tokens ns args clones
               | _ => x_ret []
               end ;;
         sl <- match slots with
               | Some l => w_slots_to_tokens E at_ l
               | None => x_ret []
               end ;;
         x_pay (S (weight (path_tokens p))) ;;;
         build <- quote (q_method (Id false "build") []) ;;
         if slot then
           quote (fixed (gpath ["std"; "convert"; "Into"; "into"]) ++
                  [Grp Paren ([Splice (path_tokens p)] ++ fixed (colon2 ++ [kw "builder"; par []])
                              ++ map Splice [props; ch; build])])
         else
           x_pay (S (weight (path_tokens p))) ;;;
           props_builder <-
             quote (fixed (gpath ["leptos"; "component"; "component_props_builder"])
                    ++ [Grp Paren [Tok (pu "&"); Splice (path_tokens p)]]) ;;
           quote (fixed ([pu "#"; TGroup Bracket [kw "allow"; par [kw "unreachable_code"]]]
                         ++ gpath ["leptos"; "prelude"; "View"; "new"])
                  ++ [Grp Paren
                        (fixed (gpath ["leptos"; "component"; "component_view"])
                         ++ [Grp Paren ([Tok (pu "&"); Splice (path_tokens p); Tok (pu ",")]
                                        ++ map Splice [props_builder; props; ch; sl; build])]
                         ++ q_method (Id false "add_any_attr")
                              [Grp Paren (flat_map (fun d => [Splice d; Tok (pu ",")]) dirs)])]))
  | _ => None
  end.

(** [Element::to_tokens], ast/element.rs:109-115, and [component_to_tokens::<true>]
    as called from expand.rs:357. *)
Definition w_element_tokens (E : env) (at_ : list nat) (slot : bool) (t : tag)
    (sels : list selector) (attrs : list attr) (args : option (list tt))
    (nodes : option (list (WX (list tt)))) (slots : option (list (tag * WX (list tt))))
  : WX (list tt) :=
  if slot then w_expect_path (w_component_to_tokens E at_ true t sels attrs args nodes slots)
  else
    r <- match w_xml_to_tokens t sels attrs nodes with
         | Some x => x
         | None => w_expect_path (w_component_to_tokens E at_ false t sels attrs args nodes slots)
         end ;;
    x_extend r ;;;
    x_ret r.

(** The recursion; each child is one step of the iterators. *)
Fixpoint w_expand_element (E : env) (at_ : list nat) (slot : bool) (e : element) {struct e}
  : WX (list tt) :=
  match e with
  | Element t sels attrs args children =>
      let nodes :=
        (fix go (n : nat) (l : list child) : list (WX (list tt)) :=
           match l with
           | [] => []
           | CValue v :: r => w_into_render 1 (w_value_tokens v) :: go (S n) r
           | CElement e :: r =>
               w_into_render (tag_span_steps (el_tag e)) (w_expand_element E (n :: at_) false e) :: go (S n) r
           | CSlot _ :: r => go (S n) r
           end) in
      let slots :=
        (fix go (n : nat) (l : list child) : list (tag * WX (list tt)) :=
           match l with
           | [] => []
           | CSlot e :: r => (el_tag e, w_expand_element E (n :: at_) true e) :: go (S n) r
           | _ :: r => go (S n) r
           end) in
      x_pay match children with Some l => 2 * S (List.length l) | None => 2 end ;;;
      w_element_tokens E at_ slot t sels attrs args
        (option_map (nodes 0) children) (option_map (slots 0) children)
  end.

Definition w_expand_node (E : env) (at_ : list nat) (c : child) : WX (list tt) :=
  match c with
  | CValue v => w_into_render 1 (w_value_tokens v)
  | CElement e => w_into_render (tag_span_steps (el_tag e)) (w_expand_element E at_ false e)
  | CSlot _ => x_ret []
  end.
Fixpoint w_expand_nodes (E : env) (at_ : list nat) (n : nat) (l : list child)
  : list (WX (list tt)) :=
  match l with
  | [] => []
  | CSlot _ :: r => w_expand_nodes E at_ (S n) r
  | c :: r => w_expand_node E (n :: at_) c :: w_expand_nodes E at_ (S n) r
  end.
Fixpoint w_expand_slots (E : env) (at_ : list nat) (n : nat) (l : list child)
  : list (tag * WX (list tt)) :=
  match l with
  | [] => []
  | CSlot e :: r => (el_tag e, w_expand_element E (n :: at_) true e) :: w_expand_slots E at_ (S n) r
  | _ :: r => w_expand_slots E at_ (S n) r
  end.

(** ** lib.rs *)

(** lib.rs:37-64. *)
Definition w_root_tokens (E : env) (cs : list child) : WX (list tt) :=
  x_pay (2 * S (List.length cs)) ;;;
  let allow := fixed [pu "#"; TGroup Bracket [kw "allow"; par [kw "unused_braces"]]] in
  match cs with
  | [c] =>
      match c with
      | CSlot e => x_pay (tag_span_steps (el_tag e)) ;;; x_abort DRootSlot
      | _ =>
          ts <- w_expand_node E [0] c ;;
          quote [Grp Brace (allow ++ [Splice ts])]
      end
  | _ =>
      if existsb is_slot cs then
        x_pay (fold_right (fun c n => child_span_steps c + n) 0 cs) ;;; x_abort DRootSlot
      else
        l <- x_seq (w_expand_nodes E [] 0 cs) ;;
        fragment <- w_children_fragment_tokens l ;;
        quote [Grp Brace (allow ++ [Splice fragment])]
  end.

(** Steps of expanding what has been parsed. *)
Definition expand_steps (E : env) (cs : list child) : nat := fst (w_root_tokens E cs).

(** [mview_impl], lib.rs:24-65: parsing, then expanding. *)
Definition mview_steps (G : list tt -> nat) (E : env) (input : list tt) : nat :=
  parse_steps G E input +
  match p_out (parse_children E (S (size input)) input) with
  | Ret cs => expand_steps E cs
  | _ => 0
  end.
