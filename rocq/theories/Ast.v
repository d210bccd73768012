(** The ASTs of ast/*.rs. *)
From Verif Require Export Syn.

(** [Value], ast/value.rs:28-42 (delimiter spans dropped). *)
Inductive value :=
| VLit (l : lit)
| VBlock (ts : list tt)
| VBracket (prefix : option ident) (ts : list tt).

(** [KebabIdent], ast/ident.rs:41-44.  The vector of spans is reduced to its
    length, which is visible in the expansion ([to_str_colored]). *)
Record kebab := Kebab { k_repr : string; k_spans : nat }.

(** [KebabIdentOrStr], ast/ident.rs:187-190. *)
Inductive kebab_or_str := KKebab (k : kebab) | KStr (s : string).

(** [KvAttr], ast/attribute/kv.rs:26-29. *)
Record kv_attr := KvAttr { kv_key : kebab; kv_value : value }.

(** [Directive], ast/attribute/directive.rs:32-37. *)
Record directive := Directive {
  d_dir : ident; d_key : kebab_or_str; d_modifier : option ident; d_value : option value
}.

(** [Attr] and [Attrs], ast/attribute.rs:16-20 and 48;
    [SpreadAttr], ast/attribute/spread_attrs.rs:13-17. *)
Inductive attr :=
| AKv (a : kv_attr)
| ADir (d : directive)
| ASpread (rest : list tt).

(** [SelectorShorthand(s)], ast/attribute/selector.rs:24-33 and 78. *)
Inductive selector := SelId (k : kebab) | SelClass (k : kebab).

(** [Tag], ast/tag.rs:29-36. *)
Inductive tag :=
| TagHtml (i : ident)
| TagComponent (p : path)
| TagSvg (i : ident)
| TagMath (i : ident)
| TagWeb (k : kebab).

(** [TagKind], ast/tag.rs:87-93. *)
Inductive tag_kind := KHtml | KComponent | KSvg | KMath | KWeb.

(** [Tag::kind], ast/tag.rs:51-59. *)
Definition kind_of (t : tag) : tag_kind :=
  match t with
  | TagHtml _ => KHtml
  | TagComponent _ => KComponent
  | TagSvg _ => KSvg
  | TagMath _ => KMath
  | TagWeb _ => KWeb
  end.

(** [Element] ast/element.rs:45-51, [NodeChild] ast/children.rs:21-24,
    [Child] ast/children.rs:54-57 ([NodeChild] is inlined in [child]). *)
Inductive element :=
| Element (t : tag) (sels : list selector) (attrs : list attr)
          (args : option (list tt)) (children : option (list child))
with child :=
| CValue (v : value)         (* Child::Node(NodeChild::Value(v)) *)
| CElement (e : element)     (* Child::Node(NodeChild::Element(e)) *)
| CSlot (e : element).       (* Child::Slot(_, e) *)

Definition el_tag (e : element) := let 'Element t _ _ _ _ := e in t.
Definition el_sels (e : element) := let 'Element _ s _ _ _ := e in s.
Definition el_attrs (e : element) := let 'Element _ _ a _ _ := e in a.
Definition el_args (e : element) := let 'Element _ _ _ a _ := e in a.
Definition el_children (e : element) := let 'Element _ _ _ _ c := e in c.

(** [Children::element_children] / [slot_children] tests, ast/children.rs:135-148. *)
Definition is_slot (c : child) : bool := match c with CSlot _ => true | _ => false end.
