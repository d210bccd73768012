(** A view that is being typed: what is there so far of a finished view.

    Closing delimiters count as typed (token streams have matching ones). *)
From Verif Require Import SpecStr SpecGrammar SpecContext.
From Verif Require Export Ast.
Open Scope list_scope.

(** The second is the first one up to some place, in however many groups. *)
Inductive cut : list tt -> list tt -> Prop :=
| cut_here a b : cut (a ++ b) a
| cut_in a d x y b : cut x y -> cut (a ++ TGroup d x :: b) (a ++ [TGroup d y]).

(** ** What is read and reported of it *)

(** The errors that the end of the input causes: after [slot:], within the
    [::] of [slot: ::Path], after the [::] of a path, within generic arguments,
    within closure arguments, within [..]. *)
Inductive unfinished : perr -> Prop :=
| uf_slot : unfinished (EKebab AtEnd)
| uf_slot_path : unfinished (EKebab AtOther)
| uf_path : unfinished (EIdent AtEnd)
| uf_generics : unfinished EGenerics
| uf_args : unfinished EClosure
| uf_dots : unfinished EChild.

(** After a tag or selectors: nothing, or the dot of [.class], the [#] of
    [#id] or the first colon of [A::B]. *)
Inductive dangling : list tt -> list diag -> Prop :=
| dg_none : dangling [] [DUnterminated]
| dg_token c sp : (c = "." \/ c = "#" \/ c = ":")%char ->
    dangling [TPunct c sp] [DUnknownAttr; DNoChildElements; DParse EChild].

(** The same attribute but for its value. *)
Inductive other_value : attr -> attr -> Prop :=
| ov_kv k v v' : other_value (AKv (KvAttr k v)) (AKv (KvAttr k v'))
| ov_dir i k m v v' : other_value (ADir (Directive i k m v)) (ADir (Directive i k m v')).

(** What there is of an attribute (or of a block of children that looks like one). *)
Inductive attr_begun : list tt -> list attr -> option (list child) -> list diag -> Prop :=
| ab_none : attr_begun [] [] None [DUnterminated]
(* it is one *)
| ab_attr p a : attr_phrase p a [] -> attr_begun p [a] None [DUnterminated]
(* [key=], or [key=-] and [key=f] of [key=-1] and [key=f[..]]; the last are taken for another attribute *)
| ab_value p sp z a a' l help : attr_phrase p a [] -> other_value a a' -> List.length z <= 1 -> attr_run z l [] ->
    attr_begun (p ++ TPunct "=" sp :: z) (a' :: l) None [DExpectedValue help; DUnterminated]
(* [{}] and [{.}] are taken for blocks *)
| ab_braces : attr_begun [TGroup Brace []] [] (Some []) []
| ab_dot sp : attr_begun [TGroup Brace [TPunct "." sp]] [] (Some []) [DParse EChild].

(** [started y cs cs' ds]: of a view with tree [cs] there is [y], which is read
    as [cs'], and [ds] is reported.  All that comes before is the same, and the
    last child may be unfinished; it is left out only if that is reported. *)
Inductive started (E : env) : list tt -> list child -> list child -> list diag -> Prop :=
| st_done u before after : children_phrase E u before -> started E u (before ++ after) before []
| st_lost u v before ts c follow after e :
    children_phrase E u before -> child_phrase E ts c follow -> cut ts v -> v <> [] -> unfinished e ->
    started E (u ++ v) (before ++ c :: after) before [DParse e]
| st_last u v before c c' after ds :
    children_phrase E u before -> begun E v c c' ds ->
    started E (u ++ v) (before ++ c :: after) (before ++ [c']) ds
with begun (E : env) : list tt -> child -> child -> list diag -> Prop :=
(* within the children *)
| bg_children slot u args d y t sels attrs cs cs' ds :
    elem_head E u t sels attrs (args_tokens args ++ [TGroup d y]) -> started E y cs cs' ds ->
    begun E (slot_tokens slot ++ u ++ args_tokens args ++ [TGroup d y])
          (as_child slot (Element t sels attrs (args_kept args) (Some cs)))
          (as_child slot (Element t sels attrs (args_kept args) (Some cs'))) ds
(* after [|args|] *)
| bg_args slot u args t sels attrs cs :
    elem_head E u t sels attrs (args_tokens (Some args)) ->
    begun E (slot_tokens slot ++ u ++ args_tokens (Some args))
          (as_child slot (Element t sels attrs (args_kept (Some args)) cs))
          (as_child slot (Element t sels attrs (args_kept (Some args)) None)) [DNoChildrenAfterArgs]
(* within the attributes, or at the first child, which looks like one *)
| bg_attrs slot u p t sels attrs attrs1 attrs2 args cs cs' ds :
    open_head E u t sels attrs p -> attr_begun p attrs2 cs' ds ->
    begun E (slot_tokens slot ++ u ++ p)
          (as_child slot (Element t sels (attrs ++ attrs1) args cs))
          (as_child slot (Element t sels (attrs ++ attrs2) None cs')) ds
(* within the selectors *)
| bg_selectors slot u p t sels sels1 sels2 attrs args cs ds :
    open_tag E u t (sels ++ sels2) p -> List.length sels2 <= 1 -> dangling p ds ->
    begun E (slot_tokens slot ++ u ++ p)
          (as_child slot (Element t (sels ++ sels1) attrs args cs))
          (as_child slot (Element t (sels ++ sels2) [] None None)) ds
(* within the tag *)
| bg_tag slot ts follow u p t t' sels attrs args cs ds :
    tag_phrase E ts t follow -> cut ts (u ++ p) -> tag_phrase E u t' p -> dangling p ds ->
    begun E (slot_tokens slot ++ u ++ p)
          (as_child slot (Element t sels attrs args cs)) (as_child slot (Element t' [] [] None None)) ds
(* only the word [slot] of [slot:] *)
| bg_slot e t' : tag_phrase E [TIdent (Id false "slot")] t' [] ->
    begun E [TIdent (Id false "slot")] (CSlot e) (CElement (Element t' [] [] None None)) [DUnterminated]
(* within a value *)
| bg_block ts ts' : cut ts ts' -> begun E [TGroup Brace ts'] (CValue (VBlock ts)) (CValue (VBlock ts')) []
| bg_bracket prefix ts ts' : cut ts ts' ->
    begun E (match prefix with Some i => [TIdent i] | None => [] end ++ [TGroup Bracket ts'])
          (CValue (VBracket prefix ts)) (CValue (VBracket prefix ts')) []
(* its prefix looks like a tag, or is a literal of the wrong kind *)
| bg_prefix i ts t' : tag_phrase E [TIdent i] t' [] ->
    begun E [TIdent i] (CValue (VBracket (Some i) ts)) (CElement (Element t' [] [] None None)) [DUnterminated]
| bg_bool i ts : i = Id false "true" \/ i = Id false "false" ->
    begun E [TIdent i] (CValue (VBracket (Some i) ts)) (CValue (VLit (LitTok LkStr ""))) [DNonStrChild].

(** All that can be reported: *)
Inductive typing_reports : list diag -> Prop :=
(* nothing unfinished *)
| ty_none : typing_reports []
(* an element without end *)
| ty_element : typing_reports [DUnterminated]
(* the same after [key=] *)
| ty_value help : typing_reports [DExpectedValue help; DUnterminated]
(* after [|args|] *)
| ty_block : typing_reports [DNoChildrenAfterArgs]
(* after the dot of [.class], the [#] of [#id] or the first colon of [A::B] *)
| ty_token : typing_reports [DUnknownAttr; DNoChildElements; DParse EChild]
(* after the word [true] or [false] of [true[..]] *)
| ty_bool : typing_reports [DNonStrChild]
| ty_error e : unfinished e -> typing_reports [DParse e].

(** The only places where nothing at all is expanded: right after a colon (of
    a directive), or in [{}] after one. *)
Inductive after_colon : list tt -> Prop :=
| ac_end a sp : after_colon (a ++ [TPunct ":" sp])
| ac_braces a sp : after_colon (a ++ [TPunct ":" sp; TGroup Brace []])
| ac_in a d y : after_colon y -> after_colon (a ++ [TGroup d y]).

(** The name that the macro panics about is the last thing there is (but for
    the first colon of a path). *)
Inductive stops_at : list tt -> string -> Prop :=
| sa_name a u k : name u k [] -> stops_at (a ++ u) (snake_name (k_repr k))
| sa_colon a u k : name u k [] -> stops_at (a ++ u ++ [TPunct ":" Joint]) (snake_name (k_repr k))
| sa_in a d y n : stops_at y n -> stops_at (a ++ [TGroup d y]) n.

(** ** What is assumed of syn's parser of generic arguments

    Unfinished ones are an error, and it does not stop at a [;]. *)
Definition unfinished_generics (E : env) : Prop :=
  forall g y, generic_args E g = inl (g, []) -> cut g y -> y <> g -> y <> [] ->
  exists r, generic_args E y = inr r /\ ~ next_punct ";" r.
