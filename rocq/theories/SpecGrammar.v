(** The documented grammar of [mview!] (README.md "Syntax details", the doc
    comments of ast/*.rs) as relations between token lists and trees.

    Every relation is about the tokens of the phrase itself; where the syntax
    needs to know what comes next to decide where a phrase ends, the relation
    also takes the tokens that [follow].  Nothing here uses the functions of
    the parser model: only token and tree types, and the external parser for
    generic arguments. *)
From Verif Require Import Ast SpecStr.
From Coq Require Import Permutation.
Open Scope list_scope.

Definition punct (c : ascii) (t : tt) : Prop := exists sp, t = TPunct c sp.

(** The stream starts with this character. *)
Definition next_punct (c : ascii) (ts : list tt) : Prop :=
  match ts with t :: _ => punct c t | [] => False end.
(** The stream starts with this two-character operator. *)
Definition next_op (c d : ascii) (ts : list tt) : Prop :=
  exists sp r, ts = TPunct c Joint :: TPunct d sp :: r.
Definition next_group (d : delim) (ts : list tt) : Prop :=
  match ts with TGroup d' _ :: _ => d' = d | _ => False end.
Definition next_ident (ts : list tt) : Prop :=
  match ts with TIdent _ :: _ => True | _ => False end.

(** ** Kebab-case names: [a], [a-b], [--x], [blue-100] *)

(** A dash-separated run of words.  The first flag says whether a word may
    come next (we are after a dash), the last one whether a word may follow
    the whole run. *)
Inductive run : bool -> list tt -> bool -> Prop :=
| run_nil b : run b [] b
| run_dash b sp ts e : run true ts e -> run b (TPunct "-" sp :: ts) e
| run_ident i ts e : run false ts e -> run true (TIdent i :: ts) e
| run_int s ts e : run false ts e -> run true (TLit LkInt s :: ts) e.

(** A name starts with an identifier or a dash. *)
Inductive name_phrase : list tt -> Prop :=
| name_ident i ts e : run false ts e -> name_phrase (TIdent i :: ts)
| name_dash sp ts e : run true ts e -> name_phrase (TPunct "-" sp :: ts).

(** A name extends as far as possible. *)
Definition name_ends (ts follow : list tt) : Prop :=
  match follow with t :: _ => ~ name_phrase (ts ++ [t]) | [] => True end.

Definition raw_token (t : tt) : Prop := exists n, t = TIdent (Id true n).

(** The text of a name: the texts of its tokens without [r#]. *)
Definition token_text (t : tt) : string :=
  match t with
  | TIdent i => i_name i
  | TPunct c _ => String c EmptyString
  | TLit _ s => s
  | TGroup _ _ => EmptyString
  end.
Definition name_text (ts : list tt) : string :=
  fold_right (fun t s => (token_text t ++ s)%string) EmptyString ts.
(** Number of coloured sections: the first token and every later word. *)
Definition word_count (ts : list tt) : nat :=
  List.length (filter (fun t => match t with TPunct _ _ => false | _ => true end) ts).
Definition section_count (ts : list tt) : nat :=
  match ts with [] => 0 | _ :: r => S (word_count r) end.

(** A name followed by [follow]; only its first token may be raw. *)
Definition name (ts : list tt) (k : kebab) (follow : list tt) : Prop :=
  name_phrase ts /\ name_ends ts follow /\ Forall (fun t => ~ raw_token t) (tl ts) /\
  k = Kebab (name_text ts) (section_count ts).

(** A name usable as an identifier: the identifier is raw and has [_] for [-]. *)
Definition name_ident_ok (k : kebab) (i : ident) : Prop :=
  ~ In (snake_name (k_repr k)) ("" :: reserved_words) /\
  i = Id true (snake_name (k_repr k)).

(** ** Values: ["lit"], [{expr}], [[expr]], [f[..]] *)

Inductive value_phrase : list tt -> value -> list tt -> Prop :=
| val_lit k s follow : value_phrase [TLit k s] (VLit (LitTok k s)) follow
| val_neg sp k s follow : k = LkInt \/ k = LkFloat ->
    value_phrase [TPunct "-" sp; TLit k s] (VLit (LitTok k ("-" ++ s))) follow
| val_true follow : ~ next_group Bracket follow ->
    value_phrase [TIdent (Id false "true")] (VLit (LitBool true)) follow
| val_false follow : ~ next_group Bracket follow ->
    value_phrase [TIdent (Id false "false")] (VLit (LitBool false)) follow
| val_block ts follow : value_phrase [TGroup Brace ts] (VBlock ts) follow
| val_bracket ts follow : value_phrase [TGroup Bracket ts] (VBracket None ts) follow
| val_prefixed i ts follow :
    value_phrase [TIdent i; TGroup Bracket ts] (VBracket (Some i) ts) follow.

(** ** Attributes *)

(** [= value], or nothing (then no [=] follows). *)
Inductive opt_value : list tt -> option value -> list tt -> Prop :=
| ov_none follow : ~ next_punct "=" follow -> opt_value [] None follow
| ov_some sp ts v follow : value_phrase ts v follow ->
    opt_value (TPunct "=" sp :: ts) (Some v) follow.

(** [:modifier], or nothing (then no [:] follows). *)
Inductive opt_modifier : list tt -> option ident -> list tt -> Prop :=
| om_none follow : ~ next_punct ":" follow -> opt_modifier [] None follow
| om_some sp i follow : opt_modifier [TPunct ":" sp; TIdent i] (Some i) follow.

(** The key of a directive: a name or a string. *)
Inductive key_phrase : list tt -> kebab_or_str -> list tt -> Prop :=
| key_str s follow : key_phrase [TLit LkStr s] (KStr s) follow
| key_name ts k follow : name ts k follow -> key_phrase ts (KKebab k) follow.

(** The shorthand [{key}]: its value is the variable of the same name. *)
Inductive shorthand : list tt -> kebab -> value -> Prop :=
| short inner k i : name inner k [] -> name_ident_ok k i ->
    shorthand [TGroup Brace inner] k (VBlock [TIdent i]).

Inductive attr_phrase : list tt -> attr -> list tt -> Prop :=
(* key=value, or just key *)
| at_kv ts k ts' v follow :
    name ts k (ts' ++ follow) ->
    opt_value ts' v follow ->
    (next_ident ts -> ~ next_punct ":" (tl ts ++ ts' ++ follow)) ->
    attr_phrase (ts ++ ts') (AKv (KvAttr k match v with Some v => v | None => VLit (LitBool true) end))
                follow
(* {key} *)
| at_short ts k v follow : shorthand ts k v -> attr_phrase ts (AKv (KvAttr k v)) follow
(* {..expr} *)
| at_spread sp ts follow :
    attr_phrase [TGroup Brace (TPunct "." Joint :: TPunct "." sp :: ts)] (ASpread ts) follow
(* dir:key:modifier=value *)
| at_dir i sp ks k ms m vs v follow :
    key_phrase ks k (ms ++ vs ++ follow) ->
    opt_modifier ms m (vs ++ follow) ->
    opt_value vs v follow ->
    attr_phrase (TIdent i :: TPunct ":" sp :: ks ++ ms ++ vs) (ADir (Directive i k m v)) follow
(* dir:{key}:modifier *)
| at_dir_short i sp ks k v ms m follow :
    shorthand ks k v ->
    opt_modifier ms m follow ->
    attr_phrase (TIdent i :: TPunct ":" sp :: ks ++ ms)
                (ADir (Directive i (KKebab k) m (Some v))) follow.

(** A braced block after a tag that is not an attribute, hence can hold
    children: its content is not a single name and does not start with [..].
    (The parser has to try it as [{key}] first, and complains about raw
    identifiers inside a dashed name at its start.) *)
Definition children_block (inner : list tt) : Prop :=
  ~ name_phrase inner /\ ~ next_op "." "." inner /\
  forall ts r, inner = ts ++ r -> name_phrase ts -> Forall (fun t => ~ raw_token t) (tl ts).

(** Where the attributes of an element stop. *)
Definition attrs_end (follow : list tt) : Prop :=
  match follow with
  | [] => True
  | TIdent _ :: _ => False
  | TPunct c _ :: _ => c <> "-"%char
  | TLit _ _ :: _ => True
  | TGroup Brace inner :: _ => children_block inner
  | TGroup _ _ :: _ => True
  end.

Inductive attrs_phrase : list tt -> list attr -> list tt -> Prop :=
| ats_nil follow : attrs_end follow -> attrs_phrase [] [] follow
| ats_cons ts a ts' l follow :
    attr_phrase ts a (ts' ++ follow) -> attrs_phrase ts' l follow ->
    attrs_phrase (ts ++ ts') (a :: l) follow.

(** ** Selectors: [.class], [#id] *)

Inductive selector_phrase : list tt -> selector -> list tt -> Prop :=
| sel_class sp ts k follow : name ts k follow ->
    selector_phrase (TPunct "." sp :: ts) (SelClass k) follow
| sel_id sp ts k follow : name ts k follow ->
    selector_phrase (TPunct "#" sp :: ts) (SelId k) follow.

(** Selectors stop where no further selector starts. *)
Definition selectors_end (follow : list tt) : Prop :=
  match follow with
  | t :: r => punct "." t \/ punct "#" t -> ~ next_ident r /\ ~ next_punct "-" r
  | [] => True
  end.

Inductive selectors_phrase : list tt -> list selector -> list tt -> Prop :=
| sels_nil follow : selectors_end follow -> selectors_phrase [] [] follow
| sels_cons ts s ts' l follow :
    selector_phrase ts s (ts' ++ follow) -> selectors_phrase ts' l follow ->
    selectors_phrase (ts ++ ts') (s :: l) follow.

(** ** Tags *)

(** Identifiers that may be a path segment (not a Rust keyword). *)
Definition keyword_names : list string :=
  ["_"; "abstract"; "as"; "async"; "await"; "become"; "box"; "break"; "const";
   "continue"; "crate"; "do"; "dyn"; "else"; "enum"; "extern"; "false"; "final";
   "fn"; "for"; "if"; "impl"; "in"; "let"; "loop"; "macro"; "match"; "mod";
   "move"; "mut"; "override"; "priv"; "pub"; "ref"; "return"; "Self"; "self";
   "static"; "struct"; "super"; "trait"; "true"; "try"; "type"; "typeof";
   "unsafe"; "unsized"; "use"; "virtual"; "where"; "while"; "yield"].
Definition plain_segment (i : ident) : Prop :=
  i_raw i = true \/ ~ In (i_name i) keyword_names \/ i = Id false "Self".
Definition keyword_segment (i : ident) : Prop :=
  i = Id false "super" \/ i = Id false "self" \/ i = Id false "crate".

(** What follows would be read as generic arguments. *)
Definition generics_follow (follow : list tt) : Prop :=
  (next_punct "<" follow /\ ~ next_op "<" "=" follow /\
   ~ (exists sp r, follow = TPunct "<" Joint :: TPunct "<" Joint :: TPunct "=" sp :: r)) \/
  (next_op ":" ":" follow /\ next_punct "<" (tl (tl follow))).

(** One path segment. *)
Inductive segment_phrase (E : env) : list tt -> path_seg -> list tt -> Prop :=
| seg_kw i follow : keyword_segment i -> segment_phrase E [TIdent i] (PSeg i PNone) follow
| seg_plain i follow : plain_segment i -> ~ keyword_segment i -> ~ generics_follow follow ->
    segment_phrase E [TIdent i] (PSeg i PNone) follow
| seg_generic i g follow : plain_segment i -> ~ keyword_segment i ->
    generics_follow (g ++ follow) -> next_punct "<" g ->
    generic_args E (g ++ follow) = inl (g, follow) ->
    segment_phrase E (TIdent i :: g) (PSeg i (PAngle false g)) follow
| seg_turbofish i sp g follow : plain_segment i -> ~ keyword_segment i -> next_punct "<" g ->
    generic_args E (g ++ follow) = inl (g, follow) ->
    segment_phrase E (TIdent i :: TPunct ":" Joint :: TPunct ":" sp :: g)
                   (PSeg i (PAngle true g)) follow.

(** Segments joined by [::]. *)
Inductive segments_phrase (E : env) : list tt -> list path_seg -> list tt -> Prop :=
| segs_one ts s follow : segment_phrase E ts s follow ->
    (next_op ":" ":" follow -> next_group Paren (tl (tl follow))) ->
    segments_phrase E ts [s] follow
| segs_cons ts s sp ts' l follow :
    segment_phrase E ts s (TPunct ":" Joint :: TPunct ":" sp :: ts' ++ follow) ->
    segments_phrase E ts' l follow ->
    segments_phrase E (ts ++ TPunct ":" Joint :: TPunct ":" sp :: ts') (s :: l) follow.

Inductive path_phrase (E : env) : list tt -> path -> list tt -> Prop :=
| path_rel ts l follow : segments_phrase E ts l follow -> path_phrase E ts (Path false l) follow
| path_abs sp ts l follow : segments_phrase E ts l follow ->
    path_phrase E (TPunct ":" Joint :: TPunct ":" sp :: ts) (Path true l) follow.

(** A tag is a path if it starts with [::] or its first token is followed by
    [::] or [<]. *)
Definition path_follows (ts : list tt) : Prop :=
  next_op ":" ":" ts \/ next_op ":" ":" (tl ts) \/ next_punct "<" (tl ts).

Inductive tag_phrase (E : env) : list tt -> tag -> list tt -> Prop :=
| tag_path ts p follow : path_follows (ts ++ follow) -> path_phrase E ts p follow ->
    tag_phrase E ts (TagComponent p) follow
| tag_component ts k i follow :
    ~ path_follows (ts ++ follow) -> name ts k follow ->
    tag_kind_spec (k_repr k) KComponent -> name_ident_ok k i ->
    tag_phrase E ts (TagComponent (Path false [PSeg (Id false (i_name i)) PNone])) follow
| tag_html ts k i follow :
    ~ path_follows (ts ++ follow) -> name ts k follow ->
    tag_kind_spec (k_repr k) KHtml -> name_ident_ok k i ->
    tag_phrase E ts (TagHtml i) follow
| tag_svg ts k i follow :
    ~ path_follows (ts ++ follow) -> name ts k follow ->
    tag_kind_spec (k_repr k) KSvg -> name_ident_ok k i ->
    tag_phrase E ts (TagSvg i) follow
| tag_math ts k i follow :
    ~ path_follows (ts ++ follow) -> name ts k follow ->
    tag_kind_spec (k_repr k) KMath -> name_ident_ok k i ->
    tag_phrase E ts (TagMath i) follow
| tag_web ts k follow :
    ~ path_follows (ts ++ follow) -> name ts k follow ->
    tag_kind_spec (k_repr k) KWeb ->
    tag_phrase E ts (TagWeb k) follow.

(** ** Elements and children *)

(** The end of an element: [;], a block of children in braces or parentheses,
    or [|args|] and such a block. *)
Definition not_pipe (t : tt) : Prop := ~ punct "|" t.

Inductive block (children : list tt -> list child -> Prop) : list tt -> list child -> Prop :=
| blk_brace inner cs : children inner cs -> block children [TGroup Brace inner] cs
| blk_paren inner cs : children inner cs -> block children [TGroup Paren inner] cs.

Inductive element_end (children : list tt -> list child -> Prop)
  : list tt -> option (list tt) -> option (list child) -> Prop :=
| end_semi sp : element_end children [TPunct ";" sp] None None
| end_block b cs : block children b cs -> element_end children b None (Some cs)
| end_args sp args sp' b cs : Forall not_pipe args -> block children b cs ->
    element_end children (TPunct "|" sp :: args ++ TPunct "|" sp' :: b)
                (Some (TPunct "|" Alone :: args ++ [TPunct "|" Alone])) (Some cs).

(** [slot:] but not [slot::]. *)
Definition slot_prefix (ts : list tt) : Prop :=
  exists sp r, ts = TIdent (Id false "slot") :: TPunct ":" sp :: r /\
               ~ (sp = Joint /\ next_punct ":" r).

(** A view is a sequence of children. *)
Inductive children_phrase (E : env) : list tt -> list child -> Prop :=
| ch_nil : children_phrase E [] []
| ch_cons ts c ts' cs :
    child_phrase E ts c ts' -> children_phrase E ts' cs ->
    children_phrase E (ts ++ ts') (c :: cs)
with child_phrase (E : env) : list tt -> child -> list tt -> Prop :=
(* "text", {expr}, [expr], f[..] *)
| ch_value ts v follow :
    value_phrase ts v follow ->
    (forall l, v = VLit l -> exists s, l = LitTok LkStr s) ->
    child_phrase E ts (CValue v) follow
| ch_element ts e follow :
    element_phrase E ts e follow ->
    next_ident ts ->
    ~ slot_prefix (ts ++ follow) ->
    ~ (exists v ts' r, ts ++ follow = ts' ++ r /\ value_phrase ts' v r) ->
    child_phrase E ts (CElement e) follow
| ch_slot sp ts e follow :
    slot_prefix (TIdent (Id false "slot") :: TPunct ":" sp :: ts ++ follow) ->
    element_phrase E ts e follow ->
    child_phrase E (TIdent (Id false "slot") :: TPunct ":" sp :: ts) (CSlot e) follow
with element_phrase (E : env) : list tt -> element -> list tt -> Prop :=
| el_phrase ts1 t ts2 sels ts3 attrs ts4 args cs follow :
    tag_phrase E ts1 t (ts2 ++ ts3 ++ ts4 ++ follow) ->
    selectors_phrase ts2 sels (ts3 ++ ts4 ++ follow) ->
    attrs_phrase ts3 attrs (ts4 ++ follow) ->
    element_end (children_phrase E) ts4 args cs ->
    element_phrase E (ts1 ++ ts2 ++ ts3 ++ ts4) (Element t sels attrs args cs) follow.

(** ** What is assumed of the external parts *)

(** Generic arguments start with [<], are a prefix of the stream, and whether a
    prefix is read as generic arguments does not depend on what follows; a
    failed attempt leaves the stream at some later position; the hash map
    yields each key exactly once. *)
Definition env_ok (E : env) : Prop :=
  (forall ts g r, generic_args E ts = inl (g, r) ->
     ts = g ++ r /\ next_punct "<" g /\ forall r', generic_args E (g ++ r') = inl (g, r')) /\
  (forall ts r, generic_args E ts = inr r -> exists u, ts = u ++ r) /\
  (forall at_ ks, Permutation ks (slot_order E at_ ks)).
