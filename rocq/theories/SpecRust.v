(** The part of Rust's expression grammar that expansions are written in, with
    the local variables in scope (The Rust Reference, "Expressions",
    "Statements", "Attributes on expressions"), and the local variables that
    code in a view is documented to see.  Nothing here uses the expansion
    functions of the model. *)
From Verif Require Import Ast SpecStr SpecGrammar SpecOut SpecRead.
Open Scope list_scope.

(** ** Embedded code and what it sees *)

(** Bindings in scope, innermost first: variables, and closure parameters
    (the tokens between the pipes). *)
Inductive binding := Var (i : ident) | Params (ts : list tt).
Definition scope := list binding.

(** A judgement about the code the user wrote: content of a block, arguments of
    [format!], a bare expression, closure parameters, generic arguments.  It
    may depend on what is in scope. *)
Record code := Code {
  ok_block : scope -> list tt -> Prop;
  ok_format : scope -> list tt -> Prop;
  ok_expr : scope -> list tt -> Prop;
  ok_params : scope -> list tt -> Prop;
  ok_generics : list tt -> Prop
}.

Section Rust.
Variable U : code.

(** ** Paths *)

(** Not a keyword (that it is an identifier at all is C16). *)
Definition usable (i : ident) : Prop := i_raw i = true \/ ~ In (i_name i) keyword_names.
Definition path_word (i : ident) : Prop :=
  usable i \/ In i (map (Id false) ["super"; "self"; "Self"; "crate"]).

(** In expressions, generic arguments need [::] in front. *)
Inductive rust_segment : list tt -> Prop :=
| rs_plain i : path_word i -> rust_segment [TIdent i]
| rs_generic i g : path_word i -> ok_generics U g -> rust_segment (TIdent i :: dcolon ++ g).
Inductive rust_segments : list tt -> Prop :=
| rss_one s : rust_segment s -> rust_segments s
| rss_more s r : rust_segment s -> rust_segments r -> rust_segments (s ++ dcolon ++ r).
(** [a::b], [::a::b], [<[_]>::a] *)
Inductive rust_path : list tt -> Prop :=
| rp_rel r : rust_segments r -> rust_path r
| rp_abs r : rust_segments r -> rust_path (dcolon ++ r)
| rp_slice r : rust_segments r ->
    rust_path ([sym "<"; brackets [word "_"]; sym ">"] ++ dcolon ++ r).

(** ** Expressions *)

(** [#[lint(names)]] *)
Inductive attribute : list tt -> Prop :=
| attribute_intro i ts : usable i -> attribute [sym "#"; brackets [TIdent i; parens ts]].

Definition no_block_start (ts : list tt) : Prop := ~ next_group Brace ts.

(** Primary expressions; postfix expressions (calls and method calls);
    expressions; comma-separated lists, whose items may have attributes if the
    flag says so (call arguments and array elements, but not tuples); the
    content of blocks. *)
Inductive rust_primary : scope -> list tt -> Prop :=
| rp_lit sc k s : rust_primary sc [TLit k s]
| rp_true sc : rust_primary sc [word "true"]
| rp_false sc : rust_primary sc [word "false"]
| rp_path sc p : rust_path p -> rust_primary sc p
| rp_block sc ts : rust_stmts sc ts -> rust_primary sc [braces ts]
| rp_user_block sc ts : ok_block U sc ts -> rust_primary sc [braces ts]
| rp_tuple sc ts : rust_items false sc ts -> rust_primary sc [parens ts]
| rp_array sc ts : rust_items true sc ts -> rust_primary sc [brackets ts]
| rp_format sc ts : ok_format U sc ts ->
    rust_primary sc (abs_path ["std"; "format"] ++ [sym "!"; parens ts])
with rust_postfix : scope -> list tt -> Prop :=
| rpo_primary sc e : rust_primary sc e -> rust_postfix sc e
| rpo_call sc f args : rust_postfix sc f -> rust_items true sc args ->
    rust_postfix sc (f ++ [parens args])
| rpo_method sc e i args : rust_postfix sc e -> usable i -> rust_items true sc args ->
    rust_postfix sc (e ++ [sym "."; TIdent i; parens args])
with rust_expr : scope -> list tt -> Prop :=
| re_postfix sc e : rust_postfix sc e -> rust_expr sc e
| re_ref sc e : rust_postfix sc e -> rust_expr sc (sym "&" :: e)
| re_thunk sc e : rust_expr sc e -> rust_expr sc (word "move" :: bars ++ e)
| re_closure sc ps e : ok_params U sc ps -> rust_expr (Params ps :: sc) e ->
    rust_expr sc (word "move" :: sym "|" :: ps ++ sym "|" :: e)
| re_user sc ts : ok_expr U sc ts -> rust_expr sc ts
with rust_item : bool -> scope -> list tt -> Prop :=
| ri_expr b sc e : rust_expr sc e -> rust_item b sc e
| ri_attr sc a e : attribute a -> rust_expr sc e -> rust_item true sc (a ++ e)
with rust_items : bool -> scope -> list tt -> Prop :=
| ris_nil b sc : rust_items b sc []
| ris_last b sc e : rust_item b sc e -> rust_items b sc e
| ris_more b sc e r : rust_item b sc e -> rust_items b sc r -> rust_items b sc (e ++ sym "," :: r)
with rust_stmts : scope -> list tt -> Prop :=
| rst_tail sc e : no_block_start e -> rust_expr sc e -> rust_stmts sc e
| rst_attr_tail sc a e : attribute a -> no_block_start e -> rust_expr sc e -> rust_stmts sc (a ++ e)
| rst_let sc i e r : usable i -> rust_expr sc e -> rust_stmts (Var i :: sc) r ->
    rust_stmts sc ([word "let"; TIdent i; sym "="] ++ e ++ sym ";" :: r).

(** ** What code in a view sees *)

Definition value_fits (sc : scope) (v : value) : Prop :=
  match v with
  | VLit _ => True
  | VBlock ts | VBracket None ts => ok_block U sc ts
  | VBracket (Some _) ts => ok_format U sc ts
  end.
Definition attr_fits (sc : scope) (a : attr) : Prop :=
  match a with
  | AKv a => value_fits sc (kv_value a)
  | ADir d => forall v, d_value d = Some v -> value_fits sc v
  | ASpread ts => ok_expr U sc ts
  end.
Definition path_fits (p : path) : Prop :=
  forall i b g, In (PSeg i (PAngle b g)) (segs p) -> ok_generics U g.

(** The variables made by [clone:], later ones first. *)
Definition clone_var (d : directive) : binding := Var (Id true (snake_name (key_text (d_key d)))).
Definition clone_scope (attrs : list attr) : scope := rev (map clone_var (clones_of attrs)).
(** The parameters between the pipes. *)
Definition params_of (args : option (list tt)) : scope :=
  match args with
  | Some (_ :: r) => [Params (removelast r)]
  | _ => []
  end.
(** What the children of a component see. *)
Definition inner_scope (attrs : list attr) (args : option (list tt)) (sc : scope) : scope :=
  params_of args ++ clone_scope attrs ++ sc.

(** The code of an element is fine where it stands: attributes, and children of
    HTML elements, see what the element sees; children of components (and of
    slots) see the component's clones and parameters too; slots do not.  Slots
    in places where they are ignored, and parameters without children, do not
    matter. *)
Inductive fits : scope -> bool -> element -> Prop :=
| fits_html sc slot t sels attrs args ch :
    (forall p, t <> TagComponent p) ->
    (forall a, In a attrs -> attr_fits sc a) ->
    (forall v, In (CValue v) (child_list ch) -> value_fits sc v) ->
    (forall e, In (CElement e) (child_list ch) -> fits sc false e) ->
    fits sc slot (Element t sels attrs args ch)
| fits_component sc slot p sels attrs args ch :
    path_fits p ->
    (forall a, In a attrs -> attr_fits sc a) ->
    (non_slots (child_list ch) <> [] ->
     forall ps, In (Params ps) (params_of args) -> ok_params U (clone_scope attrs ++ sc) ps) ->
    (forall v, In (CValue v) (child_list ch) -> value_fits (inner_scope attrs args sc) v) ->
    (forall e, In (CElement e) (child_list ch) -> fits (inner_scope attrs args sc) false e) ->
    (slot = false -> forall e, In (CSlot e) (child_list ch) -> fits sc true e) ->
    fits sc slot (Element (TagComponent p) sels attrs args ch).

Definition view_fits (cs : list child) : Prop :=
  (forall v, In (CValue v) cs -> value_fits [] v) /\
  (forall e, In (CElement e) cs -> fits [] false e).
End Rust.
