(** The tokens given for a tree with rejected parts (what the editor sees on
    nightly, next to the errors): as in SpecOut.v, but for all trees.  Rejected
    attributes, selectors and modifiers are left out, a value with an unknown
    prefix is a gap, and a string where an identifier has to be becomes a fixed
    placeholder.  Nothing here uses the expansion functions of the model. *)
From Verif Require Import Ast SpecStr SpecGrammar SpecOut.
Open Scope list_scope.

(** ** Values and keys *)

Inductive gap_value : value -> list tt -> Prop :=
| gv_code v ts : value_code v ts -> gap_value v ts
| gv_gap p ts : p <> Id false "f" -> gap_value (VBracket (Some p) ts) [].
Inductive gap_opt : option value -> list tt -> Prop :=
| go_none : gap_opt None []
| go_some v ts : gap_value v ts -> gap_opt (Some v) ts.
Inductive gap_or_true : option value -> list tt -> Prop :=
| gt_none : gap_or_true None [word "true"]
| gt_some v ts : gap_value v ts -> gap_or_true (Some v) ts.

Inductive gap_key (placeholder : string) : kebab_or_str -> ident -> Prop :=
| gk_name k i : name_ident_ok k i -> gap_key placeholder (KKebab k) i
| gk_string s : gap_key placeholder (KStr s) (Id false placeholder).
Definition no_ident : string := "__invalid_identifier_found_str".
Definition no_event : string := "invalid_event".

(** ** HTML attributes *)

Inductive gap_attr (k : tag_kind) : kv_attr -> call -> Prop :=
| ga_ref a v : k_repr (kv_key a) = "ref" -> gap_value (kv_value a) v ->
    gap_attr k a (plain_call "node_ref" v)
| ga_unchecked a v :
    k_repr (kv_key a) <> "ref" -> k_repr (kv_key a) <> "class" -> k_repr (kv_key a) <> "style" ->
    k = KSvg \/ k = KWeb \/ custom_name (k_repr (kv_key a)) ->
    gap_value (kv_value a) v ->
    gap_attr k a (plain_call "attr"
      (str (k_repr (kv_key a)) :: sym "," ::
       abs_path ["leptos"; "prelude"; "IntoAttributeValue"; "into_attribute_value"] ++ [parens v]))
| ga_typed a v i :
    k_repr (kv_key a) <> "ref" ->
    k_repr (kv_key a) = "class" \/ k_repr (kv_key a) = "style" \/
      (k <> KSvg /\ k <> KWeb /\ ~ custom_name (k_repr (kv_key a))) ->
    name_ident_ok (kv_key a) i ->
    gap_value (kv_value a) v ->
    gap_attr k a (Call i v).

(** A modifier other than [undelegated] is left out. *)
Inductive gap_event : kebab_or_str -> option ident -> list tt -> Prop :=
| ge_plain k m i : m <> Some (Id false "undelegated") -> gap_key no_event k i ->
    gap_event k m (tachys_html ["event"] ++ dcolon ++ [TIdent i])
| ge_undelegated k i : gap_key no_event k i ->
    gap_event k (Some (Id false "undelegated"))
      (tachys_html ["event"] ++ dcolon ++ [word "undelegated";
        parens (tachys_html ["event"] ++ dcolon ++ [TIdent i])]).

Inductive gap_use : kebab_or_str -> option value -> list tt -> Prop :=
| gu_none k i : gap_key no_ident k i ->
    gap_use k None [TIdent i; sym ","; parens []; sym "."; word "into"; parens []]
| gu_some k i v ts : gap_key no_ident k i -> gap_value v ts ->
    gap_use k (Some v)
      (TIdent i :: sym "," :: abs_path ["std"; "convert"; "Into"; "into"] ++ [parens ts]).

(** A directive on an HTML element: one call, or none if it is not known there. *)
Inductive gap_dir : directive -> list call -> Prop :=
| gd_class_style n k m v ts : n = "class" \/ n = "style" -> gap_opt v ts ->
    gap_dir (Directive (Id false n) k m v)
      [plain_call n [parens (str (key_text k) :: sym "," :: ts)]]
| gd_prop k m v ts : gap_opt v ts ->
    gap_dir (Directive (Id false "prop") k m v) [plain_call "prop" (str (key_text k) :: sym "," :: ts)]
| gd_on k m v ev ts : gap_event k m ev -> gap_opt v ts ->
    gap_dir (Directive (Id false "on") k m v) [plain_call "on" (ev ++ sym "," :: ts)]
| gd_use k m v ts : gap_use k v ts ->
    gap_dir (Directive (Id false "use") k m v) [plain_call "directive" ts]
| gd_rejected d : (forall n, In n ["class"; "style"; "prop"; "on"; "use"] -> d_dir d <> Id false n) ->
    gap_dir d [].

(** ** Component attributes *)

Inductive gap_prop : kv_attr -> call -> Prop :=
| gp_intro a i v : name_ident_ok (kv_key a) i -> gap_value (kv_value a) v ->
    gap_prop a (Call i v).

(** The modifier and the value of [clone:] are left out. *)
Inductive gap_clone : directive -> list tt -> Prop :=
| gc_intro k m v i : gap_key no_ident k i ->
    gap_clone (Directive (Id false "clone") k m v)
      [word "let"; TIdent i; sym "="; TIdent i; sym "."; word "clone"; parens []; sym ";"].

(** One entry of [add_any_attr], or none for an unknown directive. *)
Inductive gap_entry : attr -> list (list tt) -> Prop :=
| gn_spread ts : gap_entry (ASpread ts) [ts]
| gn_class_style n k m v ts : n = "class" \/ n = "style" -> gap_or_true v ts ->
    gap_entry (ADir (Directive (Id false n) k m v))
      [tachys_html [n; n] ++ [parens [parens (str (key_text k) :: sym "," :: ts)]]]
| gn_attr_class_style k i m v ts : key_text k = "class" \/ key_text k = "style" ->
    gap_key no_ident k i -> gap_or_true v ts ->
    gap_entry (ADir (Directive (Id false "attr") k m v))
      [tachys_html [i_name i] ++ dcolon ++ [TIdent i; parens ts]]
| gn_attr_custom k m v ts : custom_name (key_text k) -> gap_or_true v ts ->
    gap_entry (ADir (Directive (Id false "attr") k m v))
      [tachys_html ["attribute"; "custom"; "custom_attribute"]
       ++ [parens (str (key_text k) :: sym "," :: ts)]]
| gn_attr k i m v ts : key_text k <> "class" -> key_text k <> "style" -> ~ custom_name (key_text k) ->
    gap_key no_ident k i -> gap_or_true v ts ->
    gap_entry (ADir (Directive (Id false "attr") k m v))
      [tachys_html ["attribute"] ++ dcolon ++ [TIdent i; parens ts]]
| gn_prop k i m v ts : gap_key no_ident k i -> gap_or_true v ts ->
    gap_entry (ADir (Directive (Id false "prop") k m v))
      [tachys_html ["property"] ++ dcolon ++ [TIdent i; parens ts]]
| gn_on k m v ev ts : gap_event k m ev -> gap_opt v ts ->
    gap_entry (ADir (Directive (Id false "on") k m v))
      [tachys_html ["event"; "on"] ++ [parens (ev ++ sym "," :: ts)]]
| gn_use k m v ts : gap_use k v ts ->
    gap_entry (ADir (Directive (Id false "use") k m v))
      [tachys_html ["directive"; "directive"] ++ [parens ts]]
| gn_rejected d :
    (forall n, In n ["class"; "style"; "attr"; "prop"; "on"; "use"] -> d_dir d <> Id false n) ->
    gap_entry (ADir d) [].

(** ** Elements *)

Inductive gap_element : element -> list tt -> Prop :=
| gap_html t sels attrs args children head kvs dirs codes :
    html_head t head ->
    Forall2 (gap_attr (kind_of t)) (kvs_of attrs) kvs ->
    Forall2 gap_dir (dirs_of attrs) dirs ->
    gap_nodes (child_list children) codes ->
    gap_element (Element t sels attrs args children)
      (head ++ chain (kvs ++ List.concat dirs ++ map class_call (classes_of sels) ++ map id_call (ids_of sels)
                      ++ map spread_call (spreads_of attrs) ++ map child_call codes))
| gap_component p sels attrs args children path props entries clones codes slots scalls :
    path_code p path ->
    Forall2 gap_prop (kvs_of attrs) props ->
    Forall2 gap_entry (entries_of attrs) entries ->
    Forall2 gap_clone (clones_of attrs) clones ->
    gap_nodes (child_list children) codes ->
    gap_slots (child_list children) slots ->
    slot_calls slots scalls ->
    gap_element (Element (TagComponent p) sels attrs args children)
      (component_frame path (props ++ children_calls args clones codes ++ scalls)
                       (selector_entries sels ++ List.concat entries))
(** On a slot, selectors, spreads and directives other than [clone:] are left
    out. *)
with gap_slot : element -> list tt -> Prop :=
| gap_slot_intro p sels attrs args children path props clones codes slots scalls :
    path_code p path ->
    Forall2 gap_prop (kvs_of attrs) props ->
    Forall2 gap_clone (clones_of attrs) clones ->
    gap_nodes (child_list children) codes ->
    gap_slots (child_list children) slots ->
    slot_calls slots scalls ->
    gap_slot (Element (TagComponent p) sels attrs args children)
      (slot_frame path (props ++ children_calls args clones codes))
with gap_nodes : list child -> list (list tt) -> Prop :=
| gns_nil : gap_nodes [] []
| gns_value v ts l codes : gap_value v ts -> gap_nodes l codes ->
    gap_nodes (CValue v :: l) (rendered ts :: codes)
| gns_element e ts l codes : gap_element e ts -> gap_nodes l codes ->
    gap_nodes (CElement e :: l) (rendered ts :: codes)
| gns_slot e l codes : gap_nodes l codes -> gap_nodes (CSlot e :: l) codes
(** A slot whose name is not a single identifier is left out. *)
with gap_slots : list child -> list (ident * list tt) -> Prop :=
| gls_nil : gap_slots [] []
| gls_value v l slots : gap_slots l slots -> gap_slots (CValue v :: l) slots
| gls_element e l slots : gap_slots l slots -> gap_slots (CElement e :: l) slots
| gls_slot e i ts l slots :
    el_tag e = TagComponent (Path false [PSeg i PNone]) ->
    gap_slot e ts -> gap_slots l slots ->
    gap_slots (CSlot e :: l) ((i, ts) :: slots)
| gls_path e p l slots :
    el_tag e = TagComponent p -> (forall i, p <> Path false [PSeg i PNone]) ->
    gap_slots l slots -> gap_slots (CSlot e :: l) slots.

Inductive gap_root : list child -> list tt -> Prop :=
| gr_one c code : (forall e, c <> CSlot e) -> gap_nodes [c] [code] ->
    gap_root [c] (root_frame code)
| gr_many cs codes : List.length cs <> 1 -> (forall e, ~ In (CSlot e) cs) -> gap_nodes cs codes ->
    gap_root cs (root_frame (fragment codes)).
