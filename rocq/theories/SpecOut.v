(** What the expansion of a tree looks like, as relations between trees and
    emitted tokens (README.md, "Syntax details"; the doc comments of expand.rs).
    Nothing here uses the expansion functions of the model: only token and tree
    types and the name specifications of SpecStr.v / SpecGrammar.v. *)
From Verif Require Import Ast SpecStr SpecGrammar.
From Coq Require Import Permutation.
Open Scope list_scope.

(** ** Pieces of emitted code *)

Definition word (s : string) : tt := TIdent (Id false s).
Definition sym (c : ascii) : tt := TPunct c Alone.
Definition str (s : string) : tt := TLit LkStr s.
Definition dcolon : list tt := [TPunct ":" Joint; TPunct ":" Alone].
Definition bars : list tt := [TPunct "|" Joint; TPunct "|" Alone].
Definition parens (ts : list tt) : tt := TGroup Paren ts.
Definition brackets (ts : list tt) : tt := TGroup Bracket ts.
Definition braces (ts : list tt) : tt := TGroup Brace ts.
(** [::a::b::c] *)
Fixpoint abs_path (l : list string) : list tt :=
  match l with [] => [] | s :: r => dcolon ++ word s :: abs_path r end.
(** [a, b, c,] and [a, b, c] *)
Definition comma_ended (l : list (list tt)) : list tt :=
  List.concat (map (fun x => x ++ [sym ","]) l).
Fixpoint comma_separated (l : list (list tt)) : list tt :=
  match l with [] => [] | [x] => x | x :: r => x ++ sym "," :: comma_separated r end.
(** [::leptos::tachys::html::a::b] *)
Definition tachys_html (l : list string) : list tt := abs_path ("leptos" :: "tachys" :: "html" :: l).

(** A method call [.name(args)], and a chain of calls. *)
Record call := Call { call_name : ident; call_args : list tt }.
Definition call_tokens (c : call) : list tt :=
  [sym "."; TIdent (call_name c); parens (call_args c)].
Definition chain (l : list call) : list tt := List.concat (map call_tokens l).
(** A call whose name is written by the macro itself. *)
Definition plain_call (s : string) (args : list tt) : call := Call (Id false s) args.

(** ** Values *)

Inductive value_code : value -> list tt -> Prop :=
| vc_lit k s : value_code (VLit (LitTok k s)) [TLit k s]
| vc_true : value_code (VLit (LitBool true)) [word "true"]
| vc_false : value_code (VLit (LitBool false)) [word "false"]
| vc_block ts : value_code (VBlock ts) [braces ts]
| vc_closure ts : value_code (VBracket None ts) (word "move" :: bars ++ [braces ts])
| vc_format ts : value_code (VBracket (Some (Id false "f")) ts)
    (word "move" :: bars ++ abs_path ["std"; "format"] ++ [sym "!"; parens ts]).

Inductive opt_value_code : option value -> list tt -> Prop :=
| ovc_none : opt_value_code None []
| ovc_some v ts : value_code v ts -> opt_value_code (Some v) ts.
(** A missing value means [true]. *)
Inductive value_or_true_code : option value -> list tt -> Prop :=
| vtc_none : value_or_true_code None [word "true"]
| vtc_some v ts : value_code v ts -> value_or_true_code (Some v) ts.

(** The text of a directive key. *)
Definition key_text (k : kebab_or_str) : string :=
  match k with KKebab k => k_repr k | KStr s => s end.

(** ** Sorting the parts of an element, each in source order *)

Definition child_list (o : option (list child)) : list child :=
  match o with Some l => l | None => [] end.
Fixpoint kvs_of (l : list attr) : list kv_attr :=
  match l with [] => [] | AKv a :: r => a :: kvs_of r | _ :: r => kvs_of r end.
Fixpoint dirs_of (l : list attr) : list directive :=
  match l with [] => [] | ADir d :: r => d :: dirs_of r | _ :: r => dirs_of r end.
Fixpoint spreads_of (l : list attr) : list (list tt) :=
  match l with [] => [] | ASpread s :: r => s :: spreads_of r | _ :: r => spreads_of r end.
Fixpoint classes_of (l : list selector) : list kebab :=
  match l with [] => [] | SelClass k :: r => k :: classes_of r | _ :: r => classes_of r end.
Fixpoint ids_of (l : list selector) : list kebab :=
  match l with [] => [] | SelId k :: r => k :: ids_of r | _ :: r => ids_of r end.
Definition is_clone (d : directive) : bool :=
  match d_dir d with Id false n => String.eqb n "clone" | _ => false end.
(** Component attributes that end up in [add_any_attr]: directives other than
    [clone:], and spreads. *)
Fixpoint entries_of (l : list attr) : list attr :=
  match l with
  | [] => []
  | AKv _ :: r => entries_of r
  | ADir d :: r => if is_clone d then entries_of r else ADir d :: entries_of r
  | ASpread s :: r => ASpread s :: entries_of r
  end.
Definition clones_of (l : list attr) : list directive := filter is_clone (dirs_of l).

(** ** HTML, SVG, MathML and custom elements *)

Inductive html_head : tag -> list tt -> Prop :=
| hh_html i : html_head (TagHtml i) (tachys_html ["element"] ++ dcolon ++ [TIdent i; parens []])
| hh_svg i : html_head (TagSvg i)
    (abs_path ["leptos"; "tachys"; "svg"; "element"] ++ dcolon ++ [TIdent i; parens []])
| hh_math i : html_head (TagMath i)
    (abs_path ["leptos"; "tachys"; "math"; "element"] ++ dcolon ++ [TIdent i; parens []])
| hh_web k : html_head (TagWeb k) (tachys_html ["element"; "custom"] ++ [parens [str (k_repr k)]]).

(** [key=value] *)
Inductive html_attr_call (k : tag_kind) : kv_attr -> call -> Prop :=
| ha_ref a v : k_repr (kv_key a) = "ref" -> value_code (kv_value a) v ->
    html_attr_call k a (plain_call "node_ref" v)
| ha_unchecked a v :
    k_repr (kv_key a) <> "ref" -> k_repr (kv_key a) <> "class" -> k_repr (kv_key a) <> "style" ->
    k = KSvg \/ k = KWeb \/ custom_name (k_repr (kv_key a)) ->
    value_code (kv_value a) v ->
    html_attr_call k a (plain_call "attr"
      (str (k_repr (kv_key a)) :: sym "," ::
       abs_path ["leptos"; "prelude"; "IntoAttributeValue"; "into_attribute_value"] ++ [parens v]))
| ha_typed a v i :
    k_repr (kv_key a) <> "ref" ->
    k_repr (kv_key a) = "class" \/ k_repr (kv_key a) = "style" \/
      (k <> KSvg /\ k <> KWeb /\ ~ custom_name (k_repr (kv_key a))) ->
    name_ident_ok (kv_key a) i ->
    value_code (kv_value a) v ->
    html_attr_call k a (Call i v).

(** The event of [on:event] and [on:event:undelegated]. *)
Inductive event_code : kebab_or_str -> option ident -> list tt -> Prop :=
| ev_plain k i : name_ident_ok k i ->
    event_code (KKebab k) None (tachys_html ["event"] ++ dcolon ++ [TIdent i])
| ev_undelegated k i : name_ident_ok k i ->
    event_code (KKebab k) (Some (Id false "undelegated"))
      (tachys_html ["event"] ++ dcolon ++ [word "undelegated";
        parens (tachys_html ["event"] ++ dcolon ++ [TIdent i])]).

(** The arguments of [use:directive=value]. *)
Inductive use_code : kebab_or_str -> option value -> list tt -> Prop :=
| use_none k i : name_ident_ok k i ->
    use_code (KKebab k) None [TIdent i; sym ","; parens []; sym "."; word "into"; parens []]
| use_some k i v ts : name_ident_ok k i -> value_code v ts ->
    use_code (KKebab k) (Some v)
      (TIdent i :: sym "," :: abs_path ["std"; "convert"; "Into"; "into"] ++ [parens ts]).

(** [dir:key=value] *)
Inductive html_dir_call : directive -> call -> Prop :=
| hd_class_style n k v ts : n = "class" \/ n = "style" -> opt_value_code v ts ->
    html_dir_call (Directive (Id false n) k None v)
      (plain_call n [parens (str (key_text k) :: sym "," :: ts)])
| hd_prop k v ts : opt_value_code v ts ->
    html_dir_call (Directive (Id false "prop") k None v)
      (plain_call "prop" (str (key_text k) :: sym "," :: ts))
| hd_on k m v ev ts : event_code k m ev -> opt_value_code v ts ->
    html_dir_call (Directive (Id false "on") k m v) (plain_call "on" (ev ++ sym "," :: ts))
| hd_use k v ts : use_code k v ts ->
    html_dir_call (Directive (Id false "use") k None v) (plain_call "directive" ts).

(** The name of a class or id: a block that ends in the name. *)
Definition name_block (k : kebab) : tt :=
  braces (List.concat (repeat [word "let"; word "__x"; sym "="; parens []; sym ";"] (k_spans k))
          ++ [str (k_repr k)]).
Definition class_call (k : kebab) : call :=
  plain_call "class" [parens [name_block k; sym ","; word "true"]].
Definition id_call (k : kebab) : call := plain_call "id" [name_block k].
Definition spread_call (ts : list tt) : call := plain_call "add_any_attr" ts.
Definition child_call (ts : list tt) : call := plain_call "child" ts.

(** ** Components *)

(** The path of a component: every generic segment has one [::] before [<]. *)
Inductive seg_code : path_seg -> list tt -> Prop :=
| sgc_plain i : seg_code (PSeg i PNone) [TIdent i]
| sgc_generic i b g : seg_code (PSeg i (PAngle b g)) (TIdent i :: dcolon ++ g).
Inductive segs_code : list path_seg -> list tt -> Prop :=
| sgs_nil : segs_code [] []
| sgs_one s ts : seg_code s ts -> segs_code [s] ts
| sgs_cons s ts s' l ts' : seg_code s ts -> segs_code (s' :: l) ts' ->
    segs_code (s :: s' :: l) (ts ++ dcolon ++ ts').
Inductive path_code : path -> list tt -> Prop :=
| pc_rel l ts : segs_code l ts -> path_code (Path false l) ts
| pc_abs l ts : segs_code l ts -> path_code (Path true l) (dcolon ++ ts).

Inductive prop_call : kv_attr -> call -> Prop :=
| prop_intro a i v : name_ident_ok (kv_key a) i -> value_code (kv_value a) v ->
    prop_call a (Call i v).

(** [clone:x] is [let x = x.clone();] *)
Inductive clone_code : directive -> list tt -> Prop :=
| clone_intro k i : name_ident_ok k i ->
    clone_code (Directive (Id false "clone") (KKebab k) None None)
      [word "let"; TIdent i; sym "="; TIdent i; sym "."; word "clone"; parens []; sym ";"].

(** One entry of [add_any_attr].  Modifiers of [class], [style], [attr] and
    [prop] are not looked at. *)
Inductive entry_code : attr -> list tt -> Prop :=
| en_spread ts : entry_code (ASpread ts) ts
| en_class_style n k m v ts : n = "class" \/ n = "style" -> value_or_true_code v ts ->
    entry_code (ADir (Directive (Id false n) k m v))
      (tachys_html [n; n] ++ [parens [parens (str (key_text k) :: sym "," :: ts)]])
| en_attr_class_style n c m v ts : n = "class" \/ n = "style" -> value_or_true_code v ts ->
    entry_code (ADir (Directive (Id false "attr") (KKebab (Kebab n c)) m v))
      (tachys_html [n] ++ dcolon ++ [TIdent (Id true n); parens ts])
| en_attr_custom k m v ts : custom_name (key_text k) -> value_or_true_code v ts ->
    entry_code (ADir (Directive (Id false "attr") k m v))
      (tachys_html ["attribute"; "custom"; "custom_attribute"]
       ++ [parens (str (key_text k) :: sym "," :: ts)])
| en_attr k i m v ts : k_repr k <> "class" -> k_repr k <> "style" -> ~ custom_name (k_repr k) ->
    name_ident_ok k i -> value_or_true_code v ts ->
    entry_code (ADir (Directive (Id false "attr") (KKebab k) m v))
      (tachys_html ["attribute"] ++ dcolon ++ [TIdent i; parens ts])
| en_prop k i m v ts : name_ident_ok k i -> value_or_true_code v ts ->
    entry_code (ADir (Directive (Id false "prop") (KKebab k) m v))
      (tachys_html ["property"] ++ dcolon ++ [TIdent i; parens ts])
| en_on k m v ev ts : event_code k m ev -> opt_value_code v ts ->
    entry_code (ADir (Directive (Id false "on") k m v))
      (tachys_html ["event"; "on"] ++ [parens (ev ++ sym "," :: ts)])
| en_use k v ts : use_code k v ts ->
    entry_code (ADir (Directive (Id false "use") k None v))
      (tachys_html ["directive"; "directive"] ++ [parens ts]).

(** Selectors on a component: one entry per class, then one entry for all ids. *)
Definition class_entry (k : kebab) : list tt :=
  tachys_html ["class"; "class"] ++ [parens [parens [str (k_repr k); sym ","; word "true"]]].
Fixpoint spaced (l : list string) : string :=
  match l with
  | [] => ""
  | [s] => s
  | s :: r => (s ++ " " ++ spaced r)%string
  end.
Definition id_entries (l : list kebab) : list (list tt) :=
  match l with
  | [] => []
  | _ => [tachys_html ["attribute"] ++ dcolon ++
          [TIdent (Id true "id"); parens [str (spaced (map k_repr l))]]]
  end.
Definition selector_entries (l : list selector) : list (list tt) :=
  map class_entry (classes_of l) ++ id_entries (ids_of l).

(** [View::new((a, b,))] *)
Definition fragment (codes : list (list tt)) : list tt :=
  abs_path ["leptos"; "prelude"; "View"; "new"] ++ [parens [parens (comma_ended codes)]].

(** The [children] call of a component: none without children; otherwise a
    block with the clones and then a closure that makes the fragment. *)
Definition children_calls (args : option (list tt)) (clones : list (list tt))
    (codes : list (list tt)) : list call :=
  match codes with
  | [] => []
  | _ =>
      [plain_call "children"
        [braces (List.concat clones ++
           match args with
           | Some a => word "move" :: a ++ fragment codes
           | None => abs_path ["leptos"; "children"; "ToChildren"; "to_children"]
                     ++ [parens (word "move" :: bars ++ fragment codes)]
           end)]]
  end.

(** The slots of one name: alone or as a vector. *)
Definition ident_dec (a b : ident) : {a = b} + {a <> b}.
Proof. decide equality; [apply string_dec | apply bool_dec]. Defined.
Definition slots_named (slots : list (ident * list tt)) (i : ident) : list (list tt) :=
  map snd (filter (fun p => if ident_dec (fst p) i then true else false) slots).
Definition slot_arg (codes : list (list tt)) : list tt :=
  match codes with
  | [c] => c
  | _ => [sym "<"; brackets [word "_"]; sym ">"] ++ dcolon ++
         [word "into_vec"; parens (abs_path ["std"; "boxed"; "Box"; "new"] ++
                                   [parens [brackets (comma_separated codes)]])]
  end.
Inductive slot_call (slots : list (ident * list tt)) : ident -> call -> Prop :=
| slot_intro i m : camel_snake (i_name i) m -> ~ In m ("" :: reserved_words) ->
    slot_call slots i (Call (Id true m) (slot_arg (slots_named slots i))).
(** One call per distinct slot name, in any order. *)
Inductive slot_calls (slots : list (ident * list tt)) : list call -> Prop :=
| slot_calls_intro order calls :
    NoDup order -> (forall i, In i order <-> In i (map fst slots)) ->
    Forall2 (slot_call slots) order calls -> slot_calls slots calls.

Definition component_frame (path : list tt) (calls : list call) (entries : list (list tt)) : list tt :=
  [sym "#"; brackets [word "allow"; parens [word "unreachable_code"]]] ++
  abs_path ["leptos"; "prelude"; "View"; "new"] ++
  [parens (abs_path ["leptos"; "component"; "component_view"] ++
     [parens (sym "&" :: path ++ sym "," ::
              abs_path ["leptos"; "component"; "component_props_builder"] ++
              [parens (sym "&" :: path)] ++
              chain (calls ++ [plain_call "build" []]))] ++
     chain [plain_call "add_any_attr" [parens (comma_ended entries)]])].

Definition slot_frame (path : list tt) (calls : list call) : list tt :=
  abs_path ["std"; "convert"; "Into"; "into"] ++
  [parens (path ++ dcolon ++ [word "builder"; parens []] ++
           chain (calls ++ [plain_call "build" []]))].

(** ** Elements *)

Definition rendered (ts : list tt) : list tt :=
  abs_path ["leptos"; "prelude"; "IntoRender"; "into_render"] ++ [parens ts].

Inductive element_code : element -> list tt -> Prop :=
| ec_html t sels attrs args children head kvs dirs codes :
    html_head t head ->
    Forall2 (html_attr_call (kind_of t)) (kvs_of attrs) kvs ->
    Forall2 html_dir_call (dirs_of attrs) dirs ->
    nodes_code (child_list children) codes ->
    element_code (Element t sels attrs args children)
      (head ++ chain (kvs ++ dirs ++ map class_call (classes_of sels) ++ map id_call (ids_of sels)
                      ++ map spread_call (spreads_of attrs) ++ map child_call codes))
| ec_component p sels attrs args children path props entries clones codes slots scalls :
    path_code p path ->
    Forall2 prop_call (kvs_of attrs) props ->
    Forall2 entry_code (entries_of attrs) entries ->
    Forall2 clone_code (clones_of attrs) clones ->
    nodes_code (child_list children) codes ->
    slots_code (child_list children) slots ->
    slot_calls slots scalls ->
    element_code (Element (TagComponent p) sels attrs args children)
      (component_frame path (props ++ children_calls args clones codes ++ scalls)
                       (selector_entries sels ++ entries))
(** A component used as a slot. *)
with slot_code : element -> list tt -> Prop :=
| sc_slot p attrs args children path props clones codes slots scalls :
    path_code p path ->
    Forall2 prop_call (kvs_of attrs) props ->
    entries_of attrs = [] ->
    Forall2 clone_code (clones_of attrs) clones ->
    nodes_code (child_list children) codes ->
    slots_code (child_list children) slots ->
    slot_calls slots scalls ->
    slot_code (Element (TagComponent p) [] attrs args children)
      (slot_frame path (props ++ children_calls args clones codes))
(** The non-slot children, in source order. *)
with nodes_code : list child -> list (list tt) -> Prop :=
| nc_nil : nodes_code [] []
| nc_value v ts l codes : value_code v ts -> nodes_code l codes ->
    nodes_code (CValue v :: l) (rendered ts :: codes)
| nc_element e ts l codes : element_code e ts -> nodes_code l codes ->
    nodes_code (CElement e :: l) (rendered ts :: codes)
| nc_slot e l codes : nodes_code l codes -> nodes_code (CSlot e :: l) codes
(** The slots with their names, in source order. *)
with slots_code : list child -> list (ident * list tt) -> Prop :=
| slc_nil : slots_code [] []
| slc_value v l slots : slots_code l slots -> slots_code (CValue v :: l) slots
| slc_element e l slots : slots_code l slots -> slots_code (CElement e :: l) slots
| slc_slot e i ts l slots :
    el_tag e = TagComponent (Path false [PSeg i PNone]) ->
    slot_code e ts -> slots_code l slots ->
    slots_code (CSlot e :: l) ((i, ts) :: slots).

(** ** The whole macro *)

Definition root_frame (ts : list tt) : list tt :=
  [braces ([sym "#"; brackets [word "allow"; parens [word "unused_braces"]]] ++ ts)].

Inductive root_code : list child -> list tt -> Prop :=
| rc_one c code : (forall e, c <> CSlot e) -> nodes_code [c] [code] ->
    root_code [c] (root_frame code)
| rc_many cs codes : List.length cs <> 1 -> (forall e, ~ In (CSlot e) cs) -> nodes_code cs codes ->
    root_code cs (root_frame (fragment codes)).

(** What [mview!] means: [input] reads as some children, whose code is [out]. *)
Definition mview_spec (E : env) (input out : list tt) : Prop :=
  exists cs, children_phrase E input cs /\ root_code cs out.
