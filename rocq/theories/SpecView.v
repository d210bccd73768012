(** What a view means: the tree of elements, components and slots it describes
    (README.md, "Syntax details"), in the terms of SpecRun.v.  Nothing here uses
    the parsers or expanders of the model, nor the emitted code, except for the
    spelling of paths ([path_code]). *)
From Verif Require Import Ast SpecStr SpecGrammar SpecOut SpecRun.
From Coq Require Import Permutation.
Open Scope list_scope.
Open Scope string_scope.

(** ** Values *)

(** [f] is the only prefix in views that are accepted. *)
Definition val_of (v : value) : val :=
  match v with
  | VLit (LitTok LkStr s) => WStr s
  | VLit (LitTok k s) => WLit k s
  | VLit (LitBool b) => WBool b
  | VBlock ts => code_value ts
  | VBracket None ts => WFn ts
  | VBracket (Some _) ts => WFormat ts
  end.
Definition or_true_val (v : option value) : val :=
  match v with Some v => val_of v | None => WBool true end.

(** ** Elements *)

Inductive made : tag -> space -> string -> Prop :=
| made_html i : made (TagHtml i) SpHtml (i_name i)
| made_svg i : made (TagSvg i) SpSvg (i_name i)
| made_math i : made (TagMath i) SpMath (i_name i)
| made_web k : made (TagWeb k) SpHtml (k_repr k).

(** [key=value].  In HTML and MathML elements [_] is written for [-], and
    [inner_html] is the content. *)
Inductive kv_part (t : tag_kind) : kv_attr -> part -> Prop :=
| kp_ref k v : k_repr k = "ref" -> kv_part t (KvAttr k v) (PaRef (val_of v))
| kp_class k v : k_repr k = "class" -> kv_part t (KvAttr k v) (PaClass (val_of v))
| kp_style k v : k_repr k = "style" -> kv_part t (KvAttr k v) (PaStyle (val_of v))
| kp_verbatim k v :
    ~ In (k_repr k) ["ref"; "class"; "style"] -> t = KSvg \/ t = KWeb \/ custom_name (k_repr k) ->
    kv_part t (KvAttr k v) (PaAttr (k_repr k) (val_of v))
| kp_content k v : t <> KSvg -> t <> KWeb -> k_repr k = "inner_html" ->
    kv_part t (KvAttr k v) (PaHtml (val_of v))
| kp_known k v :
    ~ In (k_repr k) ["ref"; "class"; "style"; "inner_html"] ->
    t <> KSvg -> t <> KWeb -> ~ custom_name (k_repr k) ->
    kv_part t (KvAttr k v) (PaAttr (dashed (k_repr k)) (val_of v)).

Definition is_none {A} (o : option A) : bool := match o with None => true | Some _ => false end.

(** [dir:key=value].  Events, and functions given to [use:], are identifiers. *)
Inductive dir_part : directive -> part -> Prop :=
| dp_class k v :
    dir_part (Directive (Id false "class") k None v) (PaToggle (key_text k) (option_map val_of v))
| dp_style k v :
    dir_part (Directive (Id false "style") k None v) (PaSet (key_text k) (option_map val_of v))
| dp_prop k v :
    dir_part (Directive (Id false "prop") k None v) (PaProp (key_text k) (option_map val_of v))
| dp_on k m v :
    dir_part (Directive (Id false "on") (KKebab k) m v)
             (PaOn (snake_name (k_repr k)) (is_none m) (option_map val_of v))
| dp_use k v :
    dir_part (Directive (Id false "use") (KKebab k) None v)
             (PaUse (snake_name (k_repr k)) (option_map val_of v)).

(** What a list of parts comes to, kind by kind. *)
Definition summary (l : list part) : look := {|
  lk_attrs := flat_map (fun p => match p with PaAttr n v => [(n, v)] | _ => [] end) l;
  lk_class := flat_map (fun p => match p with PaClass v => [inl v] | PaToggle n v => [inr (n, v)] | _ => [] end) l;
  lk_style := flat_map (fun p => match p with PaStyle v => [inl v] | PaSet n v => [inr (n, v)] | _ => [] end) l;
  lk_props := flat_map (fun p => match p with PaProp n v => [(n, v)] | _ => [] end) l;
  lk_events := flat_map (fun p => match p with PaOn e d v => [(e, d, v)] | _ => [] end) l;
  lk_uses := flat_map (fun p => match p with PaUse d v => [(d, v)] | _ => [] end) l;
  lk_refs := flat_map (fun p => match p with PaRef v => [v] | _ => [] end) l;
  lk_html := flat_map (fun p => match p with PaHtml v => [v] | _ => [] end) l;
  lk_more := flat_map (fun p => match p with PaMore ts => [ts] | _ => [] end) l
|}.

(** ** Components *)

(** What a component's elements are given by one attribute of the component.
    Code of a spread means what it means as an item of [add_any_attr]. *)
Inductive item_part : attr -> part -> Prop :=
| ip_spread ts : item_part (ASpread ts) (run_item ts)
| ip_class k m v :
    item_part (ADir (Directive (Id false "class") k m v)) (PaToggle (key_text k) (Some (or_true_val v)))
| ip_style k m v :
    item_part (ADir (Directive (Id false "style") k m v)) (PaSet (key_text k) (Some (or_true_val v)))
| ip_attr_class k m v : k_repr k = "class" ->
    item_part (ADir (Directive (Id false "attr") (KKebab k) m v)) (PaClass (or_true_val v))
| ip_attr_style k m v : k_repr k = "style" ->
    item_part (ADir (Directive (Id false "attr") (KKebab k) m v)) (PaStyle (or_true_val v))
| ip_attr_verbatim k m v : custom_name (key_text k) ->
    item_part (ADir (Directive (Id false "attr") k m v)) (PaAttr (key_text k) (or_true_val v))
| ip_attr k m v : ~ In (k_repr k) ["class"; "style"] -> ~ custom_name (k_repr k) ->
    item_part (ADir (Directive (Id false "attr") (KKebab k) m v)) (PaAttr (dashed (k_repr k)) (or_true_val v))
| ip_prop k m v :
    item_part (ADir (Directive (Id false "prop") (KKebab k) m v))
              (PaProp (snake_name (k_repr k)) (Some (or_true_val v)))
| ip_on k m v :
    item_part (ADir (Directive (Id false "on") (KKebab k) m v))
              (PaOn (snake_name (k_repr k)) (is_none m) (option_map val_of v))
| ip_use k v :
    item_part (ADir (Directive (Id false "use") (KKebab k) None v))
              (PaUse (snake_name (k_repr k)) (option_map val_of v)).

(** Selectors of a component: each class, and one attribute with all ids. *)
Definition selector_parts (l : list selector) : list part :=
  map (fun k => PaToggle (k_repr k) (Some (WBool true))) (classes_of l) ++
  match ids_of l with [] => [] | ids => [PaAttr "id" (WStr (spaced (map k_repr ids)))] end.

Definition prop_of (a : kv_attr) : string * gift :=
  (snake_name (k_repr (kv_key a)), GiValue (val_of (kv_value a))).
Definition clone_of (d : directive) : string := snake_name (key_text (d_key d)).

(** Children are given if there are any that are not slots. *)
Definition children_given (args : option (list tt)) (attrs : list attr) (nodes : list node)
  : list (string * gift) :=
  match nodes with
  | [] => []
  | _ => [("children", GiChildren args (map clone_of (clones_of attrs)) nodes)]
  end.

(** The slots of one name, alone or as a list. *)
Definition slot_gift (l : list slot) : gift :=
  match l with [s] => GiSlot s | _ => GiSlots l end.
Definition called (i : ident) (l : list (ident * slot)) : list slot :=
  map snd (filter (fun p => if ident_dec (fst p) i then true else false) l).
Inductive slot_given (l : list (ident * slot)) (i : ident) : string * gift -> Prop :=
| slot_given_intro m : camel_snake (i_name i) m -> slot_given l i (m, slot_gift (called i l)).
(** One gift for each name, in any order. *)
Inductive slots_given (l : list (ident * slot)) : list (string * gift) -> Prop :=
| slots_given_intro order gs :
    NoDup order -> (forall i, In i order <-> In i (map fst l)) ->
    Forall2 (slot_given l) order gs -> slots_given l gs.

(** ** Views *)

Inductive means : element -> node -> Prop :=
| means_html t sels attrs args children sp n kvs dirs nodes :
    made t sp n ->
    Forall2 (kv_part (kind_of t)) (kvs_of attrs) kvs ->
    Forall2 dir_part (dirs_of attrs) dirs ->
    nodes_mean (child_list children) nodes ->
    means (Element t sels attrs args children)
      (NoElement sp n
         (summary (kvs ++ dirs
                   ++ map (fun k => PaToggle (k_repr k) (Some (WBool true))) (classes_of sels)
                   ++ map (fun k => PaAttr "id" (WStr (k_repr k))) (ids_of sels)
                   ++ map PaMore (spreads_of attrs)))
         nodes)
| means_component p sels attrs args children path nodes slots sgiven parts :
    path_code p path ->
    Forall2 item_part (entries_of attrs) parts ->
    nodes_mean (child_list children) nodes ->
    slots_mean (child_list children) slots ->
    slots_given slots sgiven ->
    means (Element (TagComponent p) sels attrs args children)
      (NoComponent path (map prop_of (kvs_of attrs) ++ children_given args attrs nodes ++ sgiven)
                   (selector_parts sels ++ parts))
with slot_means : element -> slot -> Prop :=
| slot_means_intro p sels attrs args children path nodes :
    path_code p path ->
    nodes_mean (child_list children) nodes ->
    slot_means (Element (TagComponent p) sels attrs args children)
      (Slot path (map prop_of (kvs_of attrs) ++ children_given args attrs nodes))
with nodes_mean : list child -> list node -> Prop :=
| nm_nil : nodes_mean [] []
| nm_value v l ns : nodes_mean l ns -> nodes_mean (CValue v :: l) (NoText (val_of v) :: ns)
| nm_element e n l ns : means e n -> nodes_mean l ns -> nodes_mean (CElement e :: l) (n :: ns)
| nm_slot e l ns : nodes_mean l ns -> nodes_mean (CSlot e :: l) ns
with slots_mean : list child -> list (ident * slot) -> Prop :=
| sm_nil : slots_mean [] []
| sm_value v l ss : slots_mean l ss -> slots_mean (CValue v :: l) ss
| sm_element e l ss : slots_mean l ss -> slots_mean (CElement e :: l) ss
| sm_slot e i s l ss : el_tag e = TagComponent (Path false [PSeg i PNone]) ->
    slot_means e s -> slots_mean l ss -> slots_mean (CSlot e :: l) ((i, s) :: ss).

Inductive view_means : list child -> node -> Prop :=
| vm_one c n : nodes_mean [c] [n] -> view_means [c] n
| vm_many cs ns : List.length cs <> 1 -> nodes_mean cs ns -> view_means cs (NoMany ns).

(** ** Views that are read as they look

    A key of an HTML element that is the name of a method of leptos is a call
    of that method, so [child={x}] adds a child.  Commas in the code of a spread
    of a component separate several items (or belong to generic arguments). *)
Definition plain_element (e : element) : Prop :=
  match el_tag e with
  | TagHtml _ | TagMath _ => forall a, In a (kvs_of (el_attrs e)) -> ~ In (k_repr (kv_key a)) methods
  | TagComponent _ => forall ts sp, In ts (spreads_of (el_attrs e)) -> ~ In (TPunct "," sp) ts
  | _ => True
  end.

(** ** Trees that are the same

    Up to the order in which builders are given things: the macro calls the
    builder once per name of slots, in no fixed order. *)
Inductive same_node : node -> node -> Prop :=
| sn_text v : same_node (NoText v) (NoText v)
| sn_element sp n l ns ns' : same_nodes ns ns' -> same_node (NoElement sp n l ns) (NoElement sp n l ns')
| sn_component path g g' parts : same_given g g' -> same_node (NoComponent path g parts) (NoComponent path g' parts)
| sn_many ns ns' : same_nodes ns ns' -> same_node (NoMany ns) (NoMany ns')
with same_nodes : list node -> list node -> Prop :=
| sns_nil : same_nodes [] []
| sns_cons n n' ns ns' : same_node n n' -> same_nodes ns ns' -> same_nodes (n :: ns) (n' :: ns')
with same_given : list (string * gift) -> list (string * gift) -> Prop :=
| sg_intro g h g' : Permutation g h -> same_gifts h g' -> same_given g g'
with same_gifts : list (string * gift) -> list (string * gift) -> Prop :=
| sgs_nil : same_gifts [] []
| sgs_cons m g g' l l' : same_gift g g' -> same_gifts l l' -> same_gifts ((m, g) :: l) ((m, g') :: l')
with same_gift : gift -> gift -> Prop :=
| sg_value v : same_gift (GiValue v) (GiValue v)
| sg_children p c ns ns' : same_nodes ns ns' -> same_gift (GiChildren p c ns) (GiChildren p c ns')
| sg_slot s s' : same_slot s s' -> same_gift (GiSlot s) (GiSlot s')
| sg_slots l l' : same_slots l l' -> same_gift (GiSlots l) (GiSlots l')
with same_slot : slot -> slot -> Prop :=
| ss_intro path g g' : same_given g g' -> same_slot (Slot path g) (Slot path g')
with same_slots : list slot -> list slot -> Prop :=
| sss_nil : same_slots [] []
| sss_cons s s' l l' : same_slot s s' -> same_slots l l' -> same_slots (s :: l) (s' :: l').
