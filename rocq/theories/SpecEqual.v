(** When two trees mean the same.  What is said here does not mention emitted
    code, except for attributes of components that contain a spread, where the
    user can write whatever the macro would write for a directive. *)
From Verif Require Import Ast SpecStr SpecGrammar SpecOut.
Open Scope list_scope.

(** ** Names and values *)

(** Names that become identifiers: [-] and [_] are the same there. *)
Definition equal_name (a b : kebab) : Prop := snake_name (k_repr a) = snake_name (k_repr b).
Inductive equal_key : kebab_or_str -> kebab_or_str -> Prop :=
| ek_intro a b : equal_name a b -> equal_key (KKebab a) (KKebab b).
(** A missing value is [true]. *)
Definition or_true (v : option value) : value :=
  match v with Some v => v | None => VLit (LitBool true) end.

(** ** HTML elements *)

Inductive equal_html_tag : tag -> tag -> Prop :=
| eht_html i : equal_html_tag (TagHtml i) (TagHtml i)
| eht_svg i : equal_html_tag (TagSvg i) (TagSvg i)
| eht_math i : equal_html_tag (TagMath i) (TagMath i)
| eht_web s m n : equal_html_tag (TagWeb (Kebab s m)) (TagWeb (Kebab s n)).

(** The same name; [aria-label] and [aria_label] are the same attribute of HTML and
    MathML elements. *)
Definition equal_html_attr (k : tag_kind) (a b : kv_attr) : Prop :=
  kv_value a = kv_value b /\
  (k_repr (kv_key a) = k_repr (kv_key b) \/
   k <> KSvg /\ k <> KWeb /\ ~ custom_name (k_repr (kv_key a)) /\ ~ custom_name (k_repr (kv_key b))
   /\ equal_name (kv_key a) (kv_key b)).

(** The key of [class:], [style:] and [prop:] is a text, whether or not it is written
    in quotes; the key of [on:] and [use:] is an identifier. *)
Inductive equal_html_dir : directive -> directive -> Prop :=
| ehd_text n a b v : In n ["class"; "style"; "prop"] -> key_text a = key_text b ->
    equal_html_dir (Directive (Id false n) a None v) (Directive (Id false n) b None v)
| ehd_ident n a b m v : n = "on" \/ n = "use" -> equal_key a b ->
    equal_html_dir (Directive (Id false n) a m v) (Directive (Id false n) b m v).

(** ** Attributes of components other than [key=value] and [clone:] *)

Inductive item :=
| IText (what key : string) (v : value)          (* class:key=v, style:key=v *)
| INamed (what name : string) (v : value)        (* attr:name=v, prop:name=v *)
| ICustom (key : string) (v : value)             (* attr:some-key=v *)
| IOn (name : string) (undelegated : bool) (v : option value)
| IUse (name : string) (v : option value)
| ISpread (ts : list tt).

(** Modifiers are ignored except those of [on:]. *)
Inductive attr_item : attr -> item -> Prop :=
| ai_spread ts : attr_item (ASpread ts) (ISpread ts)
| ai_text n k m v : n = "class" \/ n = "style" ->
    attr_item (ADir (Directive (Id false n) k m v)) (IText n (key_text k) (or_true v))
| ai_special n c m v : n = "class" \/ n = "style" ->
    attr_item (ADir (Directive (Id false "attr") (KKebab (Kebab n c)) m v)) (INamed n n (or_true v))
| ai_custom k m v : custom_name (key_text k) ->
    attr_item (ADir (Directive (Id false "attr") k m v)) (ICustom (key_text k) (or_true v))
| ai_attr k m v : k_repr k <> "class" -> k_repr k <> "style" -> ~ custom_name (k_repr k) ->
    attr_item (ADir (Directive (Id false "attr") (KKebab k) m v))
      (INamed "attribute" (snake_name (k_repr k)) (or_true v))
| ai_prop k m v : attr_item (ADir (Directive (Id false "prop") (KKebab k) m v))
      (INamed "property" (snake_name (k_repr k)) (or_true v))
| ai_on k v : attr_item (ADir (Directive (Id false "on") (KKebab k) None v))
      (IOn (snake_name (k_repr k)) false v)
| ai_undelegated k v :
    attr_item (ADir (Directive (Id false "on") (KKebab k) (Some (Id false "undelegated")) v))
      (IOn (snake_name (k_repr k)) true v)
| ai_use k v : attr_item (ADir (Directive (Id false "use") (KKebab k) None v))
      (IUse (snake_name (k_repr k)) v).

(** [.a] is [class:a=true]; all ids together are one [attr:id="a b"].  Classes come
    first, then ids, then directives in the order they are written in. *)
Definition class_item (k : kebab) : item := IText "class" (k_repr k) (VLit (LitBool true)).
Definition id_items (l : list kebab) : list item :=
  match l with
  | [] => []
  | _ => [INamed "attribute" "id" (VLit (LitTok LkStr (spaced (map k_repr l))))]
  end.
Inductive items : list selector -> list attr -> list item -> Prop :=
| items_intro sels attrs l : Forall2 attr_item (entries_of attrs) l ->
    items sels attrs (map class_item (classes_of sels) ++ id_items (ids_of sels) ++ l).

Definition written (sels : list selector) (attrs : list attr) (ts : list tt) : Prop :=
  exists l, Forall2 entry_code (entries_of attrs) l /\ ts = comma_ended (selector_entries sels ++ l).
Definition equal_items sels attrs sels' attrs' : Prop :=
  (exists l, items sels attrs l /\ items sels' attrs' l) \/
  ((spreads_of attrs <> [] \/ spreads_of attrs' <> []) /\
   exists ts, written sels attrs ts /\ written sels' attrs' ts).

(** ** Other parts of components *)

(** Paths are written the same, apart from the [::] before generics. *)
Definition equal_path (p q : path) : Prop := exists ts, path_code p ts /\ path_code q ts.
Definition equal_prop (a b : kv_attr) : Prop :=
  kv_value a = kv_value b /\ equal_name (kv_key a) (kv_key b).
Definition equal_clone (a b : directive) : Prop := equal_key (d_key a) (d_key b).

(** The slots of one name. *)
Fixpoint slots_called (i : ident) (l : list child) : list element :=
  match l with
  | [] => []
  | CSlot e :: r =>
      match el_tag e with
      | TagComponent (Path false [PSeg j PNone]) =>
          if ident_dec j i then e :: slots_called i r else slots_called i r
      | _ => slots_called i r
      end
  | _ :: r => slots_called i r
  end.

(** ** Elements *)

(** Each kind of attribute has the same parts in the same order, but how different
    kinds are mixed does not matter.  No children block is an empty children block.
    Closure arguments and slots of HTML elements do not matter.  Of components,
    closure arguments and clones do not matter if there are no children but slots;
    how slots are mixed with slots of other names and with other children does not
    matter.  Slots of slots do not matter. *)
Inductive equal_element : element -> element -> Prop :=
| ee_html t sels attrs args children t' sels' attrs' args' children' :
    equal_html_tag t t' ->
    Forall2 (equal_html_attr (kind_of t)) (kvs_of attrs) (kvs_of attrs') ->
    Forall2 equal_html_dir (dirs_of attrs) (dirs_of attrs') ->
    classes_of sels = classes_of sels' ->
    ids_of sels = ids_of sels' ->
    spreads_of attrs = spreads_of attrs' ->
    equal_nodes (child_list children) (child_list children') ->
    equal_element (Element t sels attrs args children) (Element t' sels' attrs' args' children')
| ee_component p sels attrs args children p' sels' attrs' args' children' :
    equal_path p p' ->
    Forall2 equal_prop (kvs_of attrs) (kvs_of attrs') ->
    equal_items sels attrs sels' attrs' ->
    (forallb is_slot (child_list children) = true \/
     args = args' /\ Forall2 equal_clone (clones_of attrs) (clones_of attrs')) ->
    equal_nodes (child_list children) (child_list children') ->
    (forall i, Forall2 equal_slot (slots_called i (child_list children))
                                  (slots_called i (child_list children'))) ->
    equal_element (Element (TagComponent p) sels attrs args children)
                  (Element (TagComponent p') sels' attrs' args' children')
with equal_slot : element -> element -> Prop :=
| es_slot p sels attrs args children p' sels' attrs' args' children' :
    equal_path p p' ->
    Forall2 equal_prop (kvs_of attrs) (kvs_of attrs') ->
    (forallb is_slot (child_list children) = true \/
     args = args' /\ Forall2 equal_clone (clones_of attrs) (clones_of attrs')) ->
    equal_nodes (child_list children) (child_list children') ->
    equal_slot (Element (TagComponent p) sels attrs args children)
               (Element (TagComponent p') sels' attrs' args' children')
(** The children that are no slots are the same. *)
with equal_nodes : list child -> list child -> Prop :=
| eqn_nil : equal_nodes [] []
| eqn_value v l l' : equal_nodes l l' -> equal_nodes (CValue v :: l) (CValue v :: l')
| eqn_element e e' l l' : equal_element e e' -> equal_nodes l l' ->
    equal_nodes (CElement e :: l) (CElement e' :: l')
| eqn_left e l l' : equal_nodes l l' -> equal_nodes (CSlot e :: l) l'
| eqn_right e l l' : equal_nodes l l' -> equal_nodes l (CSlot e :: l').
