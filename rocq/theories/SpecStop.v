(** What in a tree makes its expansion panic.

    Identifiers are made of names with [-] replaced by [_]; of a few words none
    can be made.  A name is no problem where it is used as a string.  Nothing
    here uses the expanders of the model. *)
From Verif Require Import Ast SpecStr SpecGrammar SpecOut SpecRead.
Open Scope list_scope.

(** No identifier can be made of it (no name is empty); the panic says so. *)
Definition no_identifier (k : kebab) (w : panic) : Prop :=
  w = PNewRaw (snake_name (k_repr k)) /\ In (snake_name (k_repr k)) (""%string :: reserved_words).

(** A directive [name:key] whose key has to be an identifier. *)
Definition key_stops (name : string) (d : directive) (w : panic) : Prop :=
  d_dir d = Id false name /\ exists k, d_key d = KKebab k /\ no_identifier k w.

(** On an element.  [svg] and custom elements use all attribute names as
    strings; so do the others for names with a dash, but for [aria-...]. *)
Inductive html_attr_stops (kind : tag_kind) (w : panic) : attr -> Prop :=
| hs_kv k v : kind <> KSvg -> kind <> KWeb -> ~ custom_name (k_repr k) -> no_identifier k w ->
    html_attr_stops kind w (AKv (KvAttr k v))
| hs_dir name d : In name ["on"; "use"]%string -> key_stops name d w -> html_attr_stops kind w (ADir d).

(** On a component or a slot; slots have no directives but [clone:]. *)
Inductive comp_attr_stops (slot : bool) (w : panic) : attr -> Prop :=
| cs_kv k v : no_identifier k w -> comp_attr_stops slot w (AKv (KvAttr k v))
| cs_clone d : key_stops "clone" d w -> comp_attr_stops slot w (ADir d)
| cs_dir name d : slot = false -> In name ["on"; "use"; "prop"]%string -> key_stops name d w ->
    comp_attr_stops slot w (ADir d)
| cs_attr d k : slot = false -> d_dir d = Id false "attr" -> d_key d = KKebab k -> no_identifier k w ->
    ~ custom_name (k_repr k) -> comp_attr_stops slot w (ADir d).

Definition kind_of_tag (t : tag) (k : tag_kind) : Prop :=
  match t with
  | TagHtml _ => k = KHtml | TagSvg _ => k = KSvg | TagMath _ => k = KMath | TagWeb _ => k = KWeb
  | TagComponent _ => False
  end.
Definition one_name (i : ident) : tag := TagComponent (Path false [PSeg i PNone]).

(** Elements, by what stops them: an attribute, a child, or for components a
    slot: its tag, its name or something in it.  A slot with a path as its tag
    is not looked at, nor are slots of elements. *)
Inductive elem_stops (w : panic) : bool -> element -> Prop :=
| es_html_attr e kind a : kind_of_tag (el_tag e) kind -> In a (el_attrs e) -> html_attr_stops kind w a ->
    elem_stops w false e
| es_comp_attr slot e p a : el_tag e = TagComponent p -> In a (el_attrs e) -> comp_attr_stops slot w a ->
    elem_stops w slot e
| es_child slot e c : In (CElement c) (child_list (el_children e)) -> elem_stops w false c ->
    elem_stops w slot e
| es_slot_tag slot e p c : el_tag e = TagComponent p -> In (CSlot c) (child_list (el_children e)) ->
    (forall q, el_tag c <> TagComponent q) -> w = PSlotTag -> elem_stops w slot e
| es_slot_name slot e p c i m : el_tag e = TagComponent p -> In (CSlot c) (child_list (el_children e)) ->
    el_tag c = one_name i -> camel_snake (i_name i) m -> In m (""%string :: reserved_words) ->
    w = PNewRaw m -> elem_stops w slot e
| es_slot slot e p c i : el_tag e = TagComponent p -> In (CSlot c) (child_list (el_children e)) ->
    el_tag c = one_name i -> elem_stops w true c -> elem_stops w slot e.

(** A whole view: nothing is expanded if there is a slot at its root. *)
Definition view_stops (cs : list child) (w : panic) : Prop :=
  (forall e, ~ In (CSlot e) cs) /\ exists e, In (CElement e) cs /\ elem_stops w false e.
