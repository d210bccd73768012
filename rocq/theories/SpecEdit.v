(** Trees that differ in parts that do not matter. *)
From Verif Require Import Ast SpecStr SpecGrammar SpecOut SpecRead.
Open Scope list_scope.

(** [lift L e e']: the trees are the same, except that any number of elements
    in them have other attributes or closure arguments, as [L] allows. *)
Inductive lift (L : element -> element -> Prop) : element -> element -> Prop :=
| lift_intro t sels attrs attrs' args args' ch ch' :
    L (Element t sels attrs args ch) (Element t sels attrs' args' ch) ->
    lift_opt L ch ch' ->
    lift L (Element t sels attrs args ch) (Element t sels attrs' args' ch')
with lift_opt (L : element -> element -> Prop) : option (list child) -> option (list child) -> Prop :=
| lift_none : lift_opt L None None
| lift_some l l' : lift_list L l l' -> lift_opt L (Some l) (Some l')
with lift_list (L : element -> element -> Prop) : list child -> list child -> Prop :=
| lift_nil : lift_list L [] []
| lift_value v l l' : lift_list L l l' -> lift_list L (CValue v :: l) (CValue v :: l')
| lift_element e e' l l' : lift L e e' -> lift_list L l l' -> lift_list L (CElement e :: l) (CElement e' :: l')
| lift_slot e e' l l' : lift L e e' -> lift_list L l l' -> lift_list L (CSlot e :: l) (CSlot e' :: l').

(** ** Slots that are not used *)

(** What the children belong to. *)
Inductive owner := OfHtml | OfComponent | OfSlot.
Definition owner_of (slot : bool) (t : tag) : owner :=
  if slot then OfSlot else match t with TagComponent _ => OfComponent | _ => OfHtml end.
(** A slot on which there is nothing to complain about. *)
Definition fine_slot (e : element) : Prop :=
  exists i m code, el_tag e = TagComponent (Path false [PSeg i PNone]) /\
    camel_snake (i_name i) m /\ ~ In m ("" :: reserved_words) /\ slot_code e code.

(** [alike b e e']: the trees are the same, except for slots inside HTML
    elements, which may be any slots, and slots inside slots, which have to be
    fine.  [b] tells whether the elements themselves are slots. *)
Inductive alike : bool -> element -> element -> Prop :=
| alike_element b t sels attrs args ch ch' : alike_opt (owner_of b t) ch ch' ->
    alike b (Element t sels attrs args ch) (Element t sels attrs args ch')
with alike_opt : owner -> option (list child) -> option (list child) -> Prop :=
| alike_none o : alike_opt o None None
| alike_some o l l' : alike_list o l l' -> alike_opt o (Some l) (Some l')
with alike_list : owner -> list child -> list child -> Prop :=
| alike_nil o : alike_list o [] []
| alike_value o v l l' : alike_list o l l' -> alike_list o (CValue v :: l) (CValue v :: l')
| alike_child o e e' l l' : alike false e e' -> alike_list o l l' ->
    alike_list o (CElement e :: l) (CElement e' :: l')
| alike_kept e e' l l' : alike true e e' -> alike_list OfComponent l l' ->
    alike_list OfComponent (CSlot e :: l) (CSlot e' :: l')
| alike_in_html e e' l l' : alike_list OfHtml l l' -> alike_list OfHtml (CSlot e :: l) (CSlot e' :: l')
| alike_in_slot e e' l l' : fine_slot e' -> alike_list OfSlot l l' ->
    alike_list OfSlot (CSlot e :: l) (CSlot e' :: l').

Scheme lift_mind := Minimality for lift Sort Prop
  with lift_opt_mind := Minimality for lift_opt Sort Prop
  with lift_list_mind := Minimality for lift_list Sort Prop.
Combined Scheme lift_ind3 from lift_mind, lift_opt_mind, lift_list_mind.
Scheme alike_mind := Minimality for alike Sort Prop
  with alike_opt_mind := Minimality for alike_opt Sort Prop
  with alike_list_mind := Minimality for alike_list Sort Prop.
Combined Scheme alike_ind3 from alike_mind, alike_opt_mind, alike_list_mind.

(** ** Parts of elements that are not used *)

(** Other closure arguments, where there is nothing to pass them to. *)
Inductive idle_args : element -> element -> Prop :=
| idle_same e : idle_args e e
| idle_html t sels attrs args args' ch : (forall p, t <> TagComponent p) ->
    idle_args (Element t sels attrs args ch) (Element t sels attrs args' ch)
| idle_component p sels attrs args args' ch : non_slots (child_list ch) = [] ->
    idle_args (Element (TagComponent p) sels attrs args ch) (Element (TagComponent p) sels attrs args' ch).

(** More or fewer [clone:] directives without fault on a component that has
    no children to clone for. *)
Inductive idle_clones : element -> element -> Prop :=
| idlec_same e : idle_clones e e
| idlec_component p sels attrs attrs' args ch : non_slots (child_list ch) = [] ->
    filter (fun a => match a with ADir d => negb (is_clone d) | _ => true end) attrs =
    filter (fun a => match a with ADir d => negb (is_clone d) | _ => true end) attrs' ->
    (forall d, In d (clones_of attrs ++ clones_of attrs') -> exists code, clone_code d code) ->
    idle_clones (Element (TagComponent p) sels attrs args ch) (Element (TagComponent p) sels attrs' args ch).

(** Other modifiers on directives of a component whose modifier is not looked
    at. *)
Inductive other_modifier : attr -> attr -> Prop :=
| om_same a : other_modifier a a
| om_ignored n k m m' v : In n ["class"; "style"; "attr"; "prop"] ->
    other_modifier (ADir (Directive (Id false n) k m v)) (ADir (Directive (Id false n) k m' v)).
Inductive idle_modifiers : element -> element -> Prop :=
| idlem_same e : idle_modifiers e e
| idlem_component p sels attrs attrs' args ch : Forall2 other_modifier attrs attrs' ->
    idle_modifiers (Element (TagComponent p) sels attrs args ch) (Element (TagComponent p) sels attrs' args ch).
