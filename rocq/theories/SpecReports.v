(** What is reported about a tree that was read without errors, and which of
    its attributes have no effect.  Nothing here uses the expansion functions
    of the model. *)
From Verif Require Import Ast SpecStr SpecGrammar SpecOut.
Open Scope list_scope.

(** Where an attribute stands; what is allowed differs. *)
Inductive role := OnHtml | OnComponent | OnSlot.
Definition role_of (slot : bool) (t : tag) : role :=
  if slot then OnSlot else match t with TagComponent _ => OnComponent | _ => OnHtml end.

Definition is_word (i : ident) (s : string) : bool := if ident_dec i (Id false s) then true else false.
Definition named (d : directive) (s : string) : bool := is_word (d_dir d) s.
(** Names with a [-], except [aria-*]. *)
Definition is_custom (s : string) : bool :=
  existsb (Ascii.eqb "-") (chars s) && negb (String.prefix "aria-" s).

(** ** Reports *)

(** Only the prefix [f] is known. *)
Definition value_reports (v : value) : list diag :=
  match v with
  | VBracket (Some i) _ => if is_word i "f" then [] else [DPrefix]
  | _ => []
  end.
Definition opt_reports (v : option value) : list diag :=
  match v with Some v => value_reports v | None => [] end.
(** A key that has to be an identifier. *)
Definition key_reports (k : kebab_or_str) : list diag :=
  match k with KKebab _ => [] | KStr _ => [DExpectedIdent] end.
(** A modifier where none is known. *)
Definition modifier_reports (m : option ident) : list diag :=
  match m with Some _ => [DModifier] | None => [] end.
(** The event and the modifier of [on:]. *)
Definition event_reports (d : directive) : list diag :=
  match d_key d with KKebab _ => [] | KStr _ => [DEventType] end ++
  match d_modifier d with
  | Some m => if is_word m "undelegated" then [] else [DUnknownOnModifier]
  | None => []
  end.
Definition on_reports (d : directive) : list diag := event_reports d ++ opt_reports (d_value d).
Definition use_reports (d : directive) : list diag :=
  key_reports (d_key d) ++ modifier_reports (d_modifier d) ++ opt_reports (d_value d).
(** The modifier of [clone:] is reported twice. *)
Definition clone_reports (d : directive) : list diag :=
  modifier_reports (d_modifier d) ++ key_reports (d_key d) ++ modifier_reports (d_modifier d) ++
  match d_value d with Some _ => [DCloneValue] | None => [] end.

Definition html_dir_reports (d : directive) : list diag :=
  if named d "class" || named d "style" || named d "prop" then
    modifier_reports (d_modifier d) ++ opt_reports (d_value d)
  else if named d "on" then on_reports d
  else if named d "use" then use_reports d
  else if named d "attr" || named d "clone" then [DNotOnElements (ident_to_string (d_dir d))]
  else [DUnknownDirective].
Definition component_dir_reports (d : directive) : list diag :=
  if named d "clone" then clone_reports d
  else if named d "class" || named d "style" then opt_reports (d_value d)
  else if named d "attr" then
    (if is_custom (key_text (d_key d)) then [] else key_reports (d_key d)) ++ opt_reports (d_value d)
  else if named d "prop" then key_reports (d_key d) ++ opt_reports (d_value d)
  else if named d "on" then on_reports d
  else if named d "use" then use_reports d
  else [DUnknownDirective].
Definition slot_dir_reports (d : directive) : list diag :=
  if named d "clone" then clone_reports d else [DSlotDirective (ident_to_string (d_dir d))].

Definition attr_reports (r : role) (a : attr) : list diag :=
  match a with
  | AKv kv => value_reports (kv_value kv)
  | ASpread _ => match r with OnSlot => [DSlotSpread] | _ => [] end
  | ADir d =>
      match r with
      | OnHtml => html_dir_reports d
      | OnComponent => component_dir_reports d
      | OnSlot => slot_dir_reports d
      end
  end.
Definition selector_reports (r : role) (l : list selector) : list diag :=
  match r, l with OnSlot, _ :: _ => [DSlotSelectors] | _, _ => [] end.

(** The name of a slot has to be a single identifier. *)
Definition single_name (t : tag) : bool :=
  match t with
  | TagComponent (Path false [PSeg _ PNone]) => true
  | _ => false
  end.

(** An element: first its own parts, then the children that are not slots, then
    the slots.  HTML elements do not look at slots. *)
Fixpoint element_reports (slot : bool) (e : element) {struct e} : list diag :=
  match e with
  | Element t sels attrs _ children =>
      let r := role_of slot t in
      let nodes :=
        (fix go (l : list child) : list diag :=
           match l with
           | [] => []
           | CValue v :: l => value_reports v ++ go l
           | CElement e :: l => element_reports false e ++ go l
           | CSlot _ :: l => go l
           end) in
      let slots :=
        (fix go (l : list child) : list diag :=
           match l with
           | [] => []
           | CSlot e :: l =>
               (if single_name (el_tag e) then element_reports true e else [DSlotPath]) ++ go l
           | _ :: l => go l
           end) in
      selector_reports r sels ++ flat_map (attr_reports r) attrs ++
      match children with Some l => nodes l | None => [] end ++
      match r, children with
      | OnHtml, _ | _, None => []
      | _, Some l => slots l
      end
  end.

(** A view; slots at the root are not expanded at all. *)
Definition child_reports (c : child) : list diag :=
  match c with
  | CValue v => value_reports v
  | CElement e => element_reports false e
  | CSlot _ => []
  end.
Definition view_reports (cs : list child) : list diag :=
  if existsb (fun c => match c with CSlot _ => true | _ => false end) cs
  then [DRootSlot] else flat_map child_reports cs.

(** ** A tree without the attributes, selectors and modifiers that are rejected *)

Definition no_modifier (d : directive) : directive := Directive (d_dir d) (d_key d) None (d_value d).
Definition known_modifier (d : directive) : directive :=
  match d_modifier d with
  | Some m => if is_word m "undelegated" then d else no_modifier d
  | None => d
  end.
Definition only_key (d : directive) : directive := Directive (d_dir d) (d_key d) None None.

Definition tidy_dir (r : role) (d : directive) : option directive :=
  match r with
  | OnHtml =>
      if named d "class" || named d "style" || named d "prop" || named d "use" then Some (no_modifier d)
      else if named d "on" then Some (known_modifier d)
      else None
  | OnComponent =>
      if named d "clone" then Some (only_key d)
      else if named d "class" || named d "style" || named d "attr" || named d "prop" then Some d
      else if named d "on" then Some (known_modifier d)
      else if named d "use" then Some (no_modifier d)
      else None
  | OnSlot => if named d "clone" then Some (only_key d) else None
  end.
Definition tidy_attr (r : role) (a : attr) : list attr :=
  match a with
  | AKv kv => [AKv kv]
  | ASpread s => match r with OnSlot => [] | _ => [ASpread s] end
  | ADir d => match tidy_dir r d with Some d => [ADir d] | None => [] end
  end.
Definition tidy_selectors (r : role) (l : list selector) : list selector :=
  match r with OnSlot => [] | _ => l end.

Fixpoint tidy_element (slot : bool) (e : element) {struct e} : element :=
  match e with
  | Element t sels attrs args children =>
      let r := role_of slot t in
      let go :=
        (fix go (l : list child) : list child :=
           match l with
           | [] => []
           | CValue v :: l => CValue v :: go l
           | CElement e :: l => CElement (tidy_element false e) :: go l
           | CSlot e :: l => CSlot (tidy_element true e) :: go l
           end) in
      Element t (tidy_selectors r sels) (flat_map (tidy_attr r) attrs) args (option_map go children)
  end.
Definition tidy_child (c : child) : child :=
  match c with
  | CValue v => CValue v
  | CElement e => CElement (tidy_element false e)
  | CSlot e => CSlot (tidy_element true e)
  end.
Definition tidy (cs : list child) : list child := map tidy_child cs.

(** The reports about what [tidy] removes. *)
Definition rejection (d : diag) : bool :=
  match d with
  | DModifier | DUnknownOnModifier | DNotOnElements _ | DUnknownDirective | DCloneValue
  | DSlotSelectors | DSlotSpread | DSlotDirective _ => true
  | _ => false
  end.
Definition others (ds : list diag) : list diag := filter (fun d => negb (rejection d)) ds.
