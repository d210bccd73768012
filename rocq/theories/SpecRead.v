(** Reading emitted code back, and which parts of a tree are used.  Nothing here
    uses the expansion functions of the model. *)
From Verif Require Import Ast SpecStr SpecGrammar SpecOut.
Open Scope list_scope.

(** The method calls [.name(args)] in a stream (not inside groups), in order. *)
Fixpoint calls_in (ts : list tt) : list call :=
  match ts with
  | [] => []
  | t :: r =>
      match t, r with
      | TPunct "." _, TIdent n :: TGroup Paren args :: _ => Call n args :: calls_in r
      | _, _ => calls_in r
      end
  end.

(** The children that are not slots, and the code of one of them. *)
Fixpoint non_slots (l : list child) : list child :=
  match l with
  | [] => []
  | CSlot _ :: r => non_slots r
  | c :: r => c :: non_slots r
  end.
Inductive node_code : child -> list tt -> Prop :=
| node_value v ts : value_code v ts -> node_code (CValue v) (rendered ts)
| node_element e ts : element_code e ts -> node_code (CElement e) (rendered ts).

(** A call the macro names itself, i.e. not by a raw identifier. *)
Definition named (s : string) (c : call) : Prop := call_name c = Id false s.

(** The elements of a tree that end up in the expansion: everything except
    slots inside HTML elements and inside slots.  The flag tells how: as an
    element or as a slot of a component. *)
Inductive used (cs : list child) : bool -> element -> Prop :=
| used_root e : In (CElement e) cs -> used cs false e
| used_child b e e' : used cs b e -> In (CElement e') (child_list (el_children e)) -> used cs false e'
| used_slot e e' p : used cs false e -> el_tag e = TagComponent p ->
    In (CSlot e') (child_list (el_children e)) -> used cs true e'.

(** The same with slots inside slots, which are looked at but not used. *)
Inductive checked (cs : list child) : bool -> element -> Prop :=
| chk_root e : In (CElement e) cs -> checked cs false e
| chk_child b e e' : checked cs b e -> In (CElement e') (child_list (el_children e)) -> checked cs false e'
| chk_slot b e e' p : checked cs b e -> el_tag e = TagComponent p ->
    In (CSlot e') (child_list (el_children e)) -> checked cs true e'.

(** Where a piece of code occurs in a larger piece, at any depth. *)
Inductive within (x : list tt) : list tt -> Prop :=
| within_here pre post : within x (pre ++ x ++ post)
| within_group pre d inner post : within x inner -> within x (pre ++ TGroup d inner :: post).

(** The elements the expander gets to: a slot whose tag is not a single name
    is reported and not looked at further. *)
Inductive reached (cs : list child) : bool -> element -> Prop :=
| reach_root e : In (CElement e) cs -> reached cs false e
| reach_child b e e' : reached cs b e -> In (CElement e') (child_list (el_children e)) -> reached cs false e'
| reach_slot b e e' p i : reached cs b e -> el_tag e = TagComponent p ->
    In (CSlot e') (child_list (el_children e)) ->
    el_tag e' = TagComponent (Path false [PSeg i PNone]) -> reached cs true e'.

(** The values written in an element: attributes, directives, children. *)
Inductive value_in (e : element) : value -> Prop :=
| vi_attr a : In (AKv a) (el_attrs e) -> value_in e (kv_value a)
| vi_directive d v : In (ADir d) (el_attrs e) -> d_value d = Some v -> value_in e v
| vi_child v : In (CValue v) (child_list (el_children e)) -> value_in e v.

(** Every element of a tree, used or not; the flag tells whether it is a slot. *)
Inductive anywhere (cs : list child) : bool -> element -> Prop :=
| any_root e : In (CElement e) cs -> anywhere cs false e
| any_root_slot e : In (CSlot e) cs -> anywhere cs true e
| any_child b e e' : anywhere cs b e -> In (CElement e') (child_list (el_children e)) -> anywhere cs false e'
| any_slot b e e' : anywhere cs b e -> In (CSlot e') (child_list (el_children e)) -> anywhere cs true e'.
