(** Trees that differ in one child. *)
From Verif Require Import Ast SpecStr SpecGrammar SpecOut SpecRead SpecReports SpecConfined SpecStop.
Open Scope list_scope.

(** Both are values or elements, or both are slots of the same name. *)
Inductive same_sort : child -> child -> Prop :=
| ss_node c c' : (forall e, c <> CSlot e) -> (forall e, c' <> CSlot e) -> same_sort c c'
| ss_slot e e' : el_tag e = el_tag e' -> same_sort (CSlot e) (CSlot e').

(** The second tree has [c'] where the first one has [c], at any depth. *)
Inductive edited (c c' : child) : list child -> list child -> Prop :=
| ed_here before after : edited c c' (before ++ c :: after) (before ++ c' :: after)
| ed_element before t sels attrs args l m after : edited c c' l m ->
    edited c c' (before ++ CElement (Element t sels attrs args (Some l)) :: after)
                (before ++ CElement (Element t sels attrs args (Some m)) :: after)
| ed_slot before t sels attrs args l m after : edited c c' l m ->
    edited c c' (before ++ CSlot (Element t sels attrs args (Some l)) :: after)
                (before ++ CSlot (Element t sels attrs args (Some m)) :: after).

(** What is reported about a child. *)
Definition own_reports (c : child) : list diag :=
  match c with
  | CValue v => value_reports v
  | CElement e => element_reports false e
  | CSlot e => if single_name (el_tag e) then element_reports true e else [DSlotPath]
  end.

(** What about a child makes the expansion panic, where the child is looked at. *)
Inductive own_stops (w : panic) : child -> Prop :=
| os_element e : elem_stops w false e -> own_stops w (CElement e)
| os_slot_tag e : (forall p, el_tag e <> TagComponent p) -> w = PSlotTag -> own_stops w (CSlot e)
| os_slot_name e i m : el_tag e = one_name i -> camel_snake (i_name i) m -> In m (""%string :: reserved_words) ->
    w = PNewRaw m -> own_stops w (CSlot e)
| os_slot e i : el_tag e = one_name i -> elem_stops w true e -> own_stops w (CSlot e).
