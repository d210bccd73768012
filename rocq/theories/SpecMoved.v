(** Trees that differ in where slots stand among the other children.  Nothing here uses
    the functions of the model. *)
From Verif Require Import Ast.
Open Scope list_scope.

(** Slots are moved over other children, at any depth; the slots keep their order, and so
    do the other children. *)
Inductive slots_moved_in : element -> element -> Prop :=
| smi_none t sels attrs args : slots_moved_in (Element t sels attrs args None) (Element t sels attrs args None)
| smi_some t sels attrs args l l' : slots_moved l l' ->
    slots_moved_in (Element t sels attrs args (Some l)) (Element t sels attrs args (Some l'))
with slots_moved : list child -> list child -> Prop :=
| sm_nil : slots_moved [] []
| sm_value v l l' : slots_moved l l' -> slots_moved (CValue v :: l) (CValue v :: l')
| sm_element e e' l l' : slots_moved_in e e' -> slots_moved l l' -> slots_moved (CElement e :: l) (CElement e' :: l')
| sm_slot e e' l l' : slots_moved_in e e' -> slots_moved l l' -> slots_moved (CSlot e :: l) (CSlot e' :: l')
| sm_forth e c l : (forall s, c <> CSlot s) -> slots_moved (c :: CSlot e :: l) (CSlot e :: c :: l)
| sm_back e c l : (forall s, c <> CSlot s) -> slots_moved (CSlot e :: c :: l) (c :: CSlot e :: l)
| sm_trans l m n : slots_moved l m -> slots_moved m n -> slots_moved l n.
