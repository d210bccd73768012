(** Trees that differ in how attributes of different sorts are mixed.  Nothing here
    uses the functions of the model. *)
From Verif Require Import Ast SpecStr SpecGrammar SpecOut.
Open Scope list_scope.

(** HTML elements: [key=value], directives, spreads.  Components: [key=value], [clone:],
    and the other directives together with spreads. *)
Inductive sort := Keyed | Cloned | Directed | Spreading.
Definition sort_on (t : tag) (a : attr) : sort :=
  match a, t with
  | AKv _, _ => Keyed
  | ADir d, TagComponent _ => if is_clone d then Cloned else Directed
  | ADir _, _ => Directed
  | ASpread _, TagComponent _ => Directed
  | ASpread _, _ => Spreading
  end.
Definition other_sort (t : tag) (a b : attr) : Prop := sort_on t a <> sort_on t b.
(** A class and an id. *)
Inductive other_selector : selector -> selector -> Prop :=
| os_class_id a b : other_selector (SelClass a) (SelId b)
| os_id_class a b : other_selector (SelId a) (SelClass b).

(** One list can be made from the other by exchanging neighbours that [differ]. *)
Inductive exchanged {A} (differ : A -> A -> Prop) : list A -> list A -> Prop :=
| ex_same l : exchanged differ l l
| ex_step p a b q l : differ a b -> exchanged differ (p ++ b :: a :: q) l -> exchanged differ (p ++ a :: b :: q) l.

(** The same at any depth. *)
Inductive mixed_element : element -> element -> Prop :=
| mix_none t sels sels' attrs attrs' args :
    exchanged other_selector sels sels' -> exchanged (other_sort t) attrs attrs' ->
    mixed_element (Element t sels attrs args None) (Element t sels' attrs' args None)
| mix_some t sels sels' attrs attrs' args l l' :
    exchanged other_selector sels sels' -> exchanged (other_sort t) attrs attrs' -> mixed l l' ->
    mixed_element (Element t sels attrs args (Some l)) (Element t sels' attrs' args (Some l'))
with mixed : list child -> list child -> Prop :=
| mix_nil : mixed [] []
| mix_value v l l' : mixed l l' -> mixed (CValue v :: l) (CValue v :: l')
| mix_element e e' l l' : mixed_element e e' -> mixed l l' -> mixed (CElement e :: l) (CElement e' :: l')
| mix_slot e e' l l' : mixed_element e e' -> mixed l l' -> mixed (CSlot e :: l) (CSlot e' :: l').
