(** Trees that differ in one attribute.  Nothing here uses the functions of the model. *)
From Verif Require Import Ast SpecStr SpecGrammar SpecOut SpecStop.
Open Scope list_scope.

(** Two elements, or two slots, with the tag [t] that differ in one attribute. *)
Inductive one_attr (t : tag) (a a' : attr) : bool -> child -> child -> Prop :=
| oa_element sels before after args ch :
    one_attr t a a' false (CElement (Element t sels (before ++ a :: after) args ch))
                          (CElement (Element t sels (before ++ a' :: after) args ch))
| oa_slot sels before after args ch :
    one_attr t a a' true (CSlot (Element t sels (before ++ a :: after) args ch))
                         (CSlot (Element t sels (before ++ a' :: after) args ch)).

(** The code of one attribute of an element with the tag [t]. *)
Definition attr_code (t : tag) (a : attr) (ts : list tt) : Prop :=
  match t, a with
  | TagComponent _, AKv kv => exists c, prop_call kv c /\ ts = call_tokens c
  | TagComponent _, ADir d => if is_clone d then clone_code d ts else entry_code a ts
  | TagComponent _, ASpread _ => entry_code a ts
  | _, AKv kv => exists c, html_attr_call (kind_of t) kv c /\ ts = call_tokens c
  | _, ADir d => exists c, html_dir_call d c /\ ts = call_tokens c
  | _, ASpread s => ts = call_tokens (spread_call s)
  end.

(** What about an attribute makes the expansion panic. *)
Definition attr_stops (slot : bool) (t : tag) (w : panic) (a : attr) : Prop :=
  match t with
  | TagComponent _ => comp_attr_stops slot w a
  | _ => exists kind, kind_of_tag t kind /\ html_attr_stops kind w a
  end.
