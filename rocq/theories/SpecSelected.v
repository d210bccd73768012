(** Trees that differ in one selector (a class or an id) of one element. *)
From Verif Require Import Ast SpecStr SpecGrammar SpecOut SpecOneChild.
Open Scope list_scope.

Inductive same_selector : selector -> selector -> Prop :=
| sm_class k k' : same_selector (SelClass k) (SelClass k')
| sm_id k k' : same_selector (SelId k) (SelId k').
(** The token that stands for the selector [s] between others: a block or literal with its
    name; for an id of a component, the literal with all ids. *)
Definition selector_token (t : tag) (before after : list selector) (s : selector) : tt :=
  match t, s with
  | TagComponent _, SelClass k => str (k_repr k)
  | TagComponent _, SelId k => str (spaced (map k_repr (ids_of before ++ k :: ids_of after)))
  | _, SelClass k | _, SelId k => name_block k
  end.
(** The second tree has an element with the selector [s'] where the first one has the same
    element with the selector [s], at any depth; [u] and [v] stand for the two. *)
Inductive reselected (u v : tt) (l m : list child) : Prop :=
| rs_intro t before s s' after attrs args ch :
    same_selector s s' -> u = selector_token t before after s -> v = selector_token t before after s' ->
    edited (CElement (Element t (before ++ s :: after) attrs args ch))
           (CElement (Element t (before ++ s' :: after) attrs args ch)) l m ->
    reselected u v l m.
