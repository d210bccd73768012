(** Taking parts out of a view (as one does with comments), and what may become of
    the code: something is left out, nothing is added or moved.  Nothing here uses
    the functions of the model. *)
From Verif Require Import Ast SpecStr SpecGrammar SpecOut SpecWritable.
Open Scope list_scope.

(** The first list is the second one with elements left out, and the others made
    smaller in the sense of [R]. *)
Inductive less {A} (R : A -> A -> Prop) : list A -> list A -> Prop :=
| less_nil : less R [] []
| less_out y l m : less R l m -> less R l (y :: m)
| less_keep x y l m : R x y -> less R l m -> less R (x :: l) (y :: m).

(** ** Trees *)

(** An attribute is kept, or just its modifier is taken out. *)
Inductive cut_attr : attr -> attr -> Prop :=
| ca_same a : cut_attr a a
| ca_modifier i k m v : cut_attr (ADir (Directive i k None v)) (ADir (Directive i k (Some m) v)).

(** Selectors, attributes, modifiers and children of all kinds may be taken out, at
    any depth.  The closure arguments stay, with their block, unless all children go. *)
Inductive cut_element : element -> element -> Prop :=
| cut_intro t sels' sels attrs' attrs args' args ch' ch :
    less eq sels' sels -> less cut_attr attrs' attrs ->
    cut_children (child_list ch') (child_list ch) ->
    (args' = args /\ (ch' = None -> args = None)) \/ (args' = None /\ child_list ch' = []) ->
    cut_element (Element t sels' attrs' args' ch') (Element t sels attrs args ch)
with cut_children : list child -> list child -> Prop :=
| cch_nil : cut_children [] []
| cch_out c l m : cut_children l m -> cut_children l (c :: m)
| cch_value v l m : cut_children l m -> cut_children (CValue v :: l) (CValue v :: m)
| cch_element e e' l m : cut_element e e' -> cut_children l m ->
    cut_children (CElement e :: l) (CElement e' :: m)
| cch_slot e e' l m : cut_element e e' -> cut_children l m ->
    cut_children (CSlot e :: l) (CSlot e' :: m).

(** Trees with names that cannot run into each other, whatever is taken out from
    between them. *)
Definition apart_attr (a : attr) : Prop :=
  match a with
  | AKv kv => ~ starts_dash (k_repr (kv_key kv))
  | ADir d => match d_key d with KKebab k => ~ ends_dash (k_repr k) | KStr _ => True end
  | ASpread _ => True
  end.
Inductive apart : child -> Prop :=
| ap_value v : apart (CValue v)
| ap_element e : apart_element e -> apart (CElement e)
| ap_slot e : apart_element e -> apart (CSlot e)
with apart_element : element -> Prop :=
| ap_intro t sels attrs args ch :
    (forall s, tag_name t = Some s -> ~ ends_dash s) ->
    Forall (fun s => ~ ends_dash (k_repr (selector_name s))) sels ->
    Forall apart_attr attrs ->
    (forall c, In c (child_list ch) -> apart c) ->
    apart_element (Element t sels attrs args ch).

(** ** Code *)

(** The first code is in the second one: tokens are left out, and groups may be opened.
    Of a string made of several words some may be missing (the ids of a component are
    one string). *)
Inductive within : list tt -> list tt -> Prop :=
| wi_nil : within [] []
| wi_out t a b : within a b -> within a (t :: b)
| wi_same t a b : within a b -> within (t :: a) (t :: b)
| wi_group d x y a b : within x y -> within a b -> within (TGroup d x :: a) (TGroup d y :: b)
| wi_open d x a b : within a (x ++ b) -> within a (TGroup d x :: b)
| wi_words l m a b : less eq l m -> l <> [] -> within a b ->
    within (str (spaced l) :: a) (str (spaced m) :: b).
