(** Trees that differ in the name of one element. *)
From Verif Require Import Ast SpecStr SpecGrammar SpecOut SpecOneChild.
Open Scope list_scope.

(** The token that stands for the name of an element that is no component. *)
Definition written_name (t : tag) : option tt :=
  match t with
  | TagHtml i | TagSvg i | TagMath i => Some (TIdent i)
  | TagWeb k => Some (str (k_repr k))
  | TagComponent _ => None
  end.
(** The second tree has an element with the tag [t'] where the first one has the same
    element with the tag [t], at any depth; both are names of the same kind. *)
Definition renamed (t t' : tag) (l m : list child) : Prop :=
  kind_of t = kind_of t' /\
  exists sels attrs args ch,
    edited (CElement (Element t sels attrs args ch)) (CElement (Element t' sels attrs args ch)) l m.
