(** What a view reads as when one block in it is replaced: the readings of the
    block, wrapped into layers that do not depend on the block. *)
From Verif Require Import SpecGrammar SpecOut SpecContext.
Open Scope list_scope.

(** The outcome of reading a block: children and reports; or reading was given up
    after some reports; or it panicked. *)
Inductive reading :=
| Read (cs : list child) (ds : list diag)
| Stopped (ds : list diag)
| Died (w : panic).

(** What surrounds a block in the block that encloses it: the children before, the
    element that owns it (without its children), and the reading of what follows. *)
Record layer := Layer {
  l_before : list child;
  l_slot : bool;
  l_tag : tag;
  l_selectors : list selector;
  l_attrs : list attr;
  l_args : option (list tt);
  l_after : reading }.

Definition l_owner (l : layer) (cs : list child) : child :=
  let e := Element (l_tag l) (l_selectors l) (l_attrs l) (l_args l) (Some cs) in
  if l_slot l then CSlot e else CElement e.

(** The reading of the enclosing block: the block is read first, then what follows. *)
Definition wrap (l : layer) (r : reading) : reading :=
  match r with
  | Read cs ds =>
      match l_after l with
      | Read cs' ds' => Read (l_before l ++ l_owner l cs :: cs') (ds ++ ds')
      | Stopped ds' => Stopped (ds ++ ds')
      | Died w => Died w
      end
  | r => r
  end.
(** Layers are listed from the inside. *)
Definition around (ls : list layer) (r : reading) : reading := fold_left (fun r l => wrap l r) ls r.

(** The tree around. *)
Fixpoint put (ls : list layer) (cs : list child) : list child :=
  match ls with
  | [] => cs
  | l :: r => put r (l_before l ++ l_owner l cs :: match l_after l with Read cs' _ => cs' | _ => [] end)
  end.

(** The layers of a place, if [rd] tells how streams are read: one for each enclosing
    block, made from what is written there. *)
Inductive layers_of (E : env) (rd : list tt -> reading) : ctx -> list layer -> Prop :=
| lo_hole : layers_of E rd Hole []
| lo_inside k pre (slot : option spacing) u args d post l ls :
    children_phrase E pre (l_before l) ->
    l_slot l = (if slot then true else false) ->
    (exists y, elem_head E u (l_tag l) (l_selectors l) (l_attrs l) (args_tokens args ++ TGroup d y :: post)) ->
    l_args l = args_kept args ->
    l_after l = rd post ->
    layers_of E rd k ls -> layers_of E rd (Inside k pre slot u args d post) (l :: ls).

(** ** Code *)

Definition child_code (c : child) (ts : list tt) : Prop :=
  match c with
  | CValue v => value_code v ts
  | CElement e => element_code e ts
  | CSlot e => slot_code e ts
  end.

(** Two codes that differ only in that one has [a] where the other has [b]. *)
Inductive same_around (a b : list tt) : list tt -> list tt -> Prop :=
| sa_here p q : same_around a b (p ++ a ++ q) (p ++ b ++ q)
| sa_in p d x y q : same_around a b x y -> same_around a b (p ++ TGroup d x :: q) (p ++ TGroup d y :: q).
