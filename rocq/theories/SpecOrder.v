(** Comparing two expansions that may differ by the order of slots.  Nothing
    here uses the expansion functions of the model. *)
From Verif Require Import Ast SpecStr SpecGrammar SpecOut SpecRead.
From Verif Require Import Macro.
From Coq Require Import Permutation.
Open Scope list_scope.

(** The code of one slot is a conversion [::std::convert::Into::into(..)]; a
    slot call passes some of those.  (No attribute value looks like this: they
    are literals, blocks or closures.) *)
Definition slot_shape (ts : list tt) : Prop :=
  exists x, ts = abs_path ["std"; "convert"; "Into"; "into"] ++ [parens x].
Definition slot_like (c : call) : Prop :=
  i_raw (call_name c) = true /\
  exists codes, codes <> [] /\ Forall slot_shape codes /\ call_args c = slot_arg codes.

(** The same code up to the order of adjacent slot calls, at any depth. *)
Inductive reordered : list tt -> list tt -> Prop :=
| ro_refl ts : reordered ts ts
| ro_trans a b c : reordered a b -> reordered b c -> reordered a c
| ro_app a a' b b' : reordered a a' -> reordered b b' -> reordered (a ++ b) (a' ++ b')
| ro_group d a a' : reordered a a' -> reordered [TGroup d a] [TGroup d a']
| ro_slots l l' : Forall slot_like l -> Permutation l l' -> reordered (chain l) (chain l').

(** The same panic, except that if several names cannot be identifiers it may
    be another one of them that is complained about. *)
Definition panic_alike (w w' : panic) : Prop :=
  w = w' \/ exists s s', w = PNewRaw s /\ w' = PNewRaw s'.

Definition same_verdict (a b : result) : Prop :=
  match a, b with
  | Expanded x, Expanded y => reordered x y
  | Errors x, Errors y => x = y
  | Panicked w, Panicked w' => panic_alike w w'
  | _, _ => False
  end.

(** The slots among some children; the name of a slot. *)
Fixpoint slots_in (l : list child) : list element :=
  match l with
  | [] => []
  | CSlot e :: r => e :: slots_in r
  | _ :: r => slots_in r
  end.
Definition slot_name (e : element) (i : ident) : Prop :=
  el_tag e = TagComponent (Path false [PSeg i PNone]).
(** All slots of an element have the same name. *)
Definition one_slot_name (e : element) : Prop :=
  forall a b i j, In a (slots_in (child_list (el_children e))) -> In b (slots_in (child_list (el_children e))) ->
    slot_name a i -> slot_name b j -> i = j.
