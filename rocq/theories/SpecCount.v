(** How often tokens occur in a stream, at any depth.  Nothing here uses the
    functions of the model. *)
From Verif Require Import Ast SpecStr SpecGrammar SpecOut SpecRead.
Open Scope list_scope.

(** How many tokens satisfy [p], inside groups as well. *)
Fixpoint weight (p : tt -> bool) (t : tt) : nat :=
  (if p t then 1 else 0) +
  match t with TGroup _ ts => fold_right (fun t n => weight p t + n) 0 ts | _ => 0 end.
Definition occurrences (p : tt -> bool) (ts : list tt) : nat :=
  fold_right (fun t n => weight p t + n) 0 ts.

(** The text of a number without its sign. *)
Fixpoint unsigned (s : string) : string :=
  match s with String "-" r => unsigned r | _ => s end.
Definition litkind_dec (a b : litkind) : {a = b} + {a <> b}.
Proof. decide equality. Defined.
(** The literal token of kind [k] and text [s], up to a sign. *)
Definition literal (k : litkind) (s : string) (t : tt) : bool :=
  match t with
  | TLit k' s' => if litkind_dec k k' then String.eqb (unsigned s) (unsigned s') else false
  | _ => false
  end.
(** Literals that only occur in code written by the user: names contain
    integers, and the macro writes strings itself. *)
Definition user_literal (k : litkind) : Prop := k <> LkStr /\ k <> LkInt.

(** The generic arguments in the tag of an element. *)
Definition seg_generics (s : path_seg) : list tt :=
  match seg_args s with PNone => [] | PAngle _ g => g | PParen g => g end.
Definition tag_generics (t : tag) : list tt :=
  match t with TagComponent p => List.concat (map seg_generics (segs p)) | _ => [] end.

(** A slot is used only as a child of a component that is not itself a slot. *)
Definition slots_used (slot : bool) (e : element) : Prop :=
  (slot = true \/ forall p, el_tag e <> TagComponent p) ->
  forall e', ~ In (CSlot e') (child_list (el_children e)).
(** Closure arguments are used only by components that have non-slot children. *)
Definition args_used (e : element) : Prop :=
  el_args e <> None -> (exists p, el_tag e = TagComponent p) /\ non_slots (child_list (el_children e)) <> [].
