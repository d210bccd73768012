(** Putting views together.  Nothing here uses the expansion functions of the
    model. *)
From Verif Require Import Ast SpecStr SpecGrammar SpecOut SpecRead.
Open Scope list_scope.

(** The order of slots does not depend on where the component is. *)
Definition steady (E : env) : Prop := forall p q ks, slot_order E p ks = slot_order E q ks.

(** The expansion made of the code of each child. *)
Definition root_of (codes : list (list tt)) : list tt :=
  match codes with [c] => root_frame c | _ => root_frame (fragment codes) end.
