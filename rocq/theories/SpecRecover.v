(** Recovering from errors: what the two back ends do with a view with an
    error, compared with a corrected view. *)
From Verif Require Import SpecContext.
From Verif Require Export Nightly.
Open Scope list_scope.

(** The same tokens, and the diagnostics [extra] in addition. *)
Inductive also (extra : list diag) : answer -> answer -> Prop :=
| also_gave ts ds ds' : also extra (Gave ts (ds ++ ds')) (Gave ts (ds ++ extra ++ ds'))
| also_crashed w : also extra (Crashed w) (Crashed w).

(** The view [bad] is treated like [good], except that [extra] is reported. *)
Definition recovers (E : env) (extra : list diag) (good bad : list tt) : Prop :=
  more extra (mview E good) (mview E bad) /\
  also extra (mview_nightly E good) (mview_nightly E bad).
