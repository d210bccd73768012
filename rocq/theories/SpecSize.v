(** How large a token stream is, and the views with the largest expansions.
    Nothing here uses the functions of the model. *)
From Verif Require Import Ast.
Open Scope list_scope.

(** Tokens, where a group counts as one token and its content. *)
Inductive counts : list tt -> nat -> Prop :=
| cn_nil : counts [] 0
| cn_group d inner n ts m : counts inner n -> counts ts m -> counts (TGroup d inner :: ts) (S (n + m))
| cn_other t ts m : (forall d inner, t <> TGroup d inner) -> counts ts m -> counts (t :: ts) (S m).

(** [A { A { ... A { [] } ... } }] *)
Fixpoint nested (n : nat) : list tt :=
  match n with
  | 0 => [TGroup Bracket []]
  | S n => [TIdent (Id false "A"); TGroup Brace (nested n)]
  end.

(** [p 1 p 1 ... p 1] *)
Fixpoint wrong (n : nat) : list tt :=
  match n with
  | 0 => []
  | S n => TIdent (Id false "p") :: TLit LkInt "1" :: wrong n
  end.
