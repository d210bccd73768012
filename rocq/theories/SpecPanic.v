(** Which inputs can make the macro panic, stated on tokens only. *)
From Verif Require Import Ast SpecStr SpecGrammar.
Open Scope list_scope.

(** A stream at which children, attributes or shorthands are read: the input,
    or the content of a group in such a stream. *)
Inductive level : list tt -> list tt -> Prop :=
| level_here ts : level ts ts
| level_in d inner outer input : level outer input -> In (TGroup d inner) outer -> level inner input.

(** A token that is a name of its own but no identifier can be made of it:
    [self], [Self], [super], [crate], [_] and a lone [-]. *)
Inductive bad_name_token : tt -> Prop :=
| bad_word w : In w reserved_words -> bad_name_token (TIdent (Id false w))
| bad_dash sp : bad_name_token (TPunct "-" sp).

(** Slot names whose snake case is such a word. *)
Definition bad_slot_words : list string :=
  ["_"; "self"; "super"; "crate"; "Self"; "Super"; "Crate"].

(** The kinds of trouble in one stream. *)
Inductive trouble : list tt -> Prop :=
| tr_name pre t post : bad_name_token t -> name_ends [t] post -> trouble (pre ++ t :: post)
| tr_slot_name pre sp i post : In (i_name i) bad_slot_words ->
    trouble (pre ++ TIdent (Id false "slot") :: TPunct ":" sp :: TIdent i :: post)
| tr_slot_tag pre sp n post : name_phrase n -> name_ends n post -> ~ starts_upper (name_text n) ->
    trouble (pre ++ TIdent (Id false "slot") :: TPunct ":" sp :: n ++ post).

Definition can_panic (input : list tt) : Prop :=
  exists ts, level ts input /\ trouble ts.
