(** Places in the input: where in a view a piece of syntax is written.

    Everything before the place, in every enclosing block, is well-formed;
    what comes after it is arbitrary. *)
From Verif Require Import SpecGrammar.
From Verif Require Export Ast Macro.
Open Scope list_scope.

(** The part of an element before its end: tag, selectors and attributes. *)
Definition elem_head (E : env) (ts : list tt) (t : tag) (sels : list selector) (attrs : list attr)
  (follow : list tt) : Prop :=
  exists ts1 ts2 ts3, ts = ts1 ++ ts2 ++ ts3 /\
    tag_phrase E ts1 t (ts2 ++ ts3 ++ follow) /\
    selectors_phrase ts2 sels (ts3 ++ follow) /\
    attrs_phrase ts3 attrs follow.

(** Some attributes, after which more may come. *)
Inductive attr_run : list tt -> list attr -> list tt -> Prop :=
| ar_nil follow : attr_run [] [] follow
| ar_cons ts a ts' l follow :
    attr_phrase ts a (ts' ++ follow) -> attr_run ts' l follow ->
    attr_run (ts ++ ts') (a :: l) follow.

(** Some selectors, after which more may come. *)
Inductive selector_run : list tt -> list selector -> list tt -> Prop :=
| sr_nil follow : selector_run [] [] follow
| sr_cons ts s ts' l follow :
    selector_phrase ts s (ts' ++ follow) -> selector_run ts' l follow ->
    selector_run (ts ++ ts') (s :: l) follow.

(** Tag, selectors and some attributes: what precedes a place in an attribute
    list. *)
Definition open_head (E : env) (ts : list tt) (t : tag) (sels : list selector) (attrs : list attr)
  (follow : list tt) : Prop :=
  exists ts1 ts2 ts3, ts = ts1 ++ ts2 ++ ts3 /\
    tag_phrase E ts1 t (ts2 ++ ts3 ++ follow) /\
    selectors_phrase ts2 sels (ts3 ++ follow) /\
    attr_run ts3 attrs follow.

(** Tag and some selectors: what precedes a place in the selectors. *)
Definition open_tag (E : env) (ts : list tt) (t : tag) (sels : list selector)
  (follow : list tt) : Prop :=
  exists ts1 ts2, ts = ts1 ++ ts2 /\ tag_phrase E ts1 t (ts2 ++ follow) /\
    selector_run ts2 sels follow.

(** [slot:], or nothing. *)
Definition slot_tokens (slot : option spacing) : list tt :=
  match slot with
  | Some sp => [TIdent (Id false "slot"); TPunct ":" sp]
  | None => []
  end.
Definition as_child (slot : option spacing) (e : element) : child :=
  match slot with Some _ => CSlot e | None => CElement e end.

(** The stream [ts] is read as an element (after [slot:], if present). *)
Definition opens (slot : option spacing) (ts : list tt) : Prop :=
  match slot with
  | Some _ => slot_prefix (slot_tokens slot ++ ts)
  | None => next_ident ts /\ ~ slot_prefix ts /\
            ~ exists v ts' r, ts = ts' ++ r /\ value_phrase ts' v r
  end.

(** [|args|], or nothing. *)
Definition args_tokens (args : option (spacing * list tt * spacing)) : list tt :=
  match args with
  | Some (sp, l, sp') => TPunct "|" sp :: l ++ [TPunct "|" sp']
  | None => []
  end.
Definition args_kept (args : option (spacing * list tt * spacing)) : option (list tt) :=
  match args with
  | Some (_, l, _) => Some (TPunct "|" Alone :: l ++ [TPunct "|" Alone])
  | None => None
  end.
Definition args_fine (args : option (spacing * list tt * spacing)) : Prop :=
  match args with Some (_, l, _) => Forall not_pipe l | None => True end.

(** A block of children somewhere in a view: the whole view, or the block of
    an element (or slot) of an outer block, with some children before it. *)
Inductive ctx :=
| Hole
| Inside (k : ctx) (pre : list tt) (slot : option spacing) (u : list tt)
     (args : option (spacing * list tt * spacing)) (d : delim) (post : list tt).

Fixpoint plug (k : ctx) (x : list tt) : list tt :=
  match k with
  | Hole => x
  | Inside k pre slot u args d post =>
      plug k (pre ++ slot_tokens slot ++ u ++ args_tokens args ++ TGroup d x :: post)
  end.

(** What comes before the block is well-formed, and the block is indeed the
    children of that element. *)
Fixpoint fits (E : env) (k : ctx) (x : list tt) : Prop :=
  match k with
  | Hole => True
  | Inside k pre slot u args d post =>
      (exists cs, children_phrase E pre cs) /\
      (exists t sels attrs, elem_head E u t sels attrs (args_tokens args ++ TGroup d x :: post)) /\
      opens slot (u ++ args_tokens args ++ TGroup d x :: post) /\
      args_fine args /\ (d = Brace \/ d = Paren) /\
      fits E k (pre ++ slot_tokens slot ++ u ++ args_tokens args ++ TGroup d x :: post)
  end.

(** The block is in braces right after the attributes, so it could be taken
    for an attribute [{..}]. *)
Definition bare_brace (k : ctx) : Prop :=
  match k with Inside _ _ _ _ None Brace _ => True | _ => False end.

(** A place in the attributes of an element: [u] is its tag, its selectors and
    some attributes, and [x] is what follows, up to the end of the block. *)
Definition attr_place (k : ctx) (pre : list tt) (slot : option spacing) (u x : list tt) : list tt :=
  plug k (pre ++ slot_tokens slot ++ u ++ x).
Definition at_attr (E : env) (k : ctx) (pre : list tt) (slot : option spacing) (u x : list tt) : Prop :=
  (exists cs, children_phrase E pre cs) /\
  (exists t sels attrs, open_head E u t sels attrs x) /\
  opens slot (u ++ x) /\
  fits E k (pre ++ slot_tokens slot ++ u ++ x).
(** The same in the selectors. *)
Definition at_selector (E : env) (k : ctx) (pre : list tt) (slot : option spacing) (u x : list tt) : Prop :=
  (exists cs, children_phrase E pre cs) /\
  (exists t sels, open_tag E u t sels x) /\
  opens slot (u ++ x) /\
  fits E k (pre ++ slot_tokens slot ++ u ++ x).
(** A place where a child is expected. *)
Definition child_place (k : ctx) (pre x : list tt) : list tt := plug k (pre ++ x).
Definition at_child (E : env) (k : ctx) (pre x : list tt) : Prop :=
  (exists cs, children_phrase E pre cs) /\ fits E k (pre ++ x).

(** The same result, except that the diagnostics [extra] are reported, too. *)
Inductive more (extra : list diag) : result -> result -> Prop :=
| more_expanded out : more extra (Expanded out) (Errors extra)
| more_errors ds ds' : more extra (Errors (ds ++ ds')) (Errors (ds ++ extra ++ ds'))
| more_panic w : more extra (Panicked w) (Panicked w).
