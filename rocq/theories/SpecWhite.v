(** White space between the tokens of a view.  Nothing here uses the parsers or
    expanders of the model. *)
From Verif Require Export Tokens Syn Macro Nightly.
Open Scope list_scope.

(** White space is visible in a token stream only as the spacing of punctuation.
    It can matter between two colons, two dots, [<] and [<], [<] and [=], and after
    the quote of a lifetime. *)
Definition matters (c : ascii) (ts : list tt) : Prop :=
  c = "'"%char \/
  exists d sp r, ts = TPunct d sp :: r /\
    List.In (c, d) [(":", ":"); (".", "."); ("<", "<"); ("<", "=")]%char.

(** Two token streams that differ only in white space that does not matter. *)
Inductive same_text : list tt -> list tt -> Prop :=
| st_nil : same_text [] []
| st_ident i ts ts' : same_text ts ts' -> same_text (TIdent i :: ts) (TIdent i :: ts')
| st_lit k s ts ts' : same_text ts ts' -> same_text (TLit k s :: ts) (TLit k s :: ts')
| st_punct c sp sp' ts ts' : (matters c ts -> sp = sp') ->
    same_text ts ts' -> same_text (TPunct c sp :: ts) (TPunct c sp' :: ts')
| st_group d g g' ts ts' : same_text g g' ->
    same_text ts ts' -> same_text (TGroup d g :: ts) (TGroup d g' :: ts').

(** Places in a token stream. *)
Inductive place_of (ts : list tt) : list tt -> Prop :=
| po_all : place_of ts ts
| po_tail t r : place_of ts (t :: r) -> place_of ts r
| po_group d g r : place_of ts (TGroup d g :: r) -> place_of ts g.

(** Such white space does not matter to the parser of generic arguments either,
    at no place of [ts]. *)
Definition plain_generics (E : env) (ts : list tt) : Prop :=
  forall u, place_of ts u -> forall u', same_text u u' ->
  match generic_args E u, generic_args E u' with
  | inl (g, r), inl (g', r') => List.length r = List.length r'
  | inr r, inr r' => List.length r = List.length r'
  | _, _ => False
  end.

(** Tokens without any white space information. *)
Fixpoint loose (t : tt) : tt :=
  match t with
  | TPunct c _ => TPunct c Alone
  | TGroup d ts => TGroup d (map loose ts)
  | _ => t
  end.

(** The same result, but for the white space in code that is passed on. *)
Definition same_result (x y : result) : Prop :=
  match x, y with
  | Expanded ts, Expanded ts' => map loose ts = map loose ts'
  | Errors ds, Errors ds' => ds = ds'
  | Panicked w, Panicked w' => w = w'
  | _, _ => False
  end.
Definition same_answer (x y : answer) : Prop :=
  match x, y with
  | Gave ts ds, Gave ts' ds' => map loose ts = map loose ts' /\ ds = ds'
  | Crashed w, Crashed w' => w = w'
  | _, _ => False
  end.
