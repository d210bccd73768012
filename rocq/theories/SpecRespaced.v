(** White space in a view, with the spans of its tokens.  Nothing here uses the
    parsers or expanders of the model. *)
From Verif Require Export SpecWhite STokens SMacro SpecSpan.
Open Scope list_scope.

(** Tokens without white space information, but with their spans. *)
Fixpoint sloose (t : stt) : stt :=
  match t with
  | SPunct s c _ => SPunct s c Alone
  | SGroup s d ts => SGroup s d (map sloose ts)
  | _ => t
  end.

(** The tokens of [ts] moved by [f], with other white space, where it does not
    matter. *)
Definition respaced (f : span -> span) (ts ts' : list stt) : Prop :=
  same_text (erases ts) (erases ts') /\ map sloose ts' = map sloose (respans f ts).

(** Places in a token stream. *)
Inductive splace (ts : list stt) : list stt -> Prop :=
| sp_all : splace ts ts
| sp_tail t r : splace ts (t :: r) -> splace ts r
| sp_group s d g r : splace ts (SGroup s d g :: r) -> splace ts g.

(** Spans move consistently, and such white space does not decide whether
    generic arguments can be read, at no place of [ts]. *)
Definition respacing (f : span -> span) (E E' : senv) (ts : list stt) : Prop :=
  f Call = Call /\ s_env E = s_env E' /\
  (forall a b, s_join E' (f a) (f b) = option_map f (s_join E a b)) /\
  (forall u, splace ts u -> forall u', respaced f u u' -> forall sc,
     match s_generic E sc u, s_generic E' (f sc) u' with
     | inl (g, _), inl (g', _) => List.length g = List.length g'
     | inr (r, s), inr (r', s') => List.length r = List.length r' /\ s' = f s
     | _, _ => False
     end).

(** The same result, moved by [f], but for the white space in code that is
    passed on. *)
Definition respaced_result (f : span -> span) (x y : sresult) : Prop :=
  match x, y with
  | SExpanded ts, SExpanded ts' => map sloose ts' = map sloose (respans f ts)
  | SErrors ds, SErrors ds' => ds' = move_diags f ds
  | SPanicked w, SPanicked w' => w = w'
  | _, _ => False
  end.
Definition respaced_answer (f : span -> span) (x y : sanswer) : Prop :=
  match x, y with
  | SGave ts ds, SGave ts' ds' => map sloose ts' = map sloose (respans f ts) /\ ds' = move_diags f ds
  | SCrashed w, SCrashed w' => w = w'
  | _, _ => False
  end.
