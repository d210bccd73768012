(** Spans: what is assumed of rustc and syn, and where a span points.  Nothing
    here uses the parsers or expanders of the model. *)
From Verif Require Import SpecGrammar SMacro.
Open Scope list_scope.
Close Scope sexpand_scope.

(** All spans in a token stream, inside groups too. *)
Fixpoint spans_of (t : stt) : list span :=
  match t with
  | SIdent s _ | SPunct s _ _ | SLit s _ _ => [s]
  | SGroup s _ ts => d_open s :: d_close s :: d_whole s :: flat_map spans_of ts
  end.
Definition spans (ts : list stt) : list span := flat_map spans_of ts.

(** A place in the input: the span of one of its tokens or delimiters, or
    (where [Span::join] works) the range from one place to another. *)
Inductive points (E : senv) (input : list stt) : span -> Prop :=
| points_at s : In s (spans input) -> points E input s
| points_range a b s :
    points E input a -> points E input b -> s_join E a b = Some s -> points E input s.

(** The generic-argument parser does the same with and without spans. *)
Definition same_generic (E : senv) : Prop := forall sc ts,
  generic_args (s_env E) (erases ts) =
  match s_generic E sc ts with
  | inl (used, r) => inl (erases used, erases r)
  | inr (r, _) => inr (erases r)
  end.

(** What is assumed of [senv]: [env_ok]; the generic-argument parser takes a
    prefix of its input and leaves the other tokens alone; its errors are
    inside its input, or where the stream ends; joining a span with itself
    changes nothing. *)
Definition senv_ok (E : senv) : Prop :=
  env_ok (s_env E) /\ same_generic E /\
  (forall sc ts g r, s_generic E sc ts = inl (g, r) -> ts = g ++ r) /\
  (forall sc ts r s, s_generic E sc ts = inr (r, s) ->
     (exists u, ts = u ++ r) /\ (s = sc \/ points E ts s)) /\
  (forall s c, s_join E s s = Some c -> c = s).

(** Results without their spans. *)
Definition eresult (r : sresult) : result :=
  match r with
  | SExpanded ts => Expanded (erases ts)
  | SErrors ds => Errors (map fst ds)
  | SPanicked w => Panicked w
  | SNoFuelLeft => NoFuelLeft
  end.
Definition eanswer (r : sanswer) : answer :=
  match r with
  | SGave ts ds => Gave (erases ts) (map fst ds)
  | SCrashed w => Crashed w
  | SOutOfFuel => OutOfFuel
  end.

(** ** Moving spans *)

(** Applying a function to every span of a token stream, of a list of
    diagnostics, and of a result. *)
Definition mapd (f : span -> span) (d : dspan) : dspan := DSpan (f (d_open d)) (f (d_close d)) (f (d_whole d)).
Fixpoint respan (f : span -> span) (t : stt) : stt :=
  match t with
  | SIdent s i => SIdent (f s) i
  | SPunct s c sp => SPunct (f s) c sp
  | SLit s k v => SLit (f s) k v
  | SGroup s d ts => SGroup (mapd f s) d (map (respan f) ts)
  end.
Definition respans (f : span -> span) (ts : list stt) : list stt := map (respan f) ts.
Definition move_diags (f : span -> span) (ds : list sdiag) : list sdiag := map (fun d => (fst d, f (snd d))) ds.
Definition move_result (f : span -> span) (r : sresult) : sresult :=
  match r with
  | SExpanded ts => SExpanded (respans f ts)
  | SErrors ds => SErrors (move_diags f ds)
  | SPanicked w => SPanicked w
  | SNoFuelLeft => SNoFuelLeft
  end.
Definition move_answer (f : span -> span) (r : sanswer) : sanswer :=
  match r with
  | SGave ts ds => SGave (respans f ts) (move_diags f ds)
  | SCrashed w => SCrashed w
  | SOutOfFuel => SOutOfFuel
  end.

(** [f] keeps the call site, joined spans move with their ends, and the
    generic-argument parser does the same with moved tokens. *)
Definition moves (f : span -> span) (E E' : senv) : Prop :=
  f Call = Call /\ s_env E = s_env E' /\
  (forall a b, s_join E' (f a) (f b) = option_map f (s_join E a b)) /\
  (forall sc ts, s_generic E' (f sc) (respans f ts) =
     match s_generic E sc ts with
     | inl (used, r) => inl (respans f used, respans f r)
     | inr (r, s) => inr (respans f r, f s)
     end).

(** All spans in a result. *)
Definition result_spans (r : sresult) : list span :=
  match r with
  | SExpanded ts => spans ts
  | SErrors ds => map snd ds
  | _ => []
  end.
Definition answer_spans (r : sanswer) : list span :=
  match r with
  | SGave ts ds => spans ts ++ map snd ds
  | _ => []
  end.

(** A set of spans that joining cannot leave. *)
Definition closed (E : senv) (Q : span -> Prop) : Prop :=
  forall a b c, Q a -> Q b -> s_join E a b = Some c -> Q c.

(** A range of a file. *)
Definition inside (f lo hi : nat) (s : span) : Prop :=
  match s with
  | Call => False
  | Src f' a b => f' = f /\ lo <= a /\ b <= hi
  end.
