(** Views with holes.  Nothing here uses the parsers or expanders of the
    model. *)
From Verif Require Import SpecSpan SMacro Ast Macro Nightly.
Open Scope list_scope.

(** ** Tokens with holes *)

(** A group with a hole is a group of which the content is left open; the same
    hole can be in several groups. *)
Inductive tpl :=
| PTok (t : stt)
| PGroup (s : dspan) (d : delim) (ts : list tpl)
| PHole (s : dspan) (d : delim) (n : nat).

(** Putting tokens into the holes. *)
Fixpoint fill (f : nat -> list stt) (p : tpl) : stt :=
  match p with
  | PTok t => t
  | PGroup s d ts => SGroup s d (map (fill f) ts)
  | PHole s d n => SGroup s d (f n)
  end.
Definition fills (f : nat -> list stt) (ts : list tpl) : list stt := map (fill f) ts.

(** All holes are in brackets. *)
Inductive in_brackets : tpl -> Prop :=
| ib_tok t : in_brackets (PTok t)
| ib_group s d ts : Forall in_brackets ts -> in_brackets (PGroup s d ts)
| ib_hole s n : in_brackets (PHole s Bracket n).

(** The ends of [ts] and of the contents of its groups: where a parser can be. *)
Inductive place_in (ts : list tpl) : list tpl -> Prop :=
| in_all : place_in ts ts
| in_tail p r : place_in ts (p :: r) -> place_in ts r
| in_group s d g r : place_in ts (PGroup s d g :: r) -> place_in ts g.

(** Whether generic arguments can be read at a place in [ts], and where they
    end, is not decided by what is in the holes. *)
Definition blind (E : senv) (ts : list tpl) : Prop := forall u, place_in ts u -> forall sc f f',
  match s_generic E sc (fills f u), s_generic E sc (fills f' u) with
  | inl (g, _), inl (g', _) => List.length g = List.length g'
  | inr (r, s), inr (r', s') => List.length r = List.length r' /\ s = s'
  | _, _ => False
  end.

(** What the macro does, with holes in the tokens it gives. *)
Inductive holed :=
| OExpanded (ts : list tpl)
| OErrors (ds : list sdiag)
| OPanicked (w : panic).
Definition fill_result (f : nat -> list stt) (o : holed) : sresult :=
  match o with
  | OExpanded ts => SExpanded (fills f ts)
  | OErrors ds => SErrors ds
  | OPanicked w => SPanicked w
  end.
Inductive gift :=
| OGave (ts : list tpl) (ds : list sdiag)
| OCrashed (w : panic).
Definition fill_gift (f : nat -> list stt) (o : gift) : sanswer :=
  match o with
  | OGave ts ds => SGave (fills f ts) ds
  | OCrashed w => SCrashed w
  end.

(** ** Trees with other code *)

(** The code of a value: what is in its block or its brackets. *)
Definition recode_value (f : list tt -> list tt) (v : value) : value :=
  match v with
  | VLit l => VLit l
  | VBlock ts => VBlock (f ts)
  | VBracket p ts => VBracket p (f ts)
  end.
Definition recode_attr (f : list tt -> list tt) (a : attr) : attr :=
  match a with
  | AKv (KvAttr k v) => AKv (KvAttr k (recode_value f v))
  | ADir (Directive d k m v) => ADir (Directive d k m (option_map (recode_value f) v))
  | ASpread r => ASpread r
  end.
Fixpoint recode_element (f : list tt -> list tt) (e : element) : element :=
  match e with
  | Element t sels attrs args ch =>
      Element t sels (map (recode_attr f) attrs) args
        (option_map
           (fix go (l : list child) : list child :=
              match l with [] => [] | c :: r => recode f c :: go r end) ch)
  end
with recode (f : list tt -> list tt) (c : child) : child :=
  match c with
  | CValue v => CValue (recode_value f v)
  | CElement e => CElement (recode_element f e)
  | CSlot e => CSlot (recode_element f e)
  end.

(** Tokens in which the contents of some groups depend on the code [c]. *)
Inductive utpl :=
| UTok (t : tt)
| UGroup (d : delim) (ts : list utpl)
| UHole (d : delim) (c : list tt).
Fixpoint ufill (f : list tt -> list tt) (p : utpl) : tt :=
  match p with
  | UTok t => t
  | UGroup d ts => TGroup d (map (ufill f) ts)
  | UHole d c => TGroup d (f c)
  end.
Inductive uholed :=
| UExpanded (ts : list utpl)
| UErrors (ds : list diag)
| UPanicked (w : panic).
Definition ufill_result (f : list tt -> list tt) (o : uholed) : result :=
  match o with
  | UExpanded ts => Expanded (map (ufill f) ts)
  | UErrors ds => Errors ds
  | UPanicked w => Panicked w
  end.
Inductive ugift :=
| UGave (ts : list utpl) (ds : list diag)
| UCrashed (w : panic).
Definition ufill_gift (f : list tt -> list tt) (o : ugift) : answer :=
  match o with
  | UGave ts ds => Gave (map (ufill f) ts) ds
  | UCrashed w => Crashed w
  end.
