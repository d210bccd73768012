(** The model with spans, part 1: spans, token trees with spans, erasure.

    [STokens.v], [SSyn.v], [SParse.v], [SExpand.v] and [SMacro.v] are the model
    of [Tokens.v], [Syn.v], [Parse.v], [Expand.v] and [Macro.v] with the spans
    that proc_macro2 keeps: where each token of the expansion and each
    diagnostic points to.  [Erase.v] proves that forgetting the spans gives
    the model without spans. *)
From Verif Require Export Macro Nightly.
Open Scope list_scope.

(** [proc_macro2::Span]: [Span::call_site()], or a range of a source file. *)
Inductive span := Call | Src (file lo hi : nat).

(** [proc_macro2::extra::DelimSpan] of a group: opening delimiter, closing
    delimiter, and all of it ([join]). *)
Record dspan := DSpan { d_open : span; d_close : span; d_whole : span }.
(** [syn::token::Brace(span)] and [Group::set_span]: all three are the same. *)
Definition same_span (s : span) : dspan := DSpan s s s.

(** [TokenTree] with spans. *)
Inductive stt :=
| SIdent (s : span) (i : ident)
| SPunct (s : span) (c : ascii) (sp : spacing)
| SLit (s : span) (k : litkind) (v : string)
| SGroup (s : dspan) (d : delim) (ts : list stt).

(** [TokenTree::span]. *)
Definition tspan (t : stt) : span :=
  match t with
  | SIdent s _ | SPunct s _ _ | SLit s _ _ => s
  | SGroup s _ _ => d_whole s
  end.

(** An identifier with its span. *)
Record sident := SId { si_span : span; si_ident : ident }.
Definition stoken (i : sident) : stt := SIdent (si_span i) (si_ident i).

(** ** Forgetting spans *)

Fixpoint erase (t : stt) : tt :=
  match t with
  | SIdent _ i => TIdent i
  | SPunct _ c sp => TPunct c sp
  | SLit _ k v => TLit k v
  | SGroup _ d ts => TGroup d (map erase ts)
  end.
Definition erases (ts : list stt) : list tt := map erase ts.

(** ** What rustc and syn decide *)

(** [s_join] is [Span::join]: [None] on stable Rust and for spans that cannot
    be joined.  [s_generic] is the generic-argument parser of [env], on tokens
    with spans; it is given the span of the end of the stream, and says where
    its error is. *)
Record senv := SEnv {
  s_env : env;
  s_join : span -> span -> option span;
  s_generic : span -> list stt -> (list stt * list stt) + (list stt * span)
}.

(** [span::join], span.rs:11, and the same pattern inside syn and quote. *)
Definition joinx (E : senv) (a b : span) : span :=
  match s_join E a b with Some c => c | None => a end.

(** [Spanned::span] of a [TokenStream] (quote's [join_spans]): from the first
    to the last token. *)
Definition stream_span (E : senv) (ts : list stt) : span :=
  match ts with
  | [] => Call
  | [t] => tspan t
  | t :: r => joinx E (tspan t) (tspan (List.last r t))
  end.

(** ** Shorthands for emitted tokens: [quote_spanned! { s => .. }] *)

Definition skw (s : span) (w : string) : stt := SIdent s (Id false w).
Definition spu (s : span) (c : ascii) : stt := SPunct s c Alone.
Definition scolon2 (s : span) : list stt := [SPunct s ":" Joint; SPunct s ":" Alone].
Definition soror (s : span) : list stt := [SPunct s "|" Joint; SPunct s "|" Alone].
Definition sgpath (s : span) (segs : list string) : list stt :=
  flat_map (fun w => scolon2 s ++ [skw s w]) segs.
Definition sgroup (s : span) (d : delim) (ts : list stt) : stt := SGroup (same_span s) d ts.
Definition spar (s : span) (ts : list stt) : stt := sgroup s Paren ts.
(** [quote!] gives its own tokens the call site's span. *)
Definition sstr (s : span) (v : string) : stt := SLit s LkStr v.
