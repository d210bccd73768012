(** The texts of the reports, as [emit_error!] and [abort!] are given them.

    [emit_as_error] and [unwrap_or_abort] (error_ext.rs:22,32) pass on the text
    of a [syn::Error].  [None] stands for the texts of syn's parser of generic
    arguments, which are not modelled. *)
From Verif Require Export Tokens.
Open Scope string_scope.

(** syn's [ParseBuffer::error] and [Cursor::error]: where the stream ends, this
    is put in front of the text. *)
Definition cursor_text (f : found) (s : string) : string :=
  match f with AtEnd => "unexpected end of input, " ++ s | _ => s end.

Definition error_text (e : perr) : option string :=
  match e with
  (* ast/value.rs:69 *)
  | EValue => Some "invalid value: expected bracket, block or literal"
  (* ast/ident.rs:124 *)
  | EKebab f => Some (cursor_text f "expected a kebab-cased ident")
  (* parse.rs:55, 75, 52, 72 *)
  | EBraceNotFound => Some "no brace found"
  | EParenNotFound => Some "no paren found"
  | EBraceExtra => Some "found extra tokens trying to parse braced expression"
  | EParenExtra => Some "found extra tokens trying to parse parenthesized expression"
  (* ast/children.rs:83 *)
  | EChild => Some "invalid child: expected literal, block, bracket or element"
  (* ast/attribute.rs:41 *)
  | EAttr => Some "no attribute found"
  (* ast/attribute/spread_attrs.rs:33 *)
  | ESpread => Some "invalid spread attribute"
  (* ast/attribute/selector.rs:72 *)
  | ESelector => Some "no class or id shorthand found"
  (* ast/element.rs:172-175 *)
  | EClosure => Some "closure arguments not closed"
  (* syn, [Ident::parse] and [Ident::parse_any] *)
  | EIdent (AtWord s) => Some ("expected identifier, found keyword `" ++ s ++ "`")
  | EIdent f => Some (cursor_text f "expected identifier")
  (* syn; these two errors are always caught (C64) *)
  | EPunct s => Some ("expected `" ++ s ++ "`")
  | ELit => Some "expected string literal"
  | EGenerics => None
  end.

Definition diag_text (d : diag) : option string :=
  match d with
  | DParse e | DAbortParse e => error_text e
  (* ast/children.rs:112-115, 67 *)
  | DExtraSemi => Some "extra semi-colon found"
  | DNonStrChild => Some "only string literals are allowed in children"
  (* ast/ident.rs:151, 204 *)
  | DRawInKebab => Some "invalid raw identifier within kebab-ident"
  | DExpectedIdent => Some "expected identifier"
  (* ast/value.rs:132-136, 96-99 *)
  | DExpectedValue _ => Some "expected value after ="
  | DPrefix => Some "unsupported prefix: only `f` is supported."
  (* ast/element.rs:67-70, 89-92, 99, 100-103 *)
  | DUnterminated => Some "unterminated element"
  | DNoChildrenAfterArgs => Some "expected children block after closure arguments"
  | DUnknownAttr => Some "unknown attribute"
  | DNoChildElements => Some "child elements not found"
  (* expand/subroutines.rs:61, 74-77 *)
  | DEventType => Some "event type must be an identifier"
  | DUnknownOnModifier => Some "unknown modifier"
  (* expand/utils.rs:24-27 *)
  | DModifier => Some "unknown modifier: modifiers are only supported on `on:` directives"
  (* expand/subroutines.rs:206, 210 (and expand.rs:252), 261 *)
  | DNotOnElements dir => Some ("`" ++ dir ++ ":` is not supported on elements")
  | DUnknownDirective => Some "unknown directive"
  | DCloneValue => Some "`clone:` does not take any values"
  (* expand.rs:179-182, 233, 246, 352 *)
  | DSlotSelectors => Some "selector shorthands are not supported on slots"
  | DSlotSpread => Some "spread syntax is not supported on slots"
  | DSlotDirective dir => Some ("`" ++ dir ++ ":` is not supported on slots")
  | DSlotPath => Some "slot name must be a single ident, not a path"
  (* lib.rs:43-46, 51-54 *)
  | DRootSlot => Some "slots should be inside a parent that supports slots"
  (* expand/utils.rs:43 *)
  | DFnGenerics => Some "function generics are not allowed"
  end.

(** The line "help: ..." below a report. *)
Definition diag_help (d : diag) : option string :=
  match d with
  | DExtraSemi => Some "remove this semi-colon"                                       (* ast/children.rs:114 *)
  | DExpectedValue true => Some "you may have meant to wrap this in braces"           (* ast/value.rs:139-140 *)
  | DUnterminated => Some "add a `;` to terminate the element with no children"       (* ast/element.rs:69 *)
  | DNoChildElements => Some "add a `;` at the end to terminate the element"          (* ast/element.rs:102 *)
  | DUnknownOnModifier => Some ":undelegated is the only known modifier"              (* expand/subroutines.rs:76 *)
  | _ => None
  end.

(** A report as it is shown, without its place. *)
Definition says (d : diag) : option string * option string := (diag_text d, diag_help d).
