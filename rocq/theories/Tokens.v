(** Token trees, identifiers, literals and diagnostics.

    Models the parts of [proc_macro2] that the crate observes.  Paths in
    comments are relative to /repo/leptos-mview-core/src unless they start
    with another crate directory. *)
From Coq Require Export List String Ascii Bool Arith.
Export ListNotations.
Open Scope string_scope.
Open Scope list_scope.

(** [proc_macro2::Delimiter], without [None] (simplification: streams that
    contain invisible groups made by [macro_rules!] fragments are out of the
    model). *)
Inductive delim := Paren | Bracket | Brace.

(** [proc_macro2::Spacing]. *)
Inductive spacing := Alone | Joint.

(** Which [syn::Lit] variant a literal token is classified as by
    [syn::Lit::new] (boolean literals are identifiers at token level).
    Simplification: the classification is part of the token. *)
Inductive litkind := LkStr | LkByteStr | LkCStr | LkByte | LkChar | LkInt | LkFloat.

(** [proc_macro2::Ident]: a name and whether it is written [r#name].
    Strings are UTF-8 byte strings, like Rust's [str]; every operation the
    crate does on them only inspects ASCII characters, for which bytes and
    [char]s agree. *)
Record ident := Id { i_raw : bool; i_name : string }.

(** [proc_macro2::TokenTree] (spans are not modelled).  The string of a
    [TLit] is the value of a string literal ([LkStr]; simplification: escapes,
    suffixes and raw strings are identified with their value) and the source
    text of any other literal. *)
Inductive tt :=
| TIdent (i : ident)
| TPunct (c : ascii) (sp : spacing)
| TLit (k : litkind) (s : string)
| TGroup (d : delim) (ts : list tt).

(** [Ident::to_string], used by [dir.to_string()] in expand.rs:238 and
    expand/subroutines.rs:183,373. *)
Definition ident_to_string (i : ident) : string :=
  (if i_raw i then "r#" else "") ++ i_name i.

(** [impl PartialEq<str> for Ident]: compares the printed identifier;
    used in ast/value.rs:92, expand/subroutines.rs:38,56,67. *)
Definition ident_is (i : ident) (s : string) : bool := String.eqb (ident_to_string i) s.

(** [syn::ext::IdentExt::unraw]; used in ast/ident.rs:118,149,171, ast/tag.rs:77,
    expand.rs:369, expand/subroutines.rs:392. *)
Definition unraw (i : ident) : ident := Id false (i_name i).

(** The strings that [proc_macro2::Ident::new_raw] refuses with a panic
    ("`r#self` cannot be a raw identifier"), also in rustc's own
    [proc_macro::Ident::new_raw] ([Symbol::can_be_raw]).  Called from
    ast/ident.rs:105 and expand.rs:368. *)
Definition not_raw_able : list string := ["_"; "super"; "self"; "Self"; "crate"; ""].

(** [syn::Ident::new_raw]; [None] is the panic. *)
Definition new_raw (s : string) : option ident :=
  if existsb (String.eqb s) not_raw_able then None else Some (Id true s).

(** ** Shorthands for writing emitted tokens *)

(** A plain identifier token as written inside [quote!]. *)
Definition kw (s : string) : tt := TIdent (Id false s).
(** A single punctuation character as emitted by [quote!]. *)
Definition pu (c : ascii) : tt := TPunct c Alone.
(** The two-character tokens [::] and [||] as emitted by [quote!]. *)
Definition colon2 : list tt := [TPunct ":" Joint; TPunct ":" Alone].
Definition oror : list tt := [TPunct "|" Joint; TPunct "|" Alone].
(** A path with leading [::], like [::leptos::prelude::View], as in [quote!]. *)
Definition gpath (segs : list string) : list tt :=
  flat_map (fun s => colon2 ++ [kw s]) segs.
(** A parenthesised group. *)
Definition par (ts : list tt) : tt := TGroup Paren ts.

(** ** Errors, diagnostics, panics *)

(** What an error finds instead of what is expected, as far as its text says so:
    syn's [ParseBuffer::error] and [Cursor::error] put "unexpected end of input, "
    in front of texts made where the stream ends; [syn::Ident::parse] names a keyword. *)
Inductive found := AtEnd | AtWord (s : string) | AtOther.
Definition found_in (ts : list tt) : found :=
  match ts with
  | [] => AtEnd
  | TIdent i :: _ => AtWord (ident_to_string i)
  | _ => AtOther
  end.

(** [syn::Error]s, by the function that creates them. *)
Inductive perr :=
| EValue                (* ast/value.rs:69 *)
| EKebab (f : found)    (* ast/ident.rs:124 *)
| EBraceNotFound        (* parse.rs:55 *)
| EParenNotFound        (* parse.rs:75 *)
| EBraceExtra           (* parse.rs:52 *)
| EParenExtra           (* parse.rs:72 *)
| EChild                (* ast/children.rs:83 *)
| EAttr                 (* ast/attribute.rs:41 *)
| ESpread               (* ast/attribute/spread_attrs.rs:33 *)
| ESelector             (* ast/attribute/selector.rs:72 *)
| EClosure              (* ast/element.rs:172-175 *)
| EPunct (s : string)   (* syn: "expected `...`" *)
| EIdent (f : found)    (* syn: "expected identifier" *)
| ELit                  (* syn: "expected ... literal" *)
| EGenerics.            (* syn: any error inside `<...>` *)

(** Emitted diagnostics (proc_macro_error2 [emit_error!]/[abort!]). *)
Inductive diag :=
| DParse (e : perr)          (* error_ext.rs:32 emit_as_error, from ast/children.rs:118 *)
| DAbortParse (e : perr)     (* error_ext.rs:22 unwrap_or_abort, from ast/attribute.rs:29 *)
| DExtraSemi                 (* ast/children.rs:112-115 *)
| DNonStrChild               (* ast/children.rs:67 *)
| DRawInKebab                (* ast/ident.rs:151 *)
| DExpectedIdent             (* ast/ident.rs:204 *)
| DExpectedValue (help : bool) (* ast/value.rs:132-145 *)
| DPrefix                    (* ast/value.rs:96-99 *)
| DUnterminated              (* ast/element.rs:67-70 *)
| DNoChildrenAfterArgs       (* ast/element.rs:89-92 *)
| DUnknownAttr               (* ast/element.rs:99 *)
| DNoChildElements           (* ast/element.rs:100-103 *)
| DEventType                 (* expand/subroutines.rs:61 *)
| DUnknownOnModifier         (* expand/subroutines.rs:74-77 *)
| DModifier                  (* expand/utils.rs:24-27 *)
| DNotOnElements (dir : string) (* expand/subroutines.rs:206 *)
| DUnknownDirective          (* expand/subroutines.rs:210, expand.rs:252 *)
| DCloneValue                (* expand/subroutines.rs:261 *)
| DSlotSelectors             (* expand.rs:179-182 *)
| DSlotSpread                (* expand.rs:233 *)
| DSlotDirective (dir : string) (* expand.rs:246 *)
| DSlotPath                  (* expand.rs:352 *)
| DRootSlot                  (* lib.rs:43-46, 51-54 *)
| DFnGenerics.               (* expand/utils.rs:43 *)

(** Where a panic comes from. *)
Inductive panic :=
| PNewRaw (s : string)   (* ast/ident.rs:105, expand.rs:368 *)
| PSlotTag               (* expand.rs:347 *)
| PUnwrap.               (* the [unwrap]/[expect]/[assert_eq!]s that should never fire *)

(** ** Sizes (for fuel) *)

(** Number of nodes of a token tree; not code, used as fuel only. *)
Fixpoint tt_size (t : tt) : nat :=
  match t with
  | TGroup _ ts => S (fold_right (fun x n => tt_size x + n) 0 ts)
  | _ => 1
  end.

Definition size (ts : list tt) : nat := fold_right (fun x n => tt_size x + n) 0 ts.
