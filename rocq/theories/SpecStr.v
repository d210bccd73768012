(** Specifications about strings and single tokens.  Nothing here uses the
    functions of the model. *)
From Verif Require Import Tokens Ast.
Open Scope list_scope.

Definition chars := list_ascii_of_string.
Definition unchars := string_of_list_ascii.

(** ** Rust identifiers *)

Definition code_in (a b : nat) (c : ascii) : Prop := a <= nat_of_ascii c <= b.
Definition upper_char (c : ascii) : Prop := code_in 65 90 c.
Definition lower_char (c : ascii) : Prop := code_in 97 122 c.
Definition digit_char (c : ascii) : Prop := code_in 48 57 c.
(** Bytes of non-ASCII characters are accepted anywhere in an identifier. *)
Definition ident_start (c : ascii) : Prop :=
  upper_char c \/ lower_char c \/ c = "_"%char \/ 128 <= nat_of_ascii c.
Definition ident_continue (c : ascii) : Prop := ident_start c \/ digit_char c.

(** Lexically an identifier (keywords and [_] included). *)
Definition lex_ident (s : string) : Prop :=
  match chars s with
  | [] => False
  | c :: r => ident_start c /\ Forall ident_continue r
  end.

(** Words that cannot be written [r#word]. *)
Definition reserved_words : list string := ["_"; "super"; "self"; "Self"; "crate"].

(** A valid raw identifier. *)
Definition raw_ident_ok (s : string) : Prop := lex_ident s /\ ~ In s reserved_words.

(** ** Well-formed tokens: what the Rust lexer can produce *)

Definition wf_ident (i : ident) : Prop :=
  lex_ident (i_name i) /\ (i_raw i = true -> ~ In (i_name i) reserved_words).
Definition wf_int (s : string) : Prop :=
  match chars s with
  | [] => False
  | c :: r => digit_char c /\ Forall ident_continue r
  end.
Fixpoint wf_tt (t : tt) : Prop :=
  match t with
  | TIdent i => wf_ident i
  | TPunct _ _ => True
  | TLit LkInt s => wf_int s
  | TLit _ _ => True
  | TGroup _ ts => fold_right (fun t p => wf_tt t /\ p) True ts
  end.
Definition wf (ts : list tt) : Prop := Forall wf_tt ts.

(** ** Name conversions *)

(** [-] becomes [_], everything else is kept. *)
Definition snake_name (s : string) : string :=
  unchars (map (fun c => if ascii_dec c "-" then "_"%char else c) (chars s)).

Definition lower (c : ascii) (d : ascii) : Prop :=
  (upper_char c /\ nat_of_ascii d = nat_of_ascii c + 32) \/ (~ upper_char c /\ d = c).

(** [UpperCamel] to [upper_camel]: lower-case every character and put a [_] in
    front of each capital except at the very start. *)
Inductive camel_snake_rest : list ascii -> list ascii -> Prop :=
| cs_nil : camel_snake_rest [] []
| cs_up c d r s : upper_char c -> lower c d -> camel_snake_rest r s ->
    camel_snake_rest (c :: r) ("_"%char :: d :: s)
| cs_other c r s : ~ upper_char c -> camel_snake_rest r s ->
    camel_snake_rest (c :: r) (c :: s).
Inductive camel_snake : string -> string -> Prop :=
| camel_empty : camel_snake "" ""
| camel_cons c d r s : lower c d -> camel_snake_rest r s ->
    camel_snake (unchars (c :: r)) (unchars (d :: s)).

(** ** Tag kinds *)

Definition svg_names : list string :=
  ["animate"; "animateMotion"; "animateTransform"; "circle"; "clipPath"; "defs";
   "desc"; "discard"; "ellipse"; "feBlend"; "feColorMatrix"; "feComponentTransfer";
   "feComposite"; "feConvolveMatrix"; "feDiffuseLighting"; "feDisplacementMap";
   "feDistantLight"; "feDropShadow"; "feFlood"; "feFuncA"; "feFuncB"; "feFuncG";
   "feFuncR"; "feGaussianBlur"; "feImage"; "feMerge"; "feMergeNode"; "feMorphology";
   "feOffset"; "fePointLight"; "feSpecularLighting"; "feSpotLight"; "feTile";
   "feTurbulence"; "filter"; "foreignObject"; "g"; "hatch"; "hatchpath"; "image";
   "line"; "linearGradient"; "marker"; "mask"; "metadata"; "mpath"; "path";
   "pattern"; "polygon"; "polyline"; "radialGradient"; "rect"; "set"; "stop"; "svg";
   "switch"; "symbol"; "text"; "textPath"; "tspan"; "use"; "use_"; "view"].

Definition mathml_names : list string :=
  ["annotation"; "maction"; "math"; "menclose"; "merror"; "mfenced"; "mfrac"; "mi";
   "mmultiscripts"; "mn"; "mo"; "mover"; "mpadded"; "mphantom"; "mprescripts";
   "mroot"; "mrow"; "ms"; "mspace"; "msqrt"; "mstyle"; "msub"; "msubsup"; "msup";
   "mtable"; "mtd"; "mtext"; "mtr"; "munder"; "munderover"; "semantics"].

Definition starts_upper (s : string) : Prop :=
  match chars s with c :: _ => upper_char c | [] => False end.
Definition has_dash (s : string) : Prop := In "-"%char (chars s).

Inductive tag_kind_spec (s : string) : tag_kind -> Prop :=
| tk_component : starts_upper s -> tag_kind_spec s KComponent
| tk_svg : ~ starts_upper s -> In s svg_names -> tag_kind_spec s KSvg
| tk_web : ~ starts_upper s -> ~ In s svg_names -> has_dash s -> tag_kind_spec s KWeb
| tk_math : ~ starts_upper s -> ~ In s svg_names -> ~ has_dash s -> In s mathml_names ->
    tag_kind_spec s KMath
| tk_html : ~ starts_upper s -> ~ In s svg_names -> ~ has_dash s -> ~ In s mathml_names ->
    tag_kind_spec s KHtml.

(** ** Attribute kinds *)

(** Unchecked attribute names: those with a [-], except [aria-*]. *)
Definition custom_name (s : string) : Prop :=
  has_dash s /\ ~ (exists r, s = ("aria-" ++ r)%string).
