(** What is said about a view: which texts there are, and which tokens of the
    view are at the place of each of them.  Nothing here uses the parsers or
    expanders of the model, nor the kinds of reports in it. *)
From Verif Require Import SpecStr SpecGrammar SpecSpan SpecSpell SParse STokens.
Close Scope sparse_scope.
Close Scope sexpand_scope.
Open Scope list_scope.
Open Scope string_scope.

(** [u] is somewhere in the stream, possibly inside groups. *)
Inductive within (u : list stt) : list stt -> Prop :=
| wi_here a b : within u (a ++ u ++ b)%list
| wi_deep a s d ts b : within u ts -> within u (a ++ SGroup s d ts :: b)%list.

(** Where a token starts. *)
Definition starts_at (t : stt) (p : span) : Prop :=
  match t with
  | SIdent s _ | SPunct s _ _ | SLit s _ _ => p = s
  | SGroup b _ _ => p = d_open b
  end.
Definition word_token (t : stt) : Prop := match t with SIdent _ _ => True | _ => False end.
(** An identifier that is not a keyword. *)
Definition plain_word (t : stt) : Prop :=
  match t with SIdent _ i => i_raw i = true \/ ~ In (i_name i) keyword_names | _ => False end.
Definition known_directives : list string := ["class"; "style"; "prop"; "on"; "use"; "attr"; "clone"].

Section About.
Variable E : senv.
(** Where the stream ends: the call site for the whole view. *)
Variable sc : span.
Variable input : list stt.

Definition has (u : list stt) : Prop := within u input.
(** A token that starts at [p]. *)
Definition token_at (p : span) (Q : stt -> Prop) : Prop := exists t, has [t] /\ starts_at t p /\ Q t.
(** The end of a block, or of the view. *)
Definition end_place (p : span) : Prop := p = sc \/ exists b d ts, has [SGroup b d ts] /\ p = d_close b.
Definition tag_at (p : span) : Prop := exists ts t, has ts /\ sp_tag E ts t /\ p = tag_place E t.
Definition value_at (p : span) (Q : svalue -> Prop) : Prop :=
  exists ts v, has ts /\ sp_value E ts v /\ p = value_place v /\ Q v.
(** An [=], or the token after it. *)
Definition equals_at (p : span) (Q : stt -> Prop) : Prop :=
  exists s sp, has [SPunct s "=" sp] /\ (p = s \/ exists t, has [SPunct s "=" sp; t] /\ starts_at t p /\ Q t).

(** [about p text help]: the text [text], with the line [help] below it, fits
    what is at [p]. *)
Inductive about (p : span) : string -> option string -> Prop :=
(* children *)
| abt_child : token_at p (fun t => match t with SPunct _ _ _ => True | SGroup _ d _ => d = Paren | _ => False end) ->
    about p "invalid child: expected literal, block, bracket or element" None
| abt_literal : value_at p (fun v => exists l, v = SVLit l /\ forall s x, l <> SLitTok s LkStr x) ->
    about p "only string literals are allowed in children" None
| abt_semi sp : has [SPunct p ";" sp] -> about p "extra semi-colon found" (Some "remove this semi-colon")
(* the place is up to the parser of generic arguments if it stops at the semicolon *)
| abt_semi_generics s sp s' sp' : has [SPunct s ";" sp] -> has [SPunct s' "<" sp'] ->
    about p "extra semi-colon found" (Some "remove this semi-colon")
(* elements *)
| abt_unterminated : tag_at p ->
    about p "unterminated element" (Some "add a `;` to terminate the element with no children")
| abt_args sp : has [SPunct p "|" sp] -> about p "closure arguments not closed" None
| abt_no_block : end_place p \/ token_at p (fun t => match t with SGroup _ d _ => d = Bracket | _ => True end) ->
    about p "expected children block after closure arguments" None
| abt_attribute : token_at p (fun t => match t with SGroup _ d _ => d = Bracket | SPunct _ c _ => ~ In c [";"; "|"; "-"]%char | SLit _ _ _ => True | SIdent _ _ => False end) ->
    about p "unknown attribute" None
| abt_no_child q r : tag_at q -> token_at r (fun _ => True) -> p = joinx E q r ->
    about p "child elements not found" (Some "add a `;` at the end to terminate the element")
(* names and values *)
| abt_kebab : token_at p (fun t => ~ word_token t /\ forall s sp, t <> SPunct s "-" sp) ->
    about p "expected a kebab-cased ident" None
| abt_kebab_end : end_place p -> about p "unexpected end of input, expected a kebab-cased ident" None
| abt_ident : token_at p (fun t => ~ word_token t) -> about p "expected identifier" None
| abt_ident_end : end_place p -> about p "unexpected end of input, expected identifier" None
| abt_keyword i : has [SIdent p i] -> i_raw i = false -> In (i_name i) keyword_names ->
    about p ("expected identifier, found keyword `" ++ i_name i ++ "`") None
| abt_raw s : has [SIdent p (Id true s)] -> about p "invalid raw identifier within kebab-ident" None
| abt_extra b u t v : has [SGroup b Brace (u ++ t :: v)%list] -> u <> [] -> starts_at t p -> about p "found extra tokens trying to parse braced expression" None
| abt_value : equals_at p (fun t => ~ plain_word t) -> about p "expected value after =" None
| abt_value_word s sp i : has [SPunct s "=" sp; SIdent p i] -> plain_word (SIdent p i) ->
    about p "expected value after =" (Some "you may have meant to wrap this in braces")
| abt_prefix i b ts : has [SIdent p i; SGroup b Bracket ts] -> i <> Id false "f" ->
    about p "unsupported prefix: only `f` is supported." None
(* directives *)
| abt_unknown i s sp : has [SIdent p i; SPunct s ":" sp] -> ~ In i (map (Id false) known_directives) ->
    about p "unknown directive" None
| abt_event s s' sp v : has [SIdent s (Id false "on"); SPunct s' ":" sp; SLit p LkStr v] ->
    about p "event type must be an identifier" None
| abt_on_modifier s sp i : has [SPunct s ":" sp; SIdent p i] -> i <> Id false "undelegated" ->
    about p "unknown modifier" (Some ":undelegated is the only known modifier")
| abt_modifier s sp i : has [SPunct s ":" sp; SIdent p i] ->
    about p "unknown modifier: modifiers are only supported on `on:` directives" None
| abt_clone_value : value_at p (fun _ => True) \/ equals_at p (fun _ => True) -> about p "`clone:` does not take any values" None
| abt_attr_dir s sp : has [SIdent p (Id false "attr"); SPunct s ":" sp] -> about p "`attr:` is not supported on elements" None
| abt_clone_dir s sp : has [SIdent p (Id false "clone"); SPunct s ":" sp] -> about p "`clone:` is not supported on elements" None
(* slots *)
| abt_slot_selectors c sp : has [SPunct p c sp] -> c = "."%char \/ c = "#"%char ->
    about p "selector shorthands are not supported on slots" None
| abt_slot_spread b s s' sp ts : has [SGroup b Brace (SPunct s "." Joint :: SPunct s' "." sp :: ts)] -> p = d_whole b ->
    about p "spread syntax is not supported on slots" None
| abt_slot_dir i s sp : has [SIdent p i; SPunct s ":" sp] -> i <> Id false "clone" ->
    about p ("`" ++ ident_to_string i ++ ":` is not supported on slots") None
| abt_slot_path : tag_at p -> about p "slot name must be a single ident, not a path" None
| abt_root_slot : tag_at p \/ (exists s sp, has [SIdent p (Id false "slot"); SPunct s ":" sp]) ->
    about p "slots should be inside a parent that supports slots" None.
End About.
