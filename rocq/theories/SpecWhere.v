(** Where the tokens of an expansion point to, given the tree of the view.
    Nothing here uses the parsers or expanders of the model. *)
From Verif Require Import SpecStr SpecGrammar SpecOut SpecSpan SpecSpell SParse STokens.
Open Scope list_scope.
Close Scope sparse_scope.
Close Scope sexpand_scope.

(** ** The tokens of a stream *)

(** A token and its span; for a group each of its three spans.  An identifier
    right after a [.] is the name of a method (or field). *)
Inductive atom :=
| LWord (i : ident)
| LMethod (i : ident)
| LPunct (c : ascii)
| LLit (k : litkind) (v : string)
| LDelim (d : delim).
Definition is_dot (t : stt) : bool := match t with SPunct _ c _ => Ascii.eqb c "." | _ => false end.
Fixpoint atoms_of (dot : bool) (t : stt) : list (span * atom) :=
  match t with
  | SIdent s i => [(s, if dot then LMethod i else LWord i)]
  | SPunct s c _ => [(s, LPunct c)]
  | SLit s k v => [(s, LLit k v)]
  | SGroup b d ts =>
      (d_open b, LDelim d) :: (d_close b, LDelim d) :: (d_whole b, LDelim d) ::
      (fix go (dot : bool) (l : list stt) : list (span * atom) :=
         match l with [] => [] | t :: r => atoms_of dot t ++ go (is_dot t) r end) false ts
  end.
Fixpoint atoms_from (dot : bool) (l : list stt) : list (span * atom) :=
  match l with [] => [] | t :: r => atoms_of dot t ++ atoms_from (is_dot t) r end.
Definition atoms (ts : list stt) : list (span * atom) := atoms_from false ts.

(** From the first to the last token. *)
Definition run_place (E : senv) (ts : list stt) : span :=
  match ts with [] => Call | t :: r => joinx E (tspan t) (tspan (List.last r t)) end.

(** ** The parts of a tree *)

Definition sel_sels (e : selement) := let 'SElement _ l _ _ _ := e in l.
Definition sel_attrs (e : selement) := let 'SElement _ _ l _ _ := e in l.
Definition sel_args (e : selement) := let 'SElement _ _ _ a _ := e in a.
Definition sel_children (e : selement) : list schild :=
  match e with SElement _ _ _ _ (Some l) => l | _ => [] end.
Definition child_element (c : schild) : option selement :=
  match c with SCValue _ => None | SCElement e | SCSlot _ e => Some e end.
Definition on_component (e : selement) : bool := match sel_tag e with STagComponent _ => true | _ => false end.
(** The children that are not slots. *)
Definition plain_children (e : selement) : list schild :=
  filter (fun c => match c with SCSlot _ _ => false | _ => true end) (sel_children e).
Definition key_text (k : skebab_or_str) : string := match k with SKKebab k => sk_repr k | SKStr _ v => v end.
Definition key_place (E : senv) (k : skebab_or_str) : span :=
  match k with SKKebab k => name_place E k | SKStr s _ => s end.
Definition selector_name (s : sselector) : skebab := match s with SSelClass _ k | SSelId _ k => k end.
Definition node_place (E : senv) (c : schild) : span :=
  match c with
  | SCValue v => value_place v
  | SCElement e | SCSlot _ e => tag_place E (sel_tag e)
  end.

Section Where.
Variable E : senv.
Variable cs : list schild.

(** A child or element anywhere in the tree. *)
Inductive node : schild -> Prop :=
| node_root c : In c cs -> node c
| node_below c e c' : node c -> child_element c = Some e -> In c' (sel_children e) -> node c'.
Definition elem (e : selement) : Prop := exists c, node c /\ child_element c = Some e.
Definition attr_of (e : selement) (a : skv_attr) : Prop := elem e /\ In (SAKv a) (sel_attrs e).
Definition dir_of (e : selement) (d : sdirective) : Prop := elem e /\ In (SADir d) (sel_attrs e).
Definition path_of (p : spath) : Prop := exists e, elem e /\ sel_tag e = STagComponent p.
Definition segments (p : spath) : list spath_seg := s_first p :: map snd (s_more p).

Inductive value_of : svalue -> Prop :=
| vo_child v : node (SCValue v) -> value_of v
| vo_attr e a : attr_of e a -> value_of (skv_value a)
| vo_dir e d v : dir_of e d -> sd_value d = Some v -> value_of v.

(** Rust code in the view: in braces, in brackets, in a spread, closure
    parameters, generic arguments. *)
Inductive code : list stt -> Prop :=
| code_block b ts : value_of (SVBlock b ts) -> code ts
| code_bracket p b ts : value_of (SVBracket p b ts) -> code ts
| code_spread e b dots ts : elem e -> In (SASpread b dots ts) (sel_attrs e) -> code ts
| code_args e ts : elem e -> sel_args e = Some ts -> code ts
| code_generics p i tf ts : path_of p -> In (SPSeg i (SPAngle tf ts)) (segments p) -> code ts.

(** ** Tokens of the user *)

Inductive user : span -> atom -> Prop :=
(* code is kept with its spans *)
| u_code ts s a : code ts -> In (s, a) (atoms ts) -> user s a
| u_lit s k v : value_of (SVLit (SLitTok s k v)) -> user s (LLit k v)
| u_bool s (b : bool) : value_of (SVLit (SLitBool s b)) -> user s (LWord (Id false (if b then "true" else "false")))
(* tags *)
| u_tag e i : elem e -> sel_tag e = STagHtml i \/ sel_tag e = STagSvg i \/ sel_tag e = STagMath i ->
    user (si_span i) (LWord (si_ident i))
| u_web e k : elem e -> sel_tag e = STagWeb k -> user (name_place E k) (LLit LkStr (sk_repr k))
| u_segment p g : path_of p -> In g (segments p) -> user (si_span (sseg_ident g)) (LWord (si_ident (sseg_ident g)))
| u_leading p l s : path_of p -> s_leading p = Some l -> In s l -> user s (LPunct ":")
| u_colons p l g s : path_of p -> In (l, g) (s_more p) -> In s l -> user s (LPunct ":")
| u_turbofish p i l ts s : path_of p -> In (SPSeg i (SPAngle (Some l) ts)) (segments p) -> In s l -> user s (LPunct ":")
(* the name of an attribute, as a method *)
| u_attr e a i : attr_of e a -> sp_ident E (skv_key a) i -> user (si_span i) (LMethod (si_ident i))
(* the name of a directive, as a method or in a path *)
| u_dir_method e d : dir_of e d -> on_component e = false -> In (i_name (si_ident (sd_dir d))) ["class"; "style"; "prop"; "on"] ->
    user (si_span (sd_dir d)) (LMethod (si_ident (sd_dir d)))
| u_dir_word e d : dir_of e d -> on_component e = true -> In (i_name (si_ident (sd_dir d))) ["class"; "style"] ->
    user (si_span (sd_dir d)) (LWord (si_ident (sd_dir d)))
(* its key, as an identifier or a string *)
| u_key e d k i : dir_of e d -> sd_key d = SKKebab k -> sp_ident E k i -> user (si_span i) (LWord (si_ident i))
| u_key_text e d : dir_of e d -> on_component e = false -> In (i_name (si_ident (sd_dir d))) ["class"; "style"; "prop"] ->
    user (key_place E (sd_key d)) (LLit LkStr (key_text (sd_key d)))
| u_modifier e d m : dir_of e d -> i_name (si_ident (sd_dir d)) = "on" -> sd_modifier d = Some m -> i_name (si_ident m) = "undelegated" ->
    user (si_span m) (LWord (si_ident m))
(* the name of a slot, as a method *)
| u_slot s e i m : node (SCSlot s e) -> sel_tag e = STagComponent (SPath None (SPSeg i SPNone) []) ->
    camel_snake (i_name (si_ident i)) m -> user (si_span i) (LMethod (Id true m)).

(** ** Tokens of the macro *)

(** Words that are at the call site. *)
Definition call_words : list string :=
  ["leptos"; "tachys"; "html"; "svg"; "math"; "element"; "custom"; "prelude"; "View"; "new";
   "IntoRender"; "into_render"; "IntoAttributeValue"; "into_attribute_value";
   "component"; "component_view"; "builder"; "children"; "ToChildren"; "to_children";
   "class"; "style"; "directive"; "on"; "event"; "attribute"; "custom_attribute"; "property";
   "std"; "convert"; "Into"; "into"; "boxed"; "Box"; "into_vec"; "_";
   "allow"; "unreachable_code"; "unused_braces"; "true"; "let"; "clone"].

(** A place and what may be generated there. *)
Inductive generated : span -> atom -> Prop :=
(* elsewhere *)
| g_word w : In w call_words -> generated Call (LWord (Id false w))
| g_method w : In w ["attr"; "add_any_attr"; "clone"] -> generated Call (LMethod (Id false w))
| g_punct c : generated Call (LPunct c)
| g_delim d : generated Call (LDelim d)
| g_attr_text e a : attr_of e a -> generated Call (LLit LkStr (sk_repr (skv_key a)))
| g_dir_text e d : dir_of e d -> on_component e = true -> generated Call (LLit LkStr (key_text (sd_key d)))
| g_selector_text e x : elem e -> In x (sel_sels e) -> generated Call (LLit LkStr (sk_repr (selector_name x)))
| g_ids e : elem e -> on_component e = true ->
    generated Call (LLit LkStr (spaced (flat_map (fun x => match x with SSelId _ k => [sk_repr k] | _ => [] end) (sel_sels e))))
(* values: [{..}] is a block where its content is, [[..]] a closure there *)
| g_block b ts : value_of (SVBlock b ts) ->
    generated (match ts with [] => d_whole b | _ => run_place E ts end) (LDelim Brace)
| g_closure p b ts a : value_of (SVBracket p b ts) -> In a [LWord (Id false "move"); LPunct "|"] -> generated (d_whole b) a
| g_closure_body b ts : value_of (SVBracket None b ts) -> generated (d_whole b) (LDelim Brace)
| g_format p b ts a : value_of (SVBracket (Some p) b ts) ->
    In a [LPunct ":"; LWord (Id false "std"); LDelim Paren] -> generated (d_whole b) a
| g_format_name p b ts a : value_of (SVBracket (Some p) b ts) ->
    In a [LWord (Id false "format"); LPunct "!"] -> generated (si_span p) a
(* selectors: the method at the symbol; a variable at each section of the name *)
| g_class e s k : elem e -> In (SSelClass s k) (sel_sels e) ->
    generated s (if on_component e then LWord (Id false "class") else LMethod (Id false "class"))
| g_id e s k : elem e -> In (SSelId s k) (sel_sels e) -> on_component e = false -> generated s (LMethod (Id false "id"))
| g_first_id e s k : elem e -> find (fun x => match x with SSelId _ _ => true | _ => false end) (sel_sels e) = Some (SSelId s k) ->
    on_component e = true -> generated s (LWord (Id true "id"))
| g_section e x s : elem e -> In x (sel_sels e) -> In s (sk_spans (selector_name x)) -> on_component e = false ->
    generated s (LWord (Id false "__x"))
(* attributes *)
| g_node_ref e a : attr_of e a -> on_component e = false -> sk_repr (skv_key a) = "ref" ->
    generated (name_place E (skv_key a)) (LMethod (Id false "node_ref"))
| g_prop e a x : attr_of e a -> on_component e = true -> In x [LPunct "."; LDelim Paren] ->
    generated (joinx E (name_place E (skv_key a)) (value_place (skv_value a))) x
| g_spread e b s s' ts : elem e -> In (SASpread b [s; s'] ts) (sel_attrs e) -> on_component e = false ->
    generated (joinx E s s') (LMethod (Id false "add_any_attr"))
| g_use e d : dir_of e d -> i_name (si_ident (sd_dir d)) = "use" ->
    generated (si_span (sd_dir d)) (if on_component e then LWord (Id false "directive") else LMethod (Id false "directive"))
| g_use_value e d a : dir_of e d -> i_name (si_ident (sd_dir d)) = "use" -> sd_value d = None ->
    In a [LPunct "."; LMethod (Id false "into"); LDelim Paren] -> generated (key_place E (sd_key d)) a
(* tags *)
| g_custom e k : elem e -> sel_tag e = STagWeb k -> generated (name_place E k) (LWord (Id false "custom"))
| g_build p a : path_of p ->
    In a [LPunct "."; LMethod (Id false "build"); LDelim Paren; LPunct ":"; LPunct "&"; LWord (Id false "leptos");
          LWord (Id false "component"); LWord (Id false "component_props_builder")] ->
    generated (path_place E p) a
(* children: a method at each child of an element, and at the first child of a component *)
| g_child e c : elem e -> on_component e = false -> In c (plain_children e) ->
    generated (node_place E c) (LMethod (Id false "child"))
| g_children e c r : elem e -> on_component e = true -> plain_children e = c :: r ->
    generated (node_place E c) (LMethod (Id false "children"))
| g_no_args e c r a : elem e -> on_component e = true -> plain_children e = c :: r -> sel_args e = None ->
    In a [LWord (Id false "move"); LPunct "|"] -> generated (node_place E c) a
| g_args e ts a : elem e -> on_component e = true -> sel_args e = Some ts ->
    In a [LWord (Id false "move"); LPunct ":"; LPunct ","; LDelim Paren; LWord (Id false "leptos");
          LWord (Id false "prelude"); LWord (Id false "View"); LWord (Id false "new")] ->
    generated (run_place E ts) a
(* placeholders, if an identifier was expected (an error is reported) *)
| g_invalid e d s v w : dir_of e d -> sd_key d = SKStr s v -> In w ["__invalid_identifier_found_str"; "invalid_event"] ->
    generated s (LWord (Id false w))
| g_invalid_call e d s v : dir_of e d -> sd_key d = SKStr s v ->
    generated Call (LWord (Id false "__invalid_identifier_found_str")).

Definition placed (x : span * atom) : Prop := user (fst x) (snd x) \/ generated (fst x) (snd x).
End Where.
