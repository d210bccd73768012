(** What of a view is found in its expansion, and where it points to.
    Nothing here uses the parsers or expanders of the model. *)
From Verif Require Import SpecStr SpecGrammar SpecOut SpecSpan SpecSpell SpecWhere SParse STokens.
Open Scope list_scope.
Close Scope sparse_scope.
Close Scope sexpand_scope.

(** A run of tokens occurs in a stream, perhaps inside groups. *)
Inductive occurs (x : list stt) : list stt -> Prop :=
| oc_run a b : occurs x (a ++ x ++ b)
| oc_group a s d ts b : occurs x ts -> occurs x (a ++ SGroup s d ts :: b).

(** Tokens at a place. *)
Definition dot (s : span) : stt := SPunct s "." Alone.
Definition comma (s : span) : stt := SPunct s "," Alone.
Definition name_at (s : span) (w : string) : stt := SIdent s (Id false w).
Definition in_parens (s : span) (ts : list stt) : stt := SGroup (same_span s) Paren ts.
Definition in_braces (s : span) (ts : list stt) : stt := SGroup (same_span s) Brace ts.
Definition text_at (s : span) (v : string) : stt := SLit s LkStr v.
Definition sident_token (i : sident) : stt := SIdent (si_span i) (si_ident i).
(** [::a::b] *)
Fixpoint path_at (s : span) (l : list string) : list stt :=
  match l with [] => [] | w :: r => SPunct s ":" Joint :: SPunct s ":" Alone :: name_at s w :: path_at s r end.
(** [{ let __x = (); let __x = (); "a-b" }] *)
Definition name_block_at (k : skebab) : stt :=
  in_braces Call (flat_map (fun s => [name_at Call "let"; name_at s "__x"; SPunct Call "=" Alone; in_parens Call []; SPunct Call ";" Alone]) (sk_spans k)
                  ++ [text_at Call (sk_repr k)]).

Section Kept.
Variable E : senv.
Variable cs : list schild.

(** The code of a value. *)
Inductive written : svalue -> list stt -> Prop :=
| w_lit s k v : written (SVLit (SLitTok s k v)) [SLit s k v]
| w_true s : written (SVLit (SLitBool s true)) [name_at s "true"]
| w_false s : written (SVLit (SLitBool s false)) [name_at s "false"]
| w_block b ts : written (SVBlock b ts) [in_braces (match ts with [] => d_whole b | _ => run_place E ts end) ts]
| w_closure b ts : written (SVBracket None b ts)
    [name_at (d_whole b) "move"; SPunct (d_whole b) "|" Joint; SPunct (d_whole b) "|" Alone; in_braces (d_whole b) ts]
| w_format s b ts : written (SVBracket (Some (SId s (Id false "f"))) b ts)
    ([name_at (d_whole b) "move"; SPunct (d_whole b) "|" Joint; SPunct (d_whole b) "|" Alone] ++
     path_at (d_whole b) ["std"] ++ [SPunct (d_whole b) ":" Joint; SPunct (d_whole b) ":" Alone] ++
     [name_at s "format"; SPunct s "!" Alone; in_parens (d_whole b) ts]).
Inductive written_opt : option svalue -> list stt -> Prop :=
| wo_none : written_opt None []
| wo_some v w : written v w -> written_opt (Some v) w.
Inductive written_or_true : option svalue -> list stt -> Prop :=
| wt_none : written_or_true None [name_at Call "true"]
| wt_some v w : written v w -> written_or_true (Some v) w.

(** What is expanded: everything except the slots of elements that are not
    components and the slots of slots. *)
Inductive live : schild -> Prop :=
| live_root c : In c cs -> live c
| live_child c e c' : live c -> child_element c = Some e -> In c' (plain_children e) -> live c'
| live_slot e s e' : live (SCElement e) -> on_component e = true -> In (SCSlot s e') (sel_children e) -> live (SCSlot s e').
(** A live element, and if it is a slot. *)
Definition lives (slot : bool) (e : selement) : Prop := if slot then exists s, live (SCSlot s e) else live (SCElement e).
Definition named_dir (d : sdirective) (s : string) : Prop := si_ident (sd_dir d) = Id false s.
(** Attributes that are not methods of the element. *)
Definition unchecked (e : selement) (n : string) : Prop :=
  n <> "ref" /\ n <> "class" /\ n <> "style" /\
  (match sel_tag e with STagSvg _ | STagWeb _ => True | _ => False end \/ custom_name n).
Definition slot_name (c : schild) : option sident :=
  match c with
  | SCSlot _ e => match sel_tag e with STagComponent (SPath None (SPSeg i SPNone) []) => Some i | _ => None end
  | _ => None
  end.

Inductive kept : list stt -> Prop :=
(* children *)
| k_value v w : live (SCValue v) -> written v w -> kept w
| k_child e c : lives false e -> on_component e = false -> In c (plain_children e) ->
    kept [dot Call; name_at (node_place E c) "child"]
| k_children b e c r : lives b e -> on_component e = true -> plain_children e = c :: r ->
    kept [dot Call; name_at (node_place E c) "children"]
| k_args b e ts : lives b e -> on_component e = true -> plain_children e <> [] -> sel_args e = Some ts ->
    kept (name_at (run_place E ts) "move" :: ts)
(* tags *)
| k_tag e i : lives false e -> sel_tag e = STagHtml i \/ sel_tag e = STagSvg i \/ sel_tag e = STagMath i ->
    kept [sident_token i; in_parens Call []]
| k_web e k : lives false e -> sel_tag e = STagWeb k ->
    kept [name_at (name_place E k) "custom"; in_parens Call [text_at (name_place E k) (sk_repr k)]]
| k_segment b e p g : lives b e -> sel_tag e = STagComponent p -> In g (segments p) -> kept [sident_token (sseg_ident g)]
| k_generics b e p i tf ts : lives b e -> sel_tag e = STagComponent p -> In (SPSeg i (SPAngle tf ts)) (segments p) -> kept ts
| k_build b e p : lives b e -> sel_tag e = STagComponent p ->
    kept [dot (path_place E p); name_at (path_place E p) "build"; in_parens (path_place E p) []]
(* attributes *)
| k_method e a i w : lives false e -> on_component e = false -> In (SAKv a) (sel_attrs e) ->
    sk_repr (skv_key a) <> "ref" -> ~ unchecked e (sk_repr (skv_key a)) -> sp_ident E (skv_key a) i -> written (skv_value a) w ->
    kept [dot Call; sident_token i; in_parens Call w]
| k_ref e a w : lives false e -> on_component e = false -> In (SAKv a) (sel_attrs e) ->
    sk_repr (skv_key a) = "ref" -> written (skv_value a) w ->
    kept [dot Call; name_at (name_place E (skv_key a)) "node_ref"; in_parens Call w]
| k_unchecked e a w : lives false e -> on_component e = false -> In (SAKv a) (sel_attrs e) ->
    unchecked e (sk_repr (skv_key a)) -> written (skv_value a) w ->
    kept [dot Call; name_at Call "attr"; in_parens Call (text_at Call (sk_repr (skv_key a)) :: comma Call ::
      path_at Call ["leptos"; "prelude"; "IntoAttributeValue"; "into_attribute_value"] ++ [in_parens Call w])]
| k_prop b e a i w s : lives b e -> on_component e = true -> In (SAKv a) (sel_attrs e) ->
    sp_ident E (skv_key a) i -> written (skv_value a) w -> s = joinx E (name_place E (skv_key a)) (value_place (skv_value a)) ->
    kept [dot s; sident_token i; in_parens s w]
| k_spread b e g dots ts : lives b e -> In (SASpread g dots ts) (sel_attrs e) -> kept ts
(* directives on elements *)
| k_class_style e d w : lives false e -> on_component e = false -> In (SADir d) (sel_attrs e) ->
    named_dir d "class" \/ named_dir d "style" -> written_opt (sd_value d) w ->
    kept [dot Call; sident_token (sd_dir d);
          in_parens Call [in_parens Call (text_at (key_place E (sd_key d)) (key_text (sd_key d)) :: comma Call :: w)]]
| k_property e d w : lives false e -> on_component e = false -> In (SADir d) (sel_attrs e) ->
    named_dir d "prop" -> written_opt (sd_value d) w ->
    kept [dot Call; sident_token (sd_dir d); in_parens Call (text_at (key_place E (sd_key d)) (key_text (sd_key d)) :: comma Call :: w)]
| k_on e d : lives false e -> on_component e = false -> In (SADir d) (sel_attrs e) -> named_dir d "on" ->
    kept [dot Call; sident_token (sd_dir d)]
| k_use e d : lives false e -> on_component e = false -> In (SADir d) (sel_attrs e) -> named_dir d "use" ->
    kept [dot Call; name_at (si_span (sd_dir d)) "directive"]
(* directives on components *)
| k_on_class_style e d w : lives false e -> on_component e = true -> In (SADir d) (sel_attrs e) ->
    named_dir d "class" \/ named_dir d "style" -> written_or_true (sd_value d) w ->
    kept [sident_token (sd_dir d); in_parens Call [in_parens Call (text_at Call (key_text (sd_key d)) :: comma Call :: w)]]
| k_on_attr e d k i w : lives false e -> on_component e = true -> In (SADir d) (sel_attrs e) ->
    named_dir d "prop" \/ (named_dir d "attr" /\ ~ custom_name (sk_repr k)) ->
    sd_key d = SKKebab k -> sp_ident E k i -> written_or_true (sd_value d) w ->
    kept [sident_token i; in_parens Call w]
| k_on_custom e d w : lives false e -> on_component e = true -> In (SADir d) (sel_attrs e) ->
    named_dir d "attr" -> custom_name (key_text (sd_key d)) -> written_or_true (sd_value d) w ->
    kept [name_at Call "custom_attribute"; in_parens Call (text_at Call (key_text (sd_key d)) :: comma Call :: w)]
| k_on_use e d : lives false e -> on_component e = true -> In (SADir d) (sel_attrs e) -> named_dir d "use" ->
    kept [name_at (si_span (sd_dir d)) "directive"]
| k_clone b e d k i : lives b e -> on_component e = true -> plain_children e <> [] -> In (SADir d) (sel_attrs e) ->
    named_dir d "clone" -> sd_key d = SKKebab k -> sp_ident E k i ->
    kept [name_at Call "let"; sident_token i; SPunct Call "=" Alone; sident_token i; dot Call; name_at Call "clone";
          in_parens Call []; SPunct Call ";" Alone]
(* directives on both *)
| k_event e d k i : lives false e -> In (SADir d) (sel_attrs e) -> named_dir d "on" -> sd_key d = SKKebab k -> sp_ident E k i ->
    kept [sident_token i]
| k_undelegated e d m : lives false e -> In (SADir d) (sel_attrs e) -> named_dir d "on" -> sd_modifier d = Some m ->
    kept [sident_token m]
| k_function e d k i : lives false e -> In (SADir d) (sel_attrs e) -> named_dir d "use" -> sd_key d = SKKebab k -> sp_ident E k i ->
    kept [sident_token i; comma Call]
| k_directive b e d v w : lives b e -> In (SADir d) (sel_attrs e) -> sd_value d = Some v -> written v w -> kept w
(* selectors *)
| k_class e s k : lives false e -> on_component e = false -> In (SSelClass s k) (sel_sels e) ->
    kept [dot Call; name_at s "class"; in_parens Call [in_parens Call [name_block_at k; comma Call; name_at Call "true"]]]
| k_id e s k : lives false e -> on_component e = false -> In (SSelId s k) (sel_sels e) ->
    kept [dot Call; name_at s "id"; in_parens Call [name_block_at k]]
| k_on_class e s k : lives false e -> on_component e = true -> In (SSelClass s k) (sel_sels e) ->
    kept [name_at s "class"; in_parens Call [in_parens Call [text_at Call (sk_repr k); comma Call; name_at Call "true"]]]
| k_on_id e s k : lives false e -> on_component e = true ->
    find (fun x => match x with SSelId _ _ => true | _ => false end) (sel_sels e) = Some (SSelId s k) ->
    kept [SIdent s (Id true "id");
          in_parens Call [text_at Call (spaced (flat_map (fun x => match x with SSelId _ k => [sk_repr k] | _ => [] end) (sel_sels e)))]]
(* slots: a call at the first slot of each name *)
| k_slot e l1 c l2 i m : lives false e -> on_component e = true -> sel_children e = l1 ++ c :: l2 ->
    slot_name c = Some i -> (forall c' i', In c' l1 -> slot_name c' = Some i' -> si_ident i' <> si_ident i) ->
    camel_snake (i_name (si_ident i)) m -> kept [dot Call; SIdent (si_span i) (Id true m)].
End Kept.
