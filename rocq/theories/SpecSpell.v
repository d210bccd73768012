(** Trees with spans: which tokens spell a tree, and where each report about
    it is placed.  Nothing here uses the parsers or expanders of the model.

    [SpecGrammar.v] says which token streams are views and what tree they
    have; the relations here only add which token each part of a tree with
    spans comes from, so they have no lookahead. *)
From Verif Require Import SpecStr SpecGrammar SpecReports SpecSpan SParse.
Open Scope list_scope.
Close Scope sparse_scope.
Close Scope sexpand_scope.

(** ** Spelling *)

(** The sections of a name after its first token: each word, and a number
    together with the [-] in front of it if that comes after another [-]
    (read as a negative number). *)
Fixpoint sections (E : senv) (dash : bool) (ts : list stt) : list span :=
  match ts with
  | [] => []
  | SPunct s _ _ :: r =>
      match dash, r with
      | true, SLit s' _ _ :: r' => joinx E s s' :: sections E false r'
      | _, _ => sections E true r
      end
  | t :: r => tspan t :: sections E false r
  end.
Inductive sp_name (E : senv) : list stt -> skebab -> Prop :=
| spn t r : name_phrase (erases (t :: r)) ->
    sp_name E (t :: r) (SKebab (name_text (erases (t :: r))) (tspan t :: sections E false r)).

Inductive sp_value (E : senv) : list stt -> svalue -> Prop :=
| spv_lit s k v : sp_value E [SLit s k v] (SVLit (SLitTok s k v))
| spv_neg s sp s' k v : sp_value E [SPunct s "-" sp; SLit s' k v] (SVLit (SLitTok (joinx E s s') k ("-" ++ v)))
| spv_true s : sp_value E [SIdent s (Id false "true")] (SVLit (SLitBool s true))
| spv_false s : sp_value E [SIdent s (Id false "false")] (SVLit (SLitBool s false))
| spv_block b ts : sp_value E [SGroup b Brace ts] (SVBlock b ts)
| spv_bracket b ts : sp_value E [SGroup b Bracket ts] (SVBracket None b ts)
| spv_prefixed s i b ts : sp_value E [SIdent s i; SGroup b Bracket ts] (SVBracket (Some (SId s i)) b ts).

Inductive sp_opt_value (E : senv) : list stt -> option svalue -> Prop :=
| spo_none : sp_opt_value E [] None
| spo_some s sp ts v : sp_value E ts v -> sp_opt_value E (SPunct s "=" sp :: ts) (Some v).
Inductive sp_modifier : list stt -> option sident -> Prop :=
| spm_none : sp_modifier [] None
| spm_some s sp s' i : sp_modifier [SPunct s ":" sp; SIdent s' i] (Some (SId s' i)).
Inductive sp_key (E : senv) : list stt -> skebab_or_str -> Prop :=
| spk_str s v : sp_key E [SLit s LkStr v] (SKStr s v)
| spk_name ts k : sp_name E ts k -> sp_key E ts (SKKebab k).

(** Where a name is: from its first to its last section. *)
Definition name_place (E : senv) (k : skebab) : span :=
  joinx E (hd Call (sk_spans k)) (List.last (sk_spans k) Call).
(** The identifier made of a name. *)
Definition sp_ident (E : senv) (k : skebab) (i : sident) : Prop :=
  name_ident_ok (Kebab (sk_repr k) (List.length (sk_spans k))) (si_ident i) /\ si_span i = name_place E k.

(** [{key}]: the value is in the same braces. *)
Inductive sp_short (E : senv) : list stt -> skebab -> svalue -> Prop :=
| sps b inner k i : sp_name E inner k -> sp_ident E k i ->
    sp_short E [SGroup b Brace inner] k (SVBlock b [SIdent (si_span i) (si_ident i)]).

Inductive sp_attr (E : senv) : list stt -> sattr -> Prop :=
| spa_kv ts k ts' v : sp_name E ts k -> sp_opt_value E ts' (Some v) ->
    sp_attr E (ts ++ ts') (SAKv (SKvAttr k v))
| spa_bool ts k : sp_name E ts k -> sp_attr E ts (SAKv (SKvAttr k (SVLit (SLitBool Call true))))
| spa_short ts k v : sp_short E ts k v -> sp_attr E ts (SAKv (SKvAttr k v))
| spa_spread b s s' sp ts :
    sp_attr E [SGroup b Brace (SPunct s "." Joint :: SPunct s' "." sp :: ts)] (SASpread b [s; s'] ts)
| spa_dir s i s' sp ks k ms m vs v : sp_key E ks k -> sp_modifier ms m -> sp_opt_value E vs v ->
    sp_attr E (SIdent s i :: SPunct s' ":" sp :: ks ++ ms ++ vs) (SADir (SDirective (SId s i) k m v))
| spa_dir_short s i s' sp ks k v ms m : sp_short E ks k v -> sp_modifier ms m ->
    sp_attr E (SIdent s i :: SPunct s' ":" sp :: ks ++ ms) (SADir (SDirective (SId s i) (SKKebab k) m (Some v))).

Inductive sp_selector (E : senv) : list stt -> sselector -> Prop :=
| spl_class s sp ts k : sp_name E ts k -> sp_selector E (SPunct s "." sp :: ts) (SSelClass s k)
| spl_id s sp ts k : sp_name E ts k -> sp_selector E (SPunct s "#" sp :: ts) (SSelId s k).

(** Parts one after the other. *)
Inductive sp_list {A} (P : list stt -> A -> Prop) : list stt -> list A -> Prop :=
| spli_nil : sp_list P [] []
| spli_cons ts a ts' l : P ts a -> sp_list P ts' l -> sp_list P (ts ++ ts') (a :: l).

Inductive sp_colons : list stt -> list span -> Prop :=
| spc s s' sp : sp_colons [SPunct s ":" Joint; SPunct s' ":" sp] [s; s'].
Inductive sp_segment : list stt -> spath_seg -> Prop :=
| spg_plain s i : sp_segment [SIdent s i] (SPSeg (SId s i) SPNone)
| spg_generic s i g : g <> [] -> sp_segment (SIdent s i :: g) (SPSeg (SId s i) (SPAngle None g))
| spg_turbofish s i c l g : g <> [] -> sp_colons c l ->
    sp_segment (SIdent s i :: c ++ g) (SPSeg (SId s i) (SPAngle (Some l) g)).
Inductive sp_next_segment : list stt -> list span * spath_seg -> Prop :=
| spx c l ts s : sp_colons c l -> sp_segment ts s -> sp_next_segment (c ++ ts) (l, s).
Inductive sp_path : list stt -> spath -> Prop :=
| spp_rel ts s ts' l : sp_segment ts s -> sp_list sp_next_segment ts' l ->
    sp_path (ts ++ ts') (SPath None s l)
| spp_abs c cl ts s ts' l : sp_colons c cl -> sp_segment ts s -> sp_list sp_next_segment ts' l ->
    sp_path (c ++ ts ++ ts') (SPath (Some cl) s l).

Inductive sp_tag (E : senv) : list stt -> stag -> Prop :=
| spt_path ts p : sp_path ts p -> sp_tag E ts (STagComponent p)
| spt_component ts k i : sp_name E ts k -> sp_ident E k i ->
    sp_tag E ts (STagComponent (SPath None (SPSeg (SId (si_span i) (Id false (i_name (si_ident i)))) SPNone) []))
| spt_html ts k i : sp_name E ts k -> sp_ident E k i -> sp_tag E ts (STagHtml i)
| spt_svg ts k i : sp_name E ts k -> sp_ident E k i -> sp_tag E ts (STagSvg i)
| spt_math ts k i : sp_name E ts k -> sp_ident E k i -> sp_tag E ts (STagMath i)
| spt_web ts k : sp_name E ts k -> sp_tag E ts (STagWeb k).

Inductive sp_child (E : senv) : list stt -> schild -> Prop :=
| spch_value ts v : sp_value E ts v -> sp_child E ts (SCValue v)
| spch_element ts e : sp_element E ts e -> sp_child E ts (SCElement e)
| spch_slot s s' sp ts e : sp_element E ts e ->
    sp_child E (SIdent s (Id false "slot") :: SPunct s' ":" sp :: ts) (SCSlot s e)
with sp_element (E : senv) : list stt -> selement -> Prop :=
| spe ts1 t ts2 sels ts3 attrs ts4 args cs :
    sp_tag E ts1 t -> sp_list (sp_selector E) ts2 sels -> sp_list (sp_attr E) ts3 attrs ->
    sp_end E ts4 args cs ->
    sp_element E (ts1 ++ ts2 ++ ts3 ++ ts4) (SElement t sels attrs args cs)
with sp_end (E : senv) : list stt -> option (list stt) -> option (list schild) -> Prop :=
| spd_semi s sp : sp_end E [SPunct s ";" sp] None None
| spd_block b d inner cs : sp_children E inner cs -> sp_end E [SGroup b d inner] None (Some cs)
| spd_args s sp args s' sp' b d inner cs : sp_children E inner cs ->
    sp_end E (SPunct s "|" sp :: args ++ [SPunct s' "|" sp'; SGroup b d inner])
           (Some (SPunct s "|" Alone :: args ++ [SPunct s' "|" Alone])) (Some cs)
with sp_children (E : senv) : list stt -> list schild -> Prop :=
| spcs_nil : sp_children E [] []
| spcs_cons ts c ts' cs : sp_child E ts c -> sp_children E ts' cs -> sp_children E (ts ++ ts') (c :: cs).

(** ** Reports with their places *)

Definition value_place (v : svalue) : span :=
  match v with
  | SVLit (SLitTok s _ _) | SVLit (SLitBool s _) => s
  | SVBlock b _ | SVBracket _ b _ => d_whole b
  end.
(** A path: from its first to its last token. *)
Definition segment_end (s : spath_seg) : span :=
  match sseg_args s with
  | SPAngle _ ts | SPParen ts => List.last (map tspan ts) (si_span (sseg_ident s))
  | SPNone => si_span (sseg_ident s)
  end.
Definition path_place (E : senv) (p : spath) : span :=
  joinx E (match s_leading p with Some l => hd Call l | None => si_span (sseg_ident (s_first p)) end)
          (segment_end (List.last (map snd (s_more p)) (s_first p))).
Definition tag_place (E : senv) (t : stag) : span :=
  match t with
  | STagHtml i | STagSvg i | STagMath i => si_span i
  | STagComponent p => path_place E p
  | STagWeb k => name_place E k
  end.
Definition symbol_place (s : sselector) : span := match s with SSelClass s _ | SSelId s _ => s end.

(** As [SpecReports.v], each report at its place. *)
Definition p_value (v : svalue) : list sdiag :=
  match v with
  | SVBracket (Some i) _ _ => if is_word (si_ident i) "f" then [] else [(DPrefix, si_span i)]
  | _ => []
  end.
Definition p_opt (v : option svalue) : list sdiag := match v with Some v => p_value v | None => [] end.
Definition p_key (k : skebab_or_str) : list sdiag :=
  match k with SKKebab _ => [] | SKStr s _ => [(DExpectedIdent, s)] end.
Definition p_modifier (m : option sident) : list sdiag :=
  match m with Some m => [(DModifier, si_span m)] | None => [] end.
Definition p_event (d : sdirective) : list sdiag :=
  match sd_key d with SKKebab _ => [] | SKStr s _ => [(DEventType, s)] end ++
  match sd_modifier d with
  | Some m => if is_word (si_ident m) "undelegated" then [] else [(DUnknownOnModifier, si_span m)]
  | None => []
  end.
Definition p_on (d : sdirective) : list sdiag := p_event d ++ p_opt (sd_value d).
Definition p_use (d : sdirective) : list sdiag :=
  p_key (sd_key d) ++ p_modifier (sd_modifier d) ++ p_opt (sd_value d).
Definition p_clone (d : sdirective) : list sdiag :=
  p_modifier (sd_modifier d) ++ p_key (sd_key d) ++ p_modifier (sd_modifier d) ++
  match sd_value d with Some v => [(DCloneValue, value_place v)] | None => [] end.
Definition snamed (d : sdirective) (s : string) : bool := is_word (si_ident (sd_dir d)) s.
Definition key_chars (k : skebab_or_str) : string := match k with SKKebab k => sk_repr k | SKStr _ s => s end.

Definition p_html_dir (d : sdirective) : list sdiag :=
  if snamed d "class" || snamed d "style" || snamed d "prop" then
    p_modifier (sd_modifier d) ++ p_opt (sd_value d)
  else if snamed d "on" then p_on d
  else if snamed d "use" then p_use d
  else if snamed d "attr" || snamed d "clone" then [(DNotOnElements (ident_to_string (si_ident (sd_dir d))), si_span (sd_dir d))]
  else [(DUnknownDirective, si_span (sd_dir d))].
Definition p_component_dir (d : sdirective) : list sdiag :=
  if snamed d "clone" then p_clone d
  else if snamed d "class" || snamed d "style" then p_opt (sd_value d)
  else if snamed d "attr" then
    (if is_custom (key_chars (sd_key d)) then [] else p_key (sd_key d)) ++ p_opt (sd_value d)
  else if snamed d "prop" then p_key (sd_key d) ++ p_opt (sd_value d)
  else if snamed d "on" then p_on d
  else if snamed d "use" then p_use d
  else [(DUnknownDirective, si_span (sd_dir d))].
Definition p_slot_dir (d : sdirective) : list sdiag :=
  if snamed d "clone" then p_clone d else [(DSlotDirective (ident_to_string (si_ident (sd_dir d))), si_span (sd_dir d))].
Definition p_attr (r : role) (a : sattr) : list sdiag :=
  match a with
  | SAKv kv => p_value (skv_value kv)
  | SASpread b _ _ => match r with OnSlot => [(DSlotSpread, d_whole b)] | _ => [] end
  | SADir d =>
      match r with
      | OnHtml => p_html_dir d
      | OnComponent => p_component_dir d
      | OnSlot => p_slot_dir d
      end
  end.
Definition p_selectors (r : role) (l : list sselector) : list sdiag :=
  match r, l with OnSlot, s :: _ => [(DSlotSelectors, symbol_place s)] | _, _ => [] end.
Definition srole (slot : bool) (t : stag) : role :=
  if slot then OnSlot else match t with STagComponent _ => OnComponent | _ => OnHtml end.
Definition ssingle_name (t : stag) : bool :=
  match t with
  | STagComponent (SPath None (SPSeg _ SPNone) []) => true
  | _ => false
  end.

Fixpoint p_element (E : senv) (slot : bool) (e : selement) {struct e} : list sdiag :=
  match e with
  | SElement t sels attrs _ children =>
      let r := srole slot t in
      let nodes :=
        (fix go (l : list schild) : list sdiag :=
           match l with
           | [] => []
           | SCValue v :: l => p_value v ++ go l
           | SCElement e :: l => p_element E false e ++ go l
           | SCSlot _ _ :: l => go l
           end) in
      let slots :=
        (fix go (l : list schild) : list sdiag :=
           match l with
           | [] => []
           | SCSlot _ e :: l =>
               (if ssingle_name (sel_tag e) then p_element E true e
                else [(DSlotPath, tag_place E (sel_tag e))]) ++ go l
           | _ :: l => go l
           end) in
      p_selectors r sels ++ flat_map (p_attr r) attrs ++
      match children with Some l => nodes l | None => [] end ++
      match r, children with
      | OnHtml, _ | _, None => []
      | _, Some l => slots l
      end
  end.
Definition p_child (E : senv) (c : schild) : list sdiag :=
  match c with
  | SCValue v => p_value v
  | SCElement e => p_element E false e
  | SCSlot _ _ => []
  end.
(** A slot at the root: the keyword if it is all there is, otherwise the tag
    of the first slot. *)
Definition placed_reports (E : senv) (cs : list schild) : list sdiag :=
  match cs with
  | [SCSlot s _] => [(DRootSlot, s)]
  | _ =>
      match filter (fun c => match c with SCSlot _ _ => true | _ => false end) cs with
      | SCSlot _ e :: _ => [(DRootSlot, tag_place E (sel_tag e))]
      | _ => flat_map (p_child E) cs
      end
  end.
