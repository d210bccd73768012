(** Views with syntax errors: what is read from any token stream, and which
    reports are made about its syntax, where.

    [SpecGrammar.v] describes views without syntax errors.  Here every phrase
    also has a list of reports, and there are further phrases for each kind of
    error: one that is read in spite of it ([rd_...]), one that ends a block of
    children ([bad_...]) and one that ends everything ([ab_...]).  Nothing here
    uses the parsers or expanders of the model. *)
From Verif Require Import SpecStr SpecGrammar SpecReports SpecSpan SpecSpell Erase.
Open Scope list_scope.
Close Scope sparse_scope.
Close Scope sexpand_scope.

(** Where something is missing: at the next token, which for a group is its
    opening delimiter; at the end of a block its closing delimiter, and at the
    end of the view the call site ([sc]). *)
Definition next_place (sc : span) (ts : list stt) : span :=
  match ts with
  | [] => sc
  | SGroup b _ _ :: _ => d_open b
  | SIdent s _ :: _ | SPunct s _ _ :: _ | SLit s _ _ :: _ => s
  end.

(** ** Names and values *)

(** A raw identifier after the first token of a name is reported. *)
Definition raw_reports (ts : list stt) : list sdiag :=
  flat_map (fun t => match t with SIdent s (Id true _) => [(DRawInKebab, s)] | _ => [] end) ts.
Definition rd_name (E : senv) (ts : list stt) (k : skebab) (ds : list sdiag) (follow : list stt) : Prop :=
  sp_name E ts k /\ name_ends (erases ts) (erases follow) /\ ds = raw_reports (tl ts).
Definition starts_name_here (ts : list stt) : Prop :=
  next_ident (erases ts) \/ next_punct "-" (erases ts).

Definition rd_value (E : senv) (ts : list stt) (v : svalue) (follow : list stt) : Prop :=
  sp_value E ts v /\ value_phrase (erases ts) (evalue v) (erases follow).
Definition no_value (ts : list stt) : Prop :=
  ~ exists u v r, erases ts = u ++ r /\ value_phrase u v r.
(** A plain Rust identifier, not a keyword. *)
Definition next_word (ts : list stt) : Prop :=
  match ts with SIdent _ i :: _ => i_raw i = true \/ ~ In (i_name i) keyword_names | _ => False end.

(** What stands in for a missing value, all of it at [p]. *)
Definition stand_in (p : span) : svalue :=
  SVBlock (DSpan p p p)
    [SPunct p ":" Joint; SPunct p ":" Alone; SIdent p (Id false "leptos_mview");
     SPunct p ":" Joint; SPunct p ":" Alone; SIdent p (Id false "MissingValueAfterEq")].

(** [= value], nothing, or [=] without a value: reported at the next token, or
    at the [=] if it is the last token of the block. *)
Inductive rd_opt (E : senv) : list stt -> option svalue -> list sdiag -> list stt -> Prop :=
| rdo_none follow : ~ next_punct "=" (erases follow) -> rd_opt E [] None [] follow
| rdo_some s sp ts v follow : rd_value E ts v follow ->
    rd_opt E (SPunct s "=" sp :: ts) (Some v) [] follow
| rdo_missing s sp b p follow : no_value follow -> p = next_place s follow ->
    (b = true <-> next_word follow) ->
    rd_opt E [SPunct s "=" sp] (Some (stand_in p)) [(DExpectedValue b, p)] follow.

(** ** Attributes *)

Definition rd_modifier (ts : list stt) (m : option sident) (follow : list stt) : Prop :=
  sp_modifier ts m /\ opt_modifier (erases ts) (option_map si_ident m) (erases follow).
Inductive rd_key (E : senv) : list stt -> skebab_or_str -> list sdiag -> list stt -> Prop :=
| rdk_str s v follow : rd_key E [SLit s LkStr v] (SKStr s v) [] follow
| rdk_name ts k ds follow : rd_name E ts k ds follow -> rd_key E ts (SKKebab k) ds follow.
Inductive rd_short (E : senv) : list stt -> skebab -> svalue -> list sdiag -> Prop :=
| rds b inner k i ds : rd_name E inner k ds [] -> sp_ident E k i ->
    rd_short E [SGroup b Brace inner] k (SVBlock b [SIdent (si_span i) (si_ident i)]) ds.

Inductive rd_attr (E : senv) : list stt -> sattr -> list sdiag -> list stt -> Prop :=
| rda_kv ts k ds ts' v ds' follow : rd_name E ts k ds (ts' ++ follow) -> rd_opt E ts' v ds' follow ->
    (next_ident (erases ts) -> ~ next_punct ":" (erases (tl ts ++ ts' ++ follow))) ->
    rd_attr E (ts ++ ts')
      (SAKv (SKvAttr k match v with Some v => v | None => SVLit (SLitBool Call true) end)) (ds ++ ds') follow
| rda_short ts k v ds follow : rd_short E ts k v ds -> rd_attr E ts (SAKv (SKvAttr k v)) ds follow
| rda_spread b s s' sp ts follow :
    rd_attr E [SGroup b Brace (SPunct s "." Joint :: SPunct s' "." sp :: ts)] (SASpread b [s; s'] ts) [] follow
| rda_dir s i s' sp ks k ds ms m vs v ds' follow : rd_key E ks k ds (ms ++ vs ++ follow) ->
    rd_modifier ms m (vs ++ follow) -> rd_opt E vs v ds' follow ->
    rd_attr E (SIdent s i :: SPunct s' ":" sp :: ks ++ ms ++ vs)
      (SADir (SDirective (SId s i) k m v)) (ds ++ ds') follow
| rda_dir_short s i s' sp ks k v ds ms m follow : rd_short E ks k v ds -> rd_modifier ms m follow ->
    rd_attr E (SIdent s i :: SPunct s' ":" sp :: ks ++ ms)
      (SADir (SDirective (SId s i) (SKKebab k) m (Some v))) ds follow.

(** After the [:] of a directive a key is expected, after the next [:] an
    identifier; otherwise everything ends there.  [o] is how: [None] after the
    reports, [Some w] by a panic. *)
Definition no_key (ts : list stt) : Prop :=
  match ts with
  | SIdent _ _ :: _ | SLit _ LkStr _ :: _ | SGroup _ Brace _ :: _ => False
  | SPunct _ c _ :: _ => c <> "-"%char
  | _ => True
  end.
(** A name no identifier can be made of, where one is needed. *)
Definition bad_name (k : skebab) : Prop := In (snake_name (sk_repr k)) (""%string :: reserved_words).
Definition name_panic (k : skebab) : option panic := Some (PNewRaw (snake_name (sk_repr k))).
Inductive ab_attr (E : senv) (sc : span) : list stt -> option panic -> list sdiag -> Prop :=
| aba_key s i s' sp r : no_key r ->
    ab_attr E sc (SIdent s i :: SPunct s' ":" sp :: r) None [(DAbortParse (EKebab (found_in (erases r))), next_place sc r)]
| aba_braces_none s i s' sp b inner r : ~ starts_name_here inner ->
    ab_attr E sc (SIdent s i :: SPunct s' ":" sp :: SGroup b Brace inner :: r) None
      [(DAbortParse (EKebab (found_in (erases inner))), next_place (d_close b) inner)]
| aba_braces_more s i s' sp b u k ds v r : rd_name E u k ds v -> v <> [] ->
    ab_attr E sc (SIdent s i :: SPunct s' ":" sp :: SGroup b Brace (u ++ v) :: r) None
      (ds ++ [(DAbortParse EBraceExtra, next_place (d_close b) v)])
| aba_modifier s i s' sp ks k ds s'' sp' r : rd_key E ks k ds (SPunct s'' ":" sp' :: r) -> ~ next_ident (erases r) ->
    ab_attr E sc (SIdent s i :: SPunct s' ":" sp :: ks ++ SPunct s'' ":" sp' :: r) None
      (ds ++ [(DAbortParse (EIdent (found_in (erases r))), next_place sc r)])
| aba_modifier_short s i s' sp ks k v ds s'' sp' r : rd_short E ks k v ds -> ~ next_ident (erases r) ->
    ab_attr E sc (SIdent s i :: SPunct s' ":" sp :: ks ++ SPunct s'' ":" sp' :: r) None
      (ds ++ [(DAbortParse (EIdent (found_in (erases r))), next_place sc r)])
| aba_name_short b inner k ds r : rd_name E inner k ds [] -> bad_name k ->
    ab_attr E sc (SGroup b Brace inner :: r) (name_panic k) ds
| aba_name_dir s i s' sp b inner k ds r : rd_name E inner k ds [] -> bad_name k ->
    ab_attr E sc (SIdent s i :: SPunct s' ":" sp :: SGroup b Brace inner :: r) (name_panic k) ds.

(** A block in braces after an element is first tried as [{key}], and raw
    identifiers in a name at its start are reported then. *)
Inductive tried (E : senv) : list stt -> list sdiag -> Prop :=
| tried_no inner : ~ starts_name_here inner -> tried E inner []
| tried_name u k ds v : rd_name E u k ds v -> v <> [] -> tried E (u ++ v) ds.
Definition stop_attrs (E : senv) (follow : list stt) (ds : list sdiag) : Prop :=
  match follow with
  | SIdent _ _ :: _ => False
  | SPunct _ c _ :: _ => c <> "-"%char /\ ds = []
  | SGroup _ Brace inner :: _ => ~ next_op "." "." (erases inner) /\ tried E inner ds
  | _ => ds = []
  end.

(** Parts one after the other, then a stop. *)
Inductive rd_many {A} (P : list stt -> A -> list sdiag -> list stt -> Prop) (stop : list stt -> list sdiag -> Prop)
  : list stt -> list A -> list sdiag -> list stt -> Prop :=
| rdm_nil ds follow : stop follow ds -> rd_many P stop [] [] ds follow
| rdm_cons ts a ds ts' l ds' follow : P ts a ds (ts' ++ follow) -> rd_many P stop ts' l ds' follow ->
    rd_many P stop (ts ++ ts') (a :: l) (ds ++ ds') follow.
Definition rd_attrs (E : senv) := rd_many (rd_attr E) (stop_attrs E).
Inductive ab_attrs (E : senv) (sc : span) : list stt -> option panic -> list sdiag -> Prop :=
| abs_here ts o ds : ab_attr E sc ts o ds -> ab_attrs E sc ts o ds
| abs_later u a ds ts' o ds' : rd_attr E u a ds ts' -> ab_attrs E sc ts' o ds' -> ab_attrs E sc (u ++ ts') o (ds ++ ds').

(** ** Selectors *)

Inductive rd_selector (E : senv) : list stt -> sselector -> list sdiag -> list stt -> Prop :=
| rdl_class s sp ts k ds follow : rd_name E ts k ds follow ->
    rd_selector E (SPunct s "." sp :: ts) (SSelClass s k) ds follow
| rdl_id s sp ts k ds follow : rd_name E ts k ds follow ->
    rd_selector E (SPunct s "#" sp :: ts) (SSelId s k) ds follow.
Definition rd_selectors (E : senv) :=
  rd_many (rd_selector E) (fun follow ds => selectors_end (erases follow) /\ ds = []).

(** ** Tags *)

Definition rd_path (E : senv) (ts : list stt) (p : spath) (follow : list stt) : Prop :=
  sp_path ts p /\ path_phrase (s_env E) (erases ts) (epath p) (erases follow).
Inductive named_tag (E : senv) (k : skebab) : stag -> Prop :=
| nt_component i : tag_kind_spec (sk_repr k) KComponent -> sp_ident E k i ->
    named_tag E k (STagComponent (SPath None (SPSeg (SId (si_span i) (Id false (i_name (si_ident i)))) SPNone) []))
| nt_html i : tag_kind_spec (sk_repr k) KHtml -> sp_ident E k i -> named_tag E k (STagHtml i)
| nt_svg i : tag_kind_spec (sk_repr k) KSvg -> sp_ident E k i -> named_tag E k (STagSvg i)
| nt_math i : tag_kind_spec (sk_repr k) KMath -> sp_ident E k i -> named_tag E k (STagMath i)
| nt_web : tag_kind_spec (sk_repr k) KWeb -> named_tag E k (STagWeb k).
Inductive rd_tag (E : senv) : list stt -> stag -> list sdiag -> list stt -> Prop :=
| rdt_path ts p follow : path_follows (erases (ts ++ follow)) -> rd_path E ts p follow ->
    rd_tag E ts (STagComponent p) [] follow
| rdt_name ts k t ds follow : ~ path_follows (erases (ts ++ follow)) -> rd_name E ts k ds follow ->
    named_tag E k t -> rd_tag E ts t ds follow.

(** Errors in a path: no identifier where a segment should start, or malformed
    generic arguments (where the external parser says).  [rest] is what has
    not been looked at. *)
Definition no_segment (ts : list stt) : Prop :=
  match ts with SIdent _ i :: _ => ~ plain_segment i /\ ~ keyword_segment i | _ => True end.
Inductive bad_segment (E : senv) (sc : span) : list stt -> perr -> span -> list stt -> Prop :=
| bsg_ident ts : no_segment ts -> bad_segment E sc ts (EIdent (found_in (erases ts))) (next_place sc ts) ts
| bsg_generic s i r p rest : plain_segment i -> ~ keyword_segment i -> next_punct "<" (erases r) ->
    generics_follow (erases r) -> s_generic E sc r = inr (rest, p) ->
    bad_segment E sc (SIdent s i :: r) EGenerics p rest
| bsg_turbofish s i c l r p rest : plain_segment i -> ~ keyword_segment i -> sp_colons c l -> next_punct "<" (erases r) ->
    s_generic E sc r = inr (rest, p) ->
    bad_segment E sc (SIdent s i :: c ++ r) EGenerics p rest.
Inductive bad_segments (E : senv) (sc : span) : list stt -> perr -> span -> list stt -> Prop :=
| bss_here ts e p rest : bad_segment E sc ts e p rest -> bad_segments E sc ts e p rest
| bss_later ts s c l ts' e p rest : sp_segment ts s ->
    segment_phrase (s_env E) (erases ts) (eseg s) (erases (c ++ ts')) -> sp_colons c l ->
    ~ next_group Paren (erases ts') -> bad_segments E sc ts' e p rest ->
    bad_segments E sc (ts ++ c ++ ts') e p rest.
(** As [path_follows], for any stream: a lifetime counts as one token. *)
Definition path_next (ts : list tt) : Prop :=
  match ts with
  | TPunct c Joint :: TIdent i :: r =>
      if ascii_dec c "'" then path_follows (TIdent i :: r) else path_follows ts
  | _ => path_follows ts
  end.
Inductive bad_tag (E : senv) (sc : span) : list stt -> perr -> span -> list stt -> Prop :=
| bt_rel ts e p rest : path_next (erases ts) -> ~ next_op ":" ":" (erases ts) ->
    bad_segments E sc ts e p rest -> bad_tag E sc ts e p rest
| bt_abs c l ts e p rest : sp_colons c l -> bad_segments E sc ts e p rest -> bad_tag E sc (c ++ ts) e p rest
| bt_name ts : ~ path_next (erases ts) -> ~ starts_name_here ts -> bad_tag E sc ts (EKebab (found_in (erases ts))) (next_place sc ts) ts.

(** ** Elements and children *)

Inductive rd_head (E : senv) : list stt -> stag -> list sselector -> list sattr -> list sdiag -> list stt -> Prop :=
| rdh ts1 t ds1 ts2 sels ds2 ts3 attrs ds3 follow : rd_tag E ts1 t ds1 (ts2 ++ ts3 ++ follow) ->
    rd_selectors E ts2 sels ds2 (ts3 ++ follow) -> rd_attrs E ts3 attrs ds3 follow ->
    rd_head E (ts1 ++ ts2 ++ ts3) t sels attrs (ds1 ++ ds2 ++ ds3) follow.
Definition ends_element (ts : list stt) : Prop :=
  match ts with
  | [] | SGroup _ Brace _ :: _ | SGroup _ Paren _ :: _ => True
  | SPunct _ c _ :: _ => c = ";"%char \/ c = "|"%char
  | _ => False
  end.
Definition next_block (ts : list stt) : Prop := next_group Brace (erases ts) \/ next_group Paren (erases ts).
Definition block_delim (d : delim) : Prop := d = Brace \/ d = Paren.
Definition pipes (s : span) (args : list stt) (s' : span) : list stt :=
  SPunct s "|" Alone :: args ++ [SPunct s' "|" Alone].

(** An element that cannot be read: its tag, or arguments that are not closed. *)
Inductive bad_element (E : senv) (sc : span) : list stt -> list sdiag -> perr -> span -> list stt -> Prop :=
| be_tag ts e p rest : bad_tag E sc ts e p rest -> bad_element E sc ts [] e p rest
| be_args ts t sels attrs ds s sp args : rd_head E ts t sels attrs ds (SPunct s "|" sp :: args) ->
    Forall not_pipe (erases args) ->
    bad_element E sc (ts ++ SPunct s "|" sp :: args) ds EClosure s [].
Definition slot_here (ts : list stt) : Prop := slot_prefix (erases ts).
Inductive bad_child (E : senv) (sc : span) : list stt -> list sdiag -> perr -> span -> list stt -> Prop :=
| bch_none ts : ts <> [] -> no_value ts -> ~ next_ident (erases ts) -> bad_child E sc ts [] EChild (next_place sc ts) ts
| bch_element ts ds e p rest : no_value ts -> next_ident (erases ts) -> ~ slot_here ts -> bad_element E sc ts ds e p rest ->
    bad_child E sc ts ds e p rest
| bch_slot s s' sp ts ds e p rest : slot_here (SIdent s (Id false "slot") :: SPunct s' ":" sp :: ts) ->
    bad_element E sc ts ds e p rest ->
    bad_child E sc (SIdent s (Id false "slot") :: SPunct s' ":" sp :: ts) ds e p rest.

Inductive rd_children (E : senv) (sc : span) : list stt -> list schild -> list sdiag -> Prop :=
| rdc_nil : rd_children E sc [] [] []
| rdc_cons ts c ds ts' cs ds' : rd_child E sc ts c ds ts' -> rd_children E sc ts' cs ds' ->
    rd_children E sc (ts ++ ts') (c :: cs) (ds ++ ds')
(* a stray semicolon is skipped *)
| rdc_semi ts ds e p s sp r cs ds' : bad_child E sc ts ds e p (SPunct s ";" sp :: r) -> rd_children E sc r cs ds' ->
    rd_children E sc ts cs (ds ++ (DExtraSemi, p) :: ds')
(* after any other error the rest of the block is ignored *)
| rdc_stop ts ds e p rest : bad_child E sc ts ds e p rest -> ~ next_punct ";" (erases rest) ->
    rd_children E sc ts [] (ds ++ [(DParse e, p)])
with rd_child (E : senv) (sc : span) : list stt -> schild -> list sdiag -> list stt -> Prop :=
| rdch_value ts v follow : rd_value E ts v follow ->
    (forall l, v = SVLit l -> exists s x, l = SLitTok s LkStr x) ->
    rd_child E sc ts (SCValue v) [] follow
(* a literal that is not a string is replaced by an empty string *)
| rdch_literal ts l follow : rd_value E ts (SVLit l) follow -> (forall s x, l <> SLitTok s LkStr x) ->
    rd_child E sc ts (SCValue (SVLit (SLitTok Call LkStr ""))) [(DNonStrChild, value_place (SVLit l))] follow
| rdch_element ts e ds follow : rd_element E sc ts e ds follow -> next_ident (erases ts) ->
    ~ slot_here (ts ++ follow) -> no_value (ts ++ follow) ->
    rd_child E sc ts (SCElement e) ds follow
| rdch_slot s s' sp ts e ds follow : slot_here (SIdent s (Id false "slot") :: SPunct s' ":" sp :: ts ++ follow) ->
    rd_element E sc ts e ds follow ->
    rd_child E sc (SIdent s (Id false "slot") :: SPunct s' ":" sp :: ts) (SCSlot s e) ds follow
with rd_element (E : senv) (sc : span) : list stt -> selement -> list sdiag -> list stt -> Prop :=
| rde ts t sels attrs ds ts' args cs ds' follow : rd_head E ts t sels attrs ds (ts' ++ follow) ->
    rd_end E sc t ts' args cs ds' follow ->
    rd_element E sc (ts ++ ts') (SElement t sels attrs args cs) (ds ++ ds') follow
with rd_end (E : senv) (sc : span) : stag -> list stt -> option (list stt) -> option (list schild) -> list sdiag -> list stt -> Prop :=
| rdd_semi t s sp follow : rd_end E sc t [SPunct s ";" sp] None None [] follow
| rdd_block t b d inner cs ds follow : block_delim d -> rd_children E (d_close b) inner cs ds ->
    rd_end E sc t [SGroup b d inner] None (Some cs) ds follow
| rdd_args t s sp args s' sp' b d inner cs ds follow : Forall not_pipe (erases args) -> block_delim d ->
    rd_children E (d_close b) inner cs ds ->
    rd_end E sc t (SPunct s "|" sp :: args ++ [SPunct s' "|" sp'; SGroup b d inner])
           (Some (pipes s args s')) (Some cs) ds follow
(* not terminated: reported at the tag *)
| rdd_unterminated t : rd_end E sc t [] None None [(DUnterminated, tag_place E t)] []
(* arguments without children: reported at what comes instead *)
| rdd_no_children t s sp args s' sp' follow : Forall not_pipe (erases args) -> ~ next_block follow ->
    rd_end E sc t (SPunct s "|" sp :: args ++ [SPunct s' "|" sp']) (Some (pipes s args s')) None
           [(DNoChildrenAfterArgs, next_place sc follow)] follow
(* anything else: reported there, and from the tag to there *)
| rdd_unknown t follow p : ~ ends_element follow -> p = next_place sc follow ->
    rd_end E sc t [] None None [(DUnknownAttr, p); (DNoChildElements, joinx E (tag_place E t) p)] follow.

(** Views where everything ends at an incomplete directive, or at a name no
    identifier can be made of. *)
Inductive ab_children (E : senv) (sc : span) : list stt -> option panic -> list sdiag -> Prop :=
| abc_here ts o ds : ab_child E sc ts o ds -> ab_children E sc ts o ds
| abc_later ts c ds ts' o ds' : rd_child E sc ts c ds ts' -> ab_children E sc ts' o ds' ->
    ab_children E sc (ts ++ ts') o (ds ++ ds')
| abc_semi ts ds e p s sp r o ds' : bad_child E sc ts ds e p (SPunct s ";" sp :: r) -> ab_children E sc r o ds' ->
    ab_children E sc ts o (ds ++ (DExtraSemi, p) :: ds')
with ab_child (E : senv) (sc : span) : list stt -> option panic -> list sdiag -> Prop :=
| abch_element ts o ds : no_value ts -> next_ident (erases ts) -> ~ slot_here ts -> ab_element E sc ts o ds -> ab_child E sc ts o ds
| abch_slot s s' sp ts o ds : slot_here (SIdent s (Id false "slot") :: SPunct s' ":" sp :: ts) -> ab_element E sc ts o ds ->
    ab_child E sc (SIdent s (Id false "slot") :: SPunct s' ":" sp :: ts) o ds
with ab_element (E : senv) (sc : span) : list stt -> option panic -> list sdiag -> Prop :=
| abe_tag ts k ds r : ~ path_follows (erases (ts ++ r)) -> rd_name E ts k ds r -> ~ tag_kind_spec (sk_repr k) KWeb ->
    bad_name k -> ab_element E sc (ts ++ r) (name_panic k) ds
| abe_attrs ts1 t ds1 ts2 sels ds2 ts3 o ds3 : rd_tag E ts1 t ds1 (ts2 ++ ts3) -> rd_selectors E ts2 sels ds2 ts3 ->
    ab_attrs E sc ts3 o ds3 -> ab_element E sc (ts1 ++ ts2 ++ ts3) o (ds1 ++ ds2 ++ ds3)
| abe_block ts t sels attrs ds b d inner o ds' r : rd_head E ts t sels attrs ds (SGroup b d inner :: r) -> block_delim d ->
    ab_children E (d_close b) inner o ds' ->
    ab_element E sc (ts ++ SGroup b d inner :: r) o (ds ++ ds')
| abe_args ts t sels attrs ds s sp args s' sp' b d inner o ds' r :
    rd_head E ts t sels attrs ds (SPunct s "|" sp :: args ++ SPunct s' "|" sp' :: SGroup b d inner :: r) ->
    Forall not_pipe (erases args) -> block_delim d -> ab_children E (d_close b) inner o ds' ->
    ab_element E sc (ts ++ SPunct s "|" sp :: args ++ SPunct s' "|" sp' :: SGroup b d inner :: r) o (ds ++ ds').
