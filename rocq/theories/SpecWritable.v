(** Which trees can be written as a view.  Nothing here uses the parser or the
    relations of the grammar for whole phrases. *)
From Verif Require Import Ast SpecStr SpecGrammar.
Open Scope list_scope.

(** ** Names *)

(** Words and dashes; the first word does not start with a digit. *)
Definition name_string (s : string) : Prop :=
  match chars s with
  | [] => False
  | c :: r => (c = "-"%char \/ ident_start c) /\ Forall (fun c => c = "-"%char \/ ident_continue c) r
  end.
(** The number of words that start right after a dash. *)
Fixpoint words_after (dash : bool) (l : list ascii) : nat :=
  match l with
  | [] => 0
  | c :: r => if ascii_dec c "-" then words_after true r else (if dash then 1 else 0) + words_after false r
  end.
(** Sections: the start of the name and every word after a dash. *)
Definition sections (s : string) : nat :=
  match chars s with
  | [] => 0
  | c :: r => S (words_after (if ascii_dec c "-" then true else false) r)
  end.
Definition name_ok (k : kebab) : Prop := name_string (k_repr k) /\ k_spans k = sections (k_repr k).

Definition starts_dash (s : string) : Prop := exists r, chars s = "-"%char :: r.
Definition ends_dash (s : string) : Prop := exists l, chars s = l ++ ["-"%char].

(** ** Values and attributes *)

Inductive value_ok : value -> Prop :=
| vo_lit k s : wf_tt (TLit k s) -> value_ok (VLit (LitTok k s))
| vo_neg k s : k = LkInt \/ k = LkFloat -> wf_tt (TLit k s) -> value_ok (VLit (LitTok k ("-" ++ s)))
| vo_bool b : value_ok (VLit (LitBool b))
| vo_block ts : wf ts -> value_ok (VBlock ts)
| vo_bracket o ts : (forall i, o = Some i -> wf_ident i) -> wf ts -> value_ok (VBracket o ts).

Definition key_ok (k : kebab_or_str) : Prop := match k with KKebab k => name_ok k | KStr _ => True end.

Definition attr_ok (a : attr) : Prop :=
  match a with
  | AKv (KvAttr k v) => name_ok k /\ value_ok v
  | ADir (Directive i k m v) =>
      wf_ident i /\ key_ok k /\ (forall j, m = Some j -> wf_ident j) /\ (forall x, v = Some x -> value_ok x)
  | ASpread ts => wf ts
  end.

Definition selector_name (s : selector) : kebab := match s with SelId k | SelClass k => k end.

(** ** Names do not run into each other *)

(** The name at the end of an attribute, if it ends in one: a directive without
    modifier and value.  ([key] can be written [key=true].) *)
Definition attr_end (a : attr) : option string :=
  match a with
  | ADir (Directive _ (KKebab k) None None) => Some (k_repr k)
  | _ => None
  end.
(** An attribute after a name: it is in braces, or does not continue the name. *)
Inductive attr_after (s : string) : attr -> Prop :=
| aa_spread ts : attr_after s (ASpread ts)
| aa_short k i : name_ident_ok k i -> attr_after s (AKv (KvAttr k (VBlock [TIdent i])))
| aa_kv k v : ~ starts_dash (k_repr k) -> ~ ends_dash s -> attr_after s (AKv (KvAttr k v))
| aa_dir d : ~ ends_dash s -> attr_after s (ADir d).
Fixpoint attrs_after (o : option string) (l : list attr) : Prop :=
  match l with
  | [] => True
  | a :: r => (forall s, o = Some s -> attr_after s a) /\ attrs_after (attr_end a) r
  end.

(** ** Tags *)

Definition generics_ok (E : env) (g : list tt) : Prop :=
  wf g /\ next_punct "<" g /\ exists follow, generic_args E (g ++ follow) = inl (g, follow).
Inductive segment_ok (E : env) : path_seg -> Prop :=
| so_plain i : wf_ident i -> plain_segment i \/ keyword_segment i -> segment_ok E (PSeg i PNone)
| so_generic i b g : wf_ident i -> plain_segment i -> ~ keyword_segment i -> generics_ok E g ->
    (b = false -> ~ next_op "<" "=" g /\ ~ exists sp r, g = TPunct "<" Joint :: TPunct "<" Joint :: TPunct "=" sp :: r) ->
    segment_ok E (PSeg i (PAngle b g)).
(** A single name is not a path. *)
Definition single (p : path) : Prop := exists i, p = Path false [PSeg i PNone].

Inductive tag_ok (E : env) : tag -> Prop :=
| to_html s : raw_ident_ok s -> tag_kind_spec s KHtml -> tag_ok E (TagHtml (Id true s))
| to_svg s : raw_ident_ok s -> tag_kind_spec s KSvg -> tag_ok E (TagSvg (Id true s))
| to_math s : raw_ident_ok s -> tag_kind_spec s KMath -> tag_ok E (TagMath (Id true s))
| to_name s : raw_ident_ok s -> starts_upper s -> tag_ok E (TagComponent (Path false [PSeg (Id false s) PNone]))
| to_path b l : l <> [] -> Forall (segment_ok E) l -> ~ single (Path b l) -> tag_ok E (TagComponent (Path b l))
| to_web k : name_ok k -> tag_kind_spec (k_repr k) KWeb -> tag_ok E (TagWeb k).
Definition tag_name (t : tag) : option string :=
  match t with
  | TagHtml i | TagSvg i | TagMath i => Some (i_name i)
  | TagComponent (Path false [PSeg i PNone]) => Some (i_name i)
  | TagComponent _ => None
  | TagWeb k => Some (k_repr k)
  end.
(** The name before the attributes. *)
Definition name_before (t : tag) (sels : list selector) : option string :=
  match rev sels with s :: _ => Some (k_repr (selector_name s)) | [] => tag_name t end.
(** Tags of children that are not slots start with a word. *)
Definition starts_word (t : tag) : Prop :=
  match t with
  | TagComponent p => leading p = false
  | TagWeb k => ~ starts_dash (k_repr k)
  | _ => True
  end.

(** ** Elements and children *)

Definition args_ok (args : option (list tt)) (ch : option (list child)) : Prop :=
  match args with
  | None => True
  | Some ts => ch <> None /\ exists inner, ts = TPunct "|" Alone :: inner ++ [TPunct "|" Alone] /\
                wf inner /\ Forall not_pipe inner
  end.
Inductive child_ok (E : env) : child -> Prop :=
| co_value v : value_ok v -> (forall l, v = VLit l -> exists s, l = LitTok LkStr s) -> child_ok E (CValue v)
| co_element e : element_ok E e -> starts_word (el_tag e) -> child_ok E (CElement e)
| co_slot e : element_ok E e -> child_ok E (CSlot e)
with element_ok (E : env) : element -> Prop :=
| eo_element t sels attrs args ch :
    tag_ok E t -> Forall (fun s => name_ok (selector_name s)) sels -> Forall attr_ok attrs ->
    attrs_after (name_before t sels) attrs -> args_ok args ch ->
    (forall c, In c (match ch with Some l => l | None => [] end) -> child_ok E c) ->
    element_ok E (Element t sels attrs args ch).
