(** What an expansion does when it is run: a reading of the part of leptos 0.7
    (crates leptos and tachys) that expansions call.  Running an expansion makes
    a tree of elements, components and slots; user code is not run but kept in
    the tree.  Nothing here uses the parsers or expanders of the model: only the
    types of tokens. *)
From Verif Require Import Tokens.
From Coq Require Import Ascii String List Bool Arith.
Import ListNotations.
Open Scope list_scope.
Open Scope string_scope.

(** ** What is made *)

(** Values: literals, code that is run once ([{code}]), functions that are run
    whenever something they use changes ([move || {code}], [move || format!(..)]). *)
Inductive val :=
| WStr (s : string)
| WLit (k : litkind) (s : string)
| WBool (b : bool)
| WCode (ts : list tt)
| WFn (ts : list tt)
| WFormat (ts : list tt).

(** Something given to an element.  No value: the argument is missing (leptos
    then has no such method, rustc rejects the call). *)
Inductive part :=
| PaAttr (name : string) (v : val)
| PaClass (v : val)                               (* the whole attribute [class] *)
| PaToggle (name : string) (v : option val)       (* one class, if the value is true *)
| PaStyle (v : val)                               (* the whole attribute [style] *)
| PaSet (name : string) (v : option val)          (* one property of [style] *)
| PaProp (name : string) (v : option val)         (* a property of the DOM node *)
| PaOn (event : string) (delegated : bool) (v : option val)
| PaUse (directive : string) (v : option val)
| PaRef (v : val)
| PaHtml (v : val)                                (* the content as HTML text *)
| PaMore (code : list tt).                        (* attributes made by user code *)

(** What an element ends up with, by kind; each kind in the order of the calls. *)
Record look := Look {
  lk_attrs : list (string * val);
  lk_class : list (val + (string * option val));
  lk_style : list (val + (string * option val));
  lk_props : list (string * option val);
  lk_events : list (string * bool * option val);
  lk_uses : list (string * option val);
  lk_refs : list val;
  lk_html : list val;
  lk_more : list (list tt)
}.
Definition bare : look := Look [] [] [] [] [] [] [] [] [].
Definition add (l : look) (p : part) : look :=
  let 'Look a c s pr ev u r h m := l in
  match p with
  | PaAttr n v => Look (a ++ [(n, v)]) c s pr ev u r h m
  | PaClass v => Look a (c ++ [inl v]) s pr ev u r h m
  | PaToggle n v => Look a (c ++ [inr (n, v)]) s pr ev u r h m
  | PaStyle v => Look a c (s ++ [inl v]) pr ev u r h m
  | PaSet n v => Look a c (s ++ [inr (n, v)]) pr ev u r h m
  | PaProp n v => Look a c s (pr ++ [(n, v)]) ev u r h m
  | PaOn e d v => Look a c s pr (ev ++ [(e, d, v)]) u r h m
  | PaUse d v => Look a c s pr ev (u ++ [(d, v)]) r h m
  | PaRef v => Look a c s pr ev u (r ++ [v]) h m
  | PaHtml v => Look a c s pr ev u r (h ++ [v]) m
  | PaMore ts => Look a c s pr ev u r h (m ++ [ts])
  end.

Inductive space := SpHtml | SpSvg | SpMath.

(** Views.  A component or slot is a path and what its builder is given; a
    component also has what is given to the elements that it makes. *)
Inductive node :=
| NoText (v : val)
| NoElement (sp : space) (name : string) (l : look) (children : list node)
| NoComponent (path : list tt) (given : list (string * gift)) (parts : list part)
| NoMany (l : list node)
with gift :=
| GiValue (v : val)
| GiChildren (params : option (list tt)) (clones : list string) (l : list node)
| GiSlot (s : slot)
| GiSlots (l : list slot)
with slot :=
| Slot (path : list tt) (given : list (string * gift)).

(** ** Tokens *)

Definition is (c : ascii) (t : tt) : bool :=
  match t with TPunct d _ => Ascii.eqb c d | _ => false end.
(** The same identifier, raw or not. *)
Definition named (s : string) (t : tt) : bool :=
  match t with TIdent i => String.eqb (i_name i) s | _ => false end.

Definition delim_same (a b : delim) : bool :=
  match a, b with Paren, Paren | Bracket, Bracket | Brace, Brace => true | _, _ => false end.
Definition lit_same (a b : litkind) : bool :=
  match a, b with
  | LkStr, LkStr | LkByteStr, LkByteStr | LkCStr, LkCStr | LkByte, LkByte | LkChar, LkChar
  | LkInt, LkInt | LkFloat, LkFloat => true
  | _, _ => false
  end.
(** The same token, whatever its spacing. *)
Fixpoint same_tt (a b : tt) : bool :=
  match a, b with
  | TIdent i, TIdent j => Bool.eqb (i_raw i) (i_raw j) && String.eqb (i_name i) (i_name j)
  | TPunct c _, TPunct d _ => Ascii.eqb c d
  | TLit k s, TLit l t => lit_same k l && String.eqb s t
  | TGroup d l, TGroup e m =>
      delim_same d e &&
      (fix go l m := match l, m with
                     | [], [] => true
                     | x :: l', y :: m' => same_tt x y && go l' m'
                     | _, _ => false
                     end) l m
  | _, _ => false
  end.

(** What follows [::a::b]. *)
Fixpoint after_path (l : list string) (ts : list tt) : option (list tt) :=
  match l with
  | [] => Some ts
  | s :: l' =>
      match ts with
      | a :: b :: i :: r => if is ":" a && is ":" b && named s i then after_path l' r else None
      | _ => None
      end
  end.
(** What follows the given tokens. *)
Fixpoint after_tokens (l ts : list tt) : option (list tt) :=
  match l, ts with
  | [], _ => Some ts
  | x :: l', y :: ts' => if same_tt x y then after_tokens l' ts' else None
  | _, [] => None
  end.
(** [::f(args)] *)
Definition applied (f : list string) (ts : list tt) : option (list tt) :=
  match after_path f ts with Some [TGroup Paren args] => Some args | _ => None end.
(** [head.a(..).b(..)]: the calls at the end. *)
Fixpoint peel (r : list tt) (acc : list (ident * list tt)) : list tt * list (ident * list tt) :=
  match r with
  | TGroup Paren args :: TIdent i :: t :: r' =>
      if is "." t then peel r' ((i, args) :: acc) else (rev r, acc)
  | _ => (rev r, acc)
  end.
Definition calls_of (ts : list tt) : list tt * list (ident * list tt) := peel (rev ts) [].
(** Before and after the first comma. *)
Fixpoint at_comma (ts : list tt) : option (list tt * list tt) :=
  match ts with
  | [] => None
  | t :: r =>
      if is "," t then Some ([], r)
      else match at_comma r with Some (a, b) => Some (t :: a, b) | None => None end
  end.
(** The items of [a, b, c] or [a, b, c,]. *)
Fixpoint items (ts : list tt) : list (list tt) :=
  match ts with
  | [] => []
  | t :: r =>
      if is "," t then [] :: items r
      else match items r with
           | [] => [[t]]
           | x :: l => (t :: x) :: l
           end
  end.
Definition all {A B} (f : A -> option B) : list A -> option (list B) :=
  fix go l :=
    match l with
    | [] => Some []
    | x :: r => match f x, go r with Some y, Some l' => Some (y :: l') | _, _ => None end
    end.

(** ** Values *)

(** A block: statements [let x = ();] that do nothing and then a string are
    that string; everything else is left as it is. *)
Fixpoint trivial_block (ts : list tt) : option string :=
  match ts with
  | [TLit LkStr s] => Some s
  | a :: TIdent _ :: b :: TGroup Paren [] :: c :: r =>
      if named "let" a && is "=" b && is ";" c then trivial_block r else None
  | _ => None
  end.
Definition code_value (ts : list tt) : val :=
  match trivial_block ts with Some s => WStr s | None => WCode ts end.

Definition run_value (ts : list tt) : option val :=
  match ts with
  | [TLit LkStr s] => Some (WStr s)
  | [TLit k s] => Some (WLit k s)
  | [TGroup Brace c] => Some (code_value c)
  | [t] => if named "true" t then Some (WBool true)
           else if named "false" t then Some (WBool false) else None
  | t :: a :: b :: r =>
      if named "move" t && is "|" a && is "|" b then
        match r with
        | [TGroup Brace c] => Some (WFn c)
        | _ => match after_path ["std"; "format"] r with
               | Some [x; TGroup Paren args] => if is "!" x then Some (WFormat args) else None
               | _ => None
               end
        end
      else None
  | _ => None
  end.
(** A value that may be missing. *)
Definition run_opt (ts : list tt) : option (option val) :=
  match ts with [] => Some None | _ => match run_value ts with Some v => Some (Some v) | None => None end end.
(** [name, value] with a string as name. *)
Definition run_pair (ts : list tt) : option (string * option val) :=
  match at_comma ts with
  | Some (a, b) =>
      match run_value a, run_opt b with Some (WStr n), Some v => Some (n, v) | _, _ => None end
  | None => None
  end.
Definition run_pair_full (ts : list tt) : option (string * val) :=
  match run_pair ts with Some (n, Some v) => Some (n, v) | _ => None end.

(** ** Attributes *)

Definition html (l : list string) : list string := "leptos" :: "tachys" :: "html" :: l.
(** The only name left, as in [::module::name]. *)
Definition last_name (m : list string) (ts : list tt) : option string :=
  match after_path m ts with
  | Some [a; b; TIdent i] => if is ":" a && is ":" b then Some (i_name i) else None
  | _ => None
  end.
(** [event] or [undelegated(event)], in tachys::html::event *)
Definition run_event (ts : list tt) : option (string * bool) :=
  match applied (html ["event"; "undelegated"]) ts with
  | Some e => match last_name (html ["event"]) e with Some n => Some (n, false) | None => None end
  | None => match last_name (html ["event"]) ts with Some n => Some (n, true) | None => None end
  end.
(** The arguments of [on]. *)
Definition run_on (ts : list tt) : option part :=
  match at_comma ts with
  | Some (e, v) =>
      match run_event e, run_opt v with Some (n, d), Some v => Some (PaOn n d v) | _, _ => None end
  | None => None
  end.
(** The arguments of [directive]: [f, ().into()] or [f, Into::into(value)]. *)
Definition run_use (ts : list tt) : option part :=
  match ts with
  | TIdent i :: c :: r =>
      if is "," c then
        match r with
        | [TGroup Paren []; d; x; TGroup Paren []] =>
            if is "." d && named "into" x then Some (PaUse (i_name i) None) else None
        | _ => match applied ["std"; "convert"; "Into"; "into"] r with
               | Some v => match run_value v with Some v => Some (PaUse (i_name i) (Some v)) | None => None end
               | None => None
               end
        end
      else None
  | _ => None
  end.

(** The attribute that a method of elements is named after. *)
Definition dashed (s : string) : string :=
  string_of_list_ascii (map (fun c => if Ascii.eqb c "_" then "-"%char else c) (list_ascii_of_string s)).

(** The methods of elements that are not named after an attribute. *)
Definition methods : list string :=
  ["attr"; "prop"; "on"; "directive"; "node_ref"; "add_any_attr"; "child"].

Definition tuple_or {A} (ts : list tt) (f : list tt -> option A) (g : list tt -> option A) : option A :=
  match ts with [TGroup Paren inner] => f inner | _ => g ts end.
Definition map_opt {A B} (f : A -> B) (o : option A) : option B :=
  match o with Some x => Some (f x) | None => None end.

(** One call, other than [child], on an element. *)
Definition run_call (m : string) (args : list tt) : option part :=
  if String.eqb m "class" then
    tuple_or args (fun t => map_opt (fun p => PaToggle (fst p) (snd p)) (run_pair t))
                  (fun t => map_opt PaClass (run_value t))
  else if String.eqb m "style" then
    tuple_or args (fun t => map_opt (fun p => PaSet (fst p) (snd p)) (run_pair t))
                  (fun t => map_opt PaStyle (run_value t))
  else if String.eqb m "attr" then
    match at_comma args with
    | Some ([TLit LkStr k], r) =>
        match applied ["leptos"; "prelude"; "IntoAttributeValue"; "into_attribute_value"] r with
        | Some v => map_opt (PaAttr k) (run_value v)
        | None => None
        end
    | _ => None
    end
  else if String.eqb m "prop" then map_opt (fun p => PaProp (fst p) (snd p)) (run_pair args)
  else if String.eqb m "on" then run_on args
  else if String.eqb m "directive" then run_use args
  else if String.eqb m "node_ref" then map_opt PaRef (run_value args)
  else if String.eqb m "add_any_attr" then Some (PaMore args)
  else if String.eqb m "inner_html" then map_opt PaHtml (run_value args)
  else if String.eqb m "child" then None
  else map_opt (PaAttr (dashed m)) (run_value args).

(** [::module::name(args)] *)
Definition last_call (m : list string) (ts : list tt) : option (string * list tt) :=
  match after_path m ts with
  | Some [a; b; TIdent i; TGroup Paren args] =>
      if is ":" a && is ":" b then Some (i_name i, args) else None
  | _ => None
  end.

Definition or_else {A} (a b : option A) : option A := match a with Some x => Some x | None => b end.
(** One item of [add_any_attr((..))]: an attribute made by a function of
    tachys::html; other code is left as it is. *)
Definition run_item (ts : list tt) : part :=
  let call2 m f :=
    match applied (html [m; m]) ts with
    | Some [TGroup Paren t] => map_opt f (run_pair_full t)
    | _ => None
    end in
  match
    or_else (call2 "class" (fun p => PaToggle (fst p) (Some (snd p))))
    (or_else (call2 "style" (fun p => PaSet (fst p) (Some (snd p))))
    (or_else (match applied (html ["class"; "class"]) ts with
              | Some v => map_opt PaClass (run_value v) | None => None end)
    (or_else (match applied (html ["style"; "style"]) ts with
              | Some v => map_opt PaStyle (run_value v) | None => None end)
    (or_else (match applied (html ["attribute"; "custom"; "custom_attribute"]) ts with
              | Some t => map_opt (fun p => PaAttr (fst p) (snd p)) (run_pair_full t) | None => None end)
    (or_else (match last_call (html ["attribute"]) ts with
              | Some (n, v) => map_opt (PaAttr (dashed n)) (run_value v) | None => None end)
    (or_else (match last_call (html ["property"]) ts with
              | Some (n, v) => map_opt (fun v => PaProp n (Some v)) (run_value v) | None => None end)
    (or_else (match applied (html ["event"; "on"]) ts with Some t => run_on t | None => None end)
             (match applied (html ["directive"; "directive"]) ts with Some t => run_use t | None => None end))))))))
  with
  | Some p => p
  | None => PaMore ts
  end.

(** ** Elements, components, slots *)

(** [::leptos::tachys::html::element::name()] and the like *)
Definition run_head (ts : list tt) : option (space * string) :=
  match applied (html ["element"; "custom"]) ts with
  | Some [TLit LkStr n] => Some (SpHtml, n)
  | _ =>
      match last_call (html ["element"]) ts with
      | Some (n, []) => Some (SpHtml, n)
      | _ =>
          match last_call ["leptos"; "tachys"; "svg"; "element"] ts with
          | Some (n, []) => Some (SpSvg, n)
          | _ => match last_call ["leptos"; "tachys"; "math"; "element"] ts with
                 | Some (n, []) => Some (SpMath, n)
                 | _ => None
                 end
          end
      end
  end.

(** [let x = x.clone();] any number of times, then an expression. *)
Fixpoint run_clones (ts : list tt) : list string * list tt :=
  match ts with
  | a :: TIdent i :: b :: TIdent j :: c :: d :: TGroup Paren [] :: e :: r =>
      if named "let" a && is "=" b && String.eqb (i_name i) (i_name j) && is "." c &&
         named "clone" d && is ";" e
      then let '(l, t) := run_clones r in (i_name i :: l, t)
      else ([], ts)
  | _ => ([], ts)
  end.

(** The path of a props builder: [&path, ::leptos::component::component_props_builder(&path)]. *)
Definition run_component_path (h : list tt) : option (list tt) :=
  match rev h with
  | TGroup Paren (a :: path) :: _ =>
      match h with
      | b :: h' =>
          if is "&" a && is "&" b then
            match after_tokens path h' with
            | Some (c :: r) =>
                if is "," c then
                  match applied ["leptos"; "component"; "component_props_builder"] r with
                  | Some _ => Some path
                  | None => None
                  end
                else None
            | _ => None
            end
          else None
      | [] => None
      end
  | _ => None
  end.
(** [path::builder()] *)
Definition run_slot_path (h : list tt) : option (list tt) :=
  match rev h with
  | TGroup Paren [] :: i :: a :: b :: r =>
      if named "builder" i && is ":" a && is ":" b then Some (rev r) else None
  | _ => None
  end.
(** All but the last call, which has to be [build()]. *)
Fixpoint before_build (l : list (ident * list tt)) : option (list (ident * list tt)) :=
  match l with
  | [] => None
  | [(i, args)] => match args with
                   | [] => if String.eqb (i_name i) "build" then Some [] else None
                   | _ => None
                   end
  | c :: r => map_opt (cons c) (before_build r)
  end.

(** The calls on an element: what it is given, and its children. *)
Fixpoint run_calls (child : list tt -> option node) (l : list (ident * list tt)) (acc : look)
  : option (look * list node) :=
  match l with
  | [] => Some (acc, [])
  | (i, args) :: r =>
      if String.eqb (i_name i) "child" then
        match child args, run_calls child r acc with
        | Some n, Some (lk, ns) => Some (lk, n :: ns)
        | _, _ => None
        end
      else match run_call (i_name i) args with
           | Some p => run_calls child r (add acc p)
           | None => None
           end
  end.

Definition View_new : list string := ["leptos"; "prelude"; "View"; "new"].

(** The content of [children({..})]: clones, and a function that makes a
    fragment; the function is passed to [to_children] if it has no parameters. *)
Definition run_children (frag : list tt -> option (list node)) (ts : list tt) : option gift :=
  let '(clones, f) := run_clones ts in
  match applied ["leptos"; "children"; "ToChildren"; "to_children"] f with
  | Some (t :: a :: b :: body) =>
      if named "move" t && is "|" a && is "|" b then map_opt (GiChildren None clones) (frag body) else None
  | Some _ => None
  | None =>
      match f with
      | t :: r =>
          let n := List.length r - 13 in
          if named "move" t then map_opt (GiChildren (Some (firstn n r)) clones) (frag (skipn n r)) else None
      | [] => None
      end
  end.

Section Run.
(** A call of a builder with its name and its argument.  [children({..})], with
    a name that is not raw, is written by the macro: names of props are raw. *)
Definition run_gift (frag : list tt -> option (list node)) (slot : list tt -> option slot)
    (c : ident * list tt) : option (string * gift) :=
  let '(i, args) := c in
  map_opt (pair (i_name i))
    match i, args with
    | Id false "children", [TGroup Brace ts] => run_children frag ts
    | _, _ =>
        match slot args with
        | Some s => Some (GiSlot s)
        | None =>
            match after_path ["into_vec"] (skipn 3 args) with
            | Some [TGroup Paren b] =>
                match applied ["std"; "boxed"; "Box"; "new"] b with
                | Some [TGroup Bracket l] => map_opt GiSlots (all slot (items l))
                | _ => None
                end
            | _ => map_opt GiValue (run_value args)
            end
        end
    end.

(** Fuel [n]: the size of the code is enough. *)
Fixpoint run_node (n : nat) (ts : list tt) : option node :=
  match n with
  | 0 => None
  | S n =>
      match applied ["leptos"; "prelude"; "IntoRender"; "into_render"] ts with
      | Some e => run_node n e
      | None =>
          match run_value ts with
          | Some v => Some (NoText v)
          | None =>
              match ts with
              | h :: TGroup Bracket _ :: r =>
                  if is "#" h then
                    match applied View_new r with Some c => run_component n c | None => None end
                  else None
              | _ =>
                  match applied View_new ts with
                  | Some _ => map_opt NoMany (run_fragment n ts)
                  | None =>
                      let '(h, calls) := calls_of ts in
                      match run_head h, run_calls (run_node n) calls bare with
                      | Some (sp, name), Some (lk, ns) => Some (NoElement sp name lk ns)
                      | _, _ => None
                      end
                  end
              end
          end
      end
  end
(** [View::new((a, b,))] *)
with run_fragment (n : nat) (ts : list tt) : option (list node) :=
  match n with
  | 0 => None
  | S n => match applied View_new ts with
           | Some [TGroup Paren l] => all (run_node n) (items l)
           | _ => None
           end
  end
(** [component_view(&path, builder).add_any_attr((..))] *)
with run_component (n : nat) (ts : list tt) : option node :=
  match n with
  | 0 => None
  | S n =>
      match calls_of ts with
      | (h, [(m, [TGroup Paren l])]) =>
          if String.eqb (i_name m) "add_any_attr" then
            match applied ["leptos"; "component"; "component_view"] h with
            | Some b =>
                let '(h', calls) := calls_of b in
                match run_component_path h', before_build calls with
                | Some path, Some calls =>
                    map_opt (fun g => NoComponent path g (map run_item (items l)))
                            (all (run_gift (run_fragment n) (run_slot n)) calls)
                | _, _ => None
                end
            | None => None
            end
          else None
      | _ => None
      end
  end
(** [Into::into(path::builder()...build())] *)
with run_slot (n : nat) (ts : list tt) : option slot :=
  match n with
  | 0 => None
  | S n =>
      match applied ["std"; "convert"; "Into"; "into"] ts with
      | Some b =>
          let '(h, calls) := calls_of b in
          match run_slot_path h, before_build calls with
          | Some path, Some calls =>
              map_opt (Slot path) (all (run_gift (run_fragment n) (run_slot n)) calls)
          | _, _ => None
          end
      | None => None
      end
  end.
End Run.

(** A whole expansion: [{ #[allow(unused_braces)] code }]. *)
Definition run_view (ts : list tt) : option node :=
  match ts with
  | [TGroup Brace (h :: TGroup Bracket _ :: e)] =>
      if is "#" h then run_node (S (size ts)) e else None
  | _ => None
  end.
