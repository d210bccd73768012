(** Where the identifiers and literals of an expansion come from.  Nothing here
    uses the functions of the model. *)
From Verif Require Import Ast SpecStr SpecGrammar SpecOut SpecRead.
Open Scope list_scope.

(** The words of the generated code. *)
Definition macro_words : list string :=
  ["leptos"; "tachys"; "html"; "svg"; "math"; "element"; "custom"; "prelude"; "View"; "new";
   "IntoRender"; "into_render"; "IntoAttributeValue"; "into_attribute_value";
   "component"; "component_view"; "component_props_builder"; "build"; "builder";
   "children"; "ToChildren"; "to_children"; "child"; "add_any_attr";
   "node_ref"; "attr"; "class"; "style"; "prop"; "on"; "directive"; "id";
   "event"; "undelegated"; "attribute"; "custom_attribute"; "property";
   "std"; "convert"; "Into"; "into"; "format"; "boxed"; "Box"; "into_vec"; "_";
   "allow"; "unreachable_code"; "unused_braces"; "move"; "true"; "false"; "let"; "__x"; "clone"].

(** A kebab-case name is written somewhere in the input. *)
Definition written_name (input w : list tt) : Prop := name_phrase w /\ within w input.

(** The origin of an identifier or literal of the expansion. *)
Inductive origin (input : list tt) : tt -> Prop :=
(* the same token in the input *)
| from_user t : within [t] input -> origin input t
(* a word of the generated code *)
| from_macro s : In s macro_words -> origin input (word s)
| from_macro_raw s : In s ["class"; "style"; "id"] -> origin input (TIdent (Id true s))
(* a name of the input as an identifier *)
| from_name raw w : written_name input w ->
    origin input (TIdent (Id raw (snake_name (name_text w))))
(* a slot name of the input as a method name *)
| from_slot w m : written_name input w -> camel_snake (snake_name (name_text w)) m ->
    origin input (TIdent (Id true m))
(* names of the input as a string; several ids are joined by spaces *)
| from_names l : l <> [] -> Forall (fun s => exists w, written_name input w /\ s = name_text w) l ->
    origin input (str (spaced l))
(* a negative number *)
| from_minus sp k s : within [TPunct "-" sp; TLit k s] input -> origin input (TLit k ("-" ++ s)).
