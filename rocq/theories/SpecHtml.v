(** The text of a tree, as leptos 0.7 renders it on a server (tachys, functions
    [to_html]).  Only used to run the tests of /repo/tests on the model: no
    theorem rests on it.  User code is given by a [world]. *)
From Verif Require Import Tokens SpecRun.
From Coq Require Import Ascii String List Bool.
Import ListNotations.
Open Scope list_scope.
Open Scope string_scope.

(** What user code comes to, and what components and spreads make. *)
Inductive shown := ShText (s : string) | ShBool (b : bool).
Record world := World {
  w_code : list tt -> shown;
  w_more : list tt -> list part;
  w_component : list tt -> list (string * gift) -> node
}.

Definition show_val (w : world) (v : val) : shown :=
  match v with
  | WStr s | WLit _ s => ShText s
  | WBool b => ShBool b
  | WCode ts | WFn ts | WFormat ts => w_code w ts
  end.
Definition text_of (s : shown) : string :=
  match s with ShText s => s | ShBool true => "true" | ShBool false => "false" end.

Definition escape_text (s : string) : string :=
  String.concat "" (map (fun c => match c with
    | "&"%char => "&amp;" | "<"%char => "&lt;" | ">"%char => "&gt;" | c => String c "" end) (list_ascii_of_string s)).
Definition escape_attr (s : string) : string :=
  String.concat "" (map (fun c => match c with
    | "&"%char => "&amp;" | """"%char => "&quot;" | c => String c "" end) (list_ascii_of_string s)).

(** [ name], [ name="value"] or nothing. *)
Definition show_attr (w : world) (a : string * val) : string :=
  match show_val w (snd a) with
  | ShText s => " " ++ fst a ++ "=""" ++ escape_attr s ++ """"
  | ShBool true => " " ++ fst a
  | ShBool false => ""
  end.
(** Classes are collected with a space before each, also before those that are off. *)
Definition show_class (w : world) (c : val + (string * option val)) : string :=
  " " ++ match c with
         | inl v => text_of (show_val w v)
         | inr (n, Some v) => match show_val w v with ShBool false => "" | _ => n end
         | inr (n, None) => ""
         end.
Definition show_style (w : world) (c : val + (string * option val)) : string :=
  match c with
  | inl v => text_of (show_val w v) ++ ";"
  | inr (n, Some v) => n ++ ":" ++ text_of (show_val w v) ++ ";"
  | inr (n, None) => ""
  end.
Fixpoint trim_start (s : string) : string :=
  match s with String " " r => trim_start r | _ => s end.
Fixpoint trim_end (s : string) : string :=
  match s with
  | String c r => match trim_end r with "" => if Ascii.eqb c " " then "" else String c "" | r' => String c r' end
  | "" => ""
  end.
Definition trim (s : string) : string := trim_end (trim_start s).
Definition quoted (name s : string) : string :=
  match s with "" => "" | _ => " " ++ name ++ "=""" ++ escape_attr s ++ """" end.

Definition with_parts (l : look) (ps : list part) : look := fold_left add ps l.
Definition without_more (w : world) (l : look) : look :=
  let 'Look a c s pr ev u r h m := l in with_parts (Look a c s pr ev u r h []) (List.concat (map (w_more w) m)).
Definition show_look (w : world) (l : look) : string :=
  let l := without_more w l in
  String.concat "" (map (show_attr w) (lk_attrs l)) ++
  quoted "class" (trim (String.concat "" (map (show_class w) (lk_class l)))) ++
  quoted "style" (trim (String.concat "" (map (show_style w) (lk_style l)))).

Definition void (s : string) : bool :=
  existsb (String.eqb s) ["area"; "base"; "br"; "col"; "embed"; "hr"; "img"; "input"; "link"; "meta"; "source"; "track"; "wbr"].

(** What is put on a component goes to the elements it makes. *)
Fixpoint put (ps : list part) (n : node) : node :=
  match n with
  | NoText v => NoText v
  | NoElement sp name l ns => NoElement sp name (with_parts l ps) ns
  | NoComponent p g qs => NoComponent p g (qs ++ ps)
  | NoMany l => NoMany (map (put ps) l)
  end.
(** A marker keeps adjacent texts apart.  The result is the text, and whether it
    ends with a text; the fuel is for components. *)
Fixpoint html (w : world) (fuel : nat) (after_text : bool) (n : node) {struct fuel} : string * bool :=
  match fuel with
  | 0 => ("", after_text)
  | S fuel =>
      let all := fix all (after : bool) (ns : list node) : string * bool :=
        match ns with
        | [] => ("", after)
        | n :: ns => let '(a, x) := html w fuel after n in let '(b, y) := all x ns in (a ++ b, y)
        end in
      match n with
      | NoText v =>
          ((if after_text then "<!>" else "") ++
           match text_of (show_val w v) with "" => " " | s => escape_text s end, true)
      | NoElement _ name l ns =>
          let inner := match lk_html l with
                       | [] => fst (all false ns)
                       | hs => String.concat "" (map (fun v => text_of (show_val w v)) hs)
                       end in
          ("<" ++ name ++ show_look w l ++ ">" ++ (if void name then "" else inner ++ "</" ++ name ++ ">"), false)
      | NoComponent p g ps => html w fuel after_text (put ps (w_component w p g))
      | NoMany ns => all after_text ns
      end
  end.
Definition to_html (w : world) (n : node) : string := fst (html w 100 false n).

(** [contains] of tests/utils/mod.rs. *)
Fixpoint contains (s pat : string) : bool :=
  prefix pat s || match s with String _ r => contains r pat | "" => false end.
