(** Theorem C62: running the expansion of a view makes the tree the view describes. *)
From Verif Require Import Properties1 ExampleFacts Lex SpecStr SpecGrammar SpecOut SpecRead.
From Verif Require Import SpecRun SpecView SpecHtml RunFacts RunFacts2 RunFacts3.
Open Scope string_scope.
Open Scope list_scope.

(** The tree [n] is the one described by the children that were written, up to the
    order in which a component is given its slots. *)
Theorem C62_runs E input cs out : env_ok E -> wf input -> children_phrase E input cs ->
  (forall b e, used cs b e -> plain_element e) ->
  mview E input = Expanded out ->
  exists n, run_view out = Some n /\ view_means cs n /\ forall n', view_means cs n' -> same_node n n'.
Proof.
  intros HE Hw Hc Hp H. destruct (C43_expansion_is_meaning E input out HE Hw H) as (cs' & Hc' & Hr).
  rewrite (C04_grammar_unambiguous E input cs' cs HE Hw Hc' Hc) in Hr.
  destruct (root_runs cs out Hr Hp) as (n & R & M). exists n. split; [exact R|]. split; [exact M|].
  intros n'. now apply view_same.
Qed.
Print Assumptions C62_runs.

(** ** A case *)

Definition plain_elementb (e : element) : bool :=
  match el_tag e with
  | TagHtml _ | TagMath _ =>
      forallb (fun a => negb (existsb (String.eqb (k_repr (kv_key a))) methods)) (kvs_of (el_attrs e))
  | TagComponent _ => forallb no_comma (spreads_of (el_attrs e))
  | _ => true
  end.
Fixpoint plain_childb (c : child) : bool :=
  match c with CValue _ => true | CElement e | CSlot e => plain_treeb e end
with plain_treeb (e : element) : bool :=
  plain_elementb e &&
  match e with
  | Element _ _ _ _ (Some l) =>
      (fix all (l : list child) := match l with [] => true | c :: l => plain_childb c && all l end) l
  | _ => true
  end.
Lemma plain_one e : plain_elementb e = true -> plain_element e.
Proof.
  unfold plain_elementb, plain_element. destruct (el_tag e); auto; intros H.
  1,3: intros a Ha Hm; rewrite forallb_forall in H; specialize (H a Ha); apply Bool.negb_true_iff in H;
    assert (K : existsb (String.eqb (k_repr (kv_key a))) methods = true)
      by (apply existsb_exists; exists (k_repr (kv_key a)); split; [exact Hm|apply String.eqb_refl]); congruence.
  intros ts sp Ht Hc. rewrite forallb_forall in H. specialize (H ts Ht). unfold no_comma in H. rewrite forallb_forall in H.
  specialize (H _ Hc). discriminate.
Qed.
Lemma plain_all cs : forallb plain_childb cs = true -> forall b e, used cs b e -> plain_element e.
Proof.
  intros H b e U. apply plain_one. assert (K : plain_treeb e = true).
  { assert (S : forall e c, plain_treeb e = true -> In c (child_list (el_children e)) -> plain_childb c = true).
    { clear. intros [t s a p [l|]] c K; [|easy]. cbn [plain_treeb] in K. apply andb_prop in K as [_ K]. cbn [el_children child_list].
      induction l as [|d l IH]; [easy|]. apply andb_prop in K as [K1 K2]. intros [<-|Hi]; [exact K1|now apply IH]. }
    induction U as [e Hi|b e e' U IH Hi|e e' p U IH Ht Hi].
    - rewrite forallb_forall in H. exact (H _ Hi).
    - exact (S _ _ IH Hi).
    - exact (S _ _ IH Hi). }
  destruct e as [t s a p l]. cbn [plain_treeb] in K. now apply andb_prop in K as [K _].
Qed.

Definition parsed (input : list tt) : list child :=
  match parse_children E0 (S (size input)) input with PR (Ret cs) _ _ => cs | _ => [] end.
Definition expanded (s : string) : list tt := match mview E0 (lex s) with Expanded ts => ts | _ => [] end.
Definition built (s : string) : option node := run_view (expanded s).

(** A component with a bit of everything, in an element. *)
Definition C62_view : string :=
  "div.box #main on:click={go} use:tip='x' inner-text={t} style:top='0' {
     'hi' {name}
     Tabs<T> .wide at=[i] attr:data-n=3 class:open={x} clone:name {..rest} |a, b| {
       p { {a} }
       slot:Tab title='one' { 'first' }
       slot:End;
       slot:Tab title=f['{n}'];
     }
   }".
Example C62_case : let cs := parsed (lex C62_view) in
  wf (lex C62_view) /\ children_phrase E0 (lex C62_view) cs /\
  (forall b e, used cs b e -> plain_element e) /\
  mview E0 (lex C62_view) = Expanded (expanded C62_view) /\
  built C62_view = Some (
    NoElement SpHtml "div"
      (Look [("inner-text", WCode [TIdent (Id false "t")]); ("id", WStr "main")]
            [inr ("box", Some (WBool true))] [inr ("top", Some (WStr "0"))] []
            [("click", true, Some (WCode [TIdent (Id false "go")]))] [("tip", Some (WStr "x"))] [] [] [])
      [NoText (WStr "hi"); NoText (WCode [TIdent (Id false "name")]);
       NoComponent (lex "Tabs:: <T>")
         [("at", GiValue (WFn [TIdent (Id false "i")]));
          ("children", GiChildren (Some (lex "|a, b|")) ["name"]
             [NoElement SpHtml "p" bare [NoText (WCode [TIdent (Id false "a")])]]);
          ("tab", GiSlots [Slot (lex "Tab") [("title", GiValue (WStr "one"));
                                             ("children", GiChildren None [] [NoText (WStr "first")])];
                           Slot (lex "Tab") [("title", GiValue (WFormat (lex "'{n}'")))]]);
          ("end", GiSlot (Slot (lex "End") []))]
         [PaToggle "wide" (Some (WBool true)); PaAttr "data-n" (WLit LkInt "3");
          PaToggle "open" (Some (WCode [TIdent (Id false "x")])); PaMore (lex "rest")]]).
Proof.
  assert (Hw : wf (lex C62_view)) by (apply wfb_ok; vm_compute; reflexivity).
  cbv zeta. split; [exact Hw|]. split; [|split; [|split]].
  - apply (C02_accepts_only_grammar E0 (lex C62_view) _ _ [] E0_ok Hw (Nat.lt_succ_diag_r _)). vm_compute. reflexivity.
  - apply plain_all. vm_compute. reflexivity.
  - vm_compute. reflexivity.
  - vm_compute. reflexivity.
Qed.

(** ** Keys that are not what they look like *)

(** A key that is the name of a method of leptos calls that method: [child] adds a
    child, [node_ref] is [ref]; [attr] is not a call that leptos accepts. *)
Example C62_method_case :
  built "p child='a' b='c' { 'd' }" =
    Some (NoElement SpHtml "p" (Look [("b", WStr "c")] [] [] [] [] [] [] [] []) [NoText (WStr "a"); NoText (WStr "d")]) /\
  built "p node_ref={r};" = Some (NoElement SpHtml "p" (Look [] [] [] [] [] [] [WCode [TIdent (Id false "r")]] [] []) []) /\
  built "p attr='a';" = None.
Proof. do 2 (split; [vm_compute; reflexivity|]). vm_compute. reflexivity. Qed.
(** [inner_html] is the content, [inner-html] an attribute; in SVG both are attributes. *)
Example C62_content_case :
  built "p inner_html='a' inner-html='b';" =
    Some (NoElement SpHtml "p" (Look [("inner-html", WStr "b")] [] [] [] [] [] [] [WStr "a"] []) []) /\
  built "svg inner_html='a';" = Some (NoElement SpSvg "svg" (Look [("inner_html", WStr "a")] [] [] [] [] [] [] [] []) []).
Proof. split; vm_compute; reflexivity. Qed.
(** A comma in the code of a spread on a component makes two items of one. *)
Example C62_comma_case :
  built "C {..a, b};" = Some (NoComponent (lex "C") [] [PaMore (lex "a"); PaMore (lex "b")]) /\
  built "p {..a, b};" = Some (NoElement SpHtml "p" (Look [] [] [] [] [] [] [] [] [lex "a, b"]) []).
Proof. split; vm_compute; reflexivity. Qed.

(** ** The tests of the repository

    What the tests in /repo/tests expect of the rendered views, with the
    components they define.  Code is looked up by its text.  ([lex] has no quotes
    in strings: a blank is written for the one of html.rs, [doesn.t-exist].) *)
Definition lookup {A} (l : list (string * A)) (s : string) (d : A) : A :=
  match find (fun p => String.eqb (fst p) s) l with Some (_, x) => x | None => d end.
Definition empty : node := NoMany [].
Definition body (s : string) : node := match built s with Some n => n | None => empty end.
Definition child_nodes (g : list (string * gift)) : node :=
  match lookup g "children" (GiSlots []) with GiChildren _ _ l => NoMany l | _ => empty end.
Section Test.
Context (code : list (string * shown)) (more : list (string * list part)).
Definition see (v : val) : bool :=
  match show_val (World (fun ts => lookup code (trim (show ts)) (ShText "")) (fun _ => []) (fun _ _ => empty)) v with
  | ShBool b => b | ShText _ => false
  end.
Definition condition (g : list (string * gift)) : bool :=
  match lookup g "cond" (GiSlots []) with GiValue v => see v | _ => false end.
Definition slots_of (n : string) (g : list (string * gift)) : list slot :=
  match lookup g n (GiSlots []) with GiSlot s => [s] | GiSlots l => l | _ => [] end.
Definition given_to (s : slot) : list (string * gift) := let '(Slot _ g) := s in g.
(** [SlotIf] and [ChildThenIf] of slots.rs. *)
Definition otherwise (g : list (string * gift)) : node :=
  match find (fun s => condition (given_to s)) (slots_of "else_if" g), slots_of "fallback" g with
  | Some s, _ | None, [s] => child_nodes (given_to s)
  | _, _ => empty
  end.
Definition components (path : list tt) (g : list (string * gift)) : node :=
  match trim (show path) with
  | "TakesClass" => body "div class='takes-class' { 'I take more classes!' }"
  | "TakesIds" => body "div class='i-take-ids';"
  | "Spreadable" => body "div;"
  | "HelloComponent" => match slots_of "hello_slot" g with [s] => child_nodes (given_to s) | _ => empty end
  | "SlotIf" =>
      if condition g then match slots_of "then" g with [s] => child_nodes (given_to s) | _ => empty end
      else otherwise g
  | "ChildThenIf" => if condition g then child_nodes g else otherwise g
  | _ => empty
  end.
Definition rendered_as (s : string) : string :=
  to_html (World (fun ts => lookup code (trim (show ts)) (ShText (trim (show ts))))
                 (fun ts => lookup more (trim (show ts)) []) components) (body s).
End Test.
Definition plainly := rendered_as [] [].

(** html.rs *)
Example C62_html :
  plainly "div { 'hi' }" = "<div>hi</div>" /\
  plainly "'hi' span class='abc' data-index={0} { strong { 'd' } {3} } br; input type='checkbox' checked;" =
    "hi<span data-index=""0"" class=""abc""><strong>d</strong>3</span><br><input type=""checkbox"" checked>" /\
  contains (plainly "span class:exist=true class='dont override';") "dont override exist" = true /\
  contains (plainly "span style:color='black' style='font-size: 1em;';") "font-size: 1em;;color:black;" = true /\
  contains (rendered_as [("yes", ShBool true); ("no", ShBool false); ("color", ShText "white")] []
    "div class:here={yes} style:color={color} class:not={no} class:also-here=true class='normal'
         style='line-height: 1.5;' style:background-color='red';")
    "class=""normal here  also-here"" style=""line-height: 1.5;;color:white;background-color:red;""" = true /\
  contains (rendered_as [("yes", ShBool true)] []
    "div class:'complex[class]-name'={yes} style:'does not-exist'='black' class:'not-here'=false;")
    "class=""complex[class]-name"" style=""does not-exist:black;""" = true /\
  contains (rendered_as [("class . get ( )", ShText "some-class another-class")] [] "div.always-here class=[class.get()];")
    "class=""some-class another-class always-here""" = true /\
  plainly "iconify-icon icon='a' class='something' { 'b' }" = "<iconify-icon icon=""a"" class=""something"">b</iconify-icon>".
Proof. do 7 (split; [vm_compute; reflexivity|]). vm_compute. reflexivity. Qed.
(** values.rs, paren_children.rs *)
Example C62_values :
  contains (rendered_as [("'{}' , yes ( )", ShText "true"); ("'{}' , no ( )", ShText "false")] []
    "div aria-selected=f['{}', yes()] data-not-selected=f['{}', no()];")
    "<div aria-selected=""true"" data-not-selected=""false""" = true /\
  contains (rendered_as [("'{number:.2}'", ShText "2.13")] [] "input type='number' value=f['{number:.2}'];")
    "<input type=""number"" value=""2.13""" = true /\
  plainly "strong('child') 'go' em('to' a href='#' ('nowhere'))" =
    "<strong>child</strong>go<em>to<a href=""#"">nowhere</a></em>".
Proof. do 2 (split; [vm_compute; reflexivity|]). vm_compute. reflexivity. Qed.
(** spread.rs *)
Example C62_spread :
  rendered_as [] [("attrs", [PaAttr "data-index" (WLit LkInt "0"); PaClass (WStr "c"); PaAttr "data-another" (WStr "b")])]
    "div {..attrs} data-yet-another-thing='z' { 'children' }" =
    "<div data-yet-another-thing=""z"" data-index=""0"" data-another=""b"" class=""c"">children</div>" /\
  plainly "Spreadable attr:class='b' attr:contenteditable=true attr:data-index=0;" =
    "<div contenteditable data-index=""0"" class=""b""></div>" /\
  rendered_as [] [("attrs", [PaAttr "data-a" (WStr "b"); PaAttr "data-index" (WLit LkInt "0"); PaClass (WStr "c")])]
    "Spreadable attr:contenteditable=true {..attrs};" =
    "<div contenteditable data-a=""b"" data-index=""0"" class=""c""></div>".
Proof. do 2 (split; [vm_compute; reflexivity|]). vm_compute. reflexivity. Qed.
(** component.rs *)
Example C62_components :
  contains (plainly "TakesClass.test1.test-2;") "<div class=""takes-class test1 test-2" = true /\
  contains (rendered_as [("no", ShBool false); ("yes . get ( )", ShBool true)] []
    "TakesClass.test1.test-2 class:not-this={no} class:this=[yes.get()] class:'complicated'=[yes.get()];")
    "div class=""takes-class test1 test-2  this complicated""" = true /\
  contains (plainly "TakesIds #id-1 #id-number-two;") "<div id=""id-1 id-number-two"" class=""i-take-ids""" = true.
Proof. do 2 (split; [vm_compute; reflexivity|]). vm_compute. reflexivity. Qed.
(** slots.rs *)
Definition multiple (even five seven : bool) : string :=
  rendered_as [("is_even", ShBool even); ("is_div5", ShBool five); ("is_div7", ShBool seven)] []
    "SlotIf cond={is_even} { slot:Then { 'even' } slot:ElseIf cond={is_div5} { 'x5' }
       slot:ElseIf cond={is_div7} { 'x7' } slot:Fallback { 'odd' } }".
Definition mixed : string :=
  plainly "div { ChildThenIf cond=true {
     'here 1' slot:ElseIf cond=false { 'not this' } 'here 2' span { 'here 3' } slot:ElseIf cond=true { 'still not here' }
     ChildThenIf cond=false { 'nested not here' slot:Fallback { 'nested is here!' } }
     slot:Fallback { 'this one is not present' } 'yet another shown' } }".
Example C62_slots :
  plainly "HelloComponent { slot:HelloSlot { 'Hello, World!' } }" = "Hello, World!" /\
  map (fun n => multiple (Nat.even n) (Nat.eqb (n mod 5) 0) (Nat.eqb (n mod 7) 0)) [0; 5; 45; 9; 7] =
    ["even"; "x5"; "x5"; "odd"; "x7"] /\
  plainly "SlotIf cond=false { slot:Then { 'no!' } slot:ElseIf cond=true { 'yes!' } slot:Fallback { 'absolutely not' } }" = "yes!" /\
  plainly "SlotIf cond=true { slot:Then { 'yay!' } }" = "yay!" /\
  plainly "div { SlotIf cond=false { slot:Then { 'not here' } slot:ElseIf cond=false { 'not this either' } } }" = "<div></div>" /\
  plainly "ChildThenIf cond=true { 'here' slot:ElseIf cond=true { 'not :(' } }" = "here" /\
  plainly "div { ChildThenIf cond=false { 'not :(' slot:ElseIf cond=true { 'yes!' } } }" = "<div>yes!</div>" /\
  forallb (contains mixed) ["here 1"; "here 2"; "<span>here 3</span>"; "nested is here!"; "yet another shown"] = true /\
  existsb (contains mixed) ["not this"; "still not here"; "nested not here"; "this one is not present"] = false.
Proof. do 8 (split; [vm_compute; reflexivity|]). vm_compute. reflexivity. Qed.
