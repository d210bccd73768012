(** The model on the inputs of the repository's own tests and documentation.
    The texts are those of the [mview!] invocations with comments removed and
    string literals in single quotes (see [Lex.v]). *)
From Verif Require Import Lex.
Open Scope list_scope.
Open Scope string_scope.

Definition accepted (s : string) : bool :=
  match mview E0 (lex s) with Expanded _ => true | _ => false end.
Definition outcome_of (s : string) : result := mview E0 (lex s).

(** ** Inputs that have to be accepted *)

(** tests/values.rs *)
Example accepts_values : forallb accepted
  ["div aria-selected=f['{}', yes()] data-not-selected=f['{}', no()];";
   "input type='number' value=f['{number:.2}'];"] = true.
Proof. vm_compute. reflexivity. Qed.

(** tests/slots.rs *)
Example accepts_slots : forallb accepted
  ["HelloComponent { slot:HelloSlot { 'Hello, World!' } }";
   "SlotIf cond={is_even} { slot:Then { 'even' } slot:ElseIf cond={is_div5} { 'x5' } slot:ElseIf cond={is_div7} { 'x7' } slot:Fallback { 'odd' } }";
   "SlotIf cond=false { slot:Then { 'no!' } slot:ElseIf cond=true { 'yes!' } slot:Fallback { 'absolutely not' } }";
   "SlotIf cond=true { slot:Then { 'yay!' } }";
   "div { SlotIf cond=false { slot:Then { 'not here' } slot:ElseIf cond=false { 'not this either' } } }";
   "ChildThenIf cond=true { 'here' slot:ElseIf cond=true { 'not :(' } }";
   "div { ChildThenIf cond=false { 'not :(' slot:ElseIf cond=true { 'yes!' } } }";
   "div { ChildThenIf cond=true { 'here 1' slot:ElseIf cond=false { 'not this' } 'here 2' span { 'here 3' } slot:ElseIf cond=true { 'still not here' } ChildThenIf cond=false { 'nested not here' slot:Fallback { 'nested is here!' } } slot:Fallback { 'this one is not present' } 'yet another shown' } }";
   "ChildThenIf cond=true { 'yes' slot:Fallback { ChildThenIf cond=true { 'no' slot:Fallback clone:notcopy { {notcopy.clone()} } } } }"] = true.
Proof. vm_compute. reflexivity. Qed.

(** tests/spread.rs *)
Example accepts_spread : forallb accepted
  ["div {..attrs} data-yet-another-thing='z' { 'children' }";
   "div;";
   "Spreadable attr:class='b' attr:contenteditable=true attr:data-index=0;";
   "div;";
   "Spreadable attr:contenteditable=true {..attrs};"] = true.
Proof. vm_compute. reflexivity. Qed.

(** tests/html.rs *)
Example accepts_html : forallb accepted
  ["'hello there!'";
   "div { 'hi' }";
   "div { 'a' } span { 'b' }";
   "'hi' span class='abc' data-index={0} { strong { 'd' } {3} } br; input type='checkbox' checked;";
   "span class:exist=true class='dont override';";
   "span style:color='black' style='font-size: 1em;';";
   "div class:here={yes} style:color={color} class:not={no} class:also-here=true class='normal' style='line-height: 1.5;' style:background-color='red';";
   "div class:'complex[class]-name'={yes} style:'doesn`t-exist'='black' class:'not-here'=false;";
   "div.always-here class=[class.get()];";
   "iconify-icon icon='a' class='something' { 'b' }";
   "div ref={node_ref};"] = true.
Proof. vm_compute. reflexivity. Qed.

(** tests/component.rs *)
Example accepts_component : forallb accepted
  ["div class='my-component' data-my-attribute={my_attribute} data-another=f['{another_attribute:?}'] { {children()} }";
   "div { {children()} }";
   "Owning { Owning clone:notcopy { {notcopy.clone()} } }";
   "Await future={async { 3 }} |data| { p { {*data} ' little monkeys, jumping on the bed.' } }";
   "Await future={async {'hi'.to_string()}} clone:name |greeting| { {greeting.clone()} ' ' {name.clone()} }";
   "GenericComponent<String> ty={PhantomData}; GenericComponent<usize> ty={PhantomData}; GenericComponent<i32> ty={PhantomData};";
   "GenericComponent::<String> ty={PhantomData}; GenericComponent::<usize> ty={PhantomData}; GenericComponent::<i32> ty={PhantomData};";
   "leptos::control_flow::Show when=[true] { 'a' } leptos::control_flow::Show when=[false] { 'b' }";
   "slot::NotASlot;";
   "For each=[letters.into_iter().enumerate()] key={|(i, _)| *i} |(i, letter)| { 'letter ' {i+1} ' is ' {letter} }";
   "div class='takes-class' { 'I take more classes!' }";
   "div class='i-take-ids';";
   "TakesClass.test1.test-2;";
   "TakesClass.test1.test-2 class:not-this={no} class:this=[yes.get()] class:'complicated'=[yes.get()];";
   "TakesIds #id-1 #id-number-two;"] = true.
Proof. vm_compute. reflexivity. Qed.

(** tests/paren_children.rs *)
Example accepts_paren_children : forallb accepted
  ["strong('child') 'go' em('to' a href='#' ('nowhere'))";
   "For each={|| [1, 2, 3]} key={|i| *i} |index| ( 'i is ' {index} )";
   "Show when={|| true} ( 'hello!' )"] = true.
Proof. vm_compute. reflexivity. Qed.

(** tests/ui/pass/many_braces.rs *)
Example accepts_pass_many_braces : forallb accepted
  ["div a={3} b={'aaaaa'} { {1234} span class={'braces not needed'} { 'hi' } }";
   "button class:primary-200={true}; button on:click={move |_| println!('hi')} { span style:background-color={'black'} style:color='white' { 'inverted' } }"] = true.
Proof. vm_compute. reflexivity. Qed.

(** tests/ui/pass/use_directive.rs *)
Example accepts_pass_use_directive : forallb accepted
  ["div use:no_arg_dir { span use:arg_dir=10; }";
   "Component use:no_arg_dir; Component use:arg_dir=300;";
   "button { 'hi' }";
   "div {..attrs};"] = true.
Proof. vm_compute. reflexivity. Qed.

(** tests/ui/errors/com_builder_spans.rs (rejected by the type checker only) *)
Example accepts_errors_com_builder_spans : forallb accepted
  ["For each=[[1, 2, 3]] |i| { {i} }";
   "Show when={'no'} { 'hi' }";
   "Show when={true} { 'hi' }";
   "Thing label=[false];";
   "Thing |s| { 'hello' }";
   "Await future=[async { 3 }] { 'no args' }"] = true.
Proof. vm_compute. reflexivity. Qed.

(** tests/ui/errors/slot_builder_spans.rs (rejected by the type checker only) *)
Example accepts_errors_slot_builder_spans : forallb accepted
  ["TakesSChildren { slot:SChildren { 'hi' } }";
   "TakesSChildren { slot:SChildren an_attr='no' { 'what' } }";
   "TakesSChildren { slot:SChildren an_attr=1 |s| { 'this is ' {s} } }";
   "TakesSNoChildren { slot:SNoChildren an_attr=5 { 'hey!' } }";
   "TakesSClosureChildren { slot:SClosureChildren { 'hey!' } }"] = true.
Proof. vm_compute. reflexivity. Qed.

(** tests/ui/errors/com_dyn_classes.rs (rejected by the type checker only) *)
Example accepts_errors_com_dyn_classes : forallb accepted
  ["div class=f['my-class {}', class.get()] {id};";
   "AComponent class:red=true;";
   "AComponent class:red=['not this'];";
   "Nothing class:red=[true];";
   "Nothing.red;";
   "Nothing #unique;"] = true.
Proof. vm_compute. reflexivity. Qed.

(** tests/ui/errors/use_directive.rs (rejected by the type checker only) *)
Example accepts_errors_use_directive : forallb accepted
  ["div use:arg_dir;";
   "span use:no_arg_dir=2;"] = true.
Proof. vm_compute. reflexivity. Qed.

(** The documentation, src/lib.rs (and README.md, which has the same examples) *)
Example accepts_documentation : forallb accepted
  ["h1.title { 'A great website' } br; input type='text' data-index=0 class:red={red_input} prop:{value} on:change={move |ev| { set_value(event_target_value(&ev)) }}; Show when=[!value().is_empty()] fallback=[mview! { '...' }] { Await future={fetch_from_db(value())} blocking |db_info| { p { 'Things found: ' strong { {*db_info} } '!' } p { 'Is bad: ' f['{}', red_input()] } } }";
   "'...'";
   "h1.title { 'A great website' } br; input type='text' data-index=0 class:red={red_input} prop:{value} on:change={move |ev| { set_value(event_target_value(&ev)) }}; Show when=[!value().is_empty()] fallback=[mview! { '...' }] { Await future={fetch_from_db(value())} blocking |db_info| { p { 'Things found: ' strong { {*db_info} } '!' } p { 'Is bad: ' f['{}', red_input()] } } }";
   "'...'";
   "div.primary { strong { 'hello world' } } input type='text' on:input={handle_input}; MyComponent data=3 other='hi';";
   "GenericComponent::<String> ty={PhantomData}; GenericComponent<usize> ty={PhantomData}; GenericComponent<i32> ty={PhantomData};";
   "nav #primary { '...' }";
   "SlotIf cond={is_even} { slot:Then { 'even' } slot:ElseIf cond={is_div5} { 'divisible by 5' } slot:ElseIf cond={is_div7} { 'divisible by 7' } slot:Fallback { 'odd' } }";
   "input class='main' checked=true data-index=3 type={input_type} on:input={move |_| handle_input(1)};";
   "Show fallback=[()] when=[number() % 2 == 0] { 'number + 1 = ' [number() + 1] }";
   "input type='text' on:click=[log!('THIS DOESNT WORK')];";
   "input type='text' on:click={|_| log!('THIS WORKS!')};";
   "Something some-attribute=5;";
   "div {class} {id} { 'this has 3 classes and id=`primary`' }";
   "LotsOfFlags wide tall red=false curvy count=3;";
   "LotsOfFlags wide=true tall=true red=false curvy=true count=3;";
   "div style:{color} class:{disabled};";
   "div class:'complex-[class]-name'={yes} style:'doesn`t-exist'='white';";
   "Await future={async { 3 }} |monkeys| { p { {*monkeys} ' little monkeys, jumping on the bed.' } }";
   "p { 'my ' strong('bold') ' and ' em('fancy') ' text.' }";
   "Something {some-attribute};";
   "Something {some_attribute};";
   "Something some_attribute={some_attribute};";
   "input {aria-label};";
   "input aria-label={aria_label};";
   "input type='checkbox' checked=[boolean_signal().to_string()];";
   "input type='checkbox' checked=f['{}', boolean_signal()];"] = true.
Proof. vm_compute. reflexivity. Qed.

(** ** Inputs that have to be rejected, with the diagnostics of the recorded
    [.stderr] files (those of the macro itself, in order) *)

Example rejects_documentation :
  outcome_of "p { 'this works ' 0 ' times: ' true }" = Errors [DNonStrChild; DNonStrChild] /\
  outcome_of "input type=input_type" = Errors [DExpectedValue true; DUnterminated].
Proof. vm_compute. auto. Qed.
Example rejects_invalid_value :
  outcome_of "div a=a {}" = Errors [DExpectedValue true] /\
  accepted "div {..};" = true /\
  outcome_of "a href={}; a href=(); a href=[];" = Errors [DExpectedValue false; DExtraSemi] /\
  outcome_of "a href=" = Errors [DExpectedValue false; DUnterminated].
Proof. vm_compute. auto. Qed.
Example rejects_slot_unsupported_dirs :
  outcome_of "TakesNothing { slot:Nothing {..attrs}; }" = Errors [DSlotSpread] /\
  outcome_of "TakesNothing { slot:Nothing on:click={|_| ()}; }" = Errors [DSlotDirective "on"] /\
  outcome_of "TakesNothing { slot:Nothing attr:something='something'; }" = Errors [DSlotDirective "attr"] /\
  outcome_of "TakesNothing { slot:Nothing use:a_directive; }" = Errors [DSlotDirective "use"] /\
  outcome_of "TakesNothing { slot:Nothing prop:value='1'; }" = Errors [DSlotDirective "prop"].
Proof. vm_compute. auto. Qed.
Example rejects_invalid_child :
  outcome_of "(a)" = Errors [DParse EChild] /\
  accepted "span ( {value} )" = true /\
  accepted "ul { {values .into_iter() .map(|val: &str| { mview! { li({val}) } }) } }" = true /\
  accepted "li({val})" = true /\
  outcome_of "div { 'hi there' }; span;" = Errors [DExtraSemi] /\
  accepted "div { {todo!()} }" = true.
Proof. vm_compute. auto 10. Qed.
(** The last three of invalid_directive.rs: the model reports the modifier of
    [clone:] twice at the same place (rustc shows one of them), and the modifier of
    [class:] on a component not at all, unlike the recorded file, which is from
    an older version (tests/ui.rs does not run these tests). *)
Example rejects_invalid_directive :
  outcome_of "div something:yes='b' {}" = Errors [DUnknownDirective] /\
  outcome_of "div class:('abcd') = true {}" = Errors [DAbortParse (EKebab AtOther)] /\
  outcome_of "div style:[1, 2]='black' {}" = Errors [DAbortParse (EKebab AtOther)] /\
  accepted "button on:clicky-click={move |_| ()};" = true /\
  outcome_of "button on:click:delegated={|_| ()};" = Errors [DUnknownOnModifier] /\
  outcome_of "div class:this:undelegated=true;" = Errors [DModifier] /\
  outcome_of "div style:position:undelegated='absolute';" = Errors [DModifier] /\
  outcome_of "input prop:value:something='input something';" = Errors [DModifier] /\
  outcome_of "button use:directive:another;" = Errors [DModifier] /\
  outcome_of "button attr:type='submit';" = Errors [DNotOnElements "attr"] /\
  outcome_of "Com clone:to_clone:undelegated;" = Errors [DModifier; DModifier] /\
  outcome_of "Com clone:{to_clone};" = Errors [DCloneValue] /\
  accepted "Com class:aaa:undelegated=[false];" = true.
Proof. vm_compute. auto 20. Qed.
Example rejects_others :
  outcome_of "div { 3 }" = Errors [DNonStrChild] /\
  outcome_of "div class=;" = Errors [DExpectedValue false] /\
  outcome_of "div { 'something' input.input type='text' }" = Errors [DUnterminated] /\
  outcome_of "input type='text' 'hi'" = Errors [DUnknownAttr; DNoChildElements] /\
  outcome_of "Await future=[async { 1 }] |data| 'no'" = Errors [DNoChildrenAfterArgs] /\
  outcome_of "div class:x={true} { span class=test }" = Errors [DExpectedValue true; DUnterminated] /\
  outcome_of "div class:x={true} { span class: }" = Errors [DAbortParse (EKebab AtEnd)].
Proof. vm_compute. auto 10. Qed.
(** unsupported_attrs.rs; [style:] and [prop:] on components have been
    supported since that file was recorded. *)
Example rejects_unsupported_attrs :
  accepted "Component style:color='white';" = true /\
  accepted "Component prop:value='1';" = true /\
  outcome_of "input attr:class='no' type='text';" = Errors [DNotOnElements "attr"] /\
  outcome_of "div { span clone:notcopy { {notcopy.clone()} } }" = Errors [DNotOnElements "clone"].
Proof. vm_compute. auto. Qed.

(** ** Unit tests of leptos-mview-core *)

Definition reads {A} (m : P A) (s : string) : option A :=
  match m (lex s) with PR (Ret a) [] [] => Some a | _ => None end.
(** ast/ident.rs:269-289 and 302-319; "number-0xa1b2" and the like are one
    integer token. *)
Example ident_valid_reprs : forallb (fun s =>
    match reads parse_kebab s with Some k => String.eqb (k_repr k) s | None => false end)
  ["word"; "two-words"; "--var-abc"; "-a-b"; "let--a"; "struct-b-"; "blue-100"; "blue-100a";
   "number-0xa1b2"; "-"; "-_-_a"; "for"] = true.
Proof. vm_compute. reflexivity. Qed.
Example ident_invalid_reprs :
  reads parse_kebab "data-thing- =" = None /\ reads parse_kebab "distinct idents" = None.
Proof. vm_compute. auto. Qed.
Example ident_different_reprs :
  option_map k_repr (reads parse_kebab "two - words") = Some "two-words" /\
  option_map k_repr (reads parse_kebab "- - a - b") = Some "--a-b".
Proof. vm_compute. auto. Qed.
(** ast/value.rs:190-206. *)
Definition value_kind (v : value) : nat := match v with VLit _ => 0 | VBlock _ => 1 | VBracket _ _ => 2 end.
Example value_conversion : map (fun s => option_map value_kind (reads parse_value s))
  ["'hi'"; "1"; "true"; "{value}"; "{value; value2; value3}"; "[abc.get()]"; "{(aa,)}"; "[{a; b}]"]
  = [Some 0; Some 0; Some 0; Some 1; Some 1; Some 2; Some 1; Some 2].
Proof. vm_compute. reflexivity. Qed.
(** ast/attribute/selector.rs:106-138. *)
Example selector_multiple :
  option_map (map (fun s => (sel_is_class s, k_repr (sel_kebab s))))
    (reads parse_selectors ".class.another-class #id #id2 .wow-class #ida")
  = Some [(true, "class"); (true, "another-class"); (false, "id"); (false, "id2"); (true, "wow-class"); (false, "ida")].
Proof. vm_compute. reflexivity. Qed.
(** ast/attribute.rs:73-104. *)
Definition attr_kind (a : attr) : nat := match a with AKv _ => 0 | ADir _ => 1 | ASpread _ => 2 end.
Example attribute_tests :
  option_map (fun a => (k_repr (kv_key a), value_kind (kv_value a))) (reads parse_kv "key = 'value'") = Some ("key", 0) /\
  option_map (map attr_kind) (reads parse_attrs
    "key-1 = 'value' a-long-thing=[some()] style:--var-2={move || true} class:{disabled} {checked} {..spread}")
  = Some [0; 0; 1; 1; 0; 2].
Proof. vm_compute. auto. Qed.
(** ast/attribute/spread_attrs.rs:56. *)
Example spread_test : reads parse_spread "{ ..a }" = Some (lex "a").
Proof. reflexivity. Qed.
(** ast/element.rs:186-208. *)
Definition element_counts (s : string) : option (nat * option nat) :=
  option_map (fun e => (List.length (el_attrs e), option_map (@List.length child) (el_children e)))
    (reads (parse_element E0 (parse_children E0 (S (size (lex s))))) s).
Example element_tests :
  element_counts "div class='test' checked data-index=[index] { 'child' span { 'child2' } }" = Some (3, Some 2) /\
  element_counts "input type='text';" = Some (1, None) /\
  element_counts "br;" = Some (0, None).
Proof. vm_compute. auto. Qed.
(** expand/utils.rs:56-73. *)
Fixpoint no_spaces (s : string) : string :=
  match s with EmptyString => "" | String c r => if Ascii.eqb c " " then no_spaces r else String c (no_spaces r) end.
Example turbofish_tests :
  let show_path s := match reads (parse_path E0) s with
                     | Some p => match turbofishify p with XR (XRet p) [] => path_tokens p | _ => [] end
                     | None => [] end in
  no_spaces (show (show_path "std::vec::Vec<i32>")) = "std::vec::Vec::<i32>" /\
  no_spaces (show (show_path "std::vec::Vec::<i32>")) = "std::vec::Vec::<i32>".
Proof. vm_compute. auto. Qed.
