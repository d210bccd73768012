(** The spans of the model on the inputs of /repo/tests/ui/errors, compared with
    the positions in the recorded .stderr files: every error with its position in
    the text and the text under the carets.  (The recorded compiler supports
    [Span::join].) *)
From Verif Require Import SLex.
Open Scope list_scope.
Open Scope string_scope.

Definition reported (s : string) := pointed SE1 s.

Example invalid_child : map reported
  ["(a)"; "div { 'hi there' }; span;"] =
  [[(DParse EChild, 0, "(")]; [(DExtraSemi, 18, ";")]].
Proof. vm_compute. reflexivity. Qed.

Example invalid_value : map reported
  ["div a=a {}"; "a href={}; a href=(); a href=[];"; "a href="] =
  [[(DExpectedValue true, 6, "a")];
   [(DExpectedValue false, 18, "("); (DExtraSemi, 20, ";")];
   [(DExpectedValue false, 6, "="); (DUnterminated, 0, "a")]].
Proof. vm_compute. reflexivity. Qed.

Example misc_partial : map reported
  ["div class:x={true} { span class=test }"; "div class:x={true} { span class: }"] =
  [[(DExpectedValue true, 32, "test"); (DUnterminated, 21, "span")];
   [(DAbortParse (EKebab AtEnd), 33, "}")]].
Proof. vm_compute. reflexivity. Qed.

Example other_errors : map reported
  ["Await future=[async { 1 }] |data| 'no'"; "div { 3 }"; "div class=;";
   "input type='text' 'hi'"; "div { 'something' input.input type='text' }"] =
  [[(DNoChildrenAfterArgs, 34, "'no'")];
   [(DNonStrChild, 6, "3")];
   [(DExpectedValue false, 10, ";")];
   [(DUnknownAttr, 18, "'hi'"); (DNoChildElements, 0, "input type='text' 'hi'")];
   [(DUnterminated, 18, "input")]].
Proof. vm_compute. reflexivity. Qed.

Example slot_unsupported_dirs : map reported
  ["TakesNothing { slot:Nothing {..attrs}; }";
   "TakesNothing { slot:Nothing on:click={|_| ()}; }";
   "TakesNothing { slot:Nothing attr:something='something'; }";
   "TakesNothing { slot:Nothing use:a_directive; }";
   "TakesNothing { slot:Nothing prop:value='1'; }"] =
  [[(DSlotSpread, 28, "{..attrs}")]; [(DSlotDirective "on", 28, "on")];
   [(DSlotDirective "attr", 28, "attr")]; [(DSlotDirective "use", 28, "use")]; [(DSlotDirective "prop", 28, "prop")]].
Proof. vm_compute. reflexivity. Qed.

Example invalid_directive : map reported
  ["div something:yes='b' {}"; "div class:('abcd') = true {}"; "div style:[1, 2]='black' {}";
   "button on:click:delegated={|_| ()};"; "div class:this:undelegated=true;";
   "div style:position:undelegated='absolute';"; "input prop:value:something='input something';";
   "button use:directive:another;"; "button attr:type='submit';";
   "Com clone:to_clone:undelegated;"; "Com clone:{to_clone};"] =
  [[(DUnknownDirective, 4, "something")];
   [(DAbortParse (EKebab AtOther), 10, "(")]; [(DAbortParse (EKebab AtOther), 10, "[")];
   [(DUnknownOnModifier, 16, "delegated")];
   [(DModifier, 15, "undelegated")]; [(DModifier, 19, "undelegated")];
   [(DModifier, 17, "something")]; [(DModifier, 21, "another")];
   [(DNotOnElements "attr", 7, "attr")];
   [(DModifier, 19, "undelegated"); (DModifier, 19, "undelegated")];
   [(DCloneValue, 10, "{to_clone}")]].
Proof. vm_compute. reflexivity. Qed.

Example unsupported_attrs : map reported
  ["input attr:class='no' type='text';"; "div { span clone:notcopy { {notcopy.clone()} } }"] =
  [[(DNotOnElements "attr", 6, "attr")]; [(DNotOnElements "clone", 11, "clone")]].
Proof. vm_compute. reflexivity. Qed.

(** Errors of rustc on the expansion (com_builder_spans, slot_builder_spans,
    com_dyn_classes, use_directive, invalid_child, invalid_value): the emitted
    identifiers they are about, with the text they point to. *)
Definition has (s : string) (x : string * string) : bool :=
  existsb (fun y => String.eqb (fst x) (fst y) && String.eqb (snd x) (snd y))%bool (placed SE1 s).
Example rustc_errors : forallb (fun '(s, x) => has s x)
  [("For each=[[1, 2, 3]] |i| { {i} }", ("build", "For"));
   ("Show when={'no'} { 'hi' }", ("r#when", "when"));
   ("Show when={'no'} { 'hi' }", ("Show", "Show"));
   ("Show when={'no'} { 'hi' }", ("children", "'hi'"));
   ("Thing label=[false];", ("r#label", "label"));
   ("Thing label=[false];", ("move", "[false]"));
   ("Thing |s| { 'hello' }", ("move", "|s|"));
   ("Nothing.red;", ("class", "."));
   ("Nothing #unique;", ("r#id", "#"));
   ("button on:clicky-click={move |_| ()};", ("r#clicky_click", "clicky-click"));
   ("div use:arg_dir;", ("into", "arg_dir"));
   ("TakesSChildren { slot:SChildren { 'hi' } }", ("build", "SChildren"));
   ("T { slot:SChildren an_attr='no' { 'what' } }", ("r#an_attr", "an_attr"));
   ("T { slot:SChildren an_attr=1 |s| { 'this is ' {s} } }", ("move", "|s|"));
   ("T { slot:SNoChildren an_attr=5 { 'hey!' } }", ("children", "'hey!'"));
   ("span ( {value} )", ("child", "{value}"));
   ("div {..};", ("add_any_attr", ".."));
   ("a href=[];", ("move", "[]"))] = true.
Proof. vm_compute. reflexivity. Qed.
