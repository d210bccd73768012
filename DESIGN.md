# Formal model of leptos-mview in Rocq (Coq 8.16.1)

## What is modelled

`mview!` is a pure function from a token stream to a token stream plus
diagnostics, so the model is a set of total Gallina functions over token trees.

| file (rocq/theories) | models |
|---|---|
| `Tokens.v`  | proc_macro2 token trees, identifiers, literals, diagnostics |
| `Syn.v`     | the syn cursor primitives the crate uses (`peek`, `peek2`, `peek3`, `parse` of punctuation / identifiers / literals / groups, `syn::Path`), the parse monad, and `parse.rs` |
| `Ast.v`     | the ASTs of `ast/*.rs` |
| `Parse.v`   | all `impl Parse` of `ast/*.rs` |
| `Expand.v`  | `expand.rs`, `expand/subroutines.rs`, `expand/utils.rs`, all `ToTokens` |
| `Macro.v`   | `lib.rs::mview_impl` and the `#[proc_macro_error]` entry point, stable back end |
| `Nightly.v` | the same entry point with the feature `nightly` |
| `STokens.v`, `SSyn.v`, `SParse.v`, `SExpand.v`, `SMacro.v` | all of the above once more, with spans: where every emitted token and every diagnostic points to |
| `Work.v` | `Parse.v` once more, with a counter of steps |
| `WorkX.v` | `Expand.v` and `Macro.v` once more, with a counter of steps |
| `Texts.v` | the texts of the diagnostics |

The model is in two layers. The first has no spans, and most theorems are about
it. The second carries the spans that proc_macro2 keeps; `Erase.v` proves that
forgetting them gives the first (C49).

Effects are explicit. A parser returns its outcome (value, `Err`, abort, panic,
out of fuel), the position it leaves the stream at (also on `Err`: callers
really do continue from there), and the diagnostics emitted so far (which
`rollback_err` does not undo). An expander returns tokens / abort / panic and
diagnostics. The recursive descent uses fuel; exhaustion is its own outcome and
C01 proves it never happens.

Two external things are parameters (a record `env`, quantified in every
theorem, never an axiom): syn's parser for generic arguments `<...>`, and the
iteration order of the `HashMap` in `slots_to_tokens`. What is assumed of them
is the predicate `env_ok` (`SpecGrammar.v`): the generic-argument parser
consumes a non-empty prefix starting with `<`, its result depends only on that
prefix, and the slot order is a permutation. `E0` (`Lex.v`) is a concrete
instance, proved to satisfy it in `ExampleFacts.v` (`E0_ok`).

`wf` (`SpecStr.v`) says that a token stream is one the Rust lexer can produce
(identifiers are Rust identifiers, raw ones are not reserved words, integer
literals start with a digit). Negative literal tokens, which only other
procedural macros can build, are outside `wf`.

`Conformance.v` runs the model on every `mview!` invocation of `/repo/tests`,
`/repo/tests/ui` and the documentation, and on the unit tests of
leptos-mview-core. It agrees with all of them, and with the recorded `.stderr`
files except three stale ones (`tests/ui.rs` does not run them): a class
modifier, `style:` and `prop:` on components (`prop:` on slots has another text
now). `ConformanceSpans.v` compares the
positions in these files with the spans of the model; all agree.

## What is not modelled

* The texts of syn's errors about generic arguments (all other texts are in `Texts.v`),
  and how proc-macro-error2 turns reports into `compile_error!` calls.
* Of spans: only ranges of source files and `Span::call_site()`. Hygiene marks
  are not modelled. `Span::join` is a parameter (`s_join` in the record `senv`,
  which extends `env`; what is assumed of it is `senv_ok` in `SpecSpan.v`).
* `None`-delimited groups (inputs spliced in by `macro_rules!` fragments).
* Escapes, suffixes and raw forms of string literals: a string literal is its value.
* The classification of a literal token (int, float, char, ...) is part of the token.
* Compiling the output against leptos. Theorems are about the emitted tokens.
  `SpecRun.v` is a reading of what leptos does with the calls that are emitted
  (C62); types and user code are not part of it.
* Time is counted in steps that look at, make or copy one token or one character
  (`Work.v`, `WorkX.v`); syn's parser for generic arguments takes as many steps as
  a parameter `G` says, and a slot name is looked up in the hash map of slots in
  as many steps as it has characters. Putting a stream into another copies its
  tokens, but not what is in their groups. Asking for the span of a child is a
  call of `NodeChild::span` (ast/children.rs:38-45), which looks at the tag only.
  (syn's `Spanned`, which the call would mean if that method were not there, would
  expand the child once more, so that time would double with each level.)
* Generic arguments are reprinted verbatim (syn moves lifetimes first).
* How rustc prints diagnostics of the nightly back end of proc-macro-error2
  (`Nightly.v` models which tokens and which diagnostics it gives).
* syn's "unexpected token" bookkeeping after a failed generic-argument parse that
  leaves a group half read. An error has already been reported then, so that on
  stable nothing changes; with the nightly feature the tokens given would be one
  more `compile_error!` (lib.rs:31) and no code.
* syn's feature `full`. The repository does not switch it on (`features = []`); if
  another crate of the build does, `try` is a keyword in paths too.

## Trusted base

Coq's kernel; the reading of the Rust sources (every definition cites the lines
it models); the reading of syn 2 / quote / proc-macro-error2 described in
`Syn.v`. No axioms: `Print Assumptions` under every theorem of `Properties*.v`
says "Closed under the global context".

## Files

Specifications are in `Spec*.v`, which do not use the model's parsers or
expanders:

| file | content |
|---|---|
| `SpecStr.v` | strings and single tokens: snake case, tag kinds, valid identifiers, `wf` |
| `SpecGrammar.v` | the documented grammar as relations between token lists and trees |
| `SpecOut.v` | the emitted code as relations between trees and token lists |
| `SpecPanic.v` | the token shapes that can cause a panic |
| `SpecRead.v` | which parts of a tree are used, subterms, reading method chains |
| `SpecContext.v` | a place in a view: well-formed before, arbitrary after |
| `SpecEdit.v`, `SpecOrder.v` | trees / outputs that differ in irrelevant parts / slot order |
| `SpecCount.v` | how often tokens occur in a stream |
| `SpecOrigin.v` | where a token of an expansion may come from |
| `SpecCompose.v` | the expansion made of the code of its children |
| `SpecReports.v` | what is reported about a tree; a tree without what is rejected |
| `SpecRust.v` | the part of Rust's expression grammar used by expansions, with scopes; what code in a view sees |
| `SpecSpan.v` | spans of a token stream, places in the input, moved spans, results without spans, `senv_ok` |
| `SpecSpell.v` | which token each part of a tree with spans comes from; where each report is placed |
| `SpecWhere.v` | the tokens of a stream with their spans; which token of an expansion may be where |
| `SpecKept.v` | a run of tokens occurs in a stream; what of a view is found in its expansion |
| `SpecBroken.v` | reading any token stream, with the reports about its syntax and their places |
| `SpecStop.v` | what in a tree makes its expansion panic |
| `SpecWritable.v` | which trees are written by some view: names as strings, parts, and which attributes can follow a name |
| `SpecSize.v` | the number of tokens of a stream; the views with the largest expansions and with the most reports |
| `SpecGaps.v` | the tokens given for a tree with rejected parts (`gap_root`) |
| `SpecEqual.v` | when two trees mean the same (`equal_nodes`), without mentioning emitted code except for spreads of components |
| `SpecRecover.v` | a view with an error against a corrected view, for both back ends |
| `SpecRun.v` | running an expansion: a reading of the part of leptos that expansions call, from tokens to trees of elements, components and slots |
| `SpecView.v` | the tree a view describes, in the terms of `SpecRun.v` |
| `SpecHtml.v` | the text of a tree as leptos renders it on a server; only for running the repository's tests in examples |
| `SpecText.v` | the texts of reports, and which tokens are at the place of each (`about`) |
| `SpecTyped.v` | a view up to some place, what is read and reported of it, and `unfinished_generics` |
| `SpecBlind.v` | token streams with holes, `blind` parsers of generic arguments, trees with other code |
| `SpecWhite.v` | token streams that differ in white space only; results that do |
| `SpecCut.v` | trees with parts taken out; code with something left out |
| `SpecConfined.v` | what is read around a block, in layers; codes that differ in one place |
| `SpecOneChild.v` | trees that differ in one child |
| `SpecMixed.v` | trees that differ in how attributes of different sorts are mixed |
| `SpecMoved.v` | trees that differ in where slots stand among the other children |
| `SpecOneAttr.v` | trees that differ in one attribute; the code of one attribute and the panics about it |
| `SpecRenamed.v` | trees that differ in the name of one element |
| `SpecSelected.v` | trees that differ in one class or id of one element |
| `SpecRespaced.v` | the same with spans |

Proofs (no statement of interest by themselves):

| file | content |
|---|---|
| `Monad.v`, `KebabFacts.v`, `GrammarFacts*.v`, `TagFacts.v`, `ElementFacts.v` | parsers against the grammar, both directions |
| `Inv.v`, `Fuel.v` | every parser moves forward, fuel suffices, aborts have reported |
| `ExpandFacts*.v`, `ExpandInv.v`, `CodeFacts.v` | expander against `SpecOut.v`; aborts and panics |
| `ParseInv.v`, `TreeInv.v`, `PhraseInv.v` | panics; properties of everything in a tree |
| `Report.v`, `Follow.v`, `Context.v`, `Same.v`, `Swap.v` | diagnostics and replacement at a place in a view |
| `OrderFacts.v`, `CountFacts.v`, `OriginFacts.v`, `ReportsFacts.v`, `RustFacts.v` | two slot orders; counting; origins; reports; Rust's grammar |
| `Erase.v`, `Move.v` | forgetting spans, by a simulation lemma per function; two runs with related spans |
| `SpellFacts.v`, `SpellOnce.v`, `PlacedFacts.v`, `PlacesIn.v` | trees with spans: parsers against `SpecSpell.v`, uniqueness, places of reports |
| `WhereFacts.v`, `UserIn.v` | places of the tokens of an expansion; the user's are in the view |
| `KeptFacts.v` | expansions without reports and what occurs in them |
| `BrokenFacts.v`, `BrokenFacts2.v`, `BrokenFacts3.v` | parsers against `SpecBroken.v`: each description is what the parser does, and there always is one |
| `StopFacts.v` | expanders against `SpecStop.v`: none aborts below the root, and which panic |
| `WritableFacts.v`, `WritableFacts2.v` | `SpecWritable.v` against the grammar: every tree read is writable; tokens for every writable tree |
| `SizeFacts.v` | the tokens a tree is read from and the tokens of its code, against each other |
| `BoundFacts.v` | the tokens of every phrase of `SpecBroken.v` and the reports about it, against each other |
| `GapFacts.v`, `GapFacts2.v` | expanders against `SpecGaps.v`; `SpecGaps.v` against `SpecOut.v` and `SpecReports.v` |
| `EqualFacts.v`, `EqualFacts2.v`, `EqualFacts3.v` | reading emitted code back: same code just for equal trees |
| `OrderAll.v` | every code of a tree is written for some order of the slot maps |
| `WorkFacts.v`, `WorkBound.v`, `WorkLow.v` | the counting parser is the parser; upper and lower bounds of its count |
| `WorkXFacts.v`, `WorkXBound.v`, `WorkXBound2.v`, `WorkXRead.v`, `WorkXLow.v`, `WorkXSize.v` | the counting expander is the expander; upper bounds of its count, in terms of the tree and then of the tokens it was read from; lower bounds |
| `RunFacts.v`, `RunFacts2.v`, `RunFacts3.v` | running each piece of emitted code; whole trees; the described tree is unique up to the order of slots |
| `UserBroken.v` | the parts of the tree of a view with syntax errors are at places of the view |
| `TextFacts.v` | each report of `SpecBroken.v` and `SpecSpell.v` against `SpecText.v` |
| `TypedFacts.v` to `TypedFacts4.v` | each kind of phrase up to some place: what its parser does |
| `Blind.v`, `Holes.v` | parsers and expander on views that differ only inside of brackets (or in the code of their values) |
| `White.v`, `White2.v` | parsers and expander on views that differ in white space only |
| `CutFacts.v`, `CutFacts2.v`, `CutFacts3.v` | code, reports and panics of trees with parts taken out; that they can be written |
| `Confined.v`, `ConfinedCode.v` | readings, and codes, of views that differ in one block |
| `OneChildFacts.v` | codes, reports and panics of trees that differ in one child |
| `MixedFacts.v`, `MixedFacts2.v` | steps of the attribute loops can be exchanged; mixed trees can be written |
| `MovedFacts.v` | expansions of trees whose slots stand elsewhere |
| `OneAttrFacts.v` | code, reports and panics of trees that differ in one attribute |
| `RenamedFacts.v` | code, reports and panics of trees that differ in the name of one element |
| `RenamedFacts2.v` | the same for the path of one component |
| `SelectedFacts.v` | code, reports and panics of trees that differ in one class or id |
| `Respaced.v` | the same with spans, an instance of `Blind.v` |
| `Lex.v`, `SLex.v`, `ExampleFacts.v`, `SpanExamples.v`, `PlaceFacts.v`, `Conformance.v`, `ConformanceSpans.v` | examples only |

Theorems, each followed by `Print Assumptions` and concrete cases:

| file | ids |
|---|---|
| `Properties1.v` | C01-C04, C06, C07, C14, C15, C43 |
| `Properties2.v` | C08-C13 |
| `Properties3.v` | C17, C23-C26 |
| `Properties4.v` | C05, C18-C20, C36, C37, C40, C42 |
| `Properties5.v` | C21, C22 |
| `Properties6.v` | C29-C31 |
| `Properties7.v` | C32-C34, C38 |
| `Properties8.v` | C27, C28, C41 |
| `Properties9.v` | C16, C35, C39 |
| `Properties10.v` | C44 |
| `Properties11.v` | C45 |
| `Properties12.v` | C46 |
| `Properties13.v` | C47 |
| `Properties14.v` | C48 |
| `Properties15.v` | C49 |
| `Properties16.v` | C50 |
| `Properties17.v` | C51 |
| `Properties18.v` | C52 |
| `Properties19.v` | C53 |
| `Properties20.v` | C54 |
| `Properties21.v` | C55 |
| `Properties22.v` | C56 |
| `Properties23.v` | C57 |
| `Properties24.v` | C58 |
| `Properties25.v` | C59 |
| `Properties26.v` | C43 (every meaning), C60 |
| `Properties27.v` | C61 |
| `Properties28.v` | C62 |
| `Properties29.v` | C63 |
| `Properties30.v` | C64 |
| `Properties31.v` | C65 |
| `Properties32.v` | C66 |
| `Properties33.v` | C67 |
| `Properties34.v` | C68 |
| `Properties35.v` | C69 |
| `Properties36.v` | C70 |
| `Properties37.v` | C71 |
| `Properties38.v` | C72 |
| `Properties39.v` | C73 |
| `Properties40.v` | C74 |
| `Properties41.v` | C75 |
| `Properties42.v` | C76 |
| `Properties43.v` | C77 |

## Limits of individual statements

* C66 counts the closing delimiters of open groups as typed (a macro is not called
  otherwise). It assumes (`unfinished_generics`) that syn's parser for generic
  arguments fails on unfinished ones, without stopping right before a `;`.
* C68 assumes (`plain_generics`, `respacing`) that white space does not decide either whether
  generic arguments can be read. For syn that is wrong only where an arrow `->`
  inside of generic arguments (`A<fn() -> B>`) is written as `- >`. Expansions are
  compared up to the spacing of punctuation: what rustc makes of code passed on
  with other spacing is not part of the claim.
* C67 assumes (`blind`) that what is in the holes does not decide whether generic
  arguments can be read. For syn that can only be wrong if a hole is itself
  between the `<` and `>` of generic arguments. `C67_code` is about the code of
  values; spreads, closure arguments and generic arguments stay as they are.
* C21 is stated as "adding the turbofish `::`", since the generic-argument
  parser is a parameter.
* C22 for tags excludes path tags (`a::r#b`), which keep the raw identifier.
* C27, C41: `reordered` also allows reordering slot-looking calls inside user
  code, so it is an over-approximation of what can change.
* C35 is about literals outside generic arguments; inside them it is false
  (`C35_refuted`: component generics are emitted twice).
* C44: `macro_words` is a fixed list, so a template may use a word of another
  template; which template is used where is C08-C13 and C23-C34.
* C45 needs a slot order that does not depend on the place of the component
  (`steady`); otherwise the parts agree up to the order of slot calls (C41).
* C48: `SpecRust.v` accepts less than Rust's grammar does, and knows nothing of
  types, borrows or macro hygiene; `r#x` and `x` are the same variable.
* C51 is about views without syntax errors; C54 about all views.
* C54: where an error in generic arguments is reported, and what has been read
  then, is up to the external parser of generic arguments (`s_generic`).
* C55: with several causes the message names one of them; which one may depend
  on the order of slots (`C41_panic_case`).
* C56 is about trees read without a report; the trees the parser continues with
  after an error (C54) can be others.  Some tokens write the tree, not
  necessarily the ones a programmer would choose (children in parentheses).
* C52 says where a token may be; that it is there is C53; punctuation and
  delimiters may always be at the call site.
* Theorems called `_refuted`, `_collision`, `_panic_case` or `_duplicate` show
  the exact boundary where the documented behaviour fails.

## Plan per property

| id | modelled by | proved by |
|---|---|---|
| C01 | whole macro | fuel-sufficiency by induction on token size |
| C02, C03, C04 | `Parse.v` against `SpecGrammar.v` | induction on fuel (soundness), on derivations (completeness); C04 from both |
| C05 | `parse_children` | append lemma for clean parses, by induction on fuel |
| C06 | `Macro.v` | case analysis + invariant "abort has emitted" over all functions |
| C07 | whole macro | invariant "panic implies token witness" over all functions; witnesses by computation |
| C08, C11, C12, C23, C26 | `xml_to_tokens` | pieces of the output related to pieces of the tree by `SpecOut` |
| C09, C13, C24, C25, C32, C34 | `component_to_tokens` | same |
| C10, C29 | `mview_impl` | case analysis |
| C14 | `tag_kind` | binary search correctness on sorted lists, `forallb` sortedness by computation |
| C15, C22 | `parse_kebab` | induction on the stream against a declarative longest-run spec |
| C16 | `to_snake_ident`, `upper_camel_to_snake_case` | induction on strings |
| C17 | `value_tokens` | reading back |
| C18, C19, C20, C21 | parser + expander | both spellings produce the same tree (modulo spelling), for all contexts |
| C27, C28, C41 | `slots_to_tokens` | permutation reasoning over all orders; injectivity by induction |
| C30, C33, C38 | expander | equality of expansions; refutations by witness |
| C31, C40, C42, C36, C37 | parser/expander | diagnostics monotonicity |
| C35 | whole macro | literal counting by induction over tokens and trees |
| C39 | all parsers | structural |
| C43 | whole macro | parser against the grammar + expander against `SpecOut.v`; every allowed code is written: orders of slots joined place by place, by recursion on elements |
| C44 | expander | every leaf of every emitted piece has an origin, by induction on `SpecOut` derivations |
| C45 | parser + expander | clean parses append and nest; expansion does not depend on the place |
| C46 | `Nightly.v`, parser | one simulation lemma per error, for all places; both back ends only see related parses |
| C47 | expander | two relations on expansions (which reports; the same up to rejections), closed under bind, then induction on the tree |
| C48 | expander | each emitted piece derived in the grammar of `SpecRust.v`, for all scopes, by induction on the tree |
| C49 | `S*.v` | simulation: every function commutes with erasure |
| C50 | `S*.v` | parametricity: for every relation between spans, every function takes related inputs to related results |
| C51 | `S*.v` | every parser reads a tree spelled by the tokens it takes; such trees are unique (induction on `SpecSpell` derivations); reports of the expander by induction on the tree |
| C52 | `SExpand.v` | what every expander gives consists of placed tokens, function by function, then induction on the tree |
| C53 | `SExpand.v` | inversion of the expanders on runs without reports, induction on the parts that are expanded |
| C54 | `SParse.v` | per parser: runs by induction on `SpecBroken` derivations, and case analysis that one exists; then induction on fuel |
| C55 | `Expand.v`, `SParse.v` | per expander: it does not abort, and panics iff `SpecStop` says so; induction on the tree; C54 for reading |
| C56 | `SpecGrammar.v`, parser | reading: induction on the size of the view; writing: tokens for each part that are read whatever may follow, induction on the tree |
| C57 | `SpecOut.v`, `SpecGrammar.v`, macro | induction on the tree: code of an element + 45 <= 49 * its tokens; the views that reach it by induction on depth |
| C58 | `SpecBroken.v`, `SpecSpell.v`, macro | induction on the description of the view: 2 * (reports of a phrase, and about its tree) + 2 * (raw identifiers in a name at its start, which are reported again if its block is tried as `{key}`) <= 3 * its tokens, where an element without an end may borrow one report from the token after it; the views that reach it by induction |
| C59 | `SpecGaps.v`, `SpecBroken.v`, macro | the expanders against the relations of `SpecGaps.v`, both ways, by recursion on elements, for runs that return whatever they report; agreement with `SpecOut.v` on trees without reports by recursion on elements |
| C60 | `SpecEqual.v`, `SpecOut.v`, macro | the relations of `SpecOut.v` are injective up to `SpecEqual.v`, by mutual induction on code; chains of calls are split at their names, lists at their commas; the converse by mutual induction and `C43_every_meaning` |
| C61 | `Work.v` | equality of the two parsers, function by function; each token pays in advance (a potential), a block also for being tried as `{name}`; per parser: steps and potential left, induction on fuel |
| C62 | `SpecRun.v`, `SpecView.v`, `SpecOut.v`, macro | C43, then mutual induction on the relations of `SpecOut.v`: the runner splits chains of calls and lists of items where they were put together; fuel is the size of the code |
| C63 | `SpecBroken.v`, `SpecWhere.v`, spanned macro | C54 gives the tree; what `WhereFacts.v` needs of it (tags are spelled, spreads have two dots) by mutual induction on `SpecBroken.v` |
| C64 | `Texts.v`, `SpecText.v`, spanned macro | C54 gives the reports; each phrase of `SpecBroken.v` and each report about a tree is matched with the tokens at its place, by mutual induction; the texts by inversion |
| C65 | `WorkX.v`, `Work.v` | equality of the two expanders, function by function; a cost for every kind of tree, by mutual induction; the parser earns it: 1700 steps for each token and character it takes; the lower bound by a credit for what the user wrote |
| C66 | `Parse.v`, `Nightly.v`, grammar | for each phrase of the grammar and each cut of it, what its parser does with the rest; children by induction on size |
| C67 | `SParse.v`, `SExpand.v` | parametricity: related inputs have related results; related to a view with marked holes, every view is that one with the marks replaced |
| C68 | `Parse.v`, `Expand.v` | relation between runs on inputs that differ in white space only: the same places are reached, the trees differ only in the white space of their code; with spans by the parametricity of `Blind.v` |
| C69 | `Parse.v`, `Expand.v` | the code description (C43), the description of reports (C47), of panics (C55) and of writable trees (C56) are monotone in the tree |
| C70 | `Parse.v`, `Expand.v` | layers by induction on the place (`at_block`); codes that differ in one place by induction on the layers |
| C71 | `Parse.v`, `Expand.v` | the descriptions of code (C43), reports (C47) and panics (C55), by induction on the place of the child |
| C72 | `Expand.v` | steps that write to different accumulators commute up to the order of reports; then by induction on the tree |
| C73 | `Expand.v` | slots and other children are expanded from separate lists; induction on the tree, and C41 for orders that depend on the place |
| C74 | `SpecOut.v`, `Expand.v` | the code of the one element is compared part by part, and then carried outwards as for C71; C43, C47 and C55 relate code, reports and panics to the expansion |
| C75 | `SpecOut.v`, `Expand.v` | as for C74, with the head of the element in place of an attribute |
| C76 | `SpecOut.v`, `Expand.v` | as for C75, with the frame of the component around the same calls and entries |
| C77 | `SpecOut.v`, `Expand.v` | as for C75, with a class or id in place of the name |
