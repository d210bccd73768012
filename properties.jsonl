{"id": "C01", "title": "The macro always terminates with a definite outcome", "statement": "For every token stream, an `mview!` invocation finishes: none of the parsing or error-recovery loops can run forever, and the outcome is exactly one of (a) an expansion, (b) a non-empty list of compile errors together with the dummy expression `()`, or (c) a panic.", "quantifier": "every input token stream, of any size and nesting depth, well-formed or not", "why_tests_cant": "tests run a few finite inputs; an endless recovery loop or an unhandled stream only shows on inputs nobody wrote down", "anchors": ["leptos-mview-core/src/lib.rs:mview_impl", "leptos-mview-core/src/ast/children.rs:Children::parse", "leptos-mview-core/src/ast/ident.rs:KebabIdent::parse", "leptos-mview-core/src/ast/attribute.rs:Attrs::parse", "leptos-mview-macro/src/lib.rs:mview"]}
{"id": "C02", "title": "Only inputs of the documented grammar are accepted", "statement": "If the parser reads a token stream without reporting any error, then the stream is a sequence of children of the documented syntax (values, elements with tag/selectors/attributes/terminator, slots) and the tree built is the one the grammar assigns to it.", "quantifier": "every token stream that is parsed without a diagnostic", "why_tests_cant": "acceptance of junk can only be excluded by examining all streams", "anchors": ["leptos-mview-core/src/ast/children.rs:Child::parse", "leptos-mview-core/src/ast/element.rs:Element::parse", "leptos-mview-core/src/ast/attribute.rs:Attr::parse", "leptos-mview-core/src/ast/tag.rs:Tag::parse"]}
{"id": "C03", "title": "Every input of the documented grammar is accepted", "statement": "Conversely every token stream derivable in the documented grammar (with its stated disambiguation rules: longest kebab identifier, `{ident}` after a tag is an attribute, ident `:` starts a directive, ...) is parsed without any diagnostic to the tree the grammar assigns to it.", "quantifier": "every derivation of the grammar, unbounded length and nesting", "why_tests_cant": "an infinite language cannot be enumerated by tests", "anchors": ["leptos-mview-core/src/ast/children.rs:Children::parse", "leptos-mview-core/src/ast/element.rs:Element::parse", "leptos-mview-core/src/ast/attribute/kv.rs:KvAttr::parse", "leptos-mview-core/src/ast/attribute/directive.rs:Directive::parse"]}
{"id": "C04", "title": "The grammar is unambiguous", "statement": "A token stream has at most one derivation tree in the documented grammar, so the reading of a view never depends on parser internals.", "quantifier": "every token stream and every pair of trees for it", "why_tests_cant": "ambiguity is a statement about all pairs of derivations", "anchors": ["leptos-mview-core/src/ast/children.rs:Children::parse", "leptos-mview-core/src/ast/element.rs:Element::parse"]}
{"id": "C05", "title": "Sibling children are independent", "statement": "If a stream of children is read without diagnostics, then writing any further tokens after it does not change how the first children are read: the children of `a b` are those of `a` followed by those of `b`, with the diagnostics of `b` only.", "quantifier": "every cleanly parsed stream and every following stream", "why_tests_cant": "the claim ranges over all pairs of streams; look-ahead bugs hide at arbitrary boundaries", "anchors": ["leptos-mview-core/src/ast/children.rs:Children::parse", "leptos-mview-core/src/ast/element.rs:Element::parse"]}
{"id": "C06", "title": "Errors are atomic", "statement": "On stable Rust, if anything at all was reported during an invocation, the output is exactly the reported errors plus the dummy `()`: never a partial expansion. If nothing was reported the output is the expansion and nothing else; an abort always reports at least one error.", "quantifier": "every input token stream", "why_tests_cant": "must hold on every path through the parser and the expander", "anchors": ["leptos-mview-core/src/lib.rs:mview_impl", "leptos-mview-macro/src/lib.rs:mview", "leptos-mview-core/src/error_ext.rs"]}
{"id": "C07", "title": "Panics are confined to a known set of inputs", "statement": "The macro panics (instead of reporting an error) only if the input contains one of: a name that is exactly `self`, `Self`, `super`, `crate`, `_` or a lone `-` where a tag or attribute name is expected, a slot named so that its snake case is one of those words, or a slot whose tag is not a component. Each of these does panic on some input.", "quantifier": "every input token stream", "why_tests_cant": "panic-freedom outside the listed causes is a claim about all inputs", "anchors": ["leptos-mview-core/src/ast/ident.rs:KebabIdent::to_snake_ident", "leptos-mview-core/src/expand.rs:slots_to_tokens", "leptos-mview-core/src/ast/value.rs:Value::parse", "leptos-mview-core/src/expand/subroutines.rs:use_directive_fn_value"]}
{"id": "C08", "title": "HTML children are emitted once each, in source order", "statement": "The expansion of an HTML/SVG/MathML/custom element calls `.child(..)` exactly once for every non-slot child, in source order, after all other calls, each with the child's own expansion wrapped in `IntoRender::into_render`.", "quantifier": "every element with any number of attributes and children", "why_tests_cant": "any number and mix of children; tests use a few", "anchors": ["leptos-mview-core/src/expand.rs:xml_to_tokens", "leptos-mview-core/src/expand/subroutines.rs:xml_child_methods_tokens", "leptos-mview-core/src/ast/children.rs:NodeChild::to_tokens"]}
{"id": "C09", "title": "Component children are emitted once each, in source order", "statement": "The expansion of a component (or slot) with at least one non-slot child makes exactly one `.children(..)` call, whose fragment contains every non-slot child exactly once in source order; with no non-slot child there is no `.children` call.", "quantifier": "every component or slot element", "why_tests_cant": "any number and mix of children, closure arguments and clones", "anchors": ["leptos-mview-core/src/expand.rs:component_to_tokens", "leptos-mview-core/src/expand/subroutines.rs:component_children_tokens", "leptos-mview-core/src/expand.rs:children_fragment_tokens"]}
{"id": "C10", "title": "Root expansion: one child is itself, otherwise a fragment", "statement": "A macro call with exactly one child expands to that child alone; any other number of children (including none) expands to one `View::new((..))` fragment listing all of them in order.", "quantifier": "every input that parses without slots at the root", "why_tests_cant": "all lengths, including 0, 1 and large", "anchors": ["leptos-mview-core/src/lib.rs:mview_impl", "leptos-mview-core/src/expand.rs:children_fragment_tokens"]}
{"id": "C11", "title": "HTML builder calls are grouped so directives never get overridden", "statement": "Whatever the interleaving in the source, an HTML element's calls come out as: all plain attributes, then all directives, then class selectors, then id selectors, then spreads, then children, each group in source order, with nothing lost or repeated.", "quantifier": "every interleaving of attributes of an element", "why_tests_cant": "the number of interleavings is unbounded", "anchors": ["leptos-mview-core/src/expand.rs:xml_to_tokens", "leptos-mview-core/src/expand/subroutines.rs:xml_selectors_tokens"]}
{"id": "C12", "title": "HTML attribute routing", "statement": "`ref` always becomes `.node_ref(v)`; `class`/`style` are always typed calls; any other key is set through the unchecked `.attr(\"key\", ..)` with its literal kebab name exactly when the element is SVG or a custom element or the key has a `-` and does not start with `aria-`; all others are a typed call named by the key with `-` replaced by `_`.", "quantifier": "every key and every element kind", "why_tests_cant": "keys are arbitrary strings", "anchors": ["leptos-mview-core/src/expand/subroutines.rs:xml_kv_attribute_tokens", "leptos-mview-core/src/expand/subroutines.rs:AttributeKind"]}
{"id": "C13", "title": "Component props are named by the snake-cased key", "statement": "On components and slots every `key=value` becomes a builder call named by the key with every `-` replaced by `_`, as a raw identifier, in source order, with the value's expansion as the only argument.", "quantifier": "every key and value", "why_tests_cant": "keys are arbitrary strings", "anchors": ["leptos-mview-core/src/expand/subroutines.rs:component_kv_attribute_tokens", "leptos-mview-core/src/ast/ident.rs:KebabIdent::to_snake_ident"]}
{"id": "C14", "title": "Tag classification", "statement": "For every tag name: it is a component iff its first character is A-Z; otherwise SVG iff it is in the SVG list; otherwise a custom element iff it contains `-`; otherwise MathML iff it is in the MathML list; otherwise HTML. In particular the binary searches agree with list membership for every string. A tag followed by `::` or `<` is always a component.", "quantifier": "every string", "why_tests_cant": "binary search over a hand-sorted list is wrong for exactly the strings tests do not try", "anchors": ["leptos-mview-core/src/ast/tag.rs:TagKind::from", "leptos-mview-core/src/ast/tag.rs:is_svg_element", "leptos-mview-core/src/ast/tag.rs:is_math_ml_element", "leptos-mview-core/src/ast/tag.rs:Tag::parse"]}
{"id": "C15", "title": "Kebab identifiers read the longest dashed name, ignoring spacing", "statement": "Reading a kebab identifier consumes the longest run of the form ident-or-`-` followed by dash-separated idents/integers, the resulting name is the concatenation of the consumed token texts (raw prefix removed), token spacing is irrelevant, and it fails without consuming anything iff the next token is neither an identifier nor `-`.", "quantifier": "every token stream", "why_tests_cant": "unbounded names and continuations", "anchors": ["leptos-mview-core/src/ast/ident.rs:KebabIdent::parse"]}
{"id": "C16", "title": "Generated identifiers are valid Rust identifiers", "statement": "Converting any kebab name that was read from real tokens to an identifier yields a lexically valid, non-reserved identifier (or the macro panics); the same holds for slot method names.", "quantifier": "every kebab name readable from well-formed tokens", "why_tests_cant": "the code comment `This will always be valid` is a claim over all names", "anchors": ["leptos-mview-core/src/ast/ident.rs:KebabIdent::to_snake_ident", "leptos-mview-core/src/expand/utils.rs:upper_camel_to_snake_case"]}
{"id": "C17", "title": "Embedded Rust code is passed through verbatim", "statement": "The tokens inside `{..}` come out as `{..}`, inside `[..]` as `move || {..}` and inside `f[..]` as `move || ::std::format!(..)`, with the inner tokens unchanged; literals come out unchanged; any other prefix is reported as an error.", "quantifier": "every token sequence inside the delimiters", "why_tests_cant": "arbitrary user code", "anchors": ["leptos-mview-core/src/ast/value.rs:Value::to_tokens", "leptos-mview-core/src/ast/value.rs:Value::parse"]}
{"id": "C18", "title": "A bare attribute means `=true`", "statement": "Writing `key` instead of `key=true` in an attribute list gives the same result for the whole macro.", "quantifier": "every view, every position of the attribute in it", "why_tests_cant": "contexts are unbounded", "anchors": ["leptos-mview-core/src/ast/attribute/kv.rs:KvAttr::parse", "leptos-mview-core/src/ast/value.rs:Value::new_true"]}
{"id": "C19", "title": "`{key}` shorthand means `key={key}`", "statement": "Writing `{some-key}` instead of `some-key={some_key}` (respectively `dir:{k}` instead of `dir:k={k}`) gives the same result for the whole macro, up to the raw-identifier spelling of the variable.", "quantifier": "every view, every position of the attribute in it", "why_tests_cant": "contexts are unbounded", "anchors": ["leptos-mview-core/src/ast/ident.rs:BracedKebabIdent", "leptos-mview-core/src/ast/attribute/kv.rs:KvAttr::parse", "leptos-mview-core/src/ast/attribute/directive.rs:Directive::parse"]}
{"id": "C20", "title": "Parentheses and braces around children are interchangeable", "statement": "Whenever an element with children in parentheses is accepted, the same element with braces is accepted with the identical result. (The converse fails: `p {x}` is an attribute.)", "quantifier": "every element and every children stream", "why_tests_cant": "brace groups are first tried as attributes, so the claim is about all block contents", "anchors": ["leptos-mview-core/src/ast/element.rs:Element::parse", "leptos-mview-core/src/ast/attribute.rs:Attr::parse", "leptos-mview-core/src/parse.rs:braced"]}
{"id": "C21", "title": "Generics work with and without turbofish", "statement": "`Comp<T>` and `Comp::<T>` have the same expansion, in which every generic segment has exactly one `::` before `<`.", "quantifier": "every component path with any generic arguments", "why_tests_cant": "paths of any length", "anchors": ["leptos-mview-core/src/expand/utils.rs:turbofishify", "leptos-mview-core/src/ast/tag.rs:Tag::parse"]}
{"id": "C22", "title": "Raw identifiers as names", "statement": "A name written `r#name` at the start of a tag, attribute key, selector or directive key means the same as `name`; a raw identifier in a later segment is always reported.", "quantifier": "every kebab identifier", "why_tests_cant": "all names", "anchors": ["leptos-mview-core/src/ast/ident.rs:KebabIdent::parse"]}
{"id": "C23", "title": "Directives on HTML elements", "statement": "`class:`/`style:` become `.class((\"key\", v))`/`.style(..)`, `prop:` becomes `.prop(\"key\", v)`, `on:ev` becomes `.on(event::ev, v)` (wrapped in `undelegated` iff the modifier says so), `use:f` becomes `.directive(f, v.into())`; `attr:`, `clone:` and anything else are reported and produce no call.", "quantifier": "every directive", "why_tests_cant": "names, keys, values and modifiers are unbounded", "anchors": ["leptos-mview-core/src/expand/subroutines.rs:xml_directive_tokens", "leptos-mview-core/src/expand/subroutines.rs:event_listener_event_path", "leptos-mview-core/src/expand/subroutines.rs:use_directive_fn_value"]}
{"id": "C24", "title": "Directives and spreads on components", "statement": "On a component every known directive and every spread contributes exactly one entry to the single `.add_any_attr((..))` call, in source order after the selectors' entries; `class`, `style`, `attr`, `prop` without a value default to `true`; unknown directives are reported.", "quantifier": "every attribute list of a component", "why_tests_cant": "unbounded lists", "anchors": ["leptos-mview-core/src/expand.rs:component_to_tokens", "leptos-mview-core/src/expand/subroutines.rs:directive_to_any_attr_path"]}
{"id": "C25", "title": "Class and id selectors on components", "statement": "Class selectors become `class((\"name\", true))` entries in source order; all id selectors together become a single `id` attribute whose value is the names joined by one space in source order, placed after the classes; there is none if there are no ids.", "quantifier": "every selector list", "why_tests_cant": "unbounded lists and interleavings", "anchors": ["leptos-mview-core/src/expand.rs:component_to_tokens"]}
{"id": "C26", "title": "Class and id selectors on HTML elements", "statement": "On HTML elements each class selector becomes one `.class((name, true))` call and each id selector one `.id(name)` call, classes first, each in source order, under the exact kebab name.", "quantifier": "every selector list", "why_tests_cant": "unbounded lists and interleavings", "anchors": ["leptos-mview-core/src/expand/subroutines.rs:xml_selectors_tokens"]}
{"id": "C27", "title": "Slots are delivered once, grouped by name, for every hash order", "statement": "For every component, and whatever order the hash map iterates in: each distinct slot name yields exactly one builder call; that call carries exactly the slots of that name, in source order, unwrapped if there is one and as a vec if there are several; two runs differ at most by the order of these calls.", "quantifier": "every component with any slots, every iteration order of the hash map", "why_tests_cant": "hash order is randomised per process; tests see one order", "anchors": ["leptos-mview-core/src/expand.rs:slots_to_tokens"]}
{"id": "C28", "title": "Slot method names", "statement": "The slot method name is the snake case of the slot name; distinct UpperCamelCase names without underscores never collide, and names with underscores can collide.", "quantifier": "every pair of slot names", "why_tests_cant": "injectivity is about all pairs of strings", "anchors": ["leptos-mview-core/src/expand/utils.rs:upper_camel_to_snake_case"]}
{"id": "C29", "title": "Root-level slots are always rejected", "statement": "If any root child is a slot the macro reports an error and produces no expansion, whatever else is in the input.", "quantifier": "every input", "why_tests_cant": "position and number of slots are arbitrary", "anchors": ["leptos-mview-core/src/lib.rs:mview_impl"]}
{"id": "C30", "title": "Where slots are ignored", "statement": "A slot written inside an HTML element, or inside another slot, has no effect on the expansion and is not reported: replacing it by any other slot subtree that is itself error-free gives the same output. This refutes the expectation that user content is never silently dropped.", "quantifier": "every element and slot", "why_tests_cant": "silent loss is invisible to tests that look for expected content only", "anchors": ["leptos-mview-core/src/expand.rs:xml_to_tokens", "leptos-mview-core/src/expand.rs:component_to_tokens"]}
{"id": "C31", "title": "Unsupported features on slots are always reported", "statement": "A slot of a component that has a class/id selector, a spread, or any directive other than `clone:` always makes the macro fail with an error.", "quantifier": "every component with slots", "why_tests_cant": "position and number are arbitrary", "anchors": ["leptos-mview-core/src/expand.rs:component_to_tokens"]}
{"id": "C32", "title": "Closure arguments", "statement": "`|args|` before a children block is read up to the next top-level `|`, kept verbatim including the pipes, and on a component (or slot) with children comes out as `move |args| fragment`; without arguments the fragment is `to_children(move || ..)`. Missing second pipe or missing block is an error.", "quantifier": "every argument pattern", "why_tests_cant": "arbitrary token patterns, including nested groups with pipes", "anchors": ["leptos-mview-core/src/ast/element.rs:parse_closure_args", "leptos-mview-core/src/expand/subroutines.rs:component_children_tokens"]}
{"id": "C33", "title": "Closure arguments are ignored where they cannot apply", "statement": "Closure arguments on an HTML element, or on a component without non-slot children, are dropped without any report: the expansion is the same as without them.", "quantifier": "every element", "why_tests_cant": "silent loss is invisible to tests", "anchors": ["leptos-mview-core/src/expand.rs:xml_to_tokens", "leptos-mview-core/src/expand.rs:component_to_tokens"]}
{"id": "C34", "title": "clone: directives", "statement": "On a component or slot, each `clone:x` contributes one `let x = x.clone();` in source order at the start of the children block, outside the children closure, and nothing else; values and modifiers on it are always reported.", "quantifier": "every attribute list", "why_tests_cant": "unbounded lists", "anchors": ["leptos-mview-core/src/expand/subroutines.rs:component_clone_tokens", "leptos-mview-core/src/expand.rs:component_to_tokens"]}
{"id": "C35", "title": "User code is neither lost nor duplicated", "statement": "For an input that expands without errors and has no slot inside an HTML element or inside a slot and no ignored closure arguments: every character, byte, float, byte-string or C-string literal that is not inside the generic arguments of a tag (those are emitted twice) occurs in the expansion exactly as often as in the input, i.e. each embedded expression is used exactly once.", "quantifier": "every accepted input of any depth and every such literal", "why_tests_cant": "linearity over all trees", "anchors": ["leptos-mview-core/src/lib.rs:mview_impl", "leptos-mview-core/src/expand.rs", "leptos-mview-core/src/ast/value.rs:Value"]}
{"id": "C36", "title": "Stray semicolons are skipped one by one", "statement": "A semicolon where a child is expected is reported and skipped, and all following children are still read as if it were not there.", "quantifier": "every stream", "why_tests_cant": "position and number are arbitrary", "anchors": ["leptos-mview-core/src/ast/children.rs:Children::parse"]}
{"id": "C37", "title": "A missing attribute value is reported and does not disturb the rest", "statement": "If `key=` or `dir:key=` is not followed by a value, exactly one error is reported, nothing after the `=` is consumed, and reading continues at that token.", "quantifier": "every stream after `=`", "why_tests_cant": "arbitrary continuations", "anchors": ["leptos-mview-core/src/ast/value.rs:Value::parse_or_emit_err"]}
{"id": "C38", "title": "Modifiers", "statement": "On HTML elements a modifier is accepted without error only as `on:event:undelegated`. On components the modifier of a `class`, `style`, `attr` or `prop` directive is silently ignored (a disagreement with the expectation recorded in tests/ui/errors/invalid_directive.stderr).", "quantifier": "every directive", "why_tests_cant": "all names", "anchors": ["leptos-mview-core/src/expand/utils.rs:emit_error_if_modifier", "leptos-mview-core/src/expand/subroutines.rs:directive_to_any_attr_path"]}
{"id": "C39", "title": "Failed attempts consume nothing", "statement": "Every speculative read (attributes, selectors, values, terminators) that fails leaves the input exactly where it was; but diagnostics emitted inside a failed attempt are kept.", "quantifier": "every reader and stream", "why_tests_cant": "must hold for all streams", "anchors": ["leptos-mview-core/src/parse.rs:rollback_err", "leptos-mview-core/src/parse.rs:braced", "leptos-mview-core/src/parse.rs:parenthesized"]}
{"id": "C40", "title": "Non-string literal children are rejected", "statement": "A number, boolean, char or other non-string literal where a child is expected always makes the macro fail; it is never rendered.", "quantifier": "every stream", "why_tests_cant": "position arbitrary", "anchors": ["leptos-mview-core/src/ast/children.rs:Child::parse"]}
{"id": "C41", "title": "The expansion is deterministic up to slot order", "statement": "Two runs of the macro on the same input report the same diagnostics in the same order and, if no component has slots of two different names, produce the same tokens.", "quantifier": "every input and every pair of hash orders", "why_tests_cant": "hash seeds vary per process", "anchors": ["leptos-mview-core/src/expand.rs:slots_to_tokens"]}
{"id": "C42", "title": "Unterminated elements", "statement": "An element that runs into the end of its block without `;` or children is always reported, and is otherwise read as if a `;` followed.", "quantifier": "every element", "why_tests_cant": "arbitrary attribute lists", "anchors": ["leptos-mview-core/src/ast/element.rs:Element::parse"]}
{"id": "C43", "title": "The macro means what the grammar and the code description say", "statement": "Whenever the macro expands, the input derives in the documented grammar to a tree and the output is the documented code of that tree (up to the order of slot calls); and every input with such a meaning is expanded.", "quantifier": "every token stream", "why_tests_cant": "Relates every possible input to its complete output; tests check single pairs.", "anchors": ["leptos-mview-core/src/lib.rs:24-65", "leptos-mview-core/src/expand.rs", "leptos-mview-core/src/ast"]}
{"id": "C44", "title": "No identifier or literal is invented", "statement": "Every identifier and every literal in an expansion, at any depth, is either the same token of the input, or one of a fixed list of words of the generated code (or raw `class`, `style`, `id`), or a kebab-case name of the input turned into an identifier, the snake case of such a name (slot methods), a string made of such names joined by spaces, or a number of the input with the minus sign written before it. In particular the placeholders used during error recovery never reach an expansion.", "quantifier": "for all environments, all well-formed token streams that expand, all identifier and literal tokens of the expansion", "why_tests_cant": "the expansions are built from ~80 quote! templates combined recursively; tests look at the behaviour of a few views and would not notice a leaked placeholder or a captured variable in an untested combination", "anchors": ["leptos-mview-core/src/expand.rs", "leptos-mview-core/src/expand/subroutines.rs", "leptos-mview-core/src/expand/utils.rs", "leptos-mview-core/src/ast/attribute/kv.rs:MissingValueAfterEq"]}
{"id": "C45", "title": "Views compose", "statement": "The expansion of two views written one after the other is assembled from exactly the pieces of their separate expansions, in order. Writing a view into the parentheses of an HTML, SVG, MathML or web component element appends one child call per piece to the element's own expansion; writing it into the parentheses of a component adds one children call with those pieces, the closure arguments and the clones after the properties. Nothing else changes.", "quantifier": "for all environments with place-independent slot order, all views and elements that expand on their own", "why_tests_cant": "says that an expansion never depends on what surrounds it, for every pair of views; tests only look at a fixed set of complete views", "anchors": ["leptos-mview-core/src/expand.rs", "leptos-mview-core/src/ast/children.rs", "leptos-mview-core/src/ast/element.rs"]}
{"id": "C46", "title": "Error recovery continues as documented", "statement": "After a recoverable error the macro carries on as if the view had been corrected and reports just that error in addition, both with the stable back end and (tokens included) with the `nightly` feature: a stray `;` is skipped; a non-string literal child counts as an empty string; a missing `;` at the end of a block is assumed; a missing value is replaced by `MissingValueAfterEq`; at a token that starts no child the rest of the block is skipped; an element followed by an unexpected token, or by closure arguments without a block, has no children. With `nightly` the reports are the same as on stable and the macro still gives one block, or `()` after an abort.", "quantifier": "for all environments and token streams, all places in a view (any nesting, any well-formed text before, arbitrary text after)", "why_tests_cant": "UI tests cover a handful of broken views; that recovery never disturbs the rest of an arbitrary view, nor hides other errors, is a statement about all contexts", "anchors": ["leptos-mview-core/src/ast/children.rs:99-129", "leptos-mview-core/src/ast/element.rs:55-105", "leptos-mview-core/src/ast/value.rs:122-155", "leptos-mview-core/src/lib.rs:24-31", "Cargo.toml:23", "leptos-mview-macro/Cargo.toml:21"]}
{"id": "C47", "title": "Exactly the described errors are reported, and rejected attributes have no other effect", "statement": "For a view without syntax errors the macro reports exactly the errors described by a function of its tree, in that order: unknown or unsupported directives, modifiers, `clone:` values, unknown value prefixes, string keys where an identifier is needed, selectors, spreads and directives on slots, slot names that are paths, slots at the root. Rejected attributes, selectors and modifiers have no effect but their reports: the view without them gives the same tokens (with the `nightly` feature; on stable it expands) and all other reports in the same order.", "quantifier": "for all environments, all well-formed token streams of the documented grammar and all their trees", "why_tests_cant": "UI tests check single errors in fixed views; completeness and order of the reports for arbitrary nested views, and that rejected attributes never influence the rest, are statements about all trees", "anchors": ["leptos-mview-core/src/expand.rs:161-256", "leptos-mview-core/src/expand.rs:339-362", "leptos-mview-core/src/expand/subroutines.rs:31-83", "leptos-mview-core/src/expand/subroutines.rs:175-214", "leptos-mview-core/src/expand/subroutines.rs:256-265", "leptos-mview-core/src/expand/utils.rs:22-29"]}
{"id": "C48", "title": "The expansion is a Rust expression, and embedded code sees the documented variables", "statement": "Every expansion is a block expression of Rust's grammar: attributes only where Rust allows them, generic arguments after `::`, no keyword where an identifier is needed, balanced comma lists, let statements before a tail expression, provided the code the user wrote is fine where it is put. That code sees exactly the documented local variables: children of a component (and of a slot) see the closure parameters and the `clone:` variables of that component and of the components around it, later clones before earlier ones; attributes, spreads, slots and children of HTML elements see just what their element sees.", "quantifier": "for all environments, all accepted token streams and every judgement about user code that may depend on the variables in scope", "why_tests_cant": "tests compile a fixed set of views; that no combination of tags, attributes, clones, parameters and nesting ever gives ill-formed or wrongly scoped code is a statement about all views", "anchors": ["leptos-mview-core/src/expand.rs:85-128", "leptos-mview-core/src/expand.rs:161-313", "leptos-mview-core/src/expand.rs:339-387", "leptos-mview-core/src/expand/subroutines.rs", "leptos-mview-core/src/lib.rs:37-64", "leptos-mview-core/src/ast/value.rs:74-108"]}
{"id": "C49", "title": "Spans never influence the expansion", "statement": "Two token streams that differ only in spans (line breaks and spacing between tokens, the file, the macro a token comes from), expanded with any two behaviours of Span::join (stable and nightly Rust), have the same expansion and the same errors up to spans, for the stable and the nightly back end.", "quantifier": "for all environments, all pairs of token streams with equal tokens and all assignments of spans", "why_tests_cant": "tests run a view in one layout on one compiler; independence of the layout of every view is a statement about pairs of runs", "anchors": ["leptos-mview-core/src/span.rs", "leptos-mview-core/src/ast/ident.rs:41-106", "leptos-mview-core/src/ast/value.rs:74-155", "leptos-mview-core/src/expand.rs", "leptos-mview-core/src/expand/subroutines.rs", "leptos-mview-core/src/parse.rs"]}
{"id": "C50", "title": "Spans are taken from the input, and move with it", "statement": "If the spans of the input are moved by any function that keeps the call site and commutes with Span::join, every span of the expansion and of every diagnostic moves in exactly the same way. Every span of the result belongs to every set of spans that contains the call site and the spans of the input and that Span::join cannot leave: on stable Rust it is the call site or the span of one token or delimiter of the input, on nightly Rust it stays within the part of the file where the view is.", "quantifier": "for all environments, token streams, functions on spans and sets of spans, stable and nightly", "why_tests_cant": "trybuild tests check the position of some errors in some files; the statement is about every span of every expansion and relates a view to all its relocations", "anchors": ["leptos-mview-core/src/span.rs", "leptos-mview-core/src/ast", "leptos-mview-core/src/expand.rs", "leptos-mview-core/src/expand/subroutines.rs", "leptos-mview-core/src/lib.rs:24-65"]}
{"id": "C51", "title": "Each report is where the part it is about is written", "statement": "A view without syntax errors has exactly one tree with spans whose parts are, in order, the tokens of the view. The diagnostics about it are exactly the following, in the order of the view, each at the given place: a bad value prefix at the prefix, a rejected or unknown directive at the name of the directive, a rejected modifier at the modifier, a string key that should be an identifier at the string, a value of `clone:` at the value, selectors on a slot at the `.` or `#` of the first one, a spread on a slot at its braces, a path as slot name at the path, a slot at the root at the keyword (if it is the only root) or at the tag of the first root slot. None is at the call site.", "quantifier": "for all environments, all behaviours of Span::join and all token streams without syntax errors, for the stable and the nightly back end", "why_tests_cant": "trybuild tests compare the output of the compiler for a few dozen views; the place of every report in every view is a statement about all trees", "anchors": ["leptos-mview-core/src/expand.rs", "leptos-mview-core/src/expand/subroutines.rs", "leptos-mview-core/src/expand/utils.rs", "leptos-mview-core/src/error_ext.rs", "leptos-mview-core/src/span.rs", "leptos-mview-core/src/lib.rs:24-65"]}
{"id": "C52", "title": "Every token of an expansion is where it belongs", "statement": "In the expansion of a view without syntax errors every token is either the user's, at the place it was written at (code in braces, brackets, spreads, closure parameters and generic arguments, literals, tags and paths, the names of attributes, directives, events and slots), or the macro's: at the call site, or at the part of the view it stands for (a selector's method at its symbol, `child` and `children` at the child, the braces of a value at its content, a closure at its brackets, `format!` at the prefix, the builder of a component at its tag, a property at its attribute). At the call site there are only tokens of the macro, and an identifier that is not one of the macro's is the user's.", "quantifier": "for all environments, all behaviours of Span::join and all token streams without syntax errors, for the stable and the nightly back end", "why_tests_cant": "spans are invisible in the runtime tests, and the UI tests look at the spans of a few tokens in a few views; this is about each token of each expansion", "anchors": ["leptos-mview-core/src/expand.rs", "leptos-mview-core/src/expand/subroutines.rs", "leptos-mview-core/src/expand/utils.rs", "leptos-mview-core/src/ast/value.rs:74-108", "leptos-mview-core/src/ast/ident.rs:72-106", "leptos-mview-core/src/span.rs"]}
{"id": "C53", "title": "Nothing of a view gets lost", "statement": "If a view without syntax errors expands, then each of its parts is in the expansion, with its spans: the code of every value, every piece of code in a spread, in closure parameters of a component with children and in generic arguments, every tag and path segment, every attribute as the method call (or unchecked attribute, or node reference) it stands for around its value, every directive with its name, key, event, modifier and value, every selector, every cloned name of a component with children, and one call for each name of its slots. Excepted are the slots of elements that are not components and the slots of slots, with everything in them.", "quantifier": "for all environments, all behaviours of Span::join, all orders of slots and all token streams without syntax errors that expand", "why_tests_cant": "tests look for a few pieces in a few outputs; an expander that drops a part only in some combination of tag, attribute and children is not noticed by them", "anchors": ["leptos-mview-core/src/expand.rs:85-387", "leptos-mview-core/src/expand/subroutines.rs", "leptos-mview-core/src/expand/utils.rs", "leptos-mview-core/src/ast/value.rs:74-108", "leptos-mview-core/src/ast/children.rs:26-36"]}
{"id": "C54", "title": "Every syntax error is reported where it is", "statement": "For every token stream, the reports made are exactly those of a description of the view with its errors, in order and each at its place: a missing value at the token after the `=` (at the `=` at the end of a block), a raw identifier in a name at that identifier, a literal that is not a string at the literal, a stray semicolon and anything that is no child at that token, an element that is not terminated at its tag, missing children after closure arguments at what comes instead, an unknown attribute there and from the tag to there, unclosed closure arguments at the first pipe, an incomplete directive where its key or modifier should be. After an incomplete directive nothing else is looked at; a name no identifier can be made of, as a tag, a `{name}` or a directive without a value, makes the macro panic there, whatever was reported before; after an error other than a stray semicolon the rest of that block is ignored, but not what follows the block; all other errors do not hide anything. Reports about the tree that could be read follow. Every view has exactly one such description. A view is expanded only if there are no reports.", "quantifier": "for all environments, all behaviours of Span::join and of the generic-argument parser, and all token streams", "why_tests_cant": "UI tests pin the places of a dozen errors, one per file; which errors of a view are reported, in what order and at what place when several occur together or nested has unboundedly many combinations", "anchors": ["leptos-mview-core/src/ast/children.rs:54-150", "leptos-mview-core/src/ast/element.rs:49-180", "leptos-mview-core/src/ast/value.rs:110-150", "leptos-mview-core/src/ast/ident.rs:100-170", "leptos-mview-core/src/ast/attribute.rs:15-75", "leptos-mview-core/src/ast/attribute/directive.rs", "leptos-mview-core/src/ast/tag.rs:60-110"]}
{"id": "C55", "title": "Exactly which views panic", "statement": "The macro panics instead of reporting or expanding if and only if one of these is met: while reading, a tag (that is no component or custom element), a `{name}` or a directive without a value whose name cannot be an identifier; or, in a tree that could be read without a slot at its root, such a name as the key of an attribute of an HTML or MathML element that is not used as a string, of `on:` or `use:`, of an attribute of a component or slot, of `clone:`, or on a component of `prop:` or of `attr:` without a dash; or a slot of a component that is not itself a component, or whose snake case cannot be an identifier. Slots of HTML elements and slots with a path as name are not looked at. The message names one of these causes. It does not matter whether errors were reported before. All other views are expanded or reported; those expanded are exactly those without a report and without such a cause.", "quantifier": "for all environments, all behaviours of Span::join and of the generic-argument parser, and all token streams", "why_tests_cant": "no test exercises a panic at all; the claim is an equivalence over all token streams, including those with errors before or around the name", "anchors": ["leptos-mview-core/src/ast/ident.rs:91-106", "leptos-mview-core/src/expand/subroutines.rs:31-83", "leptos-mview-core/src/expand/subroutines.rs:145-214", "leptos-mview-core/src/expand/subroutines.rs:251-265", "leptos-mview-core/src/expand/subroutines.rs:371-441", "leptos-mview-core/src/expand.rs:161-313", "leptos-mview-core/src/expand.rs:339-387"]}
{"id": "C56", "title": "Exactly which trees are written by some view", "statement": "A list of children is what the parser gives without a report for some token stream if and only if each child is writable, which is decided on the tree alone: names consist of words and dashes, do not start with a digit, and carry one section for their start and for each word after a dash; tags that are single names are raw identifiers that can be raw (components: a capitalised plain identifier), other tags are paths of valid segments or dashed names; closure arguments occur only with children and contain no `|`; literals are child values only as strings; only slots have a tag starting with `::` or `-`. The only condition that involves two parts: after a name (the tag or last selector, or a directive that is just `dir:name`) an attribute must be `{..spread}` or can be `{name}`, or the name before does not end with a dash and the attribute is a directive or its key does not start with a dash. In particular whether a child can be written does not depend on its siblings.", "quantifier": "for all environments satisfying env_ok and all lists of children (trees of any size and depth)", "why_tests_cant": "it says which of all possible trees are reachable from any token stream at all; a test only shows the tree of one stream, never that none gives a tree", "anchors": ["leptos-mview-core/src/ast/children.rs:60-148", "leptos-mview-core/src/ast/element.rs:53-140", "leptos-mview-core/src/ast/ident.rs:41-186", "leptos-mview-core/src/ast/attribute.rs:16-80", "leptos-mview-core/src/ast/tag.rs:29-130", "leptos-mview-core/src/ast/value.rs:28-160"]}
{"id": "C57", "title": "Expansions grow linearly, with an exact factor", "statement": "If a view of n tokens (a group counting as one token plus its content) expands to m tokens, then m + 26 <= 49 n, except that the empty view expands to 20 tokens. So no part of a view is expanded repeatedly, however deep it is nested. The bound is exact: nested components reach m + 26 = 49 n for arbitrarily large n.", "quantifier": "for all environments satisfying env_ok and all well-formed token streams that expand; the bound is reached for every nesting depth", "why_tests_cant": "a test measures the expansion of one view; duplication that only shows at some depth or for some combination of parts (as for generics, which are emitted twice) would go unnoticed", "anchors": ["leptos-mview-core/src/lib.rs:24-65", "leptos-mview-core/src/expand.rs:30-380", "leptos-mview-core/src/expand/subroutines.rs:20-330", "leptos-mview-core/src/ast/value.rs:74-110", "leptos-mview-core/src/ast/ident.rs:60-100"]}
{"id": "C58", "title": "At most three reports for every two tokens", "statement": "If errors are reported about a view of n tokens (a group counting as one token plus its content), there are at most 3n/2 reports, on stable as on nightly. So neither trying a block as `{key}` before reading it as children, nor going on after an error, multiplies reports with the depth of nesting. The bound is exact: `p 1 p 1 ...` gets three reports for every two tokens.", "quantifier": "for all environments satisfying env_ok and all well-formed token streams about which something is reported; the bound is reached for infinitely many n", "why_tests_cant": "the ui tests compare the reports about a few dozen views; a repeated attempt that doubles the reports with every level of nesting needs deep views to be noticed", "anchors": ["leptos-mview-core/src/lib.rs:24-65", "leptos-mview-core/src/ast/children.rs:30-140", "leptos-mview-core/src/ast/element.rs:60-209", "leptos-mview-core/src/ast/attribute.rs:30-105", "leptos-mview-core/src/ast/attribute/kv.rs:20-62", "leptos-mview-core/src/ast/ident.rs:100-170", "leptos-mview-core/src/error_ext.rs:1-33"]}
{"id": "C59", "title": "What is expanded next to the errors", "statement": "On nightly, where the tokens are used although errors are reported, they are determined for every view that can be read to its end, whatever errors it has: they are the code of the tree in which attributes, selectors and modifiers that are rejected are left out, a value with an unknown prefix is empty (`value=g[..]` gives `.value()`), a string used as event becomes `invalid_event` and a string used as another identifier `__invalid_identifier_found_str`, and slots whose name is a path are left out; everything else is expanded as usual. A slot at the root gives `()`. The macro panics just if there is no such code. For trees about which nothing is reported this is the ordinary code.", "quantifier": "for all environments, all behaviours of Span::join and of the generic-argument parser, and all well-formed token streams that can be read to their end", "why_tests_cant": "the ui tests only look at the errors, never at the tokens next to them; editors rely on those for completion in views that are being written", "anchors": ["leptos-mview-core/src/lib.rs:24-65", "leptos-mview-core/src/expand.rs:85-128", "leptos-mview-core/src/expand.rs:161-313", "leptos-mview-core/src/expand.rs:339-387", "leptos-mview-core/src/expand/subroutines.rs:31-83", "leptos-mview-core/src/expand/subroutines.rs:145-222", "leptos-mview-core/src/expand/subroutines.rs:251-265", "leptos-mview-core/src/expand/subroutines.rs:371-441", "leptos-mview-core/src/ast/value.rs:74-108", "leptos-mview-core/src/ast/ident.rs:200-208"]}
{"id": "C60", "title": "Views are told apart by their expansions, up to listed abbreviations", "statement": "Two views have the same expansion just if their trees are equal up to this list: `-` and `_` in names that become identifiers; quotes around keys of class:, style: and prop: of HTML elements; the order of attributes of different kinds (key=value, directives, classes, ids, spreads) and of slots relative to other children and slots of other names; no block or an empty block; on components, `.a` for class:a, ids for attr:id, a missing value for `true`, modifiers other than those of on:, and a spread that says what a directive says; closure arguments and clones where there are no children to use them; the `::` before generics of a component; parts that are dropped silently (closure arguments and slots of HTML elements, slots of slots). Nothing else in a view can be changed without changing its expansion: no two different values, names, tags or children are conflated.", "quantifier": "for all pairs of well-formed token streams that expand, all environments", "why_tests_cant": "a statement about all pairs of views; tests compare a view with one expected rendering, so that conflated views go unnoticed", "anchors": ["leptos-mview-core/src/lib.rs:37-64", "leptos-mview-core/src/expand.rs:38-128", "leptos-mview-core/src/expand.rs:140-313", "leptos-mview-core/src/expand.rs:320-387", "leptos-mview-core/src/expand/subroutines.rs:22-83", "leptos-mview-core/src/expand/subroutines.rs:85-265", "leptos-mview-core/src/expand/subroutines.rs:267-441", "leptos-mview-core/src/expand/utils.rs:1-74"]}
{"id": "C61", "title": "Parsing takes linear time", "statement": "Parsing a view of any kind (accepted, wrong, or one that makes the macro panic) takes at most 108 steps for each token and each character of its identifiers and literals, plus 24, where a step is a look at the stream, taking or copying a token, a fork, opening a group, a report, or work on one character; generic arguments of components add K steps per character if syn's parser for them takes K. Trying every block as an attribute `{name}` before it is read as children, forking before every attribute, and skipping what cannot be read do not make this worse, however deeply blocks are nested. Every token of a view takes at least one step.", "quantifier": "for all token streams, all environments, all K and all step counts of the generic-argument parser that K bounds", "why_tests_cant": "a bound for inputs of every size and nesting; a parser that backtracks over nested blocks is only slow on views deeper than those of a test suite", "anchors": ["leptos-mview-core/src/parse.rs:6-96", "leptos-mview-core/src/ast/ident.rs:99-164", "leptos-mview-core/src/ast/ident.rs:218-260", "leptos-mview-core/src/ast/tag.rs:62-112", "leptos-mview-core/src/ast/attribute.rs:22-63", "leptos-mview-core/src/ast/attribute/kv.rs:41-62", "leptos-mview-core/src/ast/attribute/directive.rs:39-76", "leptos-mview-core/src/ast/element.rs:53-178", "leptos-mview-core/src/ast/children.rs:59-129"]}
{"id": "C62", "title": "Running the expansion makes the view", "statement": "If a view is expanded, then running the expansion - with the methods and functions of leptos that it calls read as in SpecRun.v - succeeds and makes exactly the tree that the view describes: every HTML, SVG, MathML and custom element with its name, attributes, classes, styles, properties, events, directives, refs and spreads, each kind in source order with selectors after, every component with its props, children (with closure parameters and clones) and slots grouped by name, and the attributes, classes and directives put on it, and all children in source order. The tree is unique up to the order in which a component is given its slots. This needs that no key of an HTML or MathML element is the name of a builder method (child, node_ref, attr, ...), and that spreads of components have no top-level comma; without it the tree is another one.", "quantifier": "for all token streams that are expanded, all environments and slot orders, all trees of any depth", "why_tests_cant": "tests render a few views; the claim relates source and behaviour for every combination and nesting of elements, components, slots, attributes and directives", "anchors": ["leptos-mview-core/src/lib.rs:37-64", "leptos-mview-core/src/expand.rs:38-128", "leptos-mview-core/src/expand.rs:140-313", "leptos-mview-core/src/expand.rs:320-387", "leptos-mview-core/src/expand/subroutines.rs:22-83", "leptos-mview-core/src/expand/subroutines.rs:85-265", "leptos-mview-core/src/expand/subroutines.rs:267-441", "leptos-mview-core/src/expand/utils.rs:1-74", "tests/html.rs", "tests/component.rs", "tests/slots.rs", "tests/spread.rs"]}
{"id": "C63", "title": "Tokens given next to syntax errors point at their source", "statement": "On nightly, where tokens are used although errors are reported, each token given for a view that can be read to its end - whatever syntax errors it has - is either the user's, at the place it was written at (what stands in for a missing value is where the missing value is reported), or one of the macro's, at the part of the view it stands for or at the call site. At the call site there are only tokens of the macro and, if one was reported, the empty string used in place of a literal child that is not a string. An identifier that is not one of the macro's is the user's. If reading ends at an incomplete directive there is just () at the call site.", "quantifier": "for all token streams and spans, all environments (including any behaviour of Span::join), all combinations of errors at any depth", "why_tests_cant": "spans of tokens are invisible in rendered output; the compile-fail tests only show the spans of the reports of a dozen views, on stable", "anchors": ["leptos-mview-core/src/lib.rs:24-65", "leptos-mview-core/src/ast/children.rs:54-150", "leptos-mview-core/src/ast/element.rs:49-180", "leptos-mview-core/src/ast/value.rs:74-150", "leptos-mview-core/src/expand.rs", "leptos-mview-core/src/expand/subroutines.rs", "leptos-mview-core/src/span.rs"]}
{"id": "C64", "title": "What a report says is true of what it points at", "statement": "Every report has one of a fixed list of texts and help lines, and what it says holds of the tokens at its place: e.g. 'unknown directive' marks an identifier followed by ':' that is not one of the seven directives, 'expected value after =' marks an '=' or the token after it, with the help about braces exactly if that token is an identifier that is not a keyword, 'unterminated element' marks a whole tag, 'X: is not supported on slots' marks the word X, 'found keyword X' the keyword X. 'unexpected end of input' is only said at the end of a block or of the view. Errors that are always caught (nine texts in the sources) are never shown. Two reports have the same text and help only if they are of the same kind and name the same word, up to where they were reported from.", "quantifier": "for all token streams and spans, all environments, both back ends, all combinations of errors at any depth", "why_tests_cant": "the recorded .stderr files show about twenty views; whether a text can appear at a token it is wrong about, or never appears at all, is a statement about all views", "anchors": ["leptos-mview-core/src/error_ext.rs:1-33", "leptos-mview-core/src/ast/children.rs:54-150", "leptos-mview-core/src/ast/element.rs:49-180", "leptos-mview-core/src/ast/value.rs:74-150", "leptos-mview-core/src/ast/ident.rs:100-210", "leptos-mview-core/src/expand.rs:170-360", "leptos-mview-core/src/expand/subroutines.rs:40-270", "leptos-mview-core/src/expand/utils.rs:15-50", "leptos-mview-core/src/lib.rs:24-65"]}
{"id": "C65", "title": "The macro takes linear time", "statement": "Reading and expanding a view of any kind (accepted, wrong, or one that makes the macro panic) takes at most 1808 steps for each token and each character of its identifiers and literals, plus 224, where a step looks at, makes or copies one token or one character (groups are shared, not copied); generic arguments add K steps per character if syn's parser for them takes K. Asking each child for its span, copying the streams of children into their parents, collecting slots by name and joining ids do not make this worse, however deeply views are nested. Every token of an expansion takes at least one step.", "quantifier": "for all token streams, all environments (all orders of the hash map of slots), all K and all step counts of the generic-argument parser that K bounds", "why_tests_cant": "a bound for views of every size and nesting; if the span of a child were found by expanding it (syn's Spanned instead of the inherent method of the same name), time would double with each level, which the shallow views of the tests do not show", "anchors": ["leptos-mview-core/src/lib.rs:24-65", "leptos-mview-core/src/expand.rs:46-55", "leptos-mview-core/src/expand.rs:85-128", "leptos-mview-core/src/expand.rs:161-313", "leptos-mview-core/src/expand.rs:339-387", "leptos-mview-core/src/expand/subroutines.rs:31-441", "leptos-mview-core/src/ast/children.rs:26-45", "leptos-mview-core/src/ast/value.rs:74-108"]}
{"id": "C66", "title": "While a view is typed, what is already there is kept", "statement": "Take any view without syntax errors and cut it at any place, at any depth. What is left is read as the same tree up to that place: all children, tags, selectors, attributes and closure arguments before it are unchanged; only the piece that was cut may be read as something else or be left out, and if its whole element is left out that is reported. There are at most three reports, and they are one of seven lists. Nothing at all is read (so that with the nightly feature no code is made, and an editor sees nothing) only right after the colon of a directive or within {} right after it, or if the last name in it cannot be made an identifier (then the macro panics). In all other cases, with the nightly feature, the code of that tree is made.", "quantifier": "for all views of the grammar, all places in them at all depths, all environments in which unfinished generic arguments are an error", "why_tests_cant": "there are as many unfinished views as places in views; the tests have a handful of them, and compare only the error messages", "anchors": ["leptos-mview-core/src/ast/children.rs:59-149", "leptos-mview-core/src/ast/element.rs:53-185", "leptos-mview-core/src/ast/attribute.rs:22-70", "leptos-mview-core/src/ast/attribute/kv.rs:41-62", "leptos-mview-core/src/ast/attribute/directive.rs:39-76", "leptos-mview-core/src/ast/attribute/selector.rs:57-100", "leptos-mview-core/src/ast/tag.rs:62-110", "leptos-mview-core/src/ast/value.rs:44-72", "leptos-mview-core/src/ast/value.rs:124-140"]}
{"id": "C67", "title": "Embedded code is only carried along", "statement": "What is in brackets ([...], f[...]) is never looked at: for every view, right or wrong, in which the contents of some brackets at any depth are left open, there is one result (the same reports with the same spans, or the same panic, or the same expansion in which only contents of groups are left open), and it is the result for whatever is put into the brackets. So replacing code in brackets never adds, removes or moves a report. For views without syntax errors the same holds of the code in all values, blocks too: the expansion for other code is the same expansion with the code replaced. Contents of blocks do decide what is read in a view that is being parsed (element children, spreads), so the first claim does not hold of braces.", "quantifier": "for all token streams with holes, all contents of the holes, all trees, all replacements of code", "why_tests_cant": "two runs of the macro are compared, for all pieces of code whatsoever, including ones no parser would accept", "anchors": ["leptos-mview-core/src/ast/value.rs:17-72", "leptos-mview-core/src/ast/value.rs:74-120", "leptos-mview-core/src/parse.rs:1-60", "leptos-mview-core/src/ast/children.rs:59-149", "leptos-mview-core/src/expand.rs:1-120"]}
{"id": "C68", "title": "White space does not matter", "statement": "Two views, right or wrong, that differ only in white space are treated alike: the same list of reports, or the same panic, or expansions that differ at most in the spacing of the code passed on; the same with the nightly feature. So `p . c data - x = {1} on : click = {f} ;` means what `p.c data-x={1} on:click={f};` means. Excepted is white space between the two characters of `::` and `..`, of `<<` and `<=`, and after the quote of a lifetime; between `: :`, `. .` and `< =` it does change the result. When white space is put in or taken out the spans of the tokens move; the span of every report, and of every token of the expansion, moves along.", "quantifier": "for all pairs of token streams that differ in spacing only, at any depth", "why_tests_cant": "two runs of the macro are compared, for all views and all ways of spacing them", "anchors": ["leptos-mview-core/src/ast/ident.rs:110-163", "leptos-mview-core/src/ast/attribute/selector.rs:1-60", "leptos-mview-core/src/ast/tag.rs:1-60", "leptos-mview-core/src/ast/element.rs:50-149", "leptos-mview-core/src/parse.rs:1-60", "leptos-mview-core/src/lib.rs:24-65"]}
{"id": "C69", "title": "Parts of a view can be taken out without harm to the rest", "statement": "If a view expands, then so does every view that is read as the same tree with some selectors, attributes, modifiers, children or slots taken out, at any depth (as one does by commenting them out). Its code is the code there was before with something left out: nothing is added and nothing is moved, up to the order of slots, unless no children are left at all. In a view with mistakes no new report and no panic comes up: what is reported are some of the reports before, in the same order (slots at the root hide all others, so not all of these may go); the same with the nightly feature. What is left can be written as a view, unless a name starts or ends with a dash: in `p a b={2} -c={3};` taking out `b={2}` makes `a-c` of the names around it. Closure arguments and values cannot be taken out in this sense: something else is written for them.", "quantifier": "for all views, all trees with any parts taken out at any depth, and all slot orders", "why_tests_cant": "two runs of the macro are compared, for all views and all choices of parts to take out", "anchors": ["leptos-mview-core/src/expand.rs:1-387", "leptos-mview-core/src/expand/subroutines.rs:1-446", "leptos-mview-core/src/expand/utils.rs:1-74", "leptos-mview-core/src/ast/element.rs:50-149", "leptos-mview-core/src/lib.rs:24-65"]}
{"id": "C70", "title": "What is written in a block stays in the block", "statement": "Take a view with the block of some element in it, at any depth, where everything before the block is well-formed and anything may come after it, and put anything else into the block, well-formed or not. Then what is read around the block stays as it is: the children before and after it, the tag, selectors, attributes and arguments of the element that owns it, and so on outwards. The syntax reports of the view are the reports of the block followed by the reports of the rest, which are always the same; if reading is given up in the block (at a directive that is no directive) or panics there, then so for the whole view, and the rest is not reported. If both views expand, their codes are the same but for the code of the element that owns the block, up to the order of slots. (A block of braces must still be a block of children: `{x}` alone is an attribute.)", "quantifier": "for all places of a block in a view, all contents of the block, all slot orders", "why_tests_cant": "two runs of the macro are compared, for all places and all pairs of contents, broken ones included", "anchors": ["leptos-mview-core/src/ast/children.rs:1-142", "leptos-mview-core/src/ast/element.rs:50-149", "leptos-mview-core/src/expand.rs:1-387", "leptos-mview-core/src/expand/subroutines.rs:1-446", "leptos-mview-core/src/lib.rs:24-65"]}
{"id": "C71", "title": "A change of one child changes only what is about that child", "statement": "Take two views with the same tree but for one child, at any depth: a value or an element in place of another value or element (with other attributes, another tag, other children), or a slot in place of another slot of the same name. If both expand, then their expansions are token for token the same but for the code of that child, up to the order of slots; if no code is made for the child (in slots of HTML elements) they are the same. If something is reported, then the two lists of reports are the same but for the reports about that child, which are at the same place in the list; the same with the nightly feature. A panic that the change brings about is one about the new child. (A slot of another name changes more: two slots of one name are passed as a vector.)", "quantifier": "for all pairs of views that differ in one child, at any depth, and all slot orders", "why_tests_cant": "two runs of the macro are compared, for all views, all places and all pairs of children", "anchors": ["leptos-mview-core/src/expand.rs:1-387", "leptos-mview-core/src/expand/subroutines.rs:1-446", "leptos-mview-core/src/ast/children.rs:1-149", "leptos-mview-core/src/lib.rs:24-65"]}
{"id": "C72", "title": "How attributes of different sorts are mixed does not matter", "statement": "Mix the attributes of elements in another way, at any depth, so that each sort of attributes keeps its order (on HTML elements: key=value, directives, spreads; on components and slots: key=value, clone:, and the other directives together with spreads); likewise classes and ids. Then the expansion is the same, token for token, for each order of slots. If something is reported, the same is reported, maybe in another order, and with the nightly feature the same tokens are given next to the reports. If one view panics, so does the other. Such a tree can always be written as a view, unless names have dashes at their ends. Two attribute lists can be made from each other by such exchanges exactly if they have the same attributes of each sort in the same order.", "quantifier": "for all views, all ways of mixing attributes at any depth, and all slot orders", "why_tests_cant": "two runs of the macro are compared, for all views and all ways of mixing", "anchors": ["leptos-mview-core/src/expand.rs:85-128", "leptos-mview-core/src/expand.rs:161-313", "leptos-mview-core/src/expand/subroutines.rs:125-143"]}
{"id": "C73", "title": "Where slots stand among the other children does not matter", "statement": "Move slots over other children, at any depth, so that the slots keep their order and so do the other children. If the order in which the map of slots is gone through does not depend on the place of a component, everything is the same: the expansion, the reports and their order, panics, and with the nightly feature the tokens next to the reports. In any case it is the same up to the order of slots. Such a tree can always be written as a view, and all lists of children with the same slots and the same other children, each in the same order, are covered.", "quantifier": "for all views, all ways of moving slots at any depth, and all slot orders", "why_tests_cant": "two runs of the macro are compared, for all views and all ways of moving slots", "anchors": ["leptos-mview-core/src/ast/children.rs:130-149", "leptos-mview-core/src/expand.rs:161-313", "leptos-mview-core/src/expand.rs:339-387"]}
{"id": "C74", "title": "A change of one attribute changes only what is about that attribute", "statement": "Take two views whose trees are the same but for one attribute of one element or slot, at any depth. If the attributes are of the same sort (properties, `clone:` directives, other directives or spreads) and both views expand, the codes are the same but for the code of that attribute, up to the order of slots and literally for some order; without two slot names on one component, literally. For any two attributes: the reports are the same but for those about the attribute, which stay at the same place in the list; and a panic that the change brings about is one about the new attribute.", "quantifier": "for all views, all attributes of all elements and slots in them at any depth, and all attributes put in their place", "why_tests_cant": "two runs of the macro are compared, for all views and all changes of an attribute", "anchors": ["leptos-mview-core/src/expand.rs:85-313", "leptos-mview-core/src/expand/subroutines.rs:145-300", "leptos-mview-core/src/expand/subroutines.rs:371-446"]}
{"id": "C75", "title": "The name of an element is only written", "statement": "Take two views whose trees are the same but for the name of one element that is no component, at any depth; and both names are of the same kind (HTML, SVG, MathML or custom). Then one expands if and only if the other does, one panics if and only if the other does and for the same possible reasons, and the same is reported in the same order. If they expand, the codes differ in nothing but the one token that is the name, up to the order of slots and literally for some order; without two slot names on one component, literally.", "quantifier": "for all views, all elements in them at any depth, and all names of the same kind", "why_tests_cant": "two runs of the macro are compared, for all views and all names", "anchors": ["leptos-mview-core/src/expand.rs:85-128", "leptos-mview-core/src/ast/tag.rs:1-120"]}
{"id": "C76", "title": "The path of a component is only written", "statement": "Take two views whose trees are the same but for the path of one component that is not used as a slot, at any depth; the paths may be of any length and may have generic arguments. Then one expands if and only if the other does, one panics if and only if the other does and for the same possible reasons, and the same is reported in the same order. If they expand, the codes differ in nothing but the code of that component, and this has the same calls and the same attribute entries around the one path or the other; up to the order of slots, and literally for some order; without two slot names on one component, literally.", "quantifier": "for all views, all components in them at any depth, and all paths", "why_tests_cant": "two runs of the macro are compared, for all views and all paths", "anchors": ["leptos-mview-core/src/expand.rs:161-313", "leptos-mview-core/src/ast/tag.rs:1-120"]}
{"id": "C77", "title": "A change of one class or id changes one token", "statement": "Take two views whose trees are the same but for the name of one class or of one id of an element or component, at any depth. Then one expands if and only if the other does, one panics if and only if the other does and for the same possible reasons, and the same is reported in the same order. If they expand, the codes differ in nothing but one token: the block with the name on an element, the literal with the name for a class of a component, and the literal with all ids for an id of a component; up to the order of slots, and literally for some order; without two slot names on one component, literally.", "quantifier": "for all views, all classes and ids of elements and components in them at any depth, and all names", "why_tests_cant": "two runs of the macro are compared, for all views and all names", "anchors": ["leptos-mview-core/src/expand.rs:85-227", "leptos-mview-core/src/expand/subroutines.rs:125-143", "leptos-mview-core/src/ast/attribute/selector.rs:24-60"]}
