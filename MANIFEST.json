{
 "claims": [
  {
   "property": "C01",
   "status": "proved",
   "theorems": [
    "C01_definite_outcome",
    "C01_fuel_irrelevant"
   ],
   "note": "For all inputs; fuel irrelevance is stated separately."
  },
  {
   "property": "C02",
   "status": "proved",
   "theorems": [
    "C02_accepts_only_grammar"
   ],
   "note": ""
  },
  {
   "property": "C03",
   "status": "proved",
   "theorems": [
    "C03_accepts_grammar"
   ],
   "note": ""
  },
  {
   "property": "C04",
   "status": "proved",
   "theorems": [
    "C04_grammar_unambiguous"
   ],
   "note": ""
  },
  {
   "property": "C05",
   "status": "proved",
   "theorems": [
    "C05_siblings",
    "C05_accepted"
   ],
   "note": ""
  },
  {
   "property": "C06",
   "status": "proved",
   "theorems": [
    "C06_errors_are_atomic",
    "C06_expansion_is_complete"
   ],
   "note": ""
  },
  {
   "property": "C07",
   "status": "proved",
   "theorems": [
    "C07_panics_confined",
    "C07_each_kind_panics"
   ],
   "note": "Confinement for all inputs; one panicking witness per kind."
  },
  {
   "property": "C08",
   "status": "proved",
   "theorems": [
    "C08_html_children"
   ],
   "note": ""
  },
  {
   "property": "C09",
   "status": "proved",
   "theorems": [
    "C09_component_children"
   ],
   "note": ""
  },
  {
   "property": "C10",
   "status": "proved",
   "theorems": [
    "C10_root"
   ],
   "note": ""
  },
  {
   "property": "C11",
   "status": "proved",
   "theorems": [
    "C11_html_call_order",
    "C11_interleaving_irrelevant"
   ],
   "note": ""
  },
  {
   "property": "C12",
   "status": "proved",
   "theorems": [
    "C12_html_attribute_routing"
   ],
   "note": ""
  },
  {
   "property": "C13",
   "status": "proved",
   "theorems": [
    "C13_component_props"
   ],
   "note": ""
  },
  {
   "property": "C14",
   "status": "proved",
   "theorems": [
    "C14_classification",
    "C14_tags"
   ],
   "note": ""
  },
  {
   "property": "C15",
   "status": "proved",
   "theorems": [
    "C15_longest_name",
    "C15_no_longer_name",
    "C15_failure",
    "C15_spacing_irrelevant"
   ],
   "note": ""
  },
  {
   "property": "C16",
   "status": "proved",
   "theorems": [
    "C16_name",
    "C16_slot_name",
    "C16_output"
   ],
   "note": "Names, slot method names, and every identifier anywhere in the output."
  },
  {
   "property": "C17",
   "status": "proved",
   "theorems": [
    "C17_embedded_code",
    "C17_from_the_source",
    "C17_bad_prefix",
    "C17_bad_prefix_reported"
   ],
   "note": ""
  },
  {
   "property": "C18",
   "status": "proved",
   "theorems": [
    "C18_bare_is_true"
   ],
   "note": ""
  },
  {
   "property": "C19",
   "status": "proved",
   "theorems": [
    "C19_shorthand",
    "C19_directive"
   ],
   "note": ""
  },
  {
   "property": "C20",
   "status": "proved",
   "theorems": [
    "C20_same",
    "C20_braces",
    "C20_converse_refuted"
   ],
   "note": ""
  },
  {
   "property": "C21",
   "status": "proved",
   "theorems": [
    "C21_turbofish",
    "C21_emitted"
   ],
   "note": ""
  },
  {
   "property": "C22",
   "status": "proved",
   "theorems": [
    "C22_tag",
    "C22_key",
    "C22_directive",
    "C22_shorthand",
    "C22_directive_shorthand",
    "C22_selector",
    "C22_later_tag",
    "C22_later_selector",
    "C22_later_key"
   ],
   "note": ""
  },
  {
   "property": "C23",
   "status": "proved",
   "theorems": [
    "C23_html_directives",
    "C23_others_reported"
   ],
   "note": ""
  },
  {
   "property": "C24",
   "status": "proved",
   "theorems": [
    "C24_component_entries",
    "C24_unknown_reported"
   ],
   "note": ""
  },
  {
   "property": "C25",
   "status": "proved",
   "theorems": [
    "C25_component_selectors"
   ],
   "note": ""
  },
  {
   "property": "C26",
   "status": "proved",
   "theorems": [
    "C26_html_selectors"
   ],
   "note": ""
  },
  {
   "property": "C27",
   "status": "proved",
   "theorems": [
    "C27_grouped",
    "C27_exactly_once",
    "C27_order"
   ],
   "note": ""
  },
  {
   "property": "C28",
   "status": "proved",
   "theorems": [
    "C28_injective",
    "C28_function",
    "C28_distinct",
    "C28_collision"
   ],
   "note": ""
  },
  {
   "property": "C29",
   "status": "proved",
   "theorems": [
    "C29_root_slot",
    "C29_tokens"
   ],
   "note": ""
  },
  {
   "property": "C30",
   "status": "proved",
   "theorems": [
    "C30_ignored",
    "C30_refuted"
   ],
   "note": ""
  },
  {
   "property": "C31",
   "status": "proved",
   "theorems": [
    "C31_not_expanded",
    "C31_reported"
   ],
   "note": ""
  },
  {
   "property": "C32",
   "status": "proved",
   "theorems": [
    "C32_verbatim",
    "C32_read",
    "C32_code",
    "C32_no_second_pipe",
    "C32_no_block"
   ],
   "note": ""
  },
  {
   "property": "C33",
   "status": "proved",
   "theorems": [
    "C33_ignored",
    "C33_html"
   ],
   "note": ""
  },
  {
   "property": "C34",
   "status": "proved",
   "theorems": [
    "C34_clones",
    "C34_value_reported",
    "C34_childless"
   ],
   "note": ""
  },
  {
   "property": "C35",
   "status": "proved",
   "theorems": [
    "C35_once",
    "C35_at_most_twice",
    "C35_refuted"
   ],
   "note": "Proved with one more condition than the statement has: the literal is not in the generic arguments of a tag, which are emitted twice. C35_refuted gives an input for every condition; C35_at_most_twice needs none."
  },
  {
   "property": "C36",
   "status": "proved",
   "theorems": [
    "C36_semicolon",
    "C36_reported"
   ],
   "note": ""
  },
  {
   "property": "C37",
   "status": "proved",
   "theorems": [
    "C37_missing_value",
    "C37_directive"
   ],
   "note": ""
  },
  {
   "property": "C38",
   "status": "proved",
   "theorems": [
    "C38_html",
    "C38_html_reported",
    "C38_component_ignored",
    "C38_refuted"
   ],
   "note": ""
  },
  {
   "property": "C39",
   "status": "proved",
   "theorems": [
    "C39_attempt",
    "C39_group",
    "C39_attrs",
    "C39_selectors",
    "C39_value",
    "C39_leak",
    "C39_duplicate"
   ],
   "note": "Exact characterisation of the loops, what a failing attempt may report, and a witness of a duplicated report."
  },
  {
   "property": "C40",
   "status": "proved",
   "theorems": [
    "C40_literal_child"
   ],
   "note": ""
  },
  {
   "property": "C41",
   "status": "proved",
   "theorems": [
    "C41_verdict",
    "C41_same"
   ],
   "note": ""
  },
  {
   "property": "C42",
   "status": "proved",
   "theorems": [
    "C42_unterminated"
   ],
   "note": ""
  },
  {
   "property": "C43",
   "status": "proved",
   "theorems": [
    "C43_expansion_is_meaning",
    "C43_meaning_is_expanded",
    "C43_every_meaning"
   ],
   "note": "Soundness and totality of the whole macro against grammar + emitted-code specification; the specification leaves only the order of slot calls open, and C43_every_meaning shows that each code it allows is the expansion for some order."
  },
  {
   "property": "C44",
   "status": "proved",
   "theorems": [
    "C44_origin",
    "C44_fresh",
    "C44_placeholders"
   ],
   "note": ""
  },
  {
   "property": "C45",
   "status": "proved",
   "theorems": [
    "C45_siblings",
    "C45_html",
    "C45_component"
   ],
   "note": "Proved for environments whose slot order does not depend on the place of the component (the modelled parameter allows any). With a place-dependent order (a freshly seeded hash map per component) the pieces agree up to the order of the slot calls, see C41."
  },
  {
   "property": "C46",
   "status": "proved",
   "theorems": [
    "C46_back_ends",
    "C46_semicolon",
    "C46_literal",
    "C46_unterminated",
    "C46_missing_value",
    "C46_missing_directive",
    "C46_no_child",
    "C46_no_end",
    "C46_no_block"
   ],
   "note": "One theorem per recovery, for every place in a view; C46_back_ends relates the stable and the nightly back end. The nightly back end of proc_macro_error2 is modelled from its documented behaviour (Nightly.v)."
  },
  {
   "property": "C47",
   "status": "proved",
   "theorems": [
    "C47_reports",
    "C47_reports_nightly",
    "C47_tidy",
    "C47_tidy_expands"
   ],
   "note": "C47_reports / C47_reports_nightly: the exact list of reports of a view without syntax errors (a panic excepted, C07). C47_tidy / C47_tidy_expands: dropping what is rejected."
  },
  {
   "property": "C48",
   "status": "proved",
   "theorems": [
    "C48_expression",
    "C48_template"
   ],
   "note": "SpecRust.v gives the fragment of Rust's expression grammar, with scopes, that expansions are written in (it accepts less than Rust does). The judgement about user code is an arbitrary parameter of the theorem. C48_template: with all user code accepted, every expansion is an expression."
  },
  {
   "property": "C49",
   "status": "proved",
   "theorems": [
    "C49_layout",
    "C49_layout_nightly",
    "C49_model"
   ],
   "note": "C49_layout, C49_layout_nightly: same tokens and errors up to spans. C49_model: the model with spans (S*.v) refines the model without spans."
  },
  {
   "property": "C50",
   "status": "proved",
   "theorems": [
    "C50_move",
    "C50_move_nightly",
    "C50_closed",
    "C50_stable",
    "C50_inside"
   ],
   "note": "C50_move, C50_move_nightly: equivariance. C50_closed: no span from elsewhere; C50_stable and C50_inside: what this means on stable and nightly Rust."
  },
  {
   "property": "C51",
   "status": "proved",
   "theorems": [
    "C51_tree",
    "C51_places",
    "C51_places_nightly",
    "C51_in_the_view"
   ],
   "note": "C51_tree: one tree with spans per view. C51_places, C51_places_nightly: exactly these reports at these places. C51_in_the_view: none at the call site."
  },
  {
   "property": "C52",
   "status": "proved",
   "theorems": [
    "C52_tokens",
    "C52_tokens_nightly",
    "C52_call_site",
    "C52_names"
   ],
   "note": "Tokens are looked at one by one (a group as three delimiters, a method name as a word after a dot). Says where a token may be; that it is there is C53."
  },
  {
   "property": "C53",
   "status": "proved",
   "theorems": [
    "C53_kept"
   ],
   "note": "About views that expand without reports. Says that the parts occur, with their spans; the whole expansion, in order, is described without spans by C43."
  },
  {
   "property": "C54",
   "status": "proved",
   "theorems": [
    "C54_reports",
    "C54_reports_nightly",
    "C54_aborts",
    "C54_panics",
    "C54_described",
    "C54_once",
    "C54_clean"
   ],
   "note": "C54_described and C54_once: every view has exactly one description. C54_reports, C54_reports_nightly, C54_aborts, C54_panics: the macro reports what it says, or panics where it says so. C54_clean: without reports it is the grammar. C54_reports leaves open whether expanding the tree panics (C55)."
  },
  {
   "property": "C55",
   "status": "proved",
   "theorems": [
    "C55_panics",
    "C55_panics_nightly",
    "C55_grammar",
    "C55_expanded"
   ],
   "note": "C55_panics, C55_panics_nightly: for any view by its description (C54) and the tree. C55_grammar: for views of the grammar, without spans. C55_expanded: which views are expanded."
  },
  {
   "property": "C56",
   "status": "proved",
   "theorems": [
    "C56_written",
    "C56_parsed",
    "C56_each"
   ],
   "note": "C56_written: against the grammar. C56_parsed: against the parser. C56_each: siblings do not matter. C56_none_case, C56_order_case: trees no view is read as."
  },
  {
   "property": "C57",
   "status": "proved",
   "theorems": [
    "C57_bound",
    "C57_reached"
   ],
   "note": "C57_bound: the bound. C57_reached: for every depth a view that reaches it, so factor and constant are exact. C57_case, C57_empty_case: concrete counts."
  },
  {
   "property": "C58",
   "status": "proved",
   "theorems": [
    "C58_bound",
    "C58_bound_nightly",
    "C58_reached"
   ],
   "note": "C58_bound, C58_bound_nightly: the bound. C58_reached: for every k a view of 2k tokens (k > 0) with exactly 3k reports. C58_case, C58_twice_case: concrete counts, the second with a name whose raw identifiers are reported twice."
  },
  {
   "property": "C59",
   "status": "proved",
   "theorems": [
    "C59_gaps",
    "C59_grammar",
    "C59_code"
   ],
   "note": "C59_gaps: for every view that can be read to its end (the others are C54_aborts and C54_panics). C59_grammar: for views of the grammar, without spans. C59_code: agreement with the code of error-free trees."
  },
  {
   "property": "C60",
   "status": "proved",
   "theorems": [
    "C60_told_apart",
    "C60_equal",
    "C60_ids"
   ],
   "note": "C60_told_apart: the same expansion only for equal trees. C60_equal: equal trees have the same expansions, each for some order of the slot maps."
  },
  {
   "property": "C61",
   "status": "proved",
   "theorems": [
    "C61_same_parser",
    "C61_linear",
    "C61_every_token",
    "C61_nested_case",
    "C61_case"
   ],
   "note": "C61_same_parser: the counting parser is the parser of the model. C61_linear: the bound. C61_every_token: a lower bound. C61_nested_case: the exact count for blocks in blocks."
  },
  {
   "property": "C62",
   "status": "proved",
   "theorems": [
    "C62_runs"
   ],
   "note": "C62_runs. Its reading of leptos (SpecRun.v) is checked by the repository's own rendering tests (C62_html, C62_values, C62_spread, C62_components, C62_slots). C62_method_case and C62_comma_case show that the hypotheses are needed; C62_content_case: inner_html against inner-html."
  },
  {
   "property": "C63",
   "status": "proved",
   "theorems": [
    "C63_tokens",
    "C63_cut",
    "C63_call_site",
    "C63_names"
   ],
   "note": "C63_tokens, C63_call_site, C63_names for views that can be read to their end; C63_cut for the others that give tokens."
  },
  {
   "property": "C64",
   "status": "proved",
   "theorems": [
    "C64_texts",
    "C64_end",
    "C64_unseen",
    "C64_apart"
   ],
   "note": "C64_texts for every report of either back end (texts about generic arguments come from syn and are not modelled: then the view has a `<`); C64_end, C64_unseen, C64_apart. C64_recorded compares with the .stderr files."
  },
  {
   "property": "C65",
   "status": "proved",
   "theorems": [
    "C65_same_expander",
    "C65_linear",
    "C65_expand_linear",
    "C65_every_token",
    "C65_nested_case"
   ],
   "note": "C65_same_expander: the expander that counts is the expander. C65_linear for the whole macro, C65_expand_linear for expansion alone; C65_nested_case gives the exact count for components nested n deep, for every n. C65_every_token: nothing is left out of the count."
  },
  {
   "property": "C66",
   "status": "proved",
   "theorems": [
    "C66_reading",
    "C66_code",
    "C66_few_reports"
   ],
   "note": "C66_reading: tree, reports, aborts and panics of every cut view. C66_code: the code with the nightly feature. C66_few_reports: at most three. C66_case lists the reports at each place of a view; C66_span_case: p { span } is an attribute until more is typed."
  },
  {
   "property": "C67",
   "status": "proved",
   "theorems": [
    "C67_brackets",
    "C67_brackets_nightly",
    "C67_code",
    "C67_code_nightly"
   ],
   "note": "C67_brackets(_nightly): one result for all contents of brackets. C67_reports: reports do not depend on them. C67_code(_nightly): one result for all code in values. C67_not_in_braces: the first claim is false of braces."
  },
  {
   "property": "C68",
   "status": "proved",
   "theorems": [
    "C68_white_space",
    "C68_white_space_nightly",
    "C68_spans",
    "C68_spans_nightly"
   ],
   "note": "C68_white_space(_nightly): same reports, same panic, or the same expansion but for the spacing of code passed on. C68_spans(_nightly): reports and code move along with the tokens. C68_colons, C68_dots, C68_less_equal: the exceptions are needed."
  },
  {
   "property": "C69",
   "status": "proved",
   "theorems": [
    "C69_taken_out",
    "C69_one_name",
    "C69_reports",
    "C69_reports_nightly",
    "C69_written"
   ],
   "note": "C69_taken_out: the rest expands, to code that is in the code before. C69_one_name: literally so if no component has slots of two names. C69_reports(_nightly): no new reports or panics. C69_written: the rest can be written. C69_joined, C69_unwritten, C69_hidden, C69_not_parts: what the conditions are for."
  },
  {
   "property": "C70",
   "status": "proved",
   "theorems": [
    "C70_confined",
    "C70_rest",
    "C70_nightly",
    "C70_code",
    "C70_one_name"
   ],
   "note": "C70_confined: the reading of a view is that of the block in layers that do not depend on the block. C70_rest: what this means for reports. C70_nightly: what the compiler is given. C70_code, C70_one_name: the codes differ only in the code of the owner of the block. C70_stopped, C70_brace: what the conditions are for."
  },
  {
   "property": "C71",
   "status": "proved",
   "theorems": [
    "C71_code",
    "C71_one_name",
    "C71_reports",
    "C71_reports_nightly",
    "C71_panics",
    "C71_panics_alike"
   ],
   "note": "C71_code: expansions differ only in the code of the child. C71_one_name: literally so if no component has slots of two names. C71_reports(_nightly): reports differ only in those about the child. C71_other_slot: why slots must have the same name. C71_panics: a new panic is about the new child; C71_panics_alike: none is caused or prevented if neither child is a reason for one."
  },
  {
   "property": "C72",
   "status": "proved",
   "theorems": [
    "C72_same",
    "C72_nightly",
    "C72_written",
    "C72_when"
   ],
   "note": "C72_same: same expansion, permuted reports, panics alike. C72_nightly: same tokens next to the reports. C72_written: mixed trees can be written. C72_when: which attribute lists these are. C72_order_matters: the order within one sort does matter."
  },
  {
   "property": "C73",
   "status": "proved",
   "theorems": [
    "C73_steady",
    "C73_verdict",
    "C73_written",
    "C73_when"
   ],
   "note": "C73_steady: everything is equal for slot orders that do not depend on the place. C73_verdict: equal up to the order of slots for all. C73_written: such trees can be written. C73_when: which lists are covered. C73_order_matters: other exchanges do matter."
  },
  {
   "property": "C74",
   "status": "proved",
   "theorems": [
    "C74_code",
    "C74_one_name",
    "C74_reports",
    "C74_reports_nightly",
    "C74_panics",
    "C74_panics_alike"
   ],
   "note": "C74_code: the codes differ in the code of the attribute only, up to the order of slots. C74_one_name: literally. C74_reports, C74_reports_nightly: the reports. C74_panics, C74_panics_alike: panics. C74_other_sort: why the sort matters."
  },
  {
   "property": "C75",
   "status": "proved",
   "theorems": [
    "C75_panics",
    "C75_reports",
    "C75_reports_nightly",
    "C75_code",
    "C75_one_name"
   ],
   "note": "C75_panics, C75_reports, C75_reports_nightly: the verdict is the same. C75_code: the codes differ in one token, up to the order of slots. C75_one_name: literally. C75_other_kind: why the kind matters."
  },
  {
   "property": "C76",
   "status": "proved",
   "theorems": [
    "C76_panics",
    "C76_reports",
    "C76_reports_nightly",
    "C76_code",
    "C76_one_name"
   ],
   "note": "C76_panics, C76_reports, C76_reports_nightly: the verdict is the same. C76_code: the codes differ in the path only, up to the order of slots. C76_one_name: literally. C76_slot: slots are different."
  },
  {
   "property": "C77",
   "status": "proved",
   "theorems": [
    "C77_panics",
    "C77_reports",
    "C77_reports_nightly",
    "C77_code",
    "C77_one_name"
   ],
   "note": "C77_panics, C77_reports, C77_reports_nightly: the verdict is the same. C77_code: the codes differ in one token, up to the order of slots. C77_one_name: literally."
  }
 ]
}