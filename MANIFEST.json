{
 "claims": [
  {
   "property": "C01",
   "status": "proved",
   "theorems": [
    "C01_search_leftmost_longest"
   ],
   "note": ""
  },
  {
   "property": "C02",
   "status": "proved",
   "theorems": [
    "C02_compile_total"
   ],
   "note": ""
  },
  {
   "property": "C03",
   "status": "partial",
   "theorems": [
    "C03_compile_total_partial",
    "C03_blank_closers_refuted"
   ],
   "note": "False of the code as stated: refuted by a concrete syntax (closing delimiter ending in white space). Proved for every syntax, those included, and every source without a place where such a closing delimiter is followed by white space and then a hyphenated opening delimiter (trims_ok); rendering of such templates is covered by C13."
  },
  {
   "property": "C04",
   "status": "proved",
   "theorems": [
    "C04_plain_text",
    "C04_anywhere"
   ],
   "note": "For every syntax, engine and context; to a writer with a single write."
  },
  {
   "property": "C05",
   "status": "proved",
   "theorems": [
    "C05_tokens_tile_source"
   ],
   "note": ""
  },
  {
   "property": "C06",
   "status": "proved",
   "theorems": [
    "C06_whitespace_control"
   ],
   "note": ""
  },
  {
   "property": "C07",
   "status": "proved",
   "theorems": [
    "C07_comments_produce_nothing"
   ],
   "note": ""
  },
  {
   "property": "C08",
   "status": "proved",
   "theorems": [
    "C08_accepted_iff_grammatical"
   ],
   "note": ""
  },
  {
   "property": "C09",
   "status": "proved",
   "theorems": [
    "C09_exact",
    "C09_printed",
    "C09_otherwise",
    "C09_out_of_range_radix",
    "C09_out_of_range_decimal"
   ],
   "note": "A decimal literal out of the 64-bit range is not wrapped but becomes a float. C09_out_of_range_radix assumes that Rust's f64 parser accepts nothing that starts with 0b, 0o or 0x."
  },
  {
   "property": "C10",
   "status": "partial",
   "theorems": [
    "C10_round_trip_partial",
    "C10_refuted"
   ],
   "note": "Proved for every spelling of every string that does not end in a backslash; C10_refuted: no documented spelling of a string that ends in a backslash compiles (bug in lex_string; C53_every_string: an undocumented one does)."
  },
  {
   "property": "C11",
   "status": "proved",
   "theorems": [
    "C11_compiled_means_source"
   ],
   "note": ""
  },
  {
   "property": "C12",
   "status": "proved",
   "theorems": [
    "C12_rendering_terminates"
   ],
   "note": ""
  },
  {
   "property": "C13",
   "status": "partial",
   "theorems": [
    "C13_rendering_never_panics_partial",
    "C13_foreign_names_partial",
    "C13_with_effects_partial",
    "C13_include_in_with_refuted"
   ],
   "note": "False of the code as stated (C13_include_in_with_refuted); proved when no template has a plain include inside a with block, and more generally when the place of each with variable name in sight of an included template is a character range of that template's source; also with user functions that have effects (C13_with_effects_partial). C18_with_variables_exact says exactly which lookups panic."
  },
  {
   "property": "C14",
   "status": "proved",
   "theorems": [
    "C14_too_deep",
    "C14_stops_there",
    "C14_larger_limits",
    "C14_setting"
   ],
   "note": ""
  },
  {
   "property": "C15",
   "status": "proved",
   "theorems": [
    "C15_truthiness",
    "C15_conditionals",
    "C15_always_selects"
   ],
   "note": ""
  },
  {
   "property": "C16",
   "status": "proved",
   "theorems": [
    "C16_for_over_list",
    "C16_for_over_map",
    "C16_for_over_nothing"
   ],
   "note": "Loop variables called `loop` are excluded (the code never finds them); template functions that answer a name differently over time are excluded."
  },
  {
   "property": "C17",
   "status": "partial",
   "theorems": [
    "C17_sequence",
    "C17_with",
    "C17_with_variable",
    "C17_loop_variable",
    "C17_loop_hides_nothing_else",
    "C20_optional_on_loop_variable_refuted"
   ],
   "note": "Proved except that a loop variable does not shadow an outer one for a path whose optional member is missing: false of the code (C20_optional_on_loop_variable_refuted); C17_loop_hides_nothing_else says what such a path means. C17_sequence assumes template functions answer a name always alike."
  },
  {
   "property": "C18",
   "status": "partial",
   "theorems": [
    "C18_include_shares",
    "C18_include_with_isolates",
    "C18_include_limit",
    "C18_nothing_else_matters",
    "C18_variables_visible_partial",
    "C18_with_variables_exact",
    "C18_with_variables_refuted"
   ],
   "note": "Isolation is proved in full; sharing is false of the code for `with` variables (C18_with_variables_refuted) and proved for all other variables; C18_with_variables_exact: what becomes of a with variable."
  },
  {
   "property": "C19",
   "status": "proved",
   "theorems": [
    "C19_path_lookup",
    "C19_emitted_path"
   ],
   "note": "The rule lk_item_absent records what the code does for loop variables (see C20)."
  },
  {
   "property": "C20",
   "status": "partial",
   "theorems": [
    "C20_optional_access_partial",
    "C20_optional_on_loop_variable_refuted"
   ],
   "note": "False of the code as stated; proved for with variables and scopes, and for present members; a missing optional member of a loop variable is proved to mean what the path means outside the loop."
  },
  {
   "property": "C21",
   "status": "proved",
   "theorems": [
    "C21_string_and_writer_agree",
    "C21_buffer"
   ],
   "note": ""
  },
  {
   "property": "C22",
   "status": "proved",
   "theorems": [
    "C22_failing_writers",
    "C22_last_refusal",
    "C22_error_source",
    "feed_refused"
   ],
   "note": ""
  },
  {
   "property": "C23",
   "status": "proved",
   "theorems": [
    "C23_filter_calls",
    "C23_declared_types",
    "C23_only_declared_types"
   ],
   "note": ""
  },
  {
   "property": "C24",
   "status": "proved",
   "theorems": [
    "C24_expression",
    "C24_emitted_expression",
    "C24_elsewhere"
   ],
   "note": ""
  },
  {
   "property": "C25",
   "status": "proved",
   "theorems": [
    "C25_engine_is_two_maps",
    "C25_history_irrelevant",
    "C25_compile_from_syntax"
   ],
   "note": "Every sequence of calls on a new engine is answered as by two finite maps and two settings; failing add_template changes nothing and names the template."
  },
  {
   "property": "C26",
   "status": "proved",
   "theorems": [
    "C26_rules",
    "C26_integers",
    "C26_keys",
    "C26_maps",
    "C26_value_to_itself",
    "C26_from_agrees",
    "C26_results_proper"
   ],
   "note": ""
  },
  {
   "property": "C27",
   "status": "partial",
   "theorems": [
    "C27_places",
    "C27_syntax_errors_partial",
    "C27_render_errors_partial",
    "C27_location_partial",
    "C27_shown_exact",
    "C27_message",
    "C27_refuted"
   ],
   "note": "Line and column are exact when the lines are displayed with one column per byte and the error is not at the end of a source ending with a line break. False otherwise (C27_refuted): to_ln_col mixes byte offsets and display widths. C27_shown_exact: which place is shown instead, and that it is the right one exactly when the lines before take as many columns as bytes."
  },
  {
   "property": "C28",
   "status": "proved",
   "theorems": [
    "C28_errors_name_their_template",
    "C28_compile_errors",
    "C28_root"
   ],
   "note": ""
  },
  {
   "property": "C29",
   "status": "proved",
   "theorems": [
    "C29_default",
    "C29_output",
    "C29_injective",
    "C29_every_value",
    "C29_reads_back"
   ],
   "note": "The text of floats is the Rust standard library's (oracle f64_display)."
  },
  {
   "property": "C30",
   "status": "proved",
   "theorems": [
    "C30_lazy_and_eager_agree",
    "C30_local_variables_stay_local"
   ],
   "note": "Local variables never reach the function, except accesses with an optional member to a loop item (the code continues the search, see C20)."
  },
  {
   "property": "C31",
   "status": "proved",
   "theorems": [
    "C31_only_mentioned_globals"
   ],
   "note": ""
  },
  {
   "property": "C32",
   "status": "proved",
   "theorems": [
    "C32_engine_templates_unused",
    "C32_every_include_asks",
    "C32_success",
    "C32_refusal"
   ],
   "note": ""
  },
  {
   "property": "C33",
   "status": "proved",
   "theorems": [
    "C33_index",
    "C33_too_big"
   ],
   "note": ""
  },
  {
   "property": "C34",
   "status": "proved",
   "theorems": [
    "C34_output_origin",
    "C34_writer",
    "C34_no_injection"
   ],
   "note": ""
  },
  {
   "property": "C35",
   "status": "proved",
   "theorems": [
    "C35_only_what_is_used",
    "C35_unused_template",
    "C35_unused_function"
   ],
   "note": ""
  },
  {
   "property": "C36",
   "status": "proved",
   "theorems": [
    "C36_render_is_convert_then_render_from",
    "C36_render_is_render_from",
    "C36_value_as_context"
   ],
   "note": ""
  },
  {
   "property": "C37",
   "status": "proved",
   "theorems": [
    "C37_floats",
    "C37_booleans"
   ],
   "note": "Rust's f64 parser is the oracle f64_parse."
  },
  {
   "property": "C38",
   "status": "proved",
   "theorems": [
    "C38_compiles",
    "C38_value",
    "C38_determined"
   ],
   "note": "An expression is one opaque token of the macro's input; rustc's recursion limit is not modelled."
  },
  {
   "property": "C39",
   "status": "proved",
   "theorems": [
    "C39_panics",
    "C39_delimiters",
    "C39_last_call_wins",
    "C39_every_syntax",
    "C39_default"
   ],
   "note": ""
  },
  {
   "property": "C40",
   "status": "proved",
   "theorems": [
    "C40_meaning"
   ],
   "note": "Under the side condition that no template includes another, without its own with, from inside a with block (where the code goes wrong: C13, C18)."
  },
  {
   "property": "C41",
   "status": "proved",
   "theorems": [
    "C41_compiles",
    "C41_layout"
   ],
   "note": "C41_layout under the same side condition as C40."
  },
  {
   "property": "C42",
   "status": "proved",
   "theorems": [
    "C42_blame",
    "C42_nothing_else"
   ],
   "note": ""
  },
  {
   "property": "C43",
   "status": "proved",
   "theorems": [
    "C43_short",
    "C43_short_tells",
    "C43_long",
    "C43_syntax_error",
    "C43_render_error"
   ],
   "note": "Widths of texts are the oracle display_width: the carets are stated for sources that take one column per byte (elsewhere the place is off: C27), and for places that end on the line where they begin."
  },
  {
   "property": "C44",
   "status": "proved",
   "theorems": [
    "C44_reason",
    "C43_syntax_error"
   ],
   "note": "Two messages say less than they could, as the code does: `expected token, found EOF` (no token is named), and with a signed literal the place of `invalid digit` is counted from the sign, so it is one or more columns before the digit (clause mk_signed)."
  },
  {
   "property": "C45",
   "status": "proved",
   "theorems": [
    "C45_filter_functions",
    "C45_one_way",
    "C45_called"
   ],
   "note": "Trait resolution is modelled by instantiating the type parameters of each of the 155 impls (implements); that the Rust compiler does the same is trusted."
  },
  {
   "property": "C46",
   "status": "proved",
   "theorems": [
    "C46_concatenation"
   ],
   "note": "For templates that do not include another from inside a with block (as C40), and engines without a template function."
  },
  {
   "property": "C47",
   "status": "proved",
   "theorems": [
    "C47_refactoring"
   ],
   "note": "The laws are the rules of refactors in RefactorSpec.v; results of to_string; for templates that do not include another from inside a with block (as C40). C47_needed shows that the condition on renaming loop variables is needed."
  },
  {
   "property": "C48",
   "status": "proved",
   "theorems": [
    "C48_inlining"
   ],
   "note": "For engines without a template function and templates that do not include another from inside a with block (as C40)."
  },
  {
   "property": "C49",
   "status": "proved",
   "theorems": [
    "C49_extension",
    "C49_adding"
   ],
   "note": "More keys of the top-level map (not of nested maps: C49_needed), more answers of a value function, more functions and templates, larger include limit."
  },
  {
   "property": "C50",
   "status": "proved",
   "theorems": [
    "C50_name_only_in_errors",
    "C50_added_or_compiled"
   ],
   "note": "Same text, same bytes to a writer; errors equal or different in the name only."
  },
  {
   "property": "C51",
   "status": "proved",
   "theorems": [
    "C51_same_engine",
    "C51_compile",
    "C51_add_template",
    "C51_engines",
    "C51_compile_errors",
    "C51_render",
    "C51_write"
   ],
   "note": "C51_needed: why the delimiters have to be ASCII."
  },
  {
   "property": "C52",
   "status": "proved",
   "theorems": [
    "C52_calls_in_order",
    "C52_statements",
    "C52_returns",
    "C52_value_function_asked_once",
    "C52_only_answers_matter",
    "C52_recorded",
    "C52_stateless"
   ],
   "note": "Every user function may have state, refuse, panic or never return. C52_stateless relates this model to the one of the other properties."
  },
  {
   "property": "C53",
   "status": "proved",
   "theorems": [
    "C53_only_these",
    "C53_trees",
    "C53_compiled",
    "C53_behaviour",
    "C53_every_string",
    "C53_every_text"
   ],
   "note": "The direction that finds a source is for the default delimiters and Unicode data that agree with ASCII."
  },
  {
   "property": "C54",
   "status": "proved",
   "theorems": [
    "C54_if",
    "C54_with",
    "C54_for",
    "C54_for_entries",
    "C54_include",
    "C54_errors",
    "C54_path"
   ],
   "note": "C15-C20 restated as equations between the renderings of compiled templates. Side conditions as in the quantifier; the first two reflect findings 2 and 3."
  },
  {
   "property": "C55",
   "status": "proved",
   "theorems": [
    "C55_renaming"
   ],
   "note": "Side conditions as in the quantifier."
  },
  {
   "property": "C56",
   "status": "proved",
   "theorems": [
    "C56_other_engine",
    "C56_no_panic",
    "C56_same_delimiters"
   ],
   "note": "Side conditions as in the quantifier."
  },
  {
   "property": "C57",
   "status": "proved",
   "theorems": [
    "C57_nothing_missing"
   ],
   "note": "Side conditions as in the quantifier."
  },
  {
   "property": "C58",
   "status": "proved",
   "theorems": [
    "C58_errors_tell_the_truth"
   ],
   "note": "Side conditions as in the quantifier."
  },
  {
   "property": "C59",
   "status": "proved",
   "theorems": [
    "C59_errors_point_at_the_fault",
    "C59_shown"
   ],
   "note": "Side conditions as in the quantifier."
  },
  {
   "property": "C60",
   "status": "proved",
   "theorems": [
    "C60_engines",
    "C60_renderings",
    "C60_no_filter_errors",
    "C60_no_filter_called"
   ],
   "note": "The build without the feature is a second model (Slim.v), of lib.rs and core.rs without the parts under cfg(feature = filters)."
  },
  {
   "property": "C61",
   "status": "proved",
   "theorems": [
    "C61_string",
    "C61_writer",
    "C61_ends"
   ],
   "note": "The two engines are related by how their filters take parameters (OwnedSpec.v). For arguments by value a writer that failed earlier may hide the one error that is not kept."
  },
  {
   "property": "C62",
   "status": "proved",
   "theorems": [
    "C62_size",
    "C62_steps"
   ],
   "note": "A step is one instruction; what a step itself costs (a filter call, formatting a value) is not counted."
  },
  {
   "property": "C63",
   "status": "proved",
   "theorems": [
    "C63_to_string",
    "C63_to_writer",
    "C63_good_writer",
    "C63_no_serialization",
    "C63_serializing",
    "C63_compiling",
    "C63_adding"
   ],
   "note": "Which io error it is, is C22; that a filter error comes from a filter and what the others say, C58 and C59."
  },
  {
   "property": "C64",
   "status": "proved",
   "theorems": [
    "C64_escapes",
    "C64_unambiguous",
    "C64_pieces",
    "C64_other_values",
    "C64_output",
    "C64_no_injection",
    "C64_stops"
   ],
   "note": "That floats are displayed without these characters is a hypothesis about the standard library."
  },
  {
   "property": "C65",
   "status": "proved",
   "theorems": [
    "C65_choices",
    "C65_once",
    "C65_generated",
    "C65_every_choice"
   ],
   "note": "C65_generated is an equation between two closed lists, decided by computation; the others quantify over tables and choices."
  },
  {
   "property": "C66",
   "status": "proved",
   "theorems": [
    "C66_counted",
    "C66_steps",
    "C66_alone"
   ],
   "note": "Steps are counted by one budget for the whole rendering, in a machine (WorkSpec.v) which C66_counted shows to be the renderer. A step is an instruction, or the end of a template; what an instruction does inside a filter, a formatter or a writer is the user's. That the filters make no larger lists is needed: many_steps."
  },
  {
   "property": "C67",
   "status": "proved",
   "theorems": [
    "C67_store",
    "C67_same_words",
    "C67_filled",
    "C67_example"
   ],
   "note": "The function is stateless, as in the example; functions with a state are in C32."
  },
  {
   "property": "C68",
   "status": "proved",
   "theorems": [
    "C68_data",
    "C68_compile",
    "C68_render",
    "C68_rendering"
   ],
   "note": "What rendering may do wrong is C13 (partial); C68_missed is data with which the target returns and a rendering would panic."
  },
  {
   "property": "C69",
   "status": "proved",
   "theorems": [
    "C69_values"
   ],
   "note": "Any predicate on values. page_strict: a formatter that refuses markup is not noticed if the context has none; page_strict_marked: with markup it is."
  },
  {
   "property": "C70",
   "status": "proved",
   "theorems": [
    "C70_steps",
    "C70_output",
    "C70_default"
   ],
   "note": "page_output is the bound for the demo page; long_output shows that the bound on formatters is needed."
  },
  {
   "property": "C71",
   "status": "proved",
   "theorems": [
    "C71_debug",
    "C71_points",
    "C71_tells",
    "C71_fields_tell",
    "C71_syntax_error",
    "C71_render_error",
    "C71_compile",
    "C71_add"
   ],
   "note": "That Debug of an io error is one line whose end can be told is a hypothesis about the standard library (io_plain); the characters beyond ASCII it escapes are arbitrary. texts_valid is shown for compile errors (C71_compile, C71_add); elsewhere it says that Strings are UTF-8. `{:#?}` is not modelled."
  }
 ]
}