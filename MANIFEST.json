{
 "claims": [
  {
   "property": "C01",
   "status": "proved",
   "theorems": [
    "C01_parse_terminates",
    "C01_one_result",
    "C01_read_terminates"
   ],
   "note": "every reachable syntax, any input; stopping includes panics, which are the subject of C09"
  },
  {
   "property": "C02",
   "status": "proved",
   "theorems": [
    "C02_accepted_in_language"
   ],
   "note": "quantifiers with max < min excluded (sensibleRanges); with whitespace, undefined references and composite keywords without nows excluded (wsReady)"
  },
  {
   "property": "C03",
   "status": "proved",
   "theorems": [
    "C03_nodes"
   ],
   "note": "same hypotheses as C02"
  },
  {
   "property": "C04",
   "status": "proved",
   "theorems": [
    "C04_root_node"
   ],
   "note": ""
  },
  {
   "property": "C05",
   "status": "partial",
   "theorems": [
    "C05_nested_partial",
    "C05_left_recursion_partial",
    "C05_grounded_partial",
    "C05_refuted"
   ],
   "note": "false in general: with left recursion a child can end behind its parent (C05_refuted); proved without left recursion, and for left recursion of the kind described in C43, wherever it occurs"
  },
  {
   "property": "C06",
   "status": "proved",
   "theorems": [
    "C06_accepts",
    "C06_accepts_defined"
   ],
   "note": "references to single characters of a class or literal (name:0), composite keywords and nokw on choices excluded; input without U+FFFD"
  },
  {
   "property": "C07",
   "status": "proved",
   "theorems": [
    "C07_tree"
   ],
   "note": "same hypotheses as C06"
  },
  {
   "property": "C08",
   "status": "proved",
   "theorems": [
    "C08_one_outcome"
   ],
   "note": ""
  },
  {
   "property": "C09",
   "status": "partial",
   "theorems": [
    "C09_accepted_partial",
    "C09_prefix_partial",
    "C09_grounded_partial",
    "C09_reader_partial",
    "C09_text_reader_partial",
    "C09_every_reader_partial",
    "C09_self_reference_refuted",
    "C09_keyword_refuted",
    "C09_choice_refuted",
    "C09_building_refuted"
   ],
   "note": "false in general: four kinds of panics exhibited; proved: inputs of which the root definition takes a beginning, by the reference semantics, do not panic, with any reader; a failing reader adds no panics"
  },
  {
   "property": "C10",
   "status": "partial",
   "theorems": [
    "C10_never_accepted_partial",
    "C10_reported_partial",
    "C10_outcomes_partial",
    "C10_invalid_refuted",
    "C10_valid_refuted"
   ],
   "note": "false in general: invalid first byte panics, a legitimate U+FFFD is rejected; proved: such input is never accepted, the error is returned only when the input contains U+FFFD or invalid bytes, and every other answer is a ParseError in the text before the invalid bytes that does not depend on what follows it, an error of Init, or a panic"
  },
  {
   "property": "C11",
   "status": "proved",
   "theorems": [
    "C11_reader_error"
   ],
   "note": ""
  },
  {
   "property": "C12",
   "status": "proved",
   "theorems": [
    "C12_success_at_eof"
   ],
   "note": ""
  },
  {
   "property": "C13",
   "status": "proved",
   "theorems": [
    "C13_error_position"
   ],
   "note": ""
  },
  {
   "property": "C14",
   "status": "proved",
   "theorems": [
    "C14_nokw_sequence"
   ],
   "note": ""
  },
  {
   "property": "C15",
   "status": "partial",
   "theorems": [
    "C15_guarded_partial",
    "C15_refuted"
   ],
   "note": "false: nokw is ignored on choices; proved: a choice all of whose options refuse keywords never takes one"
  },
  {
   "property": "C16",
   "status": "proved",
   "theorems": [
    "C16_whitespace_language"
   ],
   "note": ""
  },
  {
   "property": "C17",
   "status": "partial",
   "theorems": [
    "C17_definitions",
    "C17_identities_partial",
    "C17_keyword_refuted"
   ],
   "note": "names, count and identities of all definitions proved; identities of the parsers taking part proved when keywords are literals, choices or nows; false for keywords that are sequences with whitespace; references are symbols or defined"
  },
  {
   "property": "C18",
   "status": "proved",
   "theorems": [
    "C18_references",
    "C18_references_plain",
    "C18_generated_refuted"
   ],
   "note": "with or without whitespace definitions; with whitespace the references are symbols or defined: C18_generated_refuted shows that a reference to the generated name :ws, which cannot be defined, is accepted"
  },
  {
   "property": "C19",
   "status": "proved",
   "theorems": [
    "C19_init_idempotent",
    "C19_define_refused",
    "C19_read_refused",
    "C19_initialized_forever",
    "C19_failed_forever"
   ],
   "note": "a call with an invalid name still returns ErrInvalidSymbolName; Generate calls Init first and is not repeated here"
  },
  {
   "property": "C20",
   "status": "proved",
   "theorems": [
    "C20_root",
    "C20_second_root"
   ],
   "note": ""
  },
  {
   "property": "C21",
   "status": "partial",
   "theorems": [
    "C21_unaffected_partial",
    "C21_refuted",
    "C21_class_refuted"
   ],
   "note": "false: a refused duplicate definition becomes the root, and a class or literal refused for its flags keeps its characters registered; proved for the other refusals: after any history, every later sequence of definition calls, ReadSyntax, Init and Parse is answered as if the refused call had not been made"
  },
  {
   "property": "C22",
   "status": "proved",
   "theorems": [
    "C22_registered",
    "C22_names"
   ],
   "note": ""
  },
  {
   "property": "C23",
   "status": "proved",
   "theorems": [
    "C23_reported_pair",
    "C23_refused",
    "C23_any_map_order"
   ],
   "note": ""
  },
  {
   "property": "C24",
   "status": "proved",
   "theorems": [
    "C24_valid",
    "C24_calls",
    "C24_no_child_name",
    "C24_bytes"
   ],
   "note": ""
  },
  {
   "property": "C25",
   "status": "partial",
   "theorems": [
    "C25_normalize",
    "C25_idempotent",
    "C25_counts",
    "C25_inverted_range_refuted",
    "C25_zero_refuted"
   ],
   "note": "normalization proved; false for ranges with max < min and for {0} in the syntax language"
  },
  {
   "property": "C26",
   "status": "proved",
   "theorems": [
    "C26_round_trip",
    "C26_clean"
   ],
   "note": ""
  },
  {
   "property": "C27",
   "status": "proved",
   "theorems": [
    "C27_class",
    "C27_anyChar",
    "C27_literal",
    "C27_match"
   ],
   "note": ""
  },
  {
   "property": "C28",
   "status": "proved",
   "theorems": [
    "C28_exact_set",
    "C28_words",
    "C28_total"
   ],
   "note": ""
  },
  {
   "property": "C29",
   "status": "proved",
   "theorems": [
    "C29_map",
    "C29_capacity",
    "C29_total"
   ],
   "note": ""
  },
  {
   "property": "C30",
   "status": "proved",
   "theorems": [
    "C30_no_trace"
   ],
   "note": ""
  },
  {
   "property": "C31",
   "status": "partial",
   "theorems": [
    "C31_in_turn",
    "C31_after_first_partial",
    "C31_refuted",
    "C31_lasting_refuted"
   ],
   "note": "false when the first calls of Parse run at the same time: a call can fail on a text of the language, and the syntax can stay broken; proved for calls in turn, and for calls at the same time after the first call has returned"
  },
  {
   "property": "C32",
   "status": "proved",
   "theorems": [
    "C32_generated_function",
    "C32_one_result",
    "C32_invalid_syntax",
    "C32_declared_twice_refuted",
    "C32_name_refuted"
   ],
   "note": "for definitions that refer to definitions (refersToDefs), literal keywords and names that can be in Go source text; without these the generated code can fail to compile (_refuted)"
  },
  {
   "property": "C33",
   "status": "partial",
   "theorems": [
    "C33_declarations_partial",
    "C33_refuted"
   ],
   "note": "false: failed writes of the preamble and of the end are not reported; proved for the declarations"
  },
  {
   "property": "C34",
   "status": "partial",
   "theorems": [
    "C34_same_errors_partial",
    "C34_refuted"
   ],
   "note": "proved without whitespace definitions; with them the root definition is not named (C34_refuted), and C32_generated_function gives the rest"
  },
  {
   "property": "C35",
   "status": "partial",
   "theorems": [
    "C35_class",
    "C35_any",
    "C35_literal_partial",
    "C35_quantifier",
    "C35_text_partial",
    "C35_nested_partial",
    "C35_read_partial",
    "C35_choice_partial",
    "C35_literal_refuted",
    "C35_quantifier_refuted",
    "C35_normal",
    "C35_texts_partial"
   ],
   "note": "false of literals with quotes and of a quantified group of one quantified item; proved for classes, literals without quotes, sequences of quantified references, choices of two references at least, and every definition of every text, of any depth, that has none of these (C35_read_partial)"
  },
  {
   "property": "C36",
   "status": "proved",
   "theorems": [
    "C36_comments",
    "C36_none_left"
   ],
   "note": "over the parsed tree: comment nodes anywhere in the tree of a syntax description do not change the result of defining it"
  },
  {
   "property": "C37",
   "status": "partial",
   "theorems": [
    "C37_one_partial",
    "C37_none_partial",
    "C37_many_partial",
    "C37_refuted",
    "C37_empty_refuted"
   ],
   "note": "false: a positional file together with an inline text is accepted, and an empty inline text counts as not given; the rest proved"
  },
  {
   "property": "C38",
   "status": "partial",
   "theorems": [
    "C38_check_line",
    "C38_check_syntax_line",
    "C38_help",
    "C38_one_reading",
    "C38_check",
    "C38_check_syntax",
    "C38_check_otherwise_partial",
    "C38_check_syntax_otherwise_partial",
    "C38_check_syntax_returns_partial",
    "C38_refuted"
   ],
   "note": "check-syntax does not panic when its source has no invalid characters; exit code 0 characterized exactly; otherwise -1 unless Parse panics (C09), which happens (C38_refuted)"
  },
  {
   "property": "C39",
   "status": "proved",
   "theorems": [
    "C39_root_text",
    "C39_node_text"
   ],
   "note": ""
  },
  {
   "property": "C40",
   "status": "partial",
   "theorems": [
    "C40_show_tree_partial",
    "C40_show_line",
    "C40_show_otherwise_partial",
    "C40_show_one",
    "C40_show_prints",
    "C40_empty_leaf_refuted"
   ],
   "note": "names, spans and shape proved; false: a leaf with an empty text is printed without text; the JSON text of it is C52"
  },
  {
   "property": "C41",
   "status": "partial",
   "theorems": [
    "C41_words",
    "C41_wrap_partial",
    "C41_panic_refuted",
    "C41_lost_refuted"
   ],
   "note": "proved when no word is longer than 72 characters; false otherwise"
  },
  {
   "property": "C42",
   "status": "proved",
   "theorems": [
    "C42_only_texts",
    "C42_trees",
    "C42_published",
    "bootstrap_fixpoint"
   ],
   "note": "the grammar is written down by hand from syntax.treerack (SelfGrammar.v), C42_published shows that it is what the text itself says; bootstrap_fixpoint is about the tables of the built-in parser"
  },
  {
   "property": "C43",
   "status": "partial",
   "theorems": [
    "C43_grounded_partial",
    "C43_outcome_partial",
    "C43_accepts_partial",
    "C43_grown_partial",
    "C43_one_extension_partial",
    "C43_left_recursion_partial",
    "C43_repetitions_partial",
    "C43_root_refuted"
   ],
   "note": "false for a root definition with whitespace definitions: a+b is rejected (C43_root_refuted); proved otherwise: any number of left recursive choices, any number of extensions and bases, nested in each other, with whitespace; the extensions stand before or behind the bases, and neither bases nor continuations may be empty; literal keywords, no nokw on choices, input without U+FFFD as in C06"
  },
  {
   "property": "C44",
   "status": "partial",
   "theorems": [
    "C44_define_partial",
    "C44_init_partial",
    "C44_parse_partial",
    "C44_unchanged",
    "C44_later_partial",
    "C44_refuted",
    "C44_later_refuted",
    "C44_before_refuted"
   ],
   "note": "false: Init writes normalized ranges to the item slice of the caller, and changing characters after Init, or items before it, changes what is parsed; proved: definition calls write nothing, Init and Parse write nothing else, items and options can be changed after Init, and a caller that changes nothing gets the behaviour of the value model"
  },
  {
   "property": "C45",
   "status": "partial",
   "theorems": [
    "C45_terminates",
    "C45_no_panic_partial",
    "C45_refuted"
   ],
   "note": "termination proved for every history; no panic proved when all definition calls and ReadSyntax calls before it succeeded; false otherwise: Init panics after a refused duplicate definition with whitespace"
  },
  {
   "property": "C46",
   "status": "proved",
   "theorems": [
    "C46_text",
    "C46_success",
    "C46_one",
    "C46_otherwise",
    "C46_methods"
   ],
   "note": "what a text spells is given by the published grammar and ReadSpec.v"
  },
  {
   "property": "C47",
   "status": "partial",
   "theorems": [
    "C47_returns",
    "C47_valid_partial",
    "C47_reader_partial",
    "C47_invalid_partial",
    "C47_refuted"
   ],
   "note": "false: an input that begins with an invalid byte panics; proved for texts without U+FFFD and invalid bytes, whether the reader fails or not; every other text is refused without effect when ReadSyntax returns"
  },
  {
   "property": "C48",
   "status": "partial",
   "theorems": [
    "C48_words_partial",
    "C48_tree_partial",
    "C48_grown_partial",
    "C48_grown_prefix_partial",
    "C48_grown_nested_partial",
    "C48_refuted",
    "C48_nodes_partial"
   ],
   "note": "false with whitespace when symbols are numbers: names of generated definitions collide; proved otherwise, under the conditions of C06/C07 (literal keywords, no nokw on choices), without left recursion (C48_tree_partial) and with the left recursion of C43 (C48_grown_partial)"
  },
  {
   "property": "C49",
   "status": "partial",
   "theorems": [
    "C49_answers_alike_partial",
    "C49_any_order_partial",
    "C49_refuted",
    "C49_whitespace_order_refuted"
   ],
   "note": "false with whitespace when a keyword is a sequence: whether it is recognized depends on the order; and the order of the whitespace definitions shows in the tree; proved for all other definitions, left recursion, errors and panics included (references are symbols, keywords in the same order among themselves; C49_any_order_partial allows any order of the keywords)"
  },
  {
   "property": "C50",
   "status": "partial",
   "theorems": [
    "C50_answers_alike_partial",
    "C50_needed_partial",
    "C50_unused_partial",
    "C50_reachable_partial",
    "C50_refuted"
   ],
   "note": "false with whitespace when a keyword is a sequence (C50_refuted); proved otherwise, for references that are symbols, errors and panics included"
  },
  {
   "property": "C51",
   "status": "proved",
   "theorems": [
    "C51_node_text",
    "C51_node_fields",
    "C51_error_text",
    "C51_errors_differ",
    "C51_position"
   ],
   "note": "the texts of the errors of strconv and of the reader are not modelled"
  },
  {
   "property": "C52",
   "status": "partial",
   "theorems": [
    "C52_show_json_line_partial",
    "C52_show_prints_line",
    "C52_show_json_partial",
    "C52_show_prints",
    "C52_tree_json",
    "C52_one_tree",
    "C52_characters",
    "C52_indent_refuted"
   ],
   "note": "false for an indentation that is not white space, which is printed as it is; proved otherwise, for the encoder as documented by encoding/json (HTML escaping on)"
  },
  {
   "property": "C53",
   "status": "partial",
   "theorems": [
    "C53_definition_partial",
    "C53_text",
    "C53_offset",
    "C53_text_offset",
    "C53_empty_refuted",
    "C53_farthest_refuted"
   ],
   "note": "false for an empty name with whitespace, and false that the Offset rules the input out: a choice forgets the failure inside the option it takes; proved: the Definition is one of the user, and the Offset is not before what the root takes (under the conditions of C06)"
  },
  {
   "property": "C54",
   "status": "partial",
   "theorems": [
    "C54_calls_partial",
    "C54_text_calls_partial",
    "C54_builtin",
    "C54_one",
    "C54_refuted"
   ],
   "note": "false: sequences are not memoized, and with two sequences that refer to each other n letters take 2^n calls (C54_refuted); proved when every cycle of references passes through a choice, left recursion included, literal keywords; proved for the parser of ReadSyntax; the calls of the builders are in C56"
  },
  {
   "property": "C55",
   "status": "proved",
   "theorems": [
    "C55_depth",
    "C55_text_depth",
    "C55_builtin",
    "C55_one",
    "C55_reached"
   ],
   "note": "C depends on the syntax only; the bound is reached up to a factor (C55_reached); the calls of the builders are in C56"
  },
  {
   "property": "C56",
   "status": "proved",
   "theorems": [
    "C56_calls",
    "C56_depth",
    "C56_tree",
    "C56_one"
   ],
   "note": "C depends on the syntax only; no condition on the definitions"
  },
  {
   "property": "C57",
   "status": "partial",
   "theorems": [
    "C57_partial",
    "C57_linear_partial",
    "C57_single_partial",
    "C57_refuted"
   ],
   "note": "false: an item whose build does not advance is copied as many times as its minimum, and in a left recursion at every level, so n letters give 2^n nodes (C57_refuted); proved for the different nodes: at most C * (n + 1)^3, the others are copies (C57_partial), and for all the nodes without left recursion: at most C * (n + 1) (C57_linear_partial), and with left recursion when no minimum is above one: at most C * (n + 1)^3 (C57_single_partial)"
  },
  {
   "property": "C58",
   "status": "proved",
   "theorems": [
    "C58_alias_hides_nodes",
    "C58_alias_accepted",
    "C58_root_needed"
   ],
   "note": "left recursion, whitespace and keywords included; C58_root_needed: the root cannot be an alias"
  },
  {
   "property": "C59",
   "status": "proved",
   "theorems": [
    "C59_renaming",
    "C59_different_names"
   ],
   "note": "left recursion, whitespace and keywords included; C59_different_names: a name that is taken is refused"
  },
  {
   "property": "C60",
   "status": "proved",
   "theorems": [
    "C60_nows_without_whitespace",
    "C60_nokw_without_keywords",
    "C60_failpass_is_for_errors",
    "C60_conditions_needed"
   ],
   "note": "for FailPass both syntaxes must pass Init, since the flag is refused on the root, and a rejected input is one with a ParseError or a panic (C05); C60_conditions_needed: with whitespace, with keywords and for the errors the flags do have an effect"
  },
  {
   "property": "C61",
   "status": "proved",
   "theorems": [
    "C61_written_out",
    "C61_conditions_needed"
   ],
   "note": "for the syntaxes of C06: without left recursion, keywords are literals, no choice has nokw, references are to definitions, and inputs without U+FFFD; both syntaxes pass Init; C61_conditions_needed: with whitespace the two conditions on the parts are needed"
  },
  {
   "property": "C62",
   "status": "partial",
   "theorems": [
    "C62_language_partial",
    "C62_spaced_partial",
    "C62_text_partial",
    "C62_check",
    "C62_spaced_check",
    "C62_language_refuted"
   ],
   "note": "the full statement is false: C62_language_refuted has texts of a* a and of (a|ab) bc that are rejected; C62_language_partial: for definitions that are predictive, which C62_check and C62_spaced_check establish by a computation, without left recursion, keywords are literals, no choice has nokw, references are to definitions, and inputs without U+FFFD; C62_spaced_partial: with whitespace definitions, whose pieces are single characters; C62_text_partial: syntaxes read from a text"
  },
  {
   "property": "C63",
   "status": "partial",
   "theorems": [
    "C63_documents_partial",
    "C63_rfc_partial",
    "C63_rfc_refuted"
   ],
   "note": "the full statement is false: C63_rfc_refuted shows that upper case digits after backslash and u are rejected, that U+FFFD in a string makes Parse panic, that other control characters are accepted in strings, and backspace as whitespace; C63_documents_partial: exactly the JSON documents with the characters of the example, inputs without U+FFFD; C63_rfc_partial: RFC 8259 documents without upper case digits after backslash and u are accepted, and only RFC 8259 documents are when the input has no characters that RFC 8259 forbids everywhere"
  },
  {
   "property": "C64",
   "status": "partial",
   "theorems": [
    "C64_definition",
    "C64_root",
    "C64_plain",
    "C48_nodes_partial"
   ],
   "note": "MeaningSpec.v gives every expression a set of texts, with and without whitespace; C64_definition and C64_root: these are the texts of the definitions that C02, C03 and C48 are about, for every syntax text; C64_plain: the same with the simpler meaning for texts without whitespace definitions; C48_nodes_partial: the nodes of parsed trees keep to them. Missing: that Parse accepts all of them, which is false in general (choices and quantifiers are greedy) and proved for the grammars of C62"
  },
  {
   "property": "C65",
   "status": "partial",
   "theorems": [
    "C65_generate",
    "C65_generate_ends_partial",
    "C65_generate_one",
    "C65_generate_help",
    "C65_main",
    "C65_no_command",
    "C65_generate_terminates",
    "C65_returns",
    "C65_generate_returns",
    "C65_invalid_refuted"
   ],
   "note": "exit code 0 and what is written characterized exactly, and the choice of the command; no panic when the sources have no invalid characters, false otherwise (C65_invalid_refuted); Generate returns for every syntax made by successful calls"
  },
  {
   "property": "C66",
   "status": "proved",
   "theorems": [
    "C66_generate_check_syntax",
    "C66_show_check",
    "C66_generate_code",
    "C66_show_code",
    "C66_check_check_syntax",
    "C66_failing_write_refuted"
   ],
   "note": "for arguments that both commands understand and that do not ask for help; the condition on the writes is needed (C66_failing_write_refuted)"
  },
  {
   "property": "C67",
   "status": "proved",
   "theorems": [
    "C67_check",
    "C67_show",
    "C67_check_syntax",
    "C67_generate",
    "C67_check_same",
    "C67_show_same",
    "C67_check_syntax_same",
    "C67_generate_same",
    "C67_empty_refuted"
   ],
   "note": "the runs are the same, with their exit codes, outputs and panics; an empty text cannot be given on the command line (C67_empty_refuted)"
  }
 ]
}