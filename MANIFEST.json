{
 "claims": [
  {
   "property": "C01",
   "status": "proved",
   "theorems": [
    "C01_terminates"
   ],
   "note": ""
  },
  {
   "property": "C02",
   "status": "proved",
   "theorems": [
    "C02_kinds",
    "C02_nil_error_is_config",
    "C02_fatal_no_value"
   ],
   "note": ""
  },
  {
   "property": "C03",
   "status": "proved",
   "theorems": [
    "C03_whole_input",
    "C03_at_end"
   ],
   "note": ""
  },
  {
   "property": "C04",
   "status": "proved",
   "theorems": [
    "C04_valid_utf8",
    "C04_invalid_rejected",
    "C04_valid_unaffected"
   ],
   "note": ""
  },
  {
   "property": "C05",
   "status": "proved",
   "theorems": [
    "C05_result_history_free",
    "C05_record_history_free",
    "C05_tiny_limit_keeps_record"
   ],
   "note": ""
  },
  {
   "property": "C06",
   "status": "proved",
   "theorems": [
    "C06_only_comments",
    "C06_acceptance",
    "C06_no_comments_left"
   ],
   "note": ""
  },
  {
   "property": "C07",
   "status": "proved",
   "theorems": [
    "C07_only_warnings",
    "C07_no_warnings_without_option"
   ],
   "note": ""
  },
  {
   "property": "C08",
   "status": "proved",
   "theorems": [
    "C08_places",
    "C08_distinct"
   ],
   "note": ""
  },
  {
   "property": "C09",
   "status": "proved",
   "theorems": [
    "C09_positions",
    "C09_nodes"
   ],
   "note": ""
  },
  {
   "property": "C10",
   "status": "proved",
   "theorems": [
    "C10_tokens",
    "C10_nodes",
    "C10_document_order"
   ],
   "note": ""
  },
  {
   "property": "C11",
   "status": "proved",
   "theorems": [
    "C11_sections"
   ],
   "note": ""
  },
  {
   "property": "C12",
   "status": "proved",
   "theorems": [
    "C12_characterised",
    "C12_round_trip",
    "C12_no_section_comments",
    "C12_refuted"
   ],
   "note": "C12_characterised holds for every printable tree; C12_round_trip when the sections of one kind carry the same comments (C12_refuted: needed). printable is decided by printableb (Printable.v)."
  },
  {
   "property": "C13",
   "status": "proved",
   "theorems": [
    "C13_well_formed"
   ],
   "note": ""
  },
  {
   "property": "C14",
   "status": "partial",
   "theorems": [
    "C14_files_partial",
    "C14_settled_partial",
    "C14_second_partial",
    "C14_two_formattings_partial",
    "C14_refuted",
    "C14_blank_lines_only_partial"
   ],
   "note": "The full claim is false of the code (C14_refuted: blank lines before the first comment of a block). Proved for every printable tree: only blank lines can change (C14_blank_lines_only_partial), the second formatting is a fixed point (C14_two_formattings_partial), and nothing changes when the blank lines are as the printer writes them (C14_settled_partial)."
  },
  {
   "property": "C15",
   "status": "proved",
   "theorems": [
    "C15_limit",
    "C15_count"
   ],
   "note": ""
  },
  {
   "property": "C16",
   "status": "proved",
   "theorems": [
    "C16_one_offset_no_duplicates",
    "C16_fatal_entry"
   ],
   "note": ""
  },
  {
   "property": "C17",
   "status": "proved",
   "theorems": [
    "C17_farthest_only",
    "C17_monotone",
    "C17_covers"
   ],
   "note": ""
  },
  {
   "property": "C18",
   "status": "proved",
   "theorems": [
    "C18_unescape_inverts_escape"
   ],
   "note": ""
  },
  {
   "property": "C19",
   "status": "proved",
   "theorems": [
    "C19_unescape_table"
   ],
   "note": ""
  },
  {
   "property": "C20",
   "status": "proved",
   "theorems": [
    "C20_in_file",
    "C20_escape_literal"
   ],
   "note": ""
  },
  {
   "property": "C21",
   "status": "partial",
   "theorems": [
    "C21_in_file_partial",
    "C21_accepts_in_file",
    "C21_refuted",
    "C21_accepts_quotable",
    "C21_partial",
    "C21_exact"
   ],
   "note": "The full statement is false of the code (C21_refuted: an unescaped quote at byte index 0 or 1, or a trailing backslash, is not noticed). Proved: never rejects a quotable value; correct outside those two families; exact behaviour on every value (C21_exact)."
  },
  {
   "property": "C22",
   "status": "partial",
   "theorems": [
    "C22_in_file_partial",
    "C22_refuted",
    "C22_partial"
   ],
   "note": "The full statement is false of the code (C22_refuted). Proved: exact characterisation of the values for which the result is a valid literal, and that only backslashes before quotes are inserted."
  },
  {
   "property": "C23",
   "status": "proved",
   "theorems": [
    "C23_in_file",
    "C23_escaped_in_file",
    "C23_quote_bareword",
    "C23_escape_bareword",
    "C23_rune_count_total"
   ],
   "note": ""
  },
  {
   "property": "C24",
   "status": "proved",
   "theorems": [
    "C24_first_id",
    "C24_not_found"
   ],
   "note": ""
  },
  {
   "property": "C25",
   "status": "proved",
   "theorems": [
    "C25_visits_in_order",
    "C25_visited_entries",
    "C25_visited_list"
   ],
   "note": ""
  },
  {
   "property": "C26",
   "status": "proved",
   "theorems": [
    "C26_edits",
    "C26_one_edit",
    "C26_loop_ends"
   ],
   "note": "C26_edits covers every sequence of operations that stays on the visited entry; C26_one_edit the English statement."
  },
  {
   "property": "C27",
   "status": "proved",
   "theorems": [
    "C27_tree",
    "C27_command",
    "C27_describe",
    "C27_hypothesis"
   ],
   "note": "C27_tree: the walk over any tree the parser can produce; C27_command: the error list of the command. The order is inputs, filters, outputs (the order of the walk), within a section that of the text."
  },
  {
   "property": "C28",
   "status": "proved",
   "theorems": [
    "C28_tree",
    "C28_plugins",
    "C28_found",
    "C28_distinct"
   ],
   "note": "Skeleton and plugin list of the fixed tree determine it. C28_case, C28_collision: a non-string id still fails ID() afterwards (the appended one is shadowed), a generated id may repeat an existing one; the property does not exclude either."
  },
  {
   "property": "C29",
   "status": "proved",
   "theorems": [
    "C29_run",
    "C29_no_fix",
    "C29_untouched",
    "C29_replaced"
   ],
   "note": "lint_run/lint_file give the outcome for every argument list of existing paths, including failing writes."
  },
  {
   "property": "C30",
   "status": "proved",
   "theorems": [
    "C30_check",
    "C30_iff"
   ],
   "note": ""
  },
  {
   "property": "C31",
   "status": "partial",
   "theorems": [
    "C31_check_refuted",
    "C31_lint_refuted",
    "C31_format_partial"
   ],
   "note": "False of the code for check and lint: they panic (C31_check_refuted, C31_lint_refuted, for every argument list). format reports the error and stops."
  },
  {
   "property": "C32",
   "status": "proved",
   "theorems": [
    "C32_print",
    "C32_rewrite",
    "C32_print_stops",
    "C32_rewrite_stops",
    "C32_unwritable_stops"
   ],
   "note": ""
  },
  {
   "property": "C33",
   "status": "partial",
   "theorems": [
    "C33_crash_states",
    "C33_refuted",
    "C33_failed_write_refuted",
    "C33_complete_partial"
   ],
   "note": "False of the code: os.Create truncates the file before the write (C33_refuted; C33_crash_states is the exact set of contents). Proved: without a crash or write error the new content is complete."
  },
  {
   "property": "C34",
   "status": "partial",
   "theorems": [
    "C34_refuted",
    "C34_check_partial",
    "C34_lint_partial",
    "C34_format_partial"
   ],
   "note": "False of the code: the message about an unreadable file quotes the failure of the file parsed before it (C34_refuted, general; C34_witness). Proved: true when all files can be read."
  },
  {
   "property": "C35",
   "status": "proved",
   "theorems": [
    "C35_multi_err",
    "C35_count",
    "C35_trim"
   ],
   "note": ""
  },
  {
   "property": "C36",
   "status": "proved",
   "theorems": [
    "C36_indents",
    "C36_recovered",
    "C36_injective",
    "C36_literal",
    "C36_refuted"
   ],
   "note": "Text in which a line has an unclosed quote (a regular expression such as /it's/) is outside the property's quantifier; C36_refuted shows what happens to it."
  },
  {
   "property": "C37",
   "status": "partial",
   "theorems": [
    "C37_comments_survive_partial",
    "C37_characterised",
    "C37_refuted"
   ],
   "note": "The full claim is false of the code for comments before a second section of one kind (C37_refuted). Proved: all comments of every printable tree, with sections of one kind sharing theirs (C37_characterised)."
  },
  {
   "property": "C38",
   "status": "partial",
   "theorems": [
    "C38_nil_entries_invisible_partial",
    "C38_refuted"
   ],
   "note": "The full claim is false of the code (C38_refuted: an else block of nil entries only is printed as an empty block). Proved for every tree without such an else block."
  },
  {
   "property": "C39",
   "status": "proved",
   "theorems": [
    "C39_integers",
    "C39_node"
   ],
   "note": "Includes literals with leading zeros; -0 prints as -0."
  },
  {
   "property": "C40",
   "status": "partial",
   "theorems": [
    "C40_literals_partial",
    "C40_floats_partial",
    "C40_small_numbers",
    "C40_reading",
    "C40_refuted"
   ],
   "note": "The full claim is false of the code (C40_refuted). Proved: all literals with at most ten decimals, all literals and all float64 values of absolute value at least 10^-4; below that the exact value read back (C40_small_numbers). ParseFloat and the fmt verbs are modelled by their specification (correct rounding, shortest digits)."
  },
  {
   "property": "C41",
   "status": "partial",
   "theorems": [
    "C41_array_elements_partial",
    "C41_no_plugin_partial",
    "C41_refuted"
   ],
   "note": "The full claim is false of the code (C41_refuted: a plugin as first element is dropped silently). Proved for every derivation of the array rule of the grammar: all elements are kept, in order, except a plugin in the first place (in a later place it is an error)."
  },
  {
   "property": "C42",
   "status": "proved",
   "theorems": [
    "C42_option_restores"
   ],
   "note": ""
  },
  {
   "property": "C43",
   "status": "proved",
   "theorems": [
    "C43_accepts_iff_derivable",
    "C43_lenient",
    "C43_unambiguous",
    "C43_total",
    "C43_published_grammar"
   ],
   "note": ""
  },
  {
   "property": "C44",
   "status": "proved",
   "theorems": [
    "C44_rollback",
    "C44_lookahead"
   ],
   "note": ""
  },
  {
   "property": "C45",
   "status": "partial",
   "theorems": [
    "C45_formatted_partial",
    "C45_selector_refuted",
    "C45_regexp_refuted",
    "C45_number_refuted",
    "C45_else_refuted",
    "C45_array_refuted",
    "C45_commands_partial"
   ],
   "note": "False of the code for some accepted files (C45_*_refuted, one for each kind of part of a tree). Proved: true of every accepted file whose tree is expressible, a condition on its numbers, selectors, regular expressions, arrays in conditions and on plugins named like if or else (Accepted.v); sections of one kind share the comments of the first (C12_refuted)."
  },
  {
   "property": "C46",
   "status": "partial",
   "theorems": [
    "C46_fixed_file_partial",
    "C46_second_run_partial",
    "C46_refuted"
   ],
   "note": "False when the name of a plugin without id is written in double quotes (C46_refuted). Proved for expressible trees and all other names; the second run also needs that no plugin has an id that is not a string."
  },
  {
   "property": "C47",
   "status": "proved",
   "theorems": [
    "C47_reads_back"
   ],
   "note": "C20_in_file to C23_in_file state C20 to C23 in terms of the parser, using C47."
  },
  {
   "property": "C48",
   "status": "partial",
   "theorems": [
    "C48_any_schedule_partial",
    "C48_undisturbed_partial",
    "C48_one_at_a_time",
    "C48_all_finish",
    "C48_refuted",
    "C48_getter_refuted",
    "C48_record_refuted"
   ],
   "note": "False of the code: if another Parse begins between two reads in pushError, farthestFailure[0] panics and a valid file is reported as broken (C48_refuted); GetFarthestFailure can crash (C48_getter_refuted) and mix records (C48_record_refuted). Proved: under every schedule a call returns its sequential result or that run time error; it is undisturbed unless another Parse begins while it runs; calls made one at a time are sequential; every fair schedule ends all calls."
  },
  {
   "property": "C49",
   "status": "proved",
   "theorems": [
    "C49_linear",
    "C49_terminates"
   ],
   "note": ""
  },
  {
   "property": "C50",
   "status": "partial",
   "theorems": [
    "C50_refuted",
    "C50_errors_refuted"
   ],
   "note": "False of the code: results taken from the cache do not repeat their warnings (C50_refuted) and errors (C50_errors_refuted). Not proved: that the trees, apart from the warnings, are equal (a labelled expression found in the cache does not bind its label, so this depends on the positions at which each sequence is started)."
  },
  {
   "property": "C51",
   "status": "proved",
   "theorems": [
    "C51_error_positions",
    "C51_default_entry",
    "C51_exception",
    "C51_record",
    "C51_history",
    "C51_text"
   ],
   "note": "One exception, exactly described: with another entry point and a text that starts with a line feed the no-match error at offset 0 says line 1, column 1 (C51_exception shows it)."
  },
  {
   "property": "C52",
   "status": "proved",
   "theorems": [
    "C52_no_match",
    "C52_list",
    "C52_errors_once",
    "C52_one_error"
   ],
   "note": ""
  },
  {
   "property": "C53",
   "status": "proved",
   "theorems": [
    "C53_check",
    "C53_check_report",
    "C53_lint",
    "C53_format",
    "C53_status",
    "C53_output",
    "C53_crash"
   ],
   "note": "Status 2 (a panic) for an argument that cannot be stat'ed is the behaviour of the code (see C31). Command line splitting by cobra and help/version output are not modelled. For --auto-fix-id and format -w, C53_status, C53_crash and C53_output hold; the iff characterisations are for the read-only modes."
  },
  {
   "property": "C54",
   "status": "proved",
   "theorems": [
    "C54_recognised",
    "C54_new",
    "C54_format",
    "C54_id"
   ],
   "note": "Errors are modelled as text, notFoundError, single wrapping (Unwrap) and joined wrapping; Go's %q and %+v of the wrapped error are parameters."
  },
  {
   "property": "C55",
   "status": "proved",
   "theorems": [
    "C55_text_of_tree",
    "C55_comments"
   ],
   "note": "Where an array starts with plugin values the dropped plugins (C41) appear as PLost pieces. Numerals are given by their value (their spelling is not in the tree)."
  },
  {
   "property": "C56",
   "status": "proved",
   "theorems": [
    "C56_reported",
    "C56_no_warning",
    "C56_exception"
   ],
   "note": "The exception in the statement is needed: the comments of a file without any section are neither in the tree nor reported (C56_exception)."
  },
  {
   "property": "C57",
   "status": "proved",
   "theorems": [
    "C57_reads_back",
    "C57_layout_free"
   ],
   "note": "Plugins dropped from arrays (C41) may stand in the text as well. Names taken for keywords are excluded by clear_section."
  },
  {
   "property": "C58",
   "status": "proved",
   "theorems": [
    "C58_accepted_iff_written",
    "C58_tree",
    "C58_unambiguous"
   ],
   "note": "Plugins dropped from arrays (C41) are part of the texts ([lost]). The tree is compared up to positions, comments and warnings (C09-C11, C55 and C56 speak about those). [tree_of] keeps the order of the sections of each kind, as the API does."
  },
  {
   "property": "C59",
   "status": "proved",
   "theorems": [
    "C59_built_reads_back",
    "C59_string_injective",
    "C59_own_place",
    "C59_texts_expressions",
    "C59_texts_values",
    "C59_texts_blocks",
    "C59_array_refuted",
    "C59_kind_refuted",
    "C59_operator_refuted"
   ],
   "note": "The conditions on the arguments are part of the property; C59_array_refuted, C59_kind_refuted and C59_operator_refuted show what happens without three of them. Numbers: C39 and C40 say which ones the printer can write."
  },
  {
   "property": "C60",
   "status": "proved",
   "theorems": [
    "C60_result",
    "C60_nil",
    "C60_global_store",
    "C60_undo"
   ],
   "note": "What Debug prints is not modelled. With a limit and Stats that do not start at zero see C61_limit. Together with Memoize these options are not modelled."
  },
  {
   "property": "C61",
   "status": "proved",
   "theorems": [
    "C61_count",
    "C61_limit",
    "C61_additive",
    "C61_keys",
    "C61_keys_known",
    "C61_total",
    "C61_outcome"
   ],
   "note": "Counters are unbounded numbers in the model. The places of the choices are generated from logstash_config.go (ChoiceGen.v). Together with Memoize Statistics is not modelled."
  },
  {
   "property": "C62",
   "status": "proved",
   "theorems": [
    "C62_accepted",
    "C62_plain",
    "C62_comments",
    "C62_refuted"
   ],
   "note": "The meaning of Treetop grammars (Treetop.v) is that of parsing expression grammars; the rules of grammar.treetop are generated from the file, its Ruby code blocks and node classes are left out (there are no semantic predicates in it). C62_refuted shows that each change is needed."
  },
  {
   "property": "C63",
   "status": "proved",
   "theorems": [
    "C63_no_match",
    "C63_in_language",
    "C63_plain",
    "C63_comments",
    "C63_refuted"
   ],
   "note": "C63_refuted gives texts of grammar.treetop that Parse rejects: by the changed rules (method calls, brackets) and by code (if5 { a => 1 }, else { a => 1 } after a branch, plugins in arrays and hashes). An error without a rule that says \"invalid encoding\" is about the first character."
  },
  {
   "property": "C64",
   "status": "proved",
   "theorems": [
    "C64_reasons",
    "C64_panics",
    "C64_go_values",
    "C64_first"
   ],
   "note": "Error texts that print a Go value are symbolic (the format and the value). The range of numbers is exact (NumRange.v: parse_float_range is an equivalence)."
  },
  {
   "property": "C65",
   "status": "proved",
   "theorems": [
    "C65_complete",
    "C65_kind",
    "C65_config"
   ],
   "note": "The 23 rules are those of the generated grammar g, in which pigeon inlined the others."
  },
  {
   "property": "C66",
   "status": "proved",
   "theorems": [
    "C66_any_run",
    "C66_alone",
    "C66_memory",
    "C66_no_fault",
    "C66_finish",
    "C66_ends",
    "C66_warnings"
   ],
   "note": "State maps hold at most the key of the warnings, the only one the package sets. One access to a map, array, the pool or farthestFailure is one step. What concurrent calls do to farthestFailure itself is C48."
  },
  {
   "property": "C67",
   "status": "proved",
   "theorems": [
    "C67_result",
    "C67_in_place",
    "C67_lint"
   ],
   "note": "Callbacks see Plugin() and Index(), not Parent(); nodes they insert have slices of their own. Attributes and comments of plugins are values."
  },
  {
   "property": "C68",
   "status": "partial",
   "theorems": [
    "C68_untouched",
    "C68_overwritten_partial",
    "C68_refuted"
   ],
   "note": "The full claim is false: C68_refuted gives a buffer content for which the message changes. C68_untouched and C68_overwritten_partial say what holds."
  },
  {
   "property": "C69",
   "status": "proved",
   "theorems": [
    "C69_work",
    "C69_limit",
    "C69_statistics"
   ],
   "note": "The bound is quadratic; whether the work is linear is not settled. The work is the number of evaluated expressions, as counted by the parser itself."
  },
  {
   "property": "C70",
   "status": "proved",
   "theorems": [
    "C70_reader",
    "C70_pieces",
    "C70_any_pieces",
    "C70_file",
    "C70_no_file",
    "C70_closed_once",
    "C70_commands"
   ],
   "note": "ioutil.ReadAll is modelled from the text of io.ReadAll of Go 1.23. The operating system is a parameter: the theorems say what calls are made, and the result for every way they may end."
  },
  {
   "property": "C71",
   "status": "proved",
   "theorems": [
    "C71_printed",
    "C71_format_lint",
    "C71_lint_twice"
   ],
   "note": "The trees are those that survive printing (printable; for accepted files: expressible, Accepted.v), with which C12, C45 and C46 deal too. Proved by counting number signs: those of the printed text are all in tokens or in comments of the tree."
  },
  {
   "property": "C72",
   "status": "proved",
   "theorems": [
    "C72_same",
    "C72_option",
    "C72_silent",
    "C72_calls",
    "C72_positions",
    "C72_outcome",
    "C72_expressions",
    "C72_bound"
   ],
   "note": "Debug.v models every call of print/in/out. calls/between/rune_at (DebugFacts.v) specify the shape of the output. How %#U writes a rune is left out; Memoize together with Debug is not modelled."
  },
  {
   "property": "C73",
   "status": "proved",
   "theorems": [
    "C73_as_the_grammar_file_says",
    "C73_same_language",
    "C73_file_language",
    "C73_same_meaning"
   ],
   "note": "PegFile.v is a transcription of every rule of logstash_config.peg (tools/gen_peg.py). inl (PegSame.v) checks that two expressions do the same; the theorem about the runtime holds for any two grammars that pass the check. Differences that are shown: C73_expected_differs, C73_limit_differs."
  },
  {
   "property": "C74",
   "status": "proved",
   "theorems": [
    "C74_concat",
    "C74_files",
    "C74_cut",
    "C74_last_line"
   ],
   "note": "The trees are compared with shape_config (no positions, comments, warnings), as in C57/C58. Accepted: with the entry point init. The whole is parsed without an expression limit (for limits see C15). C74_needs_line shows the lost section without the line feed."
  },
  {
   "property": "C75",
   "status": "proved",
   "theorems": [
    "C75_prefix",
    "C75_rest",
    "C75_first_change",
    "C75_truncated"
   ],
   "note": "no_match_error: empty rule stack and not the encoding error of the first byte; these are the errors 'no match found' (C52). C75_fatal_differs shows that it is false of the errors of fatalError, C75_needs_ahead that some bytes behind the offset matter (a literal is compared from its start). 32 is not claimed to be the least number."
  },
  {
   "property": "C76",
   "status": "proved",
   "theorems": [
    "C76_same",
    "C76_linear",
    "C76_max_expressions",
    "C76_nesting",
    "C76_nested",
    "C76_no_constant"
   ],
   "note": "The stack is modelled as the number of nested calls of parseExpr (Stack.v, call: the engine's step with a bound on nesting only; loops do not count, their bound k is quantified). At most four Go frames belong to one such call, not modelled. The bound 600 is that of the termination proof, not the least one. C76_nested counts arrays outside of branches. That Go's stack limit kills the process is a fact about Go's runtime, outside the model."
  },
  {
   "property": "C77",
   "status": "proved",
   "theorems": [
    "C77_starts",
    "C77_ends",
    "C77_first_byte",
    "C77_last_byte",
    "C77_byte_order_mark"
   ],
   "note": "For the default entry point init. Only the rejection of a byte order mark is stated; which error is reported is shown for a case (with a UTF-16 mark, bytes that are not UTF-8, it is the encoding error unless they are allowed)."
  }
 ]
}