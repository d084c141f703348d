{
 "C21": {
  "status": "partial",
  "note": "The full statement is false of the code (C21_refuted: an unescaped quote at byte index 0 or 1, or a trailing backslash, is not noticed). Proved: never rejects a quotable value; correct outside those two families; exact behaviour on every value (C21_exact)."
 },
 "C22": {
  "status": "partial",
  "note": "The full statement is false of the code (C22_refuted). Proved: exact characterisation of the values for which the result is a valid literal, and that only backslashes before quotes are inserted."
 },
 "C26": {
  "status": "proved",
  "note": "C26_edits covers every sequence of operations that stays on the visited entry; C26_one_edit the English statement."
 },
 "C27": {
  "status": "proved",
  "note": "C27_tree: the walk over any tree the parser can produce; C27_command: the error list of the command. The order is inputs, filters, outputs (the order of the walk), within a section that of the text."
 },
 "C28": {
  "status": "proved",
  "note": "Skeleton and plugin list of the fixed tree determine it. C28_case, C28_collision: a non-string id still fails ID() afterwards (the appended one is shadowed), a generated id may repeat an existing one; the property does not exclude either."
 },
 "C29": {
  "status": "proved",
  "note": "lint_run/lint_file give the outcome for every argument list of existing paths, including failing writes."
 },
 "C31": {
  "status": "partial",
  "note": "False of the code for check and lint: they panic (C31_check_refuted, C31_lint_refuted, for every argument list). format reports the error and stops."
 },
 "C33": {
  "status": "partial",
  "note": "False of the code: os.Create truncates the file before the write (C33_refuted; C33_crash_states is the exact set of contents). Proved: without a crash or write error the new content is complete."
 },
 "C34": {
  "status": "partial",
  "note": "False of the code: the message about an unreadable file quotes the failure of the file parsed before it (C34_refuted, general; C34_witness). Proved: true when all files can be read."
 },
 "C38": {
  "status": "partial",
  "note": "The full claim is false of the code (C38_refuted: an else block of nil entries only is printed as an empty block). Proved for every tree without such an else block."
 },
 "C39": {
  "status": "proved",
  "note": "Includes literals with leading zeros; -0 prints as -0."
 },
 "C40": {
  "status": "partial",
  "note": "The full claim is false of the code (C40_refuted). Proved: all literals with at most ten decimals, all literals and all float64 values of absolute value at least 10^-4; below that the exact value read back (C40_small_numbers). ParseFloat and the fmt verbs are modelled by their specification (correct rounding, shortest digits)."
 },
 "C41": {
  "status": "partial",
  "note": "The full claim is false of the code (C41_refuted: a plugin as first element is dropped silently). Proved for every derivation of the array rule of the grammar: all elements are kept, in order, except a plugin in the first place (in a later place it is an error)."
 },
 "C12": {
  "status": "proved",
  "note": "C12_characterised holds for every printable tree; C12_round_trip when the sections of one kind carry the same comments (C12_refuted: needed). printable is decided by printableb (Printable.v)."
 },
 "C14": {
  "status": "partial",
  "note": "The full claim is false of the code (C14_refuted: blank lines before the first comment of a block). Proved for every printable tree: only blank lines can change (C14_blank_lines_only_partial), the second formatting is a fixed point (C14_two_formattings_partial), and nothing changes when the blank lines are as the printer writes them (C14_settled_partial)."
 },
 "C36": {
  "status": "proved",
  "note": "Text in which a line has an unclosed quote (a regular expression such as /it's/) is outside the property's quantifier; C36_refuted shows what happens to it."
 },
 "C37": {
  "status": "partial",
  "note": "The full claim is false of the code for comments before a second section of one kind (C37_refuted). Proved: all comments of every printable tree, with sections of one kind sharing theirs (C37_characterised)."
 },
 "C45": {
  "status": "partial",
  "note": "False of the code for some accepted files (C45_*_refuted, one for each kind of part of a tree). Proved: true of every accepted file whose tree is expressible, a condition on its numbers, selectors, regular expressions, arrays in conditions and on plugins named like if or else (Accepted.v); sections of one kind share the comments of the first (C12_refuted)."
 },
 "C46": {
  "status": "partial",
  "note": "False when the name of a plugin without id is written in double quotes (C46_refuted). Proved for expressible trees and all other names; the second run also needs that no plugin has an id that is not a string."
 },
 "C47": {
  "status": "proved",
  "note": "C20_in_file to C23_in_file state C20 to C23 in terms of the parser, using C47."
 },
 "C48": {
  "status": "partial",
  "note": "False of the code: if another Parse begins between two reads in pushError, farthestFailure[0] panics and a valid file is reported as broken (C48_refuted); GetFarthestFailure can crash (C48_getter_refuted) and mix records (C48_record_refuted). Proved: under every schedule a call returns its sequential result or that run time error; it is undisturbed unless another Parse begins while it runs; calls made one at a time are sequential; every fair schedule ends all calls."
 },
 "C49": {
  "status": "proved",
  "note": ""
 },
 "C50": {
  "status": "partial",
  "note": "False of the code: results taken from the cache do not repeat their warnings (C50_refuted) and errors (C50_errors_refuted). Not proved: that the trees, apart from the warnings, are equal (a labelled expression found in the cache does not bind its label, so this depends on the positions at which each sequence is started)."
 },
 "C51": {
  "status": "proved",
  "note": "One exception, exactly described: with another entry point and a text that starts with a line feed the no-match error at offset 0 says line 1, column 1 (C51_exception shows it)."
 },
 "C52": {
  "status": "proved",
  "note": ""
 },
 "C53": {
  "status": "proved",
  "note": "Status 2 (a panic) for an argument that cannot be stat'ed is the behaviour of the code (see C31). Command line splitting by cobra and help/version output are not modelled. For --auto-fix-id and format -w, C53_status, C53_crash and C53_output hold; the iff characterisations are for the read-only modes."
 },
 "C54": {
  "status": "proved",
  "note": "Errors are modelled as text, notFoundError, single wrapping (Unwrap) and joined wrapping; Go's %q and %+v of the wrapped error are parameters."
 },
 "C55": {
  "status": "proved",
  "note": "Where an array starts with plugin values the dropped plugins (C41) appear as PLost pieces. Numerals are given by their value (their spelling is not in the tree)."
 },
 "C56": {
  "status": "proved",
  "note": "The exception in the statement is needed: the comments of a file without any section are neither in the tree nor reported (C56_exception)."
 },
 "C57": {
  "status": "proved",
  "note": "Plugins dropped from arrays (C41) may stand in the text as well. Names taken for keywords are excluded by clear_section."
 },
 "C58": {
  "status": "proved",
  "note": "Plugins dropped from arrays (C41) are part of the texts ([lost]). The tree is compared up to positions, comments and warnings (C09-C11, C55 and C56 speak about those). [tree_of] keeps the order of the sections of each kind, as the API does."
 },
 "C59": {
  "status": "proved",
  "note": "The conditions on the arguments are part of the property; C59_array_refuted, C59_kind_refuted and C59_operator_refuted show what happens without three of them. Numbers: C39 and C40 say which ones the printer can write."
 },
 "C60": {
  "status": "proved",
  "note": "What Debug prints is not modelled. With a limit and Stats that do not start at zero see C61_limit. Together with Memoize these options are not modelled."
 },
 "C61": {
  "status": "proved",
  "note": "Counters are unbounded numbers in the model. The places of the choices are generated from logstash_config.go (ChoiceGen.v). Together with Memoize Statistics is not modelled."
 },
 "C62": {
  "status": "proved",
  "note": "The meaning of Treetop grammars (Treetop.v) is that of parsing expression grammars; the rules of grammar.treetop are generated from the file, its Ruby code blocks and node classes are left out (there are no semantic predicates in it). C62_refuted shows that each change is needed."
 },
 "C63": {
  "status": "proved",
  "note": "C63_refuted gives texts of grammar.treetop that Parse rejects: by the changed rules (method calls, brackets) and by code (if5 { a => 1 }, else { a => 1 } after a branch, plugins in arrays and hashes). An error without a rule that says \"invalid encoding\" is about the first character."
 },
 "C64": {
  "status": "proved",
  "note": "Error texts that print a Go value are symbolic (the format and the value). The range of numbers is exact (NumRange.v: parse_float_range is an equivalence)."
 },
 "C65": {
  "status": "proved",
  "note": "The 23 rules are those of the generated grammar g, in which pigeon inlined the others."
 },
 "C66": {
  "status": "proved",
  "note": "State maps hold at most the key of the warnings, the only one the package sets. One access to a map, array, the pool or farthestFailure is one step. What concurrent calls do to farthestFailure itself is C48."
 },
 "C67": {
  "status": "proved",
  "note": "Callbacks see Plugin() and Index(), not Parent(); nodes they insert have slices of their own. Attributes and comments of plugins are values."
 },
 "C68": {
  "status": "partial",
  "note": "The full claim is false: C68_refuted gives a buffer content for which the message changes. C68_untouched and C68_overwritten_partial say what holds."
 },
 "C69": {
  "status": "proved",
  "note": "The bound is quadratic; whether the work is linear is not settled. The work is the number of evaluated expressions, as counted by the parser itself."
 },
 "C70": {
  "status": "proved",
  "note": "ioutil.ReadAll is modelled from the text of io.ReadAll of Go 1.23. The operating system is a parameter: the theorems say what calls are made, and the result for every way they may end."
 },
 "C71": {
  "status": "proved",
  "note": "The trees are those that survive printing (printable; for accepted files: expressible, Accepted.v), with which C12, C45 and C46 deal too. Proved by counting number signs: those of the printed text are all in tokens or in comments of the tree."
 },
 "C72": {
  "status": "proved",
  "note": "Debug.v models every call of print/in/out. calls/between/rune_at (DebugFacts.v) specify the shape of the output. How %#U writes a rune is left out; Memoize together with Debug is not modelled."
 },
 "C73": {
  "status": "proved",
  "note": "PegFile.v is a transcription of every rule of logstash_config.peg (tools/gen_peg.py). inl (PegSame.v) checks that two expressions do the same; the theorem about the runtime holds for any two grammars that pass the check. Differences that are shown: C73_expected_differs, C73_limit_differs."
 },
 "C74": {
  "status": "proved",
  "note": "The trees are compared with shape_config (no positions, comments, warnings), as in C57/C58. Accepted: with the entry point init. The whole is parsed without an expression limit (for limits see C15). C74_needs_line shows the lost section without the line feed."
 },
 "C75": {
  "status": "proved",
  "note": "no_match_error: empty rule stack and not the encoding error of the first byte; these are the errors 'no match found' (C52). C75_fatal_differs shows that it is false of the errors of fatalError, C75_needs_ahead that some bytes behind the offset matter (a literal is compared from its start). 32 is not claimed to be the least number."
 },
 "C76": {
  "status": "proved",
  "note": "The stack is modelled as the number of nested calls of parseExpr (Stack.v, call: the engine's step with a bound on nesting only; loops do not count, their bound k is quantified). At most four Go frames belong to one such call, not modelled. The bound 600 is that of the termination proof, not the least one. C76_nested counts arrays outside of branches. That Go's stack limit kills the process is a fact about Go's runtime, outside the model."
 },
 "C77": {
  "status": "proved",
  "note": "For the default entry point init. Only the rejection of a byte order mark is stated; which error is reported is shown for a case (with a UTF-16 mark, bytes that are not UTF-8, it is the encoding error unless they are allowed)."
 }
}