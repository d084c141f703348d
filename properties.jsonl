{"id": "C01", "title": "Parse terminates on every input", "statement": "Parse/ParseReader return for every byte sequence: the PEG has no left recursion and no repetition whose body can succeed without consuming input, so the number of nested parser calls is bounded by a linear function of the input length.", "quantifier": "every byte sequence, every option setting, every state left behind by earlier parses", "why_tests_cant": "a hang shows only on the input that triggers it; tests sample finitely many inputs", "anchors": ["logstash_config.go: g, (*parser).parseExpr, parseZeroOrMoreExpr, parseOneOrMoreExpr, parseRuleRefExpr", "logstash_config.peg"]}
{"id": "C02", "title": "A nil error means an ast.Config, a fatal error means no value", "statement": "With the default options no panic leaves Parse. If the returned error is nil, the returned value is an ast.Config (the unchecked assertion c.(ast.Config) in mustache format and lint cannot panic). If the parse was aborted by a fatal syntax error, the value is nil and the error is non-nil.", "quantifier": "every byte sequence and every combination of IgnoreComments, ExceptionalCommentsWarning, AllowInvalidUTF8 and MaxExpressions", "why_tests_cant": "the claim is about all inputs, including those that drive an action into a failing type assertion", "anchors": ["logstash_config.go: (*parser).parse", "logstash_config_helper.go: retConfig", "internal/app/format/format.go: Run", "internal/app/lint/lint.go: Run"]}
{"id": "C03", "title": "A successful parse consumed the whole input", "statement": "If Parse returns a nil error, the parser stood at end of input when it accepted: no trailing text is silently ignored.", "quantifier": "every byte sequence", "why_tests_cant": "tests only try particular trailing texts", "anchors": ["logstash_config.peg: init, config, EOF", "logstash_config.go: parse, parseNotExpr, parseAnyMatcher"]}
{"id": "C04", "title": "Invalid UTF-8 is rejected", "statement": "If Parse (without AllowInvalidUTF8) returns a nil error, then the whole input is valid UTF-8; conversely an input that is not valid UTF-8 always yields an error.", "quantifier": "every byte sequence", "why_tests_cant": "the space of malformed encodings and positions is unbounded", "anchors": ["logstash_config.go: (*parser).read, addErr, AllowInvalidUTF8"]}
{"id": "C05", "title": "Parse results do not depend on earlier parses", "statement": "The package-level farthest-failure record is reset at the start of each parse from the default entry point: value and error are a function of input and options only, for every history of earlier Parse calls; so is the subsequent GetFarthestFailure(), unless MaxExpressions is 1, 2 or 3, in which case the parse stops before the reset and the old record stays.", "quantifier": "every input, every option setting, every history (prior content of the global failure record)", "why_tests_cant": "histories are unbounded; tests run a handful of sequences", "anchors": ["parse_error_helper.go: farthestFailure, GetFarthestFailure", "logstash_config_helper.go: initParser"]}
{"id": "C06", "title": "IgnoreComments only removes comments", "statement": "Parsing with IgnoreComments(true) accepts exactly the inputs accepted without it, reports the same errors and the same farthest failure (up to comments inside Go values quoted in an error text), and returns exactly the same tree with every comment block emptied.", "quantifier": "every byte sequence and every other option setting", "why_tests_cant": "comments may occur at unboundedly many places and nesting depths", "anchors": ["logstash_config_options.go: IgnoreComments", "logstash_config_helper.go: comment, commentBlock"]}
{"id": "C07", "title": "ExceptionalCommentsWarning only changes Warnings", "statement": "Enabling ExceptionalCommentsWarning changes nothing but the Warnings field: same acceptance, same errors, same tree; and without the option Warnings is empty.", "quantifier": "every byte sequence and every other option setting", "why_tests_cant": "the claim compares two runs on every input", "anchors": ["logstash_config_options.go: ExceptionalCommentsWarning", "logstash_config_helper.go: warnComment, retConfig, initState"]}
{"id": "C08", "title": "Warnings are rolled back with backtracking and are in source order", "statement": "The Warnings of a successfully parsed config describe distinct places of the accepted parse: no place is reported twice although the parser tries several alternatives over the same text, places appear in strictly increasing source order, and each is a place where a gap containing '#' starts.", "quantifier": "every byte sequence", "why_tests_cant": "duplicates would come from backtracking over arbitrarily nested alternatives", "anchors": ["logstash_config_helper.go: warnComment, exceptionalCommentsWarnings.Clone", "logstash_config.go: cloneState, restoreState, parseSeqExpr, parseChoiceExpr"]}
{"id": "C09", "title": "Reported positions are consistent", "statement": "Every position stored in the returned tree is either the zero position or a genuine position of the input: offset is at most the length of the input and falls on a rune boundary, line is one plus the number of newlines up to and including that offset, column is the number of runes since the last newline.", "quantifier": "every byte sequence, every node of the returned tree", "why_tests_cant": "trees are unboundedly large and line/column bookkeeping is incremental with backtracking", "anchors": ["logstash_config.go: (*parser).read, restore, position", "logstash_config_helper.go: astPos", "ast/ast.go: Pos"]}
{"id": "C10", "title": "Node positions point at the node's own text", "statement": "For every plugin in the returned tree, the input at the plugin's Pos() offset starts with the plugin's Name(); likewise plugin sections start with their keyword, if/else-if/else blocks with 'if'/'else', quoted or bare strings with their own spelling, operators with their spelling.", "quantifier": "every byte sequence accepted by Parse, every such node", "why_tests_cant": "trees are unboundedly large", "anchors": ["logstash_config_helper.go: plugin, pluginSection, string, ifBlock, elseIfBlock, elseBlock, compareOperator, booleanOperator", "ast/ast.go: Pos methods"]}
{"id": "C11", "title": "Sections are neither lost nor reordered within their kind", "statement": "Config.Input, Config.Filter and Config.Output contain exactly the plugin sections of the source: the k-th input (filter, output) section of the text is the k-th element of Input (Filter, Output), whatever the interleaving.", "quantifier": "every accepted input, any number and order of sections", "why_tests_cant": "number and interleaving of sections are unbounded", "anchors": ["logstash_config_helper.go: config, configSection, pluginSection"]}
{"id": "C12", "title": "Parsing a printed configuration gives the configuration back", "statement": "For every printable configuration tree (one whose names, strings, numbers, selectors, regular expressions and comments can be written in the language, with a condition in every if and no nil nodes) Parse(config.String()) succeeds and returns the same tree up to positions and blank-line flags of comments; only the comments before sections are shared: each section gets those of the first section of its kind, so trees in which these agree come back unchanged.", "quantifier": "every printable tree (unbounded size and nesting)", "why_tests_cant": "trees are unbounded; the identity tests cover a few dozen literals", "anchors": ["ast/ast.go: Config.String and all String/ValueString methods", "ast/ast_helper.go: prefix", "logstash_config.go: Parse"]}
{"id": "C13", "title": "Parsed trees are lexically well formed", "statement": "In every tree returned with a nil error: plugin and attribute names are non-empty words over [A-Za-z0-9_-] or quoted literals, barewords match [A-Za-z_][A-Za-z0-9_]+, the value of a quoted string contains its quote only after a backslash and does not end in a backslash, selector elements are non-empty and free of '[', ']' and ',', regular expressions are free of unescaped '/', comments contain no line break.", "quantifier": "every byte sequence accepted by Parse, every node", "why_tests_cant": "inputs and trees are unbounded", "anchors": ["logstash_config.peg: name, bareword, doubleQuotedString, singleQuotedString, regexp, selectorElement", "logstash_config_helper.go: string, enclosedValue, selectorElement, regexp"]}
{"id": "C14", "title": "Formatting a formatted file changes nothing", "statement": "For a file produced by the formatter (String() of a printable tree), parsing and formatting it again yields the identical bytes.", "quantifier": "every printable tree", "why_tests_cant": "idempotence must hold for unboundedly many files", "anchors": ["internal/app/format/format.go: Run", "ast/ast.go: Config.String"]}
{"id": "C15", "title": "MaxExpressions only cuts a parse short", "statement": "With MaxExpressions(n), n > 0, Parse evaluates at most n grammar expressions; it either returns exactly what it returns without the limit or an error and no value, and the former whenever the unlimited parse needs no more than n.", "quantifier": "every byte sequence and every limit", "why_tests_cant": "pairs of input and limit are unbounded", "anchors": ["logstash_config.go: MaxExpressions, parseExpr, newParser"]}
{"id": "C16", "title": "GetFarthestFailure reports one position and no duplicate message", "statement": "After any parse all entries of the farthest-failure record carry the same offset, no message occurs twice, and a fatal syntax error leaves exactly its own entry, whose text also is part of the returned error.", "quantifier": "every byte sequence, every history", "why_tests_cant": "the record is updated along every backtracking path", "anchors": ["parse_error_helper.go: pushError, fatalError, GetFarthestFailure"]}
{"id": "C17", "title": "Recording soft failures never moves backwards", "statement": "Between the reset at the start of a parse and a fatal error, the offset of the farthest-failure record never decreases, and it is never smaller than the offset of any soft failure reported so far.", "quantifier": "every sequence of soft failures", "why_tests_cant": "sequences are unbounded", "anchors": ["parse_error_helper.go: pushError, pos"]}
{"id": "C18", "title": "Unescape inverts Escape", "statement": "Unescape(Escape(s)) == s.", "quantifier": "every byte string s, valid UTF-8 or not", "why_tests_cant": "strings are unbounded", "anchors": ["ast/astutil/escape.go: Escape, Unescape"]}
{"id": "C19", "title": "Unescape is exactly the Logstash escape table", "statement": "Unescape replaces, scanning left to right without overlap, exactly the sequences \\\\ \\\" \\' \\n \\r \\t and leaves every other byte, including other backslash sequences, unchanged.", "quantifier": "every byte string", "why_tests_cant": "strings are unbounded", "anchors": ["ast/astutil/escape.go: Unescape"]}
{"id": "C20", "title": "An escaped value is a valid quoted literal unless it ends in a backslash", "statement": "Wrapping Escape(s) in double (single) quotes gives text that the configuration grammar reads as one string literal with value Escape(s), if and only if s does not end with a backslash.", "quantifier": "every byte string s", "why_tests_cant": "strings are unbounded; the failing family (trailing backslash) is easily missed", "anchors": ["ast/astutil/escape.go: Escape", "logstash_config.peg: doubleQuotedString, singleQuotedString"]}
{"id": "C21", "title": "Quote never returns an invalid literal", "statement": "If Quote(v, DoubleQuoted or SingleQuoted) returns without error, its result is one valid string literal of the configuration grammar with value v; it returns an error whenever v cannot be quoted verbatim.", "quantifier": "every byte string v and both quote types", "why_tests_cant": "strings are unbounded; boundary positions of the quote matter", "anchors": ["ast/astutil/quote.go: Quote"]}
{"id": "C22", "title": "QuoteWithEscape always returns a valid literal", "statement": "QuoteWithEscape(v, DoubleQuoted or SingleQuoted) is one valid string literal of the configuration grammar.", "quantifier": "every byte string v and both quote types", "why_tests_cant": "strings are unbounded; boundary positions of the quote matter", "anchors": ["ast/astutil/quote.go: QuoteWithEscape, escapeQuotes"]}
{"id": "C23", "title": "Bareword quoting agrees with the grammar", "statement": "Quote(v, Bareword) succeeds exactly when v is a bareword of the configuration grammar and then returns v; QuoteWithEscape(v, Bareword) yields a bareword of the grammar exactly when v has at least two runes, maps barewords to themselves, and keeps the number of runes.", "quantifier": "every byte string v", "why_tests_cant": "strings are unbounded", "anchors": ["ast/astutil/quote.go: Quote, QuoteWithEscape, escapeBareword, barewordRe"]}
{"id": "C24", "title": "Plugin.ID returns the first id attribute", "statement": "ID() returns the value of the first non-nil attribute named id if it is a string attribute; an error that is not a NotFounder if it has another type; and a NotFounder error exactly when no attribute is named id.", "quantifier": "every plugin, any number of attributes", "why_tests_cant": "attribute lists are unbounded", "anchors": ["ast/ast.go: Plugin.ID", "ast/errors.go: NotFoundErrorf, IsNotFoundError"]}
{"id": "C25", "title": "ApplyPlugins visits every plugin once in document order", "statement": "ApplyPlugins calls the function exactly once for every plugin (and nil entry) of the tree, depth first in document order (if, else-ifs in order, else), and with a function that only inspects, the returned tree equals the argument.", "quantifier": "every tree and every inspecting function", "why_tests_cant": "trees are unbounded", "anchors": ["ast/astutil/apply.go: ApplyPlugins, Cursor.Plugin, Cursor.Index"]}
{"id": "C26", "title": "Cursor edits act on the visited plugin and inserted nodes are not walked", "statement": "For callbacks that perform one Replace, Delete, InsertBefore or InsertAfter per visit, the returned tree is the argument with every visited plugin replaced by the corresponding list of nodes; inserted and replacing nodes are not visited; all original plugins are.", "quantifier": "every tree and every choice of one edit per visited plugin", "why_tests_cant": "trees and edit choices are unbounded", "anchors": ["ast/astutil/apply.go: Cursor.Delete, Replace, InsertBefore, InsertAfter, iterator"]}
{"id": "C27", "title": "Lint reports exactly the plugins without id", "statement": "Without --auto-fix-id, lint's 'no IDs found' list for a file contains exactly, in order, position and name of the plugins (including those nested in conditionals) whose ID() fails, and the duplicate list exactly the plugins whose id was already used by an earlier plugin of the file.", "quantifier": "every configuration tree", "why_tests_cant": "trees are unbounded", "anchors": ["internal/app/lint/lint.go: Run, validator.walk"]}
{"id": "C28", "title": "Auto-fix adds ids and changes nothing else", "statement": "With --auto-fix-id every plugin without id attribute gets one appended string attribute id => \"name-k\"; every other attribute, comment and the tree structure are unchanged; ids generated in one run are pairwise different; plugins that had a string id are untouched.", "quantifier": "every configuration tree", "why_tests_cant": "trees are unbounded", "anchors": ["internal/app/lint/lint.go: validator.walk, Run"]}
{"id": "C29", "title": "Lint rewrites a file only if it fixed something", "statement": "lint leaves every file untouched unless --auto-fix-id is given and some plugin of that file had no usable id; in that case the file is replaced by String() of the fixed tree.", "quantifier": "every list of files, every file content", "why_tests_cant": "file contents and lists are unbounded", "anchors": ["internal/app/lint/lint.go: Run"]}
{"id": "C30", "title": "check succeeds iff every file parses", "statement": "For existing files, mustache check returns nil exactly when every argument that is not a directory parses without error; otherwise it reports one error per failing file, in argument order; it never modifies a file.", "quantifier": "every list of files and contents", "why_tests_cant": "lists and contents are unbounded", "anchors": ["internal/app/check/check.go: Run"]}
{"id": "C31", "title": "A file that cannot be stat'ed is reported, not a crash", "statement": "mustache check and mustache lint report a missing file as an error and go on with the remaining arguments.", "quantifier": "every argument list", "why_tests_cant": "depends on file-system state per argument", "anchors": ["internal/app/check/check.go: Run", "internal/app/lint/lint.go: Run"]}
{"id": "C32", "title": "format prints or rewrites exactly the formatted configurations", "statement": "Without -w, format prints the concatenation of String() of the parsed files in argument order and modifies no file; with -w, it replaces each file by String() of its parse and prints nothing; it stops at the first file that cannot be read, parsed or opened for writing, leaving that file and all later ones untouched.", "quantifier": "every list of files and contents", "why_tests_cant": "lists and contents are unbounded", "anchors": ["internal/app/format/format.go: Run"]}
{"id": "C33", "title": "Rewriting a file in place survives a crash", "statement": "If the process dies at any point while format -w or lint --auto-fix-id rewrites a file, the file holds either the old or the complete new content.", "quantifier": "every file content and every crash point", "why_tests_cant": "tests cannot enumerate crash points", "anchors": ["internal/app/format/format.go: Run (os.Create, WriteString)", "internal/app/lint/lint.go: Run"]}
{"id": "C34", "title": "An error message for one file never quotes another file", "statement": "The failure details that check, format and lint attach to the error of a file come from parsing that file.", "quantifier": "every list of files and every file-system state", "why_tests_cant": "depends on the history left in a package-level variable by the previous file", "anchors": ["internal/app/check/check.go: Run", "parse_error_helper.go: GetFarthestFailure", "logstash_config.go: ParseFile"]}
{"id": "C35", "title": "MultiErr shows every error completely", "statement": "MultiErr's text starts with the number of errors and contains, in order, every error's text, line by line, with only a per-line tab prefix added: the original texts (up to trailing newlines) can be recovered.", "quantifier": "every list of error texts", "why_tests_cant": "lists and texts are unbounded", "anchors": ["internal/format/multierr.go: MultiErr, prefix"]}
{"id": "C36", "title": "Indentation does not alter the configuration text", "statement": "prefix() indents by two spaces every logical line and otherwise keeps all text: the input is recovered by removing the indentation; the text inside quoted strings, including line breaks, is untouched.", "quantifier": "every text made of complete logical lines", "why_tests_cant": "texts are unbounded", "anchors": ["ast/ast_helper.go: prefix, linesRe"]}
{"id": "C37", "title": "Comments survive printing and reparsing", "statement": "Every comment block read by the parser in a regular place is printed such that reparsing finds the same comment texts in the same order at the same node.", "quantifier": "every comment block and every surrounding tree", "why_tests_cant": "comment texts and places are unbounded", "anchors": ["logstash_config_helper.go: comment, commentBlock", "ast/ast.go: Comment.String, pluginSectionString"]}
{"id": "C38", "title": "nil entries are invisible when printing", "statement": "nil attributes, branches/plugins and expressions inside a tree do not influence String(): the result equals that of the tree without them.", "quantifier": "every tree", "why_tests_cant": "trees are unbounded", "anchors": ["ast/ast.go: Plugin.String, ArrayAttribute.ValueString, PluginSection.String, IfBlock.String, Condition.String"]}
{"id": "C39", "title": "Integers are printed and reparsed exactly", "statement": "Every integer literal of absolute value at most 2^53 parses to that number and prints as its plain decimal digits, which parse back to the same number.", "quantifier": "every integer in the range", "why_tests_cant": "the range has 2^54 elements", "anchors": ["logstash_config_helper.go: number", "ast/ast.go: NumberAttribute.ValueString"]}
{"id": "C40", "title": "Numbers survive formatting", "statement": "For every number literal, the printed form parses back to the same float64.", "quantifier": "every finite float64", "why_tests_cant": "2^64 values", "anchors": ["ast/ast.go: NumberAttribute.ValueString"]}
{"id": "C41", "title": "Array elements of the source all appear in the tree", "statement": "If Parse succeeds, every element written between the brackets of an array attribute is an element of the tree's array.", "quantifier": "every accepted input", "why_tests_cant": "arrays and nesting are unbounded", "anchors": ["logstash_config_helper.go: attributes, attributeComment", "logstash_config.peg: array, value"]}
{"id": "C42", "title": "Options return the previous setting", "statement": "Applying an option and then the option it returns restores the parser's behaviour.", "quantifier": "every parser state and every option", "why_tests_cant": "combinations of options are unbounded", "anchors": ["logstash_config.go: MaxExpressions, Entrypoint, AllowInvalidUTF8, Recover, Memoize", "logstash_config_options.go"]}
{"id": "C43", "title": "The parser accepts exactly the documented language and reads it unambiguously", "statement": "Parse accepts a text if and only if it is valid UTF-8 and the published grammar, read under the textbook semantics of parsing expressions, derives it; the returned tree is the tree of that derivation, and it is the only one.", "quantifier": "every byte sequence", "why_tests_cant": "ordered choice, greedy repetition and aborting errors make acceptance context dependent on unbounded text", "anchors": ["logstash_config.peg", "grammar.treetop", "logstash_config.go: g"]}
{"id": "C44", "title": "A failing alternative leaves no trace", "statement": "When an alternative or sequence fails, the parser's position and the collected warnings are exactly what they were before the attempt.", "quantifier": "every grammar expression, every parser state", "why_tests_cant": "nesting of alternatives is unbounded", "anchors": ["logstash_config.go: parseSeqExpr, parseChoiceExpr, restore, restoreState"]}
{"id": "C45", "title": "Formatting a file keeps it a configuration with the same content", "statement": "If Parse accepts a text, then it accepts the text that Config.String makes of the result, and the second tree differs from the first only in positions and blank lines. In particular, after `mustache format -w` of accepted files `mustache check` finds no error in them.", "quantifier": "every accepted text, every set of files", "why_tests_cant": "the texts are unbounded, and printing has to undo every choice of the grammar", "anchors": ["ast/ast.go: Config.String", "ast/ast.go: prefix", "logstash_config.go: Parse", "internal/app/format/format.go: Format.Run", "internal/app/check/check.go: Check.Run"]}
{"id": "C46", "title": "lint --auto-fix writes a readable file", "statement": "The file written by lint --auto-fix is accepted by the parser; its tree is that of the original file with the missing ids added, and a second lint finds an id in every plugin and writes nothing.", "quantifier": "every accepted file with a plugin without an id", "why_tests_cant": "number, names and nesting of plugins are unbounded", "anchors": ["internal/app/lint/lint.go: Lint.Run, validator.walk", "ast/ast.go: Config.String"]}
{"id": "C47", "title": "String literals are read as the value they enclose, and as nothing else", "statement": "A value written between quotes (or as a bareword) as the value of an attribute in a file is read back as that value if and only if it is a literal of that kind: every quote in it follows a backslash and it does not end in one (a letter or underscore, then at least one letter, digit or underscore).", "quantifier": "every byte sequence that is valid UTF-8, every kind of string", "why_tests_cant": "values are unbounded", "anchors": ["logstash_config.peg: string_value, single_quoted_string, double_quoted_string, bareword", "ast/astutil/quote.go", "ast/astutil/escape.go", "ast/ast.go: StringAttribute.ValueString"]}
{"id": "C48", "title": "Parse calls that run at the same time do not influence each other", "statement": "However the goroutines are scheduled, a call of Parse returns what it returns when it runs alone, every call finishes, and GetFarthestFailure does not crash.", "quantifier": "any number of concurrent calls of Parse and GetFarthestFailure, all texts and options, all schedules of the accesses to shared memory", "why_tests_cant": "the number of schedules grows exponentially with the texts; a test sees a few of them", "anchors": ["parse_error_helper.go: farthestFailure, pushError, fatalError, GetFarthestFailure", "logstash_config_helper.go: initParser", "logstash_config.go: Parse"]}
{"id": "C49", "title": "With Memoize the work is linear in the length of the text", "statement": "With Memoize(true) Parse evaluates at most (nodes of the grammar) x (length + 1) expressions: a MaxExpressions limit of that size is never reached, and Parse terminates.", "quantifier": "every text, every list of other options, every earlier history", "why_tests_cant": "linear time is a statement about all lengths; which cached results are reused depends on the text", "anchors": ["logstash_config.go: Memoize, getMemoized, setMemoized, parseRule, parseExpr"]}
{"id": "C50", "title": "Memoize changes nothing but the time", "statement": "Parse with Memoize(true) returns what it returns without.", "quantifier": "every text, every list of other options, every earlier history", "why_tests_cant": "which cached results are reused, and in which state of the parser, depends on the text", "anchors": ["logstash_config.go: Memoize, getMemoized, setMemoized, parseRule, parseExpr"]}
{"id": "C51", "title": "Errors and recorded failures point into the text", "statement": "Every error of Parse carries the line, column and offset of a place of the input and names a rule of the grammar; what GetFarthestFailure reports after a parse quotes a part of that parse's input, at the position it gives.", "quantifier": "every text, every list of options, every earlier history of parses", "why_tests_cant": "positions depend on every byte read before them, through nesting and backtracking of unbounded depth", "anchors": ["logstash_config.go: addErr, addErrAt, failAt, parse", "parse_error_helper.go: pushError, fatalError, GetFarthestFailure"]}
{"id": "C52", "title": "What the error texts say is true", "statement": "A 'no match found' error is the only error; it lists, sorted and without repetition, literals and classes of the grammar that do not match at its position (with an exclamation mark: that do match there), and EOF only if there is more text. The text of the returned error consists of the texts of all errors, each once, in order of occurrence.", "quantifier": "every text, every list of options, every list of errors", "why_tests_cant": "which expectations survive depends on the whole run of the parser", "anchors": ["logstash_config.go: failAt, parse, listJoin, errList.err, errList.Error, errList.dedupe, parserError.Error"]}
{"id": "C53", "title": "The exit status tells whether the run was clean", "statement": "mustache exits with status 0 and a silent standard error exactly when the run found nothing wrong: for check every argument is a directory or a readable file that parses; for lint (without --auto-fix-id) moreover there are no exceptional comments, every plugin has a string id and no two plugins of a file share one; for format every file parses. Otherwise it exits with 1 and standard error shows every error completely; a panic (status 2) happens in check and lint exactly when an argument cannot be stat'ed. check and lint write nothing to standard output.", "quantifier": "all argument lists, file systems, operating system error texts and file contents", "why_tests_cant": "The status summarises every file of every argument list; tests look at a few runs.", "anchors": ["cmd/mustache/main.go: main", "internal/app/app.go: Execute", "internal/app/check/check.go: Check.Run", "internal/app/lint/lint.go: Lint.Run", "internal/app/format/format.go: Format.Run"]}
{"id": "C54", "title": "Not-found errors are recognised however they are wrapped", "statement": "IsNotFoundError(e) is true exactly when e, or an error it wraps directly, indirectly or among several, is a NotFounder; NewNotFoundError(nil) is nil and NewNotFoundError(e) is recognised and its text is 'not found: ' followed by e's, with %s and %v too; the error of Plugin.ID is recognised exactly when no attribute is named id.", "quantifier": "all error values, built by any nesting of wrapping and joining, and all plugins", "why_tests_cant": "Errors nest to any depth; the tests try one level.", "anchors": ["ast/errors.go: NewNotFoundError", "ast/errors.go: IsNotFoundError", "ast/errors.go: Format", "ast/ast.go: Plugin.ID"]}
{"id": "C55", "title": "The text of an accepted file is its tree and nothing else", "statement": "If Parse accepts a file then the file is, byte by byte, the tokens of the sections, plugins, attributes, values, branches and conditions of the returned tree in source order, with white space and comments only between tokens; every comment block of the tree is the list of the comments of one gap, in order, with SpaceBefore and SpaceAfter as the blank lines around the comments say. A file without sections gives the empty configuration.", "quantifier": "every accepted text, every list of options with the default entry point", "why_tests_cant": "files nest to any depth and have gaps of any length between any two tokens", "anchors": ["logstash_config.peg", "logstash_config_helper.go: config, pluginSection, plugin, attribute, array, hash, branch, condition, commentBlock, comment", "ast/ast.go: String"]}
{"id": "C56", "title": "No comment is lost silently", "statement": "With ExceptionalCommentsWarning(true) every comment of an accepted file that has a section is either in a comment block of the returned tree or in a gap whose position one of the Warnings names; there are no other warnings and their order is that of the file.", "quantifier": "every accepted text, every list of options with the default entry point", "why_tests_cant": "comments can stand in any gap at any depth", "anchors": ["logstash_config.peg: comment, whitespace", "logstash_config_helper.go: warnComment, commentBlock", "ast/ast.go: Config.Warnings"]}
{"id": "C57", "title": "The layout of a file does not matter", "statement": "Write the tokens of well-formed sections in order, with any white space and any comments in the gaps between them (numerals in any spelling): Parse accepts the text with any options and returns exactly these sections, up to positions, comments and warnings. So two files that differ only in layout and comments give the same tree. Exceptions are plugin names the grammar takes for keywords (if5, else after a branch, elseif5).", "quantifier": "all lists of sections of any size and depth, all layouts, all options with the default entry point and no expression limit", "why_tests_cant": "there are infinitely many layouts of every file; tests use a few", "anchors": ["logstash_config.peg", "logstash_config_helper.go: config, pluginSection, plugin, attribute, array, hash, branch, condition", "ast/ast.go"]}
{"id": "C58", "title": "Exactly the texts written from a configuration are accepted", "statement": "Without an expression limit Parse accepts a text if and only if it is valid UTF-8 (or invalid text is allowed) and it is the tokens of some list of well-formed sections, in order, with any white space and comments in the gaps, where no plugin has a name taken for the head of a branch (if and then numbers joined by in, and, or, xor, nand) or, right after a branch without else block, of an else block. The returned tree is that configuration, and no text is a layout of two different configurations.", "quantifier": "all texts, all options with the default entry point", "why_tests_cant": "both directions range over all texts: tests can neither show that every rejected file is not a configuration nor that no other reading exists", "anchors": ["logstash_config.peg", "logstash_config.go: Parse", "logstash_config_helper.go", "ast/ast.go"]}
{"id": "C59", "title": "What a program builds with the constructors is what the parser reads from its String()", "statement": "Assemble a configuration only with the New... functions of package ast, from names, strings, numbers, selectors and regular expressions of the language (no nil values; numbers the printer can write; a first expression without and later ones with an operator; no array that reads as a selector in a condition; no plugin named if5, nor else or elseif5 after a branch without else block; complete quotes in selectors and regular expressions): Parse accepts its String() and returns, positions apart, exactly the assembled configuration, where the place of a section and not its PluginType decides its kind. Two such configurations with the same String() are the same.", "quantifier": "all configurations built with the constructors, of any size and depth, all options with the default entry point, no expression limit and comments kept", "why_tests_cant": "programs build infinitely many configurations; the tests of package ast compare a few printed texts and never parse them", "anchors": ["ast/ast.go: NewConfig, NewPluginSection, NewPluginSections, NewPlugin, NewPluginAttribute, NewStringAttribute, NewNumberAttribute, NewArrayAttribute, NewHashAttribute, NewHashEntry, NewBranch, NewIfBlock, NewElseIfBlock, NewElseBlock, NewCondition, New...Expression, NewRegexp, NewSelector, NewSelectorFromNames, NewSelectorElement", "ast/ast.go: Config.String", "logstash_config.go: Parse"]}
{"id": "C60", "title": "Debug, Statistics, GlobalStore and InitState do not change what Parse returns", "statement": "Parse with any list of options that contains Debug, Statistics (with a Stats that is not nil and starts at zero, or no limit on expressions), InitState and GlobalStore options returns the result, and leaves the failure record, of Parse without them; only GlobalStore with the two keys of the package acts, as IgnoreComments and ExceptionalCommentsWarning do. A nil Stats makes Parse panic, whatever Recover says.", "quantifier": "all texts, all lists of options (any keys and values, any Stats), any earlier parses", "why_tests_cant": "tests use the options of the command line tool; the others share maps and counters with the parser, and every combination and order of options must leave the result alone", "anchors": ["logstash_config.go: Statistics, Debug, GlobalStore, InitState, setOptions, newParser", "logstash_config_options.go: IgnoreComments, ExceptionalCommentsWarning", "logstash_config_helper.go: initState, warnComment, retConfig"]}
{"id": "C61", "title": "Statistics counts what the parser does", "statement": "After Parse with Statistics, ExprCnt has grown by the number of expressions evaluated, which is the least MaxExpressions that does not cut the parse short; a limit is used up by what earlier parses with the same Stats counted. ChoiceAltCnt only grows, by what a parse with fresh Stats counts; its keys are a rule and the place of a choice in the grammar, its alternatives the numbers 1 up to the number of alternatives, or the label for no match; all counters together grow by no more than ExprCnt. The choice of rule init counts one step: alternative 1 for a configuration with sections, 2 for a text without, the label if nothing matched, none after a panic.", "quantifier": "all texts, all lists of options, all Stats from earlier parses", "why_tests_cant": "the counters depend on every step of a parse; tests could compare a few totals", "anchors": ["logstash_config.go: Statistics, Stats, parseExpr, incChoiceAltCnt, parseChoiceExpr, MaxExpressions"]}
{"id": "C62", "title": "Parse accepts the language of Logstash's grammar, with four rules changed", "statement": "If Parse returns a configuration without an error, the text is in the language of grammar.treetop (Logstash's own grammar, which the README names as the basis) with four rules changed - no method calls in conditions, no opening bracket in a selector element, comments allowed between hash entries, a comment may end at the end of the text - exactly if the configuration has a section; a text without a section is accepted although Logstash's grammar needs one. On texts without number signs, opening parentheses and brackets within brackets this is the unchanged grammar.treetop; if comments are closed by line feeds, grammar.treetop with comments between hash entries.", "quantifier": "all texts, all options except the entry point, all histories of earlier parses", "why_tests_cant": "two grammars of more than 40 rules with ordered choice: agreement on the test files says nothing about other texts", "anchors": ["grammar.treetop", "logstash_config.peg", "logstash_config.go: g, Parse", "README.md: basis of the grammar"]}
{"id": "C63", "title": "What Logstash's grammar accepts is not rejected by the grammar of the parser", "statement": "If a text is in the language of grammar.treetop with the four changed rules (or, on texts without number signs, opening parentheses and nested brackets, of grammar.treetop itself), Parse does not say that nothing matches: it returns a configuration with a section, or every error comes from code and names a rule (a fatal syntax error, a number out of range, a plugin where the code takes none). Conversely 'no match found' is only said of texts that are not in the language and consist not only of whitespace and comments.", "quantifier": "all texts in UTF-8 (all texts with AllowInvalidUTF8), all options except the entry point and MaxExpressions, all histories of earlier parses", "why_tests_cant": "ordered choice and code in predicates can reject a text that the grammar it was derived from accepts; no test set covers all texts", "anchors": ["grammar.treetop", "logstash_config.peg", "logstash_config.go: g, Parse, addErrAt", "logstash_config_helper.go: fatalError, pushError"]}
{"id": "C64", "title": "Why a text is rejected: no internal error of the code blocks", "statement": "Every error of a call of Parse says one of: the entry point does not exist; nothing matches (then it is the only one); the text is not UTF-8 (only if it is not and invalid text is not allowed); the expression limit is reached (only if one was set); a closing bracket, quote, slash or parenthesis is missing; a number that occurs in the text is at least 2^1024 - 2^970; a plugin is a later element of an array (and then, after that error, that an element is no attribute) or the value of a hash entry. No other check or conversion of the code blocks on the values they are given ever fails, no slice is out of range and no rule is undefined; with Recover(false) the panic that leaves Parse has one of the same reasons.", "quantifier": "all texts, all options, all histories of earlier parses", "why_tests_cant": "the code blocks convert untyped values that other code blocks produced and check them with about forty assertions; tests cannot show that no text makes another one fail", "anchors": ["logstash_config_helper.go: all functions", "logstash_config.go: g, parse, addErrAt, errNoMatch, errMaxExprCnt, errInvalidEncoding", "parse_error_helper.go: fatalError"]}
{"id": "C65", "title": "Every entry point gives its kind of value", "statement": "Parse with the entry point of any rule of the grammar returns a value of the kind of that rule (a Config, a section of one of the three kinds, a plugin or branch, an attribute, a value, an array, a hash, hash entries, a branch block, a condition, an expression, a value of an expression) or nil with an error; never a value of another kind, also together with errors. The conversion of an accepted text's result to a Config cannot fail.", "quantifier": "all texts, all rules as entry points, all options", "why_tests_cant": "the result is an untyped value that users convert; whether the conversion can fail depends on all texts", "anchors": ["logstash_config.go: Parse, Entrypoint, g", "logstash_config_helper.go", "cmd: conversions of the result"]}
{"id": "C66", "title": "Memory that calls of Parse reuse is not observable", "statement": "Parse keeps its state in maps that it takes from and returns to a pool shared by all calls, in slices that are extended in place, and in label maps whose places on a stack are used again. None of this can be seen: whatever earlier calls left in the pool, whichever map the pool gives out, however the accesses of concurrent calls are interleaved, every call returns what it returns without any reuse, and a call alone returns what Parse says; no call uses a map or an array that does not exist, every call ends, and the warnings given to the caller are never overwritten by any later or concurrent call.", "quantifier": "all numbers of calls at the same time, all texts and options, all interleavings of single memory accesses, all contents of the pool, all choices of the pool and of capacities of new arrays", "why_tests_cant": "reuse shows only in particular interleavings and pool contents, which tests cannot enumerate or force", "anchors": ["logstash_config.go: statePool, cloneState, restoreState, Discard, pushV, popV, parseLabeledExpr, Parse", "logstash_config_helper.go: storeDict warnings, retConfig, Clone"]}
{"id": "C67", "title": "ApplyPlugins changes the given tree in place", "statement": "ApplyPlugins writes into the arrays of the tree it is given. If no two slices of the tree share an array, the slice it returns holds exactly the edited tree, whatever room the arrays have; slices of the result share no array either and arrays outside of the tree are unchanged. If the callback only uses Replace, the slice that was given is the one that is returned, so the caller's tree is the edited tree: the lint command, which drops the returned slice, prints the tree with all ids. (After Delete or an insertion the argument is not the edited tree, and with shared arrays an insertion overwrites the neighbour.)", "quantifier": "all trees in all memories, all offsets and capacities of slices, all callbacks that look at Plugin() and Index() and do any sequence of edits with new nodes, all growth policies of append", "why_tests_cant": "aliasing of slices depends on capacities, which tests do not control; the claim is about all of them", "anchors": ["ast/astutil/apply.go: ApplyPlugins, Cursor.Delete, Replace, InsertBefore, InsertAfter", "internal/app/lint/lint.go: Run, walk"]}
{"id": "C68", "title": "GetFarthestFailure after the caller has reused its buffer", "statement": "What GetFarthestFailure returns after Parse does not depend on what the caller does with the buffer that it gave to Parse. (False of the code: the quoted text is read from the buffer when GetFarthestFailure is called. True: position, offset and messages do not depend on it, the quoted text is what stands at the same place of the buffer, and everything is as right after Parse as long as the buffer is unchanged.)", "quantifier": "all texts, all later contents of the buffer, all options except other entry points and limits below 4, all histories", "why_tests_cant": "the caller may put any bytes into the buffer; the repository's tests never reuse one", "anchors": ["parse_error_helper.go: errPos, GetFarthestFailure, pushError, fatalError", "logstash_config.go: current, sliceFrom, newParser, Parse"]}
{"id": "C69", "title": "Parse without Memoize never backtracks exponentially", "statement": "A call of Parse without Memoize evaluates at most 1600000 * (n+1) * (n+1) expressions on a text of n bytes, although its rules try several alternatives that begin alike (branch or plugin, the kinds of expressions, selector or array). Hence a limit (MaxExpressions) of at least that number never changes what Parse returns, and ParserStats.ExprCnt grows by no more in one call.", "quantifier": "all texts, accepted or not, all options (with all rules as entry points), all histories of earlier parses", "why_tests_cant": "the default parser repeats work at every failed alternative; whether nested failures multiply depends on texts of every depth, and a benchmark shows only the texts it has", "anchors": ["logstash_config.go: Parse, Memoize, MaxExpressions, Statistics, parseExpr, parseChoiceExpr, g", "logstash_config.peg"]}
{"id": "C70", "title": "ParseReader and ParseFile parse exactly what is read and close the file once", "statement": "ParseReader returns what Parse returns for all bytes that the reader delivers up to io.EOF, in whatever pieces they come (with empty pieces, with or without data in the last call, whatever it does with the rest of the slice); if a Read fails with another error, it returns nil and that error and nothing is parsed. Every Read has room for at least one byte. ParseFile opens the file once, reads only between opening and closing, and closes it exactly once, also when a panic passes (Recover(false)); if Close fails, its error replaces that of Parse and the value is kept. ParseFile of a file whose content is served without errors is Parse of the content, which is what the commands rely on.", "quantifier": "all readers (all strategies of pieces, counts in range, errors), all growth policies of append, all contents, options and histories; all results of Open, Read and Close", "why_tests_cant": "how a reader cuts its data and when it fails is decided by the operating system or the network; tests read small local files in one piece", "anchors": ["logstash_config.go: ParseFile, ParseReader, Parse", "internal/app/check/check.go", "internal/app/lint/lint.go", "internal/app/format/format.go"]}
{"id": "C71", "title": "Formatted files give no warnings about exceptional comments", "statement": "A text that String() wrote for a printable tree is parsed with no warning about an exceptional comment, whatever ExceptionalCommentsWarning says: every comment of the text is in the tree that is read back. So after format -w of accepted files (with trees that can be expressed) lint never reports a comment, and it succeeds exactly if the ids of each file are all there, strings and different; and after lint --auto-fix a second lint reports at most repeated ids of one file, and nothing if the ids are different.", "quantifier": "all printable trees (in particular those of accepted files with expressible parts), all options of a formatter, all file systems, all comments anywhere in the tree", "why_tests_cant": "the place of every comment in every tree matters, at every depth; tests format a few files and do not parse them again with warnings", "anchors": ["logstash_config_helper.go: warnComment, config", "ast/ast.go: String methods, CommentBlock.String", "ast/ast_helper.go: prefix", "internal/app/lint/lint.go: Run", "internal/app/format/format.go: Run"]}
{"id": "C72", "title": "The option Debug only prints, and its lines are true", "statement": "Debug(true) changes only the standard output: Parse returns the same value and errors, and the same record of failures, with all options (except Memoize). Without it nothing is printed. Every printed call has its line '>' and, after the lines of the calls within, its line '<' with the same name; the indent shows the depth and is never negative, also when the parse panics (then the two lines of the panic handler come last, if Recover is on). Every line shows a true line, column and offset of the text and the rune there; a line MATCH shows exactly the text between entry and exit of its call, and a rule or action expression without one left the position where it was. With the entry point init a configuration is returned if and only if the last lines are MATCH with the whole text and the exit of the rule. The lines '>' of expressions are the expressions that Statistics counts (but one that a limit refuses), and there are at most ten lines for each, so a limit on expressions limits the output.", "quantifier": "all texts, all options except Memoize, all histories of earlier parses", "why_tests_cant": "the nesting of the lines must survive every failure, panic and backtracking at any depth; tests that turn Debug on look at no line", "anchors": ["logstash_config.go: Debug, print, in, out, restore, cloneState, restoreState, parse, parseRule, parseExpr, parseActionExpr, parseAndCodeExpr, parseChoiceExpr, parseSeqExpr, parseNotExpr, parseLitMatcher, parseRuleRefExpr"]}
{"id": "C73", "title": "The package parses as its grammar file says", "statement": "logstash_config.go is generated from logstash_config.peg by pigeon with an optimised grammar: rules are inlined, sequences flattened, single characters merged into classes. The parser that runs the rules exactly as the file writes them (nothing inlined) and Parse agree on every text: the same value, the same errors at the same positions with the same messages, the same record of failures, the same panics. So both accept the same texts with the same trees, and what Parse accepts is what the rules of the file derive by the textbook meaning of parsing expressions. Only the rule names in errors, the list after 'no match found, expected:' and the number of expressions (so MaxExpressions) may differ, and they do. Both end.", "quantifier": "all texts, all entry points of the package, all options but a limit on expressions, all records of earlier failures", "why_tests_cant": "whether an optimisation of a grammar keeps its meaning is a statement about every text and every state of the runtime (labels, warnings, farthest failure, backtracking); the repository's tests run the generated parser only", "anchors": ["logstash_config.peg", "logstash_config.go: g, parseExpr", "logstash_config.go: the on... functions", "logstash_config_helper.go: go:generate pigeon -optimize-grammar"]}
{"id": "C74", "title": "Concatenated files parse as the files one after the other", "statement": "If the texts d1 and d2 are accepted, then d1, a line feed and d2 together are accepted (without a limit on expressions), and the configuration has, for each of input, filter and output, the sections of d1 and then those of d2 (up to positions, comments and warnings); so for any number of files. No line feed has to be added if d1 is empty or ends with one; without it, d1 may end with a comment that swallows d2. Conversely an accepted file can be cut between any two of its sections, and both parts are accepted with the sections before and after the cut. A line feed at the end of a file never matters.", "quantifier": "all accepted texts, all numbers of files, all options for the single files (also limits, and trees of files with comments anywhere), all options but a limit for the whole; all places between two sections", "why_tests_cant": "Logstash itself reads a directory of files as one text; that no token of one file can run into the next, or be completed by it, is a statement about the ends of all texts", "anchors": ["logstash_config.peg: init, config, plugin_section, _, comment", "logstash_config.go: Parse", "logstash_config_helper.go: config"]}
{"id": "C75", "title": "What follows a syntax error does not matter", "statement": "If Parse reports one error 'no match found' at the offset k, it reports the same error (position, message, list of expected things) and leaves the same record of failures for every other text with the same first k+32 bytes: the rest may be longer, shorter, well formed, or not UTF-8 at all (it is then not reported as an encoding error). So to make the text accepted, one of the first k+32 bytes has to change. If an accepted text is cut off and nothing matches then, the error is at the end, or in the last 31 bytes. For the errors with a rule name (a missing closing bracket, 'Parsing error at pos') this is false: they name the place after the last complete part, and the byte to change may be arbitrarily far behind it.", "quantifier": "all texts, all continuations, all entry points, all options, all records of earlier failures", "why_tests_cant": "a user who edits a file wants an error to be about the text before it; whether the parser has looked further ahead, and let that influence the result, is a statement about all continuations", "anchors": ["logstash_config.go: parse, read, failAt, restore, parseLitMatcher, parseCharClassMatcher, parseAnyMatcher, parseNotExpr, parseSeqExpr, parseChoiceExpr", "parse_error_helper.go: pushError, fatalError", "logstash_config.peg"]}
{"id": "C76", "title": "How much stack a parse needs", "statement": "The number of nested calls of parseExpr during Parse is at most linear in the length of the text (600 for each byte, and 600 more): with a stack that has room for so many, Parse returns what it returns with any larger one. With MaxExpressions(m) room for m + 2 nested calls is enough for every text. Without the option no constant is enough: for every d there is an accepted text of 2 d + 17 bytes, brackets nested d + 1 deep, whose parse does not fit into d nested calls; in general the nesting of arrays in the tree is at most the room. (Go ends the whole program when a stack exceeds its limit, Recover does not help; so a service that parses texts of others has to set MaxExpressions or limit the length.)", "quantifier": "all texts, all options, all entry points, all records of earlier failures, all sizes of the stack", "why_tests_cant": "a test tries some depths; which room suffices for all texts, and that none does without a limit, are statements about all depths", "anchors": ["logstash_config.go: parse, parseRule, parseExpr, parseActionExpr, parseChoiceExpr, parseSeqExpr, parseZeroOrMoreExpr, MaxExpressions, Recover", "logstash_config_helper.go: array", "logstash_config.peg: array, value, init"]}
{"id": "C77", "title": "How an accepted file starts and ends; byte order marks, truncated files", "statement": "An accepted text is white space and comments, followed by nothing or by one of the words input, filter, output; so its first byte is a space, tab, carriage return, line feed, a number sign or one of the letters i, f, o. It ends with white space and comments, before which stands nothing or a closing brace; so without comments a file that was cut off behind anything but a brace or white space is rejected. And a file with a byte order mark (of UTF-8 or UTF-16) is rejected, whatever stands behind the mark, with all options, also with AllowInvalidUTF8.", "quantifier": "all texts, the default entry point, all options, all records of earlier failures", "why_tests_cant": "files written by editors that add a mark are common; that none of them is accepted, and that nothing else may stand before the first section, is a statement about all texts behind the first bytes", "anchors": ["logstash_config.peg: init, config, _, whitespace, comment, plugin_section, plugin_type", "logstash_config.go: parse, read"]}
