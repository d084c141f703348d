# Formal model of breml/logstash-config in Rocq (Coq 8.16.1)

## 1. What is modelled

| file | models |
|---|---|
| `Bytes.v`, `Utf8.v` | Go byte strings and the `strings`/`strconv`/`utf8` functions used |
| `F64.v` | float64: `strconv.ParseFloat`, shortest formatting, `Number` printing of ast.go |
| `Ast.v` | package `ast`: all node types |
| `Peg.v` | syntax of parsing expressions (types of logstash_config.go) |
| `GrammarGen.v` | the grammar value `g` of logstash_config.go, *generated* by `tools/gen_grammar.py` from the Go source text |
| `Treetop.v`, `TreetopGen.v` | meaning of Treetop grammars; the rules of grammar.treetop, *generated* by `tools/gen_treetop.py` from that file (without its Ruby code) |
| `Actions.v` | logstash_config_helper.go, function by function |
| `Engine.v` | the generated parser runtime, with positions, farthest failure, error list, expression counter, label maps, warnings state; parse_error_helper.go |
| `Parser.v` | options, `Parse`, `GetFarthestFailure`, error texts |
| `Regex.v`, `AstPrint.v` | `linesRe`, `prefix`, all `String`/`ValueString` methods |
| `AstUtil.v` | escape.go, quote.go, `Plugin.ID` |
| `Apply.v` | apply.go (`ApplyPlugins`, `Cursor`) |
| `Conc.v` | calls of `Parse` and `GetFarthestFailure` that run at the same time: every read and write of `farthestFailure` is a step, any schedule |
| `Store.v` | the same with the memory that calls reuse: statePool, state maps, arrays of warnings, slots of the label stack |
| `Memo.v` | the runtime with the option Memoize: the table of results |
| `ApplyMem.v` | apply.go on memory: arrays, slices with capacities, append; lint's use of it |
| `App.v` | commands check, format, lint; multierr.go; a small file system with crash states |
| `Cmd.v` | cmd/: exit status, errors of package ast (errors.go) |
| `Build.v` | the constructors `New...` of package ast |
| `Reader.v` | `ParseFile`, `ParseReader`, the loop of `io.ReadAll`, system calls |
| `Stats.v` | the options Statistics, Debug, GlobalStore, InitState; the runtime with the counters of Statistics |
| `Debug.v` | the runtime with the lines that the option Debug prints |
| `PegFile.v` | generated: logstash_config.peg, every rule as it is written there |
| `ChoiceGen.v` | generated: the places of the choices of the grammar (names of the counters) |
| `RepoTests.v` | the repository's own tests, generated by `tools/gen_tests.py`, run on the model |

Specification files (small, readable without the proofs): `Tree.v` (well-formed trees, items and
their places), `PegSem.v` (parsing expressions with values), `Rules.v` (the published grammar),
`Layout.v` (printable trees, the printed layout), head of `Accepted.v` (parts of a tree that may not
survive printing), head of `LintTree.v`, `Comments.v` (trees up to positions and blank-line
flags), `Lines.v` (logical lines), `Spelled.v` (the pieces of a tree and the texts that spell them), `Written.v`
(the layouts of a list of sections), head of `LintFacts.v`, `AppFacts.v`, `NilFacts.v`, `ApplyFacts.v`.

Proof files: `EscapeFacts QuoteFacts SimpleFacts AstInd ApplyFacts` (astutil, apply); `Run PosFacts
EngineFacts Termination Matches Sim RunInv HistFacts ParseFacts Utf8Facts InputFacts LimitFacts`
(runtime); `Strip PegSem PegFacts LexFacts ItoaFacts WarnFacts Rules Tree Sound SoundLex SoundRules
ParseTree` (trees of accepted inputs); `LintFacts AppFacts` (commands); `NilFacts NumFacts NumPrint
NumRound ArrayFacts` (printing, numbers, arrays); `Lines Layout Bare Reads ReadLex ReadGap ReadCom
ReadVal ReadCond ReadBop ReadConf RoundTrip Comments Blank PrintBare Regular Printable` (printing and
reading back); `Det` (determinism of the grammar semantics); `Accepted Utf8Tree LintTree` (which trees
of accepted files are printable, their texts, trees fixed by lint); `ConcFacts` (schedules); `MemoFacts` (Memoize);
`ErrFacts ExpectFacts` (positions and expectations of errors); `HidFacts GapComments SpellRules SpellParse`
(what the text of an accepted file is); `FreeLex FreeVal FreeCond FreeWord FreeBop FreeConf` (every layout is
read); `Exact ClearRules` (the accepted language); `StatsFacts` (counters);
`TtMap TtLaws TtRules TtParse TtSame` (the grammar of Logstash),
`Types TypeSound NumRange` (types of the values of code blocks), `StoreFacts` (reused memory), `ApplyMemFacts` (trees in memory),
`Cost CostFacts CostLex CostTok CostTools CostVal CostCond CostWord CostBranch CostAll` (the work of a parse), `Hashes` (number signs of a text and of a tree), `DebugFacts` (printed lines), `Concat` (files one after the other), `Locality` (what follows an error), `PegSame` (the grammar file and the optimised grammar).

Theorems: `PropsEngine` (C01-C05, C07, C15-C17, C44), `PropsUtil` (C18-C26, C35, C42), `PropsTree`
(C06, C08, C43), `PropsNodes` (C09-C11, C13), `PropsApp` (C27-C34), `PropsPrint` (C38-C40),
`PropsRead` (C41), `PropsRound` (C12, C14, C36, C37), `PropsFormat` (C45, C46, C14 for files),
`PropsQuote` (C47; C20-C23 in terms of files), `PropsConc` (C48), `PropsMemo` (C49, C50), `PropsReport` (C51, C52),
`PropsCmd` (C53, C54), `PropsSpell` (C55, C56), `PropsLayout` (C57), `PropsExact` (C58), `PropsBuild` (C59), `PropsStats` (C60, C61),
`PropsTreetop` (C62, C63), `PropsWhy` (C64, C65), `PropsStore` (C66), `PropsApplyMem` (C67), `PropsBuffer` (C68),
`PropsCost` (C69), `PropsReader` (C70), `PropsCalm` (C71), `PropsDebug` (C72), `PropsPeg` (C73), `PropsConcat` (C74), `PropsLocal` (C75), `PropsStack` (C76), `PropsStart` (C77).

Not modelled: how `%#U` writes the rune in the lines of `Debug`; `Memoize` together with `Statistics` or
`Debug`; command line
splitting and help output (cobra), the contents of the program's own configuration file (viper); torn reads of a slice header in
concurrent use of `farthestFailure` (C48 takes one read or write as atomic, slices as values);
other processes changing files between two system calls; Go's exact `%#v` texts (a parameter
`gofmt`: every theorem holds for every such function) and operating system error texts (a
parameter); nil versus empty slices.
Recursion that is data dependent in Go is recursion on fuel here; running out of fuel is a
distinct outcome, and C01 proves it never happens in `parse`.

## 2. Trusted base

* Coq's kernel (8.16.1) and the standard library; `vm_compute` is used in examples, tests and in
  reflective checks of the concrete grammar.
* `Print Assumptions` is printed for every theorem in the Properties files; the expected answer is
  "Closed under the global context" everywhere (no axioms).  (A scan of the loaded libraries lists
  `Coq.ssr.ssrunder.Under_rel.*`: module-type fields of the standard library's ssreflect support,
  pulled in by a `Require`; no theorem depends on them.)
* That the model is the code: hand-written Coq with citations, except `GrammarGen.v`, which is
  produced by a script from the Go text (the script is trusted to transcribe). `RepoTests.v`
  replays the repository's tests against the model as evidence.

## 3. Properties: model and proof plan

Engine-level theorems are proved by induction on the fuel of `eval`, for every grammar unless
said otherwise; grammar-level theorems for the generated grammar.

* C01 termination. Rank function on rules/expressions, nullability check, computed by reflection
  on the generated grammar; induction on (remaining input, rank): fuel linear in the length
  suffices. So `parse` never returns `Diverged`.
* C02 value type. Typing of values: each rule's success value has a fixed shape; induction.
  Recovered panics give a nil value and a non-empty error list.
* C03 whole input. Inversion of the `init` rule: `EOF` was evaluated at the end of the input.
* C04 UTF-8. Invariant of `eval`: if no "invalid encoding" error was recorded, all bytes read so
  far form valid UTF-8; together with C03.
* C05 history. Simulation: two runs whose states differ in `s_ff` only, until `initParser`.
* C06/C07 options. Simulation with a map on values (strip comments / warnings) commuting with all
  actions.
* C08 warnings. Invariant: warning positions strictly increase and lie before the current point;
  rollback on failure (C44).
* C09 positions. Invariant: each point of the parser is the true position for its offset; values
  contain only such positions (or zero).
* C10/C13 node text and lexical shape. From the derivation extracted by C43 (soundness).
* C11 sections. From the derivation of `config`.
* C12/C14 round trip. `String()` of a printable tree is a text of the declarative grammar;
  completeness of the parser gives the tree back.  In detail: `Layout.v` gives the printed text with
  explicit indentation (using C36), `Reads.v` derivations on bytes without positions, `Read*.v` the
  derivation of every printed construct, `RoundTrip.v` the link to `parse`.  Both claims are false
  without conditions (sections of one kind print the first one's comments; blank-line flags):
  refutations plus the exact behaviour.
* C15 MaxExpressions. Simulation between the limited and unlimited runs, counter monotone.
* C16/C17 farthest failure. Invariant on `s_ff`.
* C18–C23 escaping and quoting: list inductions; the literal syntax is specified separately as an
  inductive predicate and also connected to the parser's rule.
* C24 `ID`: induction on attributes. * C25/C26 ApplyPlugins: independent traversal specification.
* C27–C29 lint: C25 plus list specifications. * C30–C34 commands: induction on the arguments;
  C31, C33, C34 are false of the code: refutation theorems plus the exact true behaviour.
* C35 MultiErr: an explicit inverse. * C36 `prefix`: logical-line documents.
* C37 comments: part of the round trip. * C38 nil entries: mutual induction.
* C39/C40 numbers: arithmetic on the float model; C40 is false in general (refuted) and partial.
* C41 arrays: false for plugin elements (refuted); true otherwise.
* C42 options: case analysis. * C43 soundness and completeness w.r.t. a declarative grammar.
* C44 rollback: invariant of `eval`.
* C45 formatting files: C13 gives the shape of accepted trees, `Accepted.v` says which of them are
  printable, `Utf8Tree.v` that the printed text is UTF-8; then C12.
* C46 lint --auto-fix: trees with the same skeleton and corresponding plugins (`LintTree.v`); then C12.
* C47 literals: a one-attribute file through C12 (completeness) and C13 (soundness).
* C48 concurrent calls: programs over the shared variable, interleaved by a schedule; refinement of
  `eval` under any interference, under interference without resets, and alone; the full claim is false.
* C49 Memoize: a second runtime with the table of results (`Memo.v`); invariant: expressions evaluated
  so far + results that can still be entered never grows (ranks exclude left recursion, so a node has
  no result when it is entered).
* C50 Memoize changes nothing else: false for warnings and errors.
* C51 errors and failures point into the text: an invariant of runs (every stored position is that of
  a point reached by reading; the current text is the segment between two such points).
* C52 error texts: a second invariant (every expectation names a terminal that fails, or matches under
  a lookahead, at the farthest position); sorting and deduplication by induction.
* C53 exit status: `Cmd.v` models `main`, `Execute` and the subcommands on top of `App.v`; the
  theorems follow from the per-command characterisations (C29, C30, C32, C35).
* C54 not-found errors: `Cmd.v`, errors as trees; induction on their size.
* C55/C56 text of the tree and lost comments: specification in `Spelled.v` (pieces of a tree, the texts
  of a list of pieces); derivations of the grammar that remember the unreported gaps (`HidFacts.v`),
  one lemma per rule (`SpellRules.v`), the parser (`SpellParse.v`).
* C57 layout: specification in `Written.v` (the texts with given tokens and arbitrary gaps, the shape
  of a tree); completeness of the grammar for them, one lemma per rule (`FreeLex.v` to `FreeConf.v`).
* C58 the accepted language: soundness (C55: `SpellParse.v`) gives tokens and gaps, `Exact.v` turns them
  into a layout; `FreeWord.v` characterises the names taken for branches, in both directions;
  `ClearRules.v` shows, from the failed alternatives of a derivation, that no plugin that was read has
  such a name. The other direction is C57. Unambiguity follows because Parse is a function.
* C59 built configurations: `Build.v` models the constructors; `PropsBuild.v` has the inductive
  specification of what may be built, shows it printable and a fixed point of reading back, and applies
  the round trip of C12.  `C59_texts_*` say where the arguments of each constructor stand in the text, so
  that a constructor that mixes up its arguments is not hidden by the round trip.
* C60, C61 the remaining options (`C60_undo`: the option an option returns undoes it): `Stats.v` models them and the runtime with the counters
  (`ceval`); `StatsFacts.v` proves that the counters do not influence the outcome
  (`ceval_same`), that a run commutes with adding to the count and to the limit and with an
  empty list of warnings for none (`ceval_up`), and gives an invariant rule for the counters
  (`ceval_inv`), from which the statements about keys, totals and the choice of rule init follow.
* C62, C63 the grammar of Logstash: `TtMap.v` maps derivations of the parser's grammar (without its code)
  to derivations of another parsing expression grammar, given a meaning for every rule; `TtLaws.v` has
  the laws of such expressions, `TtRules.v` the 24 rules as expressions over the edited grammar.treetop,
  both for success and for failure. `TtParse.v` applies this to Parse. `TtSame.v` compares the edited and the
  original grammar, in both directions, on texts where the four changed rules cannot differ.
* C64, C65 reasons of errors: `Types.v` gives the values passed between code blocks types (sets of tags),
  a checker for expressions (`tyof`) and the types of the rules, found by iteration and checked by
  computation; `run_ok` shows that every code block respects them. `TypeSound.v` proves by induction on
  runs that values have their types and every error and panic one of the listed reasons.
  `NumRange.v` characterises the numbers that are out of range.
* C66 reuse of memory: `Store.v` makes every access to state maps, the pool, arrays of warnings and
  `farthestFailure` a step of a program, `StoreFacts.v` proves that it refines the program of `Conc.v`: each
  call owns a set of maps and arrays (resources), calls own disjoint ones, and a frame rule carries
  one call's resources over the others' steps.
* C67 ApplyPlugins on memory: `ApplyMem.v` has arrays and slices with capacities; `ApplyMemFacts.v`
  defines when a slice holds a tree and which arrays the tree has, and proves by induction that the run on memory
  follows the run on values (`apply_rep`): every edit changes only arrays of the tree and makes new ones.
* C68 the caller's buffer: the head of `PropsBuffer.v` models the text of a recorded failure as a
  window of the buffer; the theorems follow from C51.
* C69 the work of a parse: `Cost.v` forgets everything of a run but the remaining bytes and the number of
  evaluations (`cev`, every run is one: `cost_all`).  `CostTok.v` takes expressions without recursion as
  tokens, whose cost is linear in the text (`CostLex.v`), and counts tokens (`tev`).  `CostTools.v`,
  `CostVal.v`: summaries (tokens of a success per consumed byte, tokens of a failure, whether a failure
  can be reached after consuming text) computed for the rules of values by iteration and checked. Conditions,
  words and branches (`CostCond.v`, `CostWord.v`, `CostBranch.v`) need facts about what a failed alternative
  leaves for the next one: after text that reads as `if`, `plugin` fails at once, and a block that is
  open ends in a fatal error, not in another alternative.  `PropsCost.v` ends with a grammar in which
  the same engine takes exponential time.
* C70 readers and files: `Reader.v` models ParseFile, ParseReader and the loop of io.ReadAll over an arbitrary
  reader, with the system calls made; the specification (sessions of Reads, what a reader serves)
  and the proofs, by induction on the fuel and on the reader's behaviour, are in `PropsReader.v`.
* C71 no warnings in printed files: `Hashes.v` counts number signs: `hc_config` (printed text = tokens + comments of
  the tree, by induction on the layout), `spelled_hashes` (text >= pieces of the tree read back + gaps without a place),
  `h_plain` (the count does not see positions and blank lines); with C12 nothing is left for the hidden gaps.
* C72 Debug: `Debug.v` is the runtime of `Engine.v` with a list of printed lines; `DebugFacts.v` proves that
  erasing the lines gives `Engine.v` (`deval_same`) and, by induction on the fuel, that the lines of every evaluation
  are calls within calls with true places (`deval_good`); the theorems are about `dparse`, Parse with all options but Memoize.
* C73 grammar file: `PegSame.v` has a decidable relation `inl` between expressions of two grammars (inlined rules,
  a two-element rule put into a sequence, two one-character literals merged into a class) and proves by induction
  on the fuel that related expressions give the same value, labels and state (up to rule names, counts and the list of
  expected things); `PropsPeg.v` checks all rules of the two generated grammars with `vm_compute` and concludes.
* C74 concatenation: on the layouts of C58 (`written`). `Concat.v`: a text written in front of a text that is not empty can be
  written in front of a longer one and vice versa (`frame`, `unframe`; the side condition of `[` arrays needs `closed`: a `]`
  follows); a final gap, a line feed and a gap are a gap. So `pc_config (ss1 ++ ss2)` is written exactly by the two texts.
* C75 locality: `Locality.v`. Every failing expression records a failure at or behind the place where it began (`grow_all`,
  for the expressions of this grammar: decidable `rec`, `local`, checked by `vm_compute`), so all places visited by a run that
  fails are at most the farthest failure; by induction the same run exists on every text with the same bytes up to there and
  32 more (`local_all`; a literal has at most 6 runes of at most 4 bytes, and a read decodes the next rune).
* C76 stack: `Stack.v`. `call d k` is `step` of the engine with nesting bounded by d and turns of loops by k. It agrees with
  the relation `ev` (`call_ev`), grows with d and k (`eval_below`; so the fuel of the termination proof is a bound on the
  nesting), is never out of room under MaxExpressions (`limit_room`: each call counts one expression), and puts at most one
  array around its parts (`action_dep`, `call_dep`), so a tree with arrays nested n deep needs room for n calls; that the
  nested brackets are accepted is C57 (`nest_written`).
* C77 start: from the tree of tokens of an accepted text (C58): it begins with a gap (white space and comments), then nothing or the
  first token of the first section. A byte order mark is neither. The last pieces are the brace of the last section and a gap
  (`C77_ends`), so the last byte is known if there are no comments.
