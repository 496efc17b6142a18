{"id": "C01", "title": "Feature expressions obey the documented grammar and precedence", "statement": "Rendering any boolean feature expression with only the parentheses that '!' > '&&' > '||' (left associative) requires, with any amount of white space between tokens, and parsing that text returns exactly that expression; therefore REQUIRES/UNSUPPORTED/XFAIL conditions are evaluated with the documented precedence and associativity.", "quantifier": "every expression tree over literals, variables and patterns, every legal layout of white space", "why_tests_cant": "nesting depth and operator combinations are unbounded; the unit tests fix a dozen shapes", "anchors": ["lit/src/config/expr/boolean.rs: BooleanExprParser::{parse,parse_or_expr,parse_and_expr,parse_not_expr,parse_match_expr}, Tokenizer"]}
{"id": "C02", "title": "Printing a feature expression and parsing it back is the identity", "statement": "For every expression the parser can return, formatting it with Display and parsing the result succeeds and returns an equal expression.", "quantifier": "every expression returned by a successful parse", "why_tests_cant": "ranges over all expressions; equality of regex patterns is textual, so extra grouping on each round trip is only visible on particular shapes", "anchors": ["lit/src/config/expr/boolean.rs: impl Display for BooleanExpr, impl PartialEq for BooleanExpr, FromStr"]}
{"id": "C03", "title": "An accepted feature expression was consumed completely and parsing always terminates", "statement": "Parsing any string returns either an expression or an error; when it returns an expression, every non white space character of the string belongs to a token of that expression's derivation in the documented grammar (nothing is silently dropped).", "quantifier": "every input string (any characters, including NUL)", "why_tests_cant": "the accepted language is infinite; a silently ignored tail is only seen for the inputs that contain it", "anchors": ["lit/src/config/expr/boolean.rs: Tokenizer::{advance,lex,tokenize,pop}, BooleanExprParser::{expect,next}"]}
{"id": "C04", "title": "Feature requirements decide skipping exactly", "statement": "A test's required features are reported missing iff at least one REQUIRES expression is false in the feature set, the reported ones are exactly the false ones in order; a test is reported unsupported iff at least one UNSUPPORTED expression is true; the outcome depends only on which names are in the feature set.", "quantifier": "every list of expressions and every feature set", "why_tests_cant": "requires all combinations of expressions and feature sets", "anchors": ["lit/src/config/features.rs: FeatureSet::{missing_features,unsupported_features}", "lit/src/config/expr/boolean.rs: BooleanExpr::evaluate, Environment", "lit/src/test/config.rs: TestConfig::{missing_features,unsupported_features}"]}
{"id": "C05", "title": "A numeric value formatted for matching parses back to the same value", "statement": "For every numeric format (unsigned, signed, lower/upper hex, with or without 0x, any precision) and every 128-bit value, printing the value in the format and parsing that text with the same format returns the same value.", "quantifier": "every format, precision and i128 value", "why_tests_cant": "2^128 values times every precision; the interesting failures are at sign and 64-bit boundaries", "anchors": ["filecheck/src/expr/num.rs: Number::parse_with_format, impl Display for Number, NumberFormat"]}
{"id": "C06", "title": "Precision is honoured when a number is printed", "statement": "The text printed for a value in a format with precision p contains at least p digits, is zero padded only up to p, and has the sign or 0x prefix the format calls for.", "quantifier": "every format, precision and value", "why_tests_cant": "width arithmetic over all values and precisions", "anchors": ["filecheck/src/expr/num.rs: impl Display for Number, NumberFormat"]}
{"id": "C07", "title": "Inferring the format of an expression does not depend on operand order", "statement": "Inferring a format from two operands gives the same answer (or an error) when the operands are swapped, and, when both operands have a precision, the result is the larger one.", "quantifier": "every pair of formats", "why_tests_cant": "all pairs of formats with unbounded precision", "anchors": ["filecheck/src/expr/num.rs: Number::infer_expression_format"]}
{"id": "C08", "title": "Bounds resolve to a range inside the allowed range or to an error", "statement": "Resolving any combination of inclusive/exclusive/unbounded start and end against an allowed range returns the range those bounds denote when it is well formed and inside the allowed range, and an error otherwise; it never returns a range that sticks out.", "quantifier": "every bounds combination and allowed range", "why_tests_cant": "quantifies over all indices and bound kinds", "anchors": ["core/src/range.rs: range_from_bounds, Range::new"]}
{"id": "C09", "title": "Consuming a range from either end enumerates it exactly once", "statement": "Repeatedly popping the front (or back) of a range yields its elements in increasing (decreasing) order, each exactly once, and then None.", "quantifier": "every range and every interleaving of front and back pops", "why_tests_cant": "histories of arbitrary length", "anchors": ["core/src/range.rs: Range::{pop_front,pop_back,shrink_front,truncate,is_empty,len}"]}
{"id": "C10", "title": "Newline searches return the true line boundary", "statement": "Searching forward (backward) for a newline within a range returns the position of the first (last) line terminator of the file's newline style that lies in the range, or the end-of-range default when there is none.", "quantifier": "every buffer, every range, both newline styles", "why_tests_cant": "buffers and ranges are unbounded; wrong answers only appear when the range does not start at 0", "anchors": ["core/src/text/mod.rs: Newline::{next_from,prev_from,find_next_crlf_or_eof,find_prev_crlf_or_eof}, NewlineSearcher", "core/src/input.rs"]}
{"id": "C11", "title": "White space canonicalisation is idempotent and only touches horizontal space", "statement": "Canonicalising horizontal white space maps exactly the listed horizontal space characters to a single space each, leaves every other character and the number of characters unchanged, is idempotent, and does nothing at all in strict mode.", "quantifier": "every string, both modes", "why_tests_cant": "all Unicode strings", "anchors": ["core/src/text/mod.rs: canonicalize_horizontal_whitespace"]}
{"id": "C12", "title": "The cursor never leaves its block and its line bounds stay right", "statement": "After any sequence of cursor operations (moving, resetting, re-bounding, consuming newlines, saving and restoring), the current position lies in the block and in the buffer, and for LF input the recorded end of line is the first newline at or after the position (or the end).", "quantifier": "every buffer and every operation history", "why_tests_cant": "operation histories are unbounded", "anchors": ["filecheck/src/cursor.rs: Cursor::{set_start,move_to,move_to_end,set_bounds,consume_newline,reset,start_of_next_line}, CursorGuard"]}
{"id": "C13", "title": "A sequence of CHECK directives passes iff the patterns occur in order", "statement": "A check file consisting of CHECK directives with literal patterns passes on an input iff the patterns occur in the input at pairwise disjoint positions in the order written; the reported matches are the earliest such occurrences.", "quantifier": "every list of literal patterns and every input", "why_tests_cant": "completeness quantifies over every assignment of positions", "anchors": ["filecheck/src/rules/plain.rs: CheckPlain", "filecheck/src/check/mod.rs: check_group", "filecheck/src/pattern/matcher/matchers/substring.rs", "filecheck/src/cursor.rs"]}
{"id": "C14", "title": "CHECK-NEXT matches exactly on the following line", "statement": "CHECK-NEXT succeeds iff its pattern occurs on the line immediately after the line where the previous match ended, and reports an occurrence on that line; it never accepts an occurrence on the same or a later line.", "quantifier": "every input, cursor position and pattern", "why_tests_cant": "all line layouts", "anchors": ["filecheck/src/rules/next.rs: CheckNext", "filecheck/src/cursor.rs: start_of_next_line"]}
{"id": "C15", "title": "CHECK-SAME matches only on the current line", "statement": "CHECK-SAME succeeds iff its pattern occurs after the previous match and before the end of the same line.", "quantifier": "every input, cursor position and pattern", "why_tests_cant": "all line layouts", "anchors": ["filecheck/src/rules/same.rs: CheckSame", "filecheck/src/cursor.rs"]}
{"id": "C16", "title": "CHECK-EMPTY matches exactly one empty line", "statement": "CHECK-EMPTY succeeds iff the line immediately after the line of the previous match exists and is empty.", "quantifier": "every input and cursor position", "why_tests_cant": "all line layouts, in particular end of input", "anchors": ["filecheck/src/rules/empty.rs: CheckEmpty", "filecheck/src/cursor.rs: consume_newline"]}
{"id": "C17", "title": "CHECK-NOT rejects exactly the forbidden region", "statement": "A CHECK-NOT between two positive checks fails iff its pattern occurs between the end of the preceding match and the start of the following match (start/end of the block when absent); it never affects where the positive checks match.", "quantifier": "every input, block and pattern list", "why_tests_cant": "region boundaries range over all positions", "anchors": ["filecheck/src/check/mod.rs: check_not, check_tree, check_group", "filecheck/src/pattern/matcher/matchers/any.rs"]}
{"id": "C18", "title": "CHECK-DAG group matches are disjoint and order-insensitive", "statement": "When a CHECK-DAG group passes, every directive of the group has a match, the matched regions are pairwise disjoint, and all lie in the block after the previous match.", "quantifier": "every input, every group of patterns", "why_tests_cant": "all combinations of overlapping occurrences", "anchors": ["filecheck/src/pattern/visitors/static.rs: StaticPatternSetVisitor", "filecheck/src/pattern/visitors/dynamic.rs: DynamicPatternSetVisitor", "filecheck/src/rules/dag.rs"]}
{"id": "C19", "title": "CHECK-COUNT-n requires n matches", "statement": "CHECK-COUNT-n passes iff the pattern can be matched n successive times, and exactly n matches are consumed.", "quantifier": "every n, pattern and input", "why_tests_cant": "n is unbounded", "anchors": ["filecheck/src/check/mod.rs: check_group (Repeated)", "filecheck/src/check/program.rs: CheckGroup::Repeated"]}
{"id": "C20", "title": "CHECK-LABEL splits the input into ordered disjoint blocks", "statement": "When labels are found, the blocks handed to the checks are disjoint, in input order, the label of block i+1 matches after the label of block i, and no check in a block can match outside its block; if any label is missing the whole check fails.", "quantifier": "every program, every input", "why_tests_cant": "all label placements", "anchors": ["filecheck/src/check/mod.rs: discover_blocks, BlockInfo, check_blocks"]}
{"id": "C21", "title": "Checking never aborts on valid input", "statement": "For every compiled check program and every input text the check returns a result (pass or fail); it never panics.", "quantifier": "every program and input", "why_tests_cant": "panics hide at line and block boundaries", "anchors": ["filecheck/src/check/mod.rs", "filecheck/src/rules/next.rs", "filecheck/src/rules/same.rs", "filecheck/src/cursor.rs"]}
{"id": "C22", "title": "No failing check is ever swallowed", "statement": "The overall result is a pass iff every directive of the program passed in every block; any failure of a single directive makes the whole run fail.", "quantifier": "every program and input", "why_tests_cant": "all interleavings of failing and passing groups", "anchors": ["filecheck/src/check/mod.rs: check_blocks, check_group", "filecheck/src/test/result.rs: TestResult"]}
{"id": "C23", "title": "Implicit check-nots apply to the whole file", "statement": "With --implicit-check-not=P, compiling a check file inserts P before, between and after all the positive checks, so that P must not occur anywhere not matched by a positive check.", "quantifier": "every check file and every list of implicit patterns", "why_tests_cant": "all directive sequences", "anchors": ["filecheck/src/check/program.rs: CheckProgram::compile, compile_lines"]}
{"id": "C24", "title": "Compilation neither drops, duplicates nor reorders directives", "statement": "The compiled program contains each directive of the check file exactly once (apart from implicit ones) in source order, each directive in the block of the nearest preceding LABEL.", "quantifier": "every check file", "why_tests_cant": "all directive sequences", "anchors": ["filecheck/src/check/program.rs: compile_lines, compile_blocks"]}
{"id": "C25", "title": "Variable bindings follow the scoping rules", "statement": "Looking up a variable returns its most recent binding of the same kind ($global or local) in the current scope, falling back to built-in values; with --enable-var-scope entering a new LABEL block forgets locals and keeps globals; without it nothing is forgotten.", "quantifier": "every history of bind, block-entry, protect, save and drop operations", "why_tests_cant": "histories of arbitrary length", "anchors": ["filecheck/src/env.rs: Bindings, Env, ScopeGuard", "filecheck/src/context.rs: MatchContext::enter_block"]}
{"id": "C26", "title": "A failed or abandoned match leaves no binding behind", "statement": "If a match attempt is not committed, the environment afterwards is exactly the environment before it, whatever bindings and nested attempts were made inside.", "quantifier": "every nesting of protected scopes and bindings", "why_tests_cant": "arbitrary nesting and histories", "anchors": ["filecheck/src/env.rs: ScopeGuard::{save,drop}", "filecheck/src/context.rs: ContextGuard"]}
{"id": "C27", "title": "Expected failures are reported by the XFAIL table", "statement": "A shell test's final status is determined by its raw status and whether XFAIL applies: pass becomes XPASS, fail becomes XFAIL, every other status is unchanged; XFAIL_NOT disables this; unsupported tests and tests missing requirements never run.", "quantifier": "every raw status, feature set, configuration", "why_tests_cant": "all combinations of status and flags", "anchors": ["lit/src/formats/sh/mod.rs: ShTest::execute", "lit/src/test/status.rs"]}
{"id": "C28", "title": "Retries are bounded and honest", "statement": "A test with n allowed retries is executed at most n+1 times, is re-executed only after a failing run, and is reported FLAKYPASS iff it failed at least once and then passed.", "quantifier": "every n and every sequence of outcomes", "why_tests_cant": "unbounded outcome histories", "anchors": ["lit/src/formats/sh/engine.rs: run_test"]}
{"id": "C29", "title": "The exit code reflects the results", "statement": "lit exits successfully iff at least one test is selected and every selected test runs, without an internal error, to a status that is not a failure (UNRESOLVED, TIMEOUT, FAIL, XPASS); so an excluded or unsupported test never makes it fail, and the exit status does not depend on how the workers interleave.", "quantifier": "every set of results", "why_tests_cant": "all result combinations", "anchors": ["litcheck/src/commands/lit.rs: Lit::run", "lit/src/test/status.rs: TestStatus::is_failure"]}
{"id": "C30", "title": "Every selected test is reported exactly once", "statement": "However the worker threads interleave, every run ends, and then each test appears exactly once in the report, under its own status (EXCLUDED if not selected), one group per status; after an internal error in executing a test the run stops, tests never started are listed as SKIPPED, and only the tests whose execution raised the error are missing.", "quantifier": "every test list and outcome assignment", "why_tests_cant": "unbounded lists", "anchors": ["litcheck/src/commands/lit.rs: collect_results"]}
{"id": "C31", "title": "Script directives keep their line numbers", "statement": "Each parsed RUN, DEFINE or REDEFINE command is associated with the 1-based line on which it starts, commands come in the order of their lines, and %(line) expands to the number of the line it is written on.", "quantifier": "every text of a test script", "why_tests_cant": "Texts have any number of lines, comments, continuations and line endings.", "anchors": ["lit/src/formats/sh/script/parser.rs: parse, Lines, push_str_replacing_line_numbers"]}
{"id": "C32", "title": "Line continuations join into one command", "statement": "A RUN directive whose line ends in a backslash is joined with the following RUN lines; the script's commands are exactly the maximal continuation groups in order; a continuation followed by another kind of line, or by nothing, is an error.", "quantifier": "every text of a test script", "why_tests_cant": "Continuation groups can be arbitrarily long.", "anchors": ["lit/src/formats/sh/script/parser.rs: parse_line"]}
{"id": "C33", "title": "DEFINE and REDEFINE keep substitutions unambiguous", "statement": "DEFINE succeeds iff no visible substitution has the same or a conflicting key, REDEFINE succeeds iff exactly the same key is visible; on success only that key changes.", "quantifier": "every history of DEFINE/REDEFINE", "why_tests_cant": "arbitrary histories", "anchors": ["lit/src/formats/sh/script/directives.rs: Substitution::apply", "lit/src/config/substitutions.rs: ScopedSubstitutionSet"]}
{"id": "C34", "title": "%% escapes a percent sign", "statement": "Substitution replaces each %% by a single % that no other substitution touches, and leaves text with no substitution pattern unchanged.", "quantifier": "every command and substitution set", "why_tests_cant": "all strings", "anchors": ["lit/src/config/substitutions.rs: ScopedSubstitutionSet::apply"]}
{"id": "C35", "title": "A directory's test configuration inherits and overrides", "statement": "After inheriting from a parent configuration, each environment variable, substitution and feature has the child's value if the child defines it and otherwise the parent's, and the format/patterns/exclude lists are the child's unless it leaves them unset; inheritance is associative along a directory chain.", "quantifier": "every pair/chain of configurations", "why_tests_cant": "all configurations, chains of any length", "anchors": ["lit/src/test/config.rs: TestConfig::inherit"]}
{"id": "C36", "title": "The test list is a faithful double-ended queue", "statement": "Any sequence of push, pop, append, split and drain operations on the test list behaves like the same operations on a sequence: no test is lost, duplicated or reordered and the reported length is right.", "quantifier": "every operation history", "why_tests_cant": "arbitrary histories; unsafe intrusive list code", "anchors": ["lit/src/test/list.rs: TestList, Drain, CursorMut"]}
{"id": "C37", "title": "Parallel splitting hands every test to exactly one worker", "statement": "However the parallel runner splits the drained test list, the left part has the requested length and the concatenation of the parts is the original list, so each test runs exactly once.", "quantifier": "every list and every tree of split points", "why_tests_cant": "all splitting schedules", "anchors": ["lit/src/test/list.rs: Drain::split_at, impl Producer"]}
{"id": "C38", "title": "The line index stays exact under edits", "statement": "After any sequence of document updates (full or ranged), the line table of a source file is the one obtained by scanning its current text from scratch.", "quantifier": "every initial text and every edit history", "why_tests_cant": "edit histories are unbounded", "anchors": ["core/src/diagnostics/source_file.rs: SourceContent::update, compute_line_starts"]}
{"id": "C39", "title": "Byte offset and line/column conversions agree", "statement": "Converting a byte offset to a line and column and back gives the offset; the line reported for an offset is the one whose byte range contains it, and line ranges partition the file.", "quantifier": "every text and offset", "why_tests_cant": "all texts and offsets", "anchors": ["core/src/diagnostics/source_file.rs: line_index, line_range, location, line_column_to_offset"]}
{"id": "C40", "title": "The path index is a faithful map from paths to values", "statement": "After any sequence of insertions, looking a path up returns the value most recently inserted under that path, and nothing for a path never inserted.", "quantifier": "every insertion history and every path", "why_tests_cant": "radix-tree splits depend on the whole history", "anchors": ["core/src/fs/path_tree.rs: PathPrefixTree::{try_insert,contains,get}, Node"]}
{"id": "C41", "title": "The nearest ancestor lookup returns the deepest enclosing entry", "statement": "The nearest ancestor returned for a path is the deepest inserted strict ancestor of that path, and there is none iff no strict ancestor was inserted.", "quantifier": "every insertion history and every path", "why_tests_cant": "depends on the whole history", "anchors": ["core/src/fs/path_tree.rs: PathPrefixTree::nearest_ancestor"]}
{"id": "C42", "title": "Iterating the path index lists every entry once", "statement": "Iterating yields each inserted path with its current value exactly once, in lexicographic order; files() yields only non-directory entries; children(p) yields exactly the entries below p.", "quantifier": "every insertion history", "why_tests_cant": "depends on the whole history", "anchors": ["core/src/fs/path_tree.rs: Dfs, DfsVisitor, PathPrefixTree::{iter,files,children}"]}
{"id": "C43", "title": "The shell script runs each command only if all earlier ones succeeded", "statement": "The generated script stops at the first failing command and its exit status is success iff every command succeeds.", "quantifier": "every command list", "why_tests_cant": "all command lists and outcomes", "anchors": ["lit/src/formats/sh/engine.rs: write_script"]}
{"id": "C44", "title": "A test that exceeds its timeout is stopped and reported TIMEOUT", "statement": "With a non-zero timeout t a command that has not finished after t is killed and reported as timed out; a command that finishes earlier is reported by its exit status.", "quantifier": "every child behaviour (output, exit time) and timeout", "why_tests_cant": "depends on scheduling of child process and pipe readers", "anchors": ["lit/src/utils.rs: wait_with_timeout", "lit/src/formats/executable.rs"]}
{"id": "C45", "title": "A numeric text is accepted exactly when it is written in the format", "statement": "Parsing a text with a numeric format succeeds with value v iff the text is the format's prefix or optional sign followed by at least precision digits of the format's class that denote v, and v fits in 128 bits.", "quantifier": "every format and every text", "why_tests_cant": "unbounded texts; sign, prefix, casing and precision interact", "anchors": ["filecheck/src/expr/num.rs: Number::parse_with_format"]}
{"id": "C46", "title": "Whatever a numeric capture matches can be read as a number", "statement": "For every numeric format, each text matched by the regular expression generated for the format is accepted by the parser of the same format.", "quantifier": "every format and every text in the language of its regular expression", "why_tests_cant": "the regex language and the parser are separate code", "anchors": ["filecheck/src/expr/num.rs: NumberFormat::{pattern,pattern_nocapture}, Number::parse_with_format"]}
{"id": "C47", "title": "A numeric expression evaluates to the integer it denotes", "statement": "When evaluating a numeric expression yields a number, that number is the value of the expression over the integers (division truncating towards zero, variables replaced by the expressions bound to them); and it does yield one whenever all intermediate values fit and no explicit formats conflict.", "quantifier": "every expression, variable environment and explicit format", "why_tests_cant": "unbounded expression trees and variable chains", "anchors": ["filecheck/src/pattern/matcher/matchers/smart/searcher.rs: evaluate_expr", "filecheck/src/expr/mod.rs: Expr, BinaryOp"]}
{"id": "C48", "title": "Evaluating a numeric expression never aborts", "statement": "Evaluating any numeric expression in any environment returns a value or an error; it never panics or diverges.", "quantifier": "every expression and environment", "why_tests_cant": "requires the absence of a failing value anywhere", "anchors": ["filecheck/src/pattern/matcher/matchers/smart/searcher.rs: evaluate_expr", "filecheck/src/expr/cli.rs"]}
{"id": "C49", "title": "Windows line ends do not change the outcome", "statement": "Checking an input whose lines end in CR LF passes exactly when checking the same input with LF line ends passes.", "quantifier": "every check file of literal directives and every input text", "why_tests_cant": "all texts; the newline search, end-of-line tests and range arithmetic must agree", "anchors": ["filecheck/src/cursor.rs", "filecheck/src/rules/next.rs", "filecheck/src/rules/same.rs", "filecheck/src/rules/empty.rs"]}
{"id": "C50", "title": "A diagnostic excerpt shows the span and the requested context lines", "statement": "Reading a span that lies in the file with n lines of context before and m after succeeds and returns text that contains the span, begins where the line n lines earlier begins (or the file begins) and ends where the line m lines later ends (or the file ends); with no context requested it is exactly the span.", "quantifier": "every text, span inside it, and context sizes", "why_tests_cant": "unbounded texts and spans; off-by-one errors at first and last line", "anchors": ["core/src/diagnostics/source_file.rs: SourceCode::read_span for SourceFile/SourceContent"]}
{"id": "C51", "title": "Selecting between two positions gives the text between them", "statement": "For two positions that name places in the file, selecting between them yields exactly the text between the places, in whichever order they are given.", "quantifier": "every text and pair of places", "why_tests_cant": "unbounded texts", "anchors": ["core/src/diagnostics/source_file.rs: SourceContent::select", "core/src/diagnostics/selection.rs"]}
{"id": "C52", "title": "not inverts a command's exit status", "statement": "not exits with 0 iff the command could be run and, without --crash, exited by itself with a non-zero code, or, with --crash, was ended by a signal; otherwise it exits with 1, or 127/126 when the command is not found/cannot be run.", "quantifier": "every outcome of the command and both modes", "why_tests_cant": "all exit codes", "anchors": ["litcheck/src/commands/not.rs: Not::run"]}
{"id": "C53", "title": "Executing a test never aborts lit", "statement": "Executing any discovered test of the shell or executable format yields a status or an error; it never panics.", "quantifier": "every test file name, script and configuration", "why_tests_cant": "needs the absence of a failing case anywhere", "anchors": ["lit/src/formats/sh/mod.rs: ShTest::execute", "lit/src/formats/executable.rs", "lit/src/utils.rs: wait_with_timeout"]}
{"id": "C54", "title": "Character boundaries are recognised", "statement": "An offset is reported as a character boundary exactly when it is the end of the text or the byte at it is not a UTF-8 continuation byte.", "quantifier": "every byte sequence and offset", "why_tests_cant": "Continuation bytes and offsets at and past the end combine arbitrarily.", "anchors": ["core/src/text/mod.rs: is_char_boundary"]}
{"id": "C55", "title": "Naming suite directories finds exactly their tests", "statement": "When every path argument is a directory with a suite configuration, discovery succeeds, and the tests found are exactly the files below the arguments that the suite configuration of their innermost suite accepts (not hidden, matched by a pattern, excluded by none), each once, each with its own path, suite and suite configuration, whatever the order, nesting and repetition of the arguments.", "quantifier": "every file system tree, every set of suite configurations, every list of suite directories", "why_tests_cant": "Trees, nesting of suites and argument lists are unbounded; discovery of one suite recursively loads others.", "anchors": ["lit/src/suite/registry/default.rs: load, load_from_path, load_tests_for_suite, find_nearest_suite", "lit/src/test/registry/default.rs: get_tests_from_source_dir, is_test"]}
{"id": "C56", "title": "Naming a file or a directory selects exactly its tests", "statement": "Naming a path inside a suite finds exactly the tests at or below that path, each with the path of its own file.", "quantifier": "every file system tree, suite and path in it", "why_tests_cant": "Paths and trees are unbounded.", "anchors": ["lit/src/suite/registry/default.rs: load_from_path", "lit/src/test/registry/default.rs: find"]}
{"id": "C57", "title": "Several arguments select the union of their tests", "statement": "The tests found for several path arguments are the union of those found for each of them.", "quantifier": "every list of path arguments", "why_tests_cant": "Depends on the state left by every earlier argument.", "anchors": ["lit/src/suite/registry/default.rs: load, load_tests_for_suite"]}
{"id": "C58", "title": "A test runs under its local configuration", "statement": "The configuration of a test is that of its suite, overridden by the local configuration file of every directory from the suite to the test's directory, outermost first, independently of what else is run.", "quantifier": "every tree, every placement of local configuration files, every argument list", "why_tests_cant": "Chains of directories are unbounded, and results are cached between arguments.", "anchors": ["lit/src/suite/registry/default.rs: get_local_config", "lit/src/config/mod.rs: TestConfig::inherit"]}
{"id": "C59", "title": "A test belongs to the innermost suite around it", "statement": "A file is always run as part of the suite whose configuration is in the innermost enclosing directory that has one.", "quantifier": "every nesting of suites and every argument list", "why_tests_cant": "Nested suites, and the cache of suites loaded for earlier arguments.", "anchors": ["lit/src/suite/registry/default.rs: find_nearest_suite, find_nearest_suite_containing"]}
{"id": "C60", "title": "A failed directive moves nothing and binds nothing", "statement": "When a CHECK, CHECK-NEXT, CHECK-SAME, CHECK-EMPTY or CHECK-DAG group fails, the position in the input and all variable bindings are what they were before it.", "quantifier": "every pattern language, input, position and bindings", "why_tests_cant": "Failures can occur after any number of partial matches and bindings.", "anchors": ["filecheck/src/rules/mod.rs: Rule::apply", "filecheck/src/pattern/matcher/mod.rs: try_match_mut", "filecheck/src/rules/dag.rs"]}
{"id": "C61", "title": "--filter and --filter-out select tests by name", "statement": "A test is run iff its name matches --filter, when given, and does not match --filter-out, when given; every other test is reported as EXCLUDED, and if no test is wanted lit says so.", "quantifier": "every pair of filters, list of tests and schedule of the workers", "why_tests_cant": "All combinations of filters and names, under every schedule.", "anchors": ["lit/src/config/mod.rs: Config::is_selected", "litcheck/src/commands/lit.rs"]}
{"id": "C62", "title": "A test script is accepted iff it is well formed, and means what it says", "statement": "A text is accepted as a script iff it has a RUN line and all its directives before a line that says END. are well formed; the script then has exactly the commands, substitutions, requirements, exclusions, expected failures and retries written there, in order; any other text is refused with an error, never with a crash.", "quantifier": "every text", "why_tests_cant": "Texts are unbounded; completeness and soundness of a parser cannot be sampled.", "anchors": ["lit/src/formats/sh/script/parser.rs: parse", "lit/src/formats/sh/script/directives.rs"]}
{"id": "C63", "title": "Every test's own substitutions", "statement": "Whatever the suite's configuration and the test format define, %s, %S, %t, %basename_t and %% stand for the test's source, its directory, its temporary file, the latter's stem and a percent sign; every other key stands for what the format defines, or else the configuration.", "quantifier": "every configuration and format with any substitutions, every test, every key", "why_tests_cant": "Clashing keys in two layers are unbounded; tests use one configuration.", "anchors": ["lit/src/formats/sh/mod.rs: ShTest::execute", "lit/src/config/substitutions.rs: ScopedSubstitutionSet"]}
{"id": "C64", "title": "A check file is read line by line", "statement": "The directives of a check file are those of its lines, in the order of the lines: each line contributes the directive that stands first in it at the start of a word, or none when there is none or when a comment directive comes first; a file with a line that is rejected is rejected.", "quantifier": "every set of check and comment prefixes that can be told apart, every list of lines", "why_tests_cant": "Where a directive begins depends on all of the text before it; tests use a few layouts.", "anchors": ["filecheck/src/parse/lexer/mod.rs: Lexer", "filecheck/src/parse/lexer/patterns.rs", "filecheck/src/parse/parser.rs: CheckFileParser"]}
{"id": "C65", "title": "Unused check prefixes are rejected", "statement": "Unless unused prefixes are allowed, a check file is accepted exactly when it is accepted with them allowed and every configured check prefix is used by a directive of some line; allowing them changes nothing else.", "quantifier": "every set of check and comment prefixes, every list of lines", "why_tests_cant": "Which prefixes are used depends on the whole file.", "anchors": ["filecheck/src/parse/lexer/mod.rs: unused_prefixes", "filecheck/src/parse/parser.rs: parse"]}
{"id": "C66", "title": "A LITERAL directive takes its text as it stands", "statement": "The pattern of a directive with the LITERAL modifier is the text after the colon without the white space before it (with --strict-whitespace or --match-full-lines: without one space), whatever that text is; CHECK-EMPTY and counts other than 1 to 255 are rejected.", "quantifier": "every line with such a directive, every option", "why_tests_cant": "The texts are unbounded, in particular those that look like blocks.", "anchors": ["filecheck/src/parse/lexer/mod.rs: lex_pattern", "filecheck/src/parse/parser.rs: parse_check"]}
{"id": "C67", "title": "Patterns are cut into text, regular expressions and blocks", "statement": "The pattern of a directive is cut at the first thing that opens, each regular expression ends at the first closing braces and each block at the first closing brackets that are not in a bracket expression; the pieces put together are the text, every piece becomes one part of the pattern with the meaning of its text, and a directive is rejected exactly when there is no such cut, when a block has no meaning or when nothing is left.", "quantifier": "every line with a directive, every pattern text, every option", "why_tests_cant": "Nesting and order of the delimiters are unbounded; tests cover a few.", "anchors": ["filecheck/src/parse/lexer/mod.rs: lex_pattern, lex_match_block", "filecheck/src/parse/lexer/delimiter.rs", "filecheck/src/parse/parser.rs: parse_pattern", "filecheck/src/parse/grammar.lalrpop: Match"]}
{"id": "C68", "title": "Numeric expressions mean what they say", "statement": "The value of the expression of a numeric block is the value of its text, with functions and parentheses first and additions and subtractions from left to right; every such expression can be written in a block.", "quantifier": "every numeric block, every assignment of values to variables", "why_tests_cant": "Expressions and values are unbounded; tests use one operator.", "anchors": ["filecheck/src/parse/grammar.lalrpop: Expr, CaptureNumericOrExpr, CaptureExprRest", "filecheck/src/expr/mod.rs: Expr", "filecheck/src/pattern/matcher/matchers/smart/searcher.rs: evaluate_expr"]}
{"id": "C69", "title": "A pattern matches one piece of text for every part", "statement": "A pattern of texts, regular expressions, definitions [[X:regex]] and numbers [[#%fmt,X:]] matches the leftmost text of the range that is made of one piece for every part, one after the other; the variables are bound to the texts, or the numbers, of their pieces; if there is no such text there is no match, and then no variable changes.", "quantifier": "every list of such parts with any regular expression of the modelled syntax, every input and range, with and without --ignore-case", "why_tests_cant": "Patterns, regular expressions and inputs are unbounded; how the parts are put together into one expression (escaping, grouping, numbering of groups) only shows for certain combinations.", "anchors": ["filecheck/src/ast/pattern.rs: CheckPattern::compact", "filecheck/src/pattern/mod.rs: Pattern::compile", "filecheck/src/pattern/matcher/matchers/regex.rs: RegexMatcher"]}
{"id": "C70", "title": "What a pattern with substitutions matches", "statement": "A match of a pattern with substitutions is a text in the range that is made of one piece for every part: the piece of a numeric substitution is the value of its expression in its format, that of a text variable is matched by the text as a regular expression, and every part sees the variables that the parts before it have defined; a search without a match leaves the variables as they are.", "quantifier": "every list of parts with at least one substitution, every environment, input and range", "why_tests_cant": "Values, environments and inputs are unbounded; the parts are run one after the other by a small machine with a stack.", "anchors": ["filecheck/src/pattern/matcher/matchers/smart/searcher.rs: SmartSearcher", "filecheck/src/pattern/matcher/matchers/smart/builder.rs", "filecheck/src/pattern/matcher/matchers/smart.rs: SmartMatcher"]}
{"id": "C71", "title": "The search for a pattern with substitutions ends", "statement": "The search for a pattern with substitutions ends on every input.", "quantifier": "every list of parts with at least one substitution, every environment, input and range", "why_tests_cant": "Non-termination depends on the input and on where the range ends.", "anchors": ["filecheck/src/pattern/matcher/matchers/smart/searcher.rs: SmartSearcher::match_with_captures"]}
{"id": "C72", "title": "A pattern whose text is known is found exactly where that text stands", "statement": "A pattern of texts and of variables bound to texts without special characters or to numbers is found at the first place in the range where its text stands, and nowhere else; no variable changes.", "quantifier": "every such pattern, every environment, input and range", "why_tests_cant": "Whether the search finds an occurrence depends on the occurrences of parts of the pattern before it.", "anchors": ["filecheck/src/pattern/matcher/matchers/smart/searcher.rs: SmartSearcher", "filecheck/src/pattern/matcher/matchers/smart/searcher.rs: evaluate_expr"]}
{"id": "C73", "title": "CHECK-NOT reports a match of one of its patterns exactly if there is one", "statement": "The patterns of consecutive CHECK-NOT directives are compiled, and a match of one of them in the range is reported if and only if one of them matches somewhere in it; the search ends, and the only error is a captured number that cannot be represented.", "quantifier": "every list of patterns, every input and range, with and without --ignore-case and --strict-whitespace", "why_tests_cant": "The patterns are merged into one automaton, or grouped by their beginnings, according to the kinds of all of them; which code runs depends on the whole list.", "anchors": ["filecheck/src/pattern/matcher/matchers/all.rs: MatchAll::compile", "filecheck/src/pattern/matcher/matchers/any.rs: MatchAny", "filecheck/src/pattern/matcher/matchers/regex_set.rs: RegexSetMatcher", "filecheck/src/pattern/matcher/matchers/substring_set.rs: SubstringSetMatcher", "filecheck/src/pattern/search/pattern_set.rs: PatternSetSearcher", "filecheck/src/ast/pattern.rs: CheckPattern::pop_prefix"]}
{"id": "C74", "title": "CHECK-DAG matches every one of its patterns once, apart from the others", "statement": "A group of CHECK-DAG directives succeeds if and only if all of its patterns can be matched in the range in any order without overlapping; then every pattern has exactly one match, its variables are defined, and the next directive starts after all of the matches.", "quantifier": "every list of patterns, every input and range", "why_tests_cant": "The visitor decides about every reported match in turn; which matches are reported depends on all the patterns.", "anchors": ["filecheck/src/pattern/visitors/static.rs: StaticPatternSetVisitor", "filecheck/src/pattern/visitors/dynamic.rs: DynamicPatternSetVisitor", "filecheck/src/rules/dag.rs: CheckDag", "filecheck/src/pattern/matcher/matchers/all.rs: MatchAll"]}
{"id": "C75", "title": "From the text of the check file to the verdict", "statement": "A check file whose patterns are texts is read and arranged as its lines say, and a run on an input passes exactly if the directives hold of it; in particular, with CHECK directives alone the run does not abort, passes if and only if the texts stand in the input one after the other, and reports the first such places.", "quantifier": "every check file whose patterns are texts (or marked LITERAL), every input, every choice of the options", "why_tests_cant": "It composes the lexer, the parser, the compilation of patterns and sets, the arrangement of the directives and the checker; a mistake in how they are put together shows only for particular check files and inputs.", "anchors": ["filecheck/src/test/mod.rs: Test::verify", "filecheck/src/test/result.rs: TestResult::into_result", "filecheck/src/ast/file.rs: CheckFile::compile", "filecheck/src/check/program.rs: CheckProgram::compile"]}
{"id": "C76", "title": "An input that passes meets what its check file asks", "statement": "If a run passes, then the input really has what the directives of the check file ask for: each pattern (text, regular expression, definition, substitution, number) is matched, in the order, on the lines and within the labels that the directives say, what they forbid is not there, and the places that are reported are those of these matches. Where several texts match, the one reported is the preferred one of the first place; the texts of CHECK-DAG are those one sweep sees.", "quantifier": "every check file of the kinds listed, every input, every choice of the options, every definition of variables", "why_tests_cant": "A false pass is the worst failure of a checker and needs a particular combination of directives, patterns and input; passing tests cannot show that no such combination exists.", "anchors": ["filecheck/src/test/mod.rs: Test::verify", "filecheck/src/check/mod.rs: Checker::check_input, discover_blocks, check_block_section, check_group", "filecheck/src/pattern/matcher/matchers/smart.rs: SmartMatcher", "filecheck/src/pattern/matcher/matchers/smart/searcher.rs", "filecheck/src/pattern/search/pattern_set.rs"]}
{"id": "C77", "title": "What -D NAME=TEXT defines", "statement": "A definition on the command line that does not begin with '#' is accepted exactly if it is a name (a letter or '_', then letters, digits and '_'), the character '=' and a text; the variable then is exactly the text after the first '=', whatever it contains, and that is its value when the run starts, unless a later definition on the command line redefines it.", "quantifier": "every argument of -D, every list of definitions", "why_tests_cant": "The name, the text and the number of '=' are arbitrary; a test shows single arguments.", "anchors": ["core/src/variables/mod.rs: Variable::try_parse, is_valid_variable_name", "filecheck/src/expr/cli.rs: CliVariable::try_parse", "filecheck/src/env.rs: from_config"]}
{"id": "C78", "title": "What -D #NAME=EXPRESSION defines", "statement": "A definition on the command line that begins with '#' is accepted exactly if it is a name, '=' and an expression, possibly after a format and a comma; the value of the variable where it is used is that of the expression, the operators '+' and '-' being applied from left to right.", "quantifier": "every argument of -D that begins with '#', every environment in which the variable is evaluated", "why_tests_cant": "Expressions nest without bound and their spelling is free; a test evaluates a few.", "anchors": ["filecheck/src/expr/parser.rs: Token, parse_int", "filecheck/src/expr/grammar.lalrpop: NumericVar, Expr", "filecheck/src/expr/cli.rs: CliVariable::try_parse"]}
{"id": "C79", "title": "The prefixes and options a run is made with", "statement": "A run is refused unless every check and comment prefix that is asked for is a letter followed by alphanumeric characters, '-' and '_', no prefix is both a check and a comment prefix, and every definition is one; otherwise it is made with exactly the prefixes asked for (the defaults if none are), the definitions and the flags given, and those prefixes can be told apart from the rest of a check file.", "quantifier": "every combination of values of the options", "why_tests_cant": "Options are given in any number and order, with or without commas; tests use single combinations.", "anchors": ["filecheck/src/lib.rs: prefix_value_parser, Options::validate", "litcheck/src/commands/filecheck.rs: FileCheck::run"]}
{"id": "C80", "title": "Which of the matches at a place is taken", "statement": "Of the texts a pattern matches at the leftmost place where it matches, a search takes the preferred one: choices are made from left to right, the first alternative before the second, going on with a greedy repetition before stopping and the other way round for a lazy one, as many digits of a number as possible. The span of a match and the values of the variables it defines are determined by that, for every pattern that does not depend on variables.", "quantifier": "every pattern without substitutions, every input, range and set of variables", "why_tests_cant": "The number of matches at a place is unbounded, and which one is taken depends on all choices together; tests show single texts.", "anchors": ["filecheck/src/pattern/matcher/matchers/regex.rs: RegexMatcher", "filecheck/src/pattern/mod.rs: Pattern::compile", "filecheck/src/ast/pattern.rs: compact"]}
{"id": "C81", "title": "Pass exactly when what the check file asks is met", "statement": "A run passes if and only if the input meets what the directives of the check file ask for, directive by directive: searched patterns have a first match in the right range, on the right line, what is forbidden is absent, labels are found, groups are seen; and the matches reported are those, in the order of the check file.", "quantifier": "every check file of the kinds listed (CHECK-DAG groups of texts; substitutions in searched patterns with definitions of text and number variables), every input, every choice of the options, every definition of variables", "why_tests_cant": "Both false passes and false failures need particular combinations of directives, patterns, variables and input; a test decides one combination.", "anchors": ["filecheck/src/test/mod.rs: Test::verify", "filecheck/src/check/mod.rs: Checker::check_input, discover_blocks, check_block_section, check_group", "filecheck/src/check/program.rs: CheckProgram::compile", "filecheck/src/pattern/matcher/matchers/smart.rs: SmartMatcher", "filecheck/src/pattern/matcher/matchers/smart/searcher.rs"]}
{"id": "C82", "title": "How a group of CHECK-DAG texts is looked for", "statement": "A group of neighbouring CHECK-DAG directives with different texts matches in a range exactly if one sweep over the range sees all of them: at the first place where one of the texts stands the longest one that stands there counts, the sweep goes on after it, and a text seen before is passed over. There is at most one outcome, and each match lies where its text stands.", "quantifier": "every list of different texts, every input and range", "why_tests_cant": "The order and the overlaps of the occurrences are arbitrary, and the first of them decides what is seen later.", "anchors": ["filecheck/src/pattern/matcher/matchers/substring_set.rs", "filecheck/src/rules/dag.rs"]}
{"id": "C83", "title": "How a pattern with substitutions is searched for", "statement": "A pattern with substitutions is cut at them; a search looks for the first piece, and each of the following pieces must begin where the one before it ended, each taking the text it prefers whatever the others need; variables defined on the way are seen by later pieces; if a piece is not found, the search begins again where it stopped, or one character later than before. What is found, and the variables then, are exactly what this says.", "quantifier": "every pattern with substitutions, with or without definitions of texts and numbers, every input, range and set of variables", "why_tests_cant": "The restarts, the values of the variables and the text taken by each piece depend on each other without bound.", "anchors": ["filecheck/src/pattern/matcher/matchers/smart.rs: SmartMatcher", "filecheck/src/pattern/matcher/matchers/smart/searcher.rs"]}
{"id": "C84", "title": "Symbols stand for their texts", "statement": "Two symbols made from texts are equal if and only if the texts are; a symbol is read as the text it was made from at any later time, and symbols compare as their texts; the symbols known from the start are those of their texts; making a symbol fails only after 2^32-255 different texts.", "quantifier": "every history of calls by any threads that make, read and compare symbols, any texts", "why_tests_cant": "It must hold after every history, including every interleaving of the threads that share the table, and with the numbering generated at build time.", "anchors": ["core/src/symbol/mod.rs: Symbol::intern, Symbol::as_str, Interner, Ord for Symbol", "core/build.rs: main", "core/src/symbol/symbols.toml"]}
{"id": "C85", "title": "What a source manager returned never changes", "statement": "A pointer to a file, or to a slice of one, shows forever what it showed when it was returned, whatever is loaded, updated, cloned or dropped later; a manager and its clones do not affect each other; an update is seen by those who ask afterwards, and only if it succeeded; a text that was loaded is found under its name and its identifier, and no two documents of a manager share an identifier. All this although files are shared and written in place when nobody else has a pointer.", "quantifier": "every history of calls on any number of managers and pointers, by any threads", "why_tests_cant": "Whether a write in place is visible depends on the whole history of pointers taken and dropped.", "anchors": ["core/src/diagnostics/source_manager.rs: DefaultSourceManager, SourceManager::source, source_slice, copy_into, is_manager_of", "core/src/diagnostics/source_file.rs: SourceFile, SourceFileRef"]}
{"id": "C86", "title": "Names and locations lead back to their document", "statement": "A span turned into a location (name and byte range) and back is the same span; different names are different documents; an identifier nobody gave out is an error; an update that fails changes nothing.", "quantifier": "every history of calls on a source manager", "why_tests_cant": "It depends on which texts were loaded under which names before.", "anchors": ["core/src/diagnostics/source_manager.rs: location, location_to_span, update, load_file", "core/src/diagnostics/filename.rs: Ord for FileName, as_str"]}
{"id": "C87", "title": "What reading a file gives", "statement": "Reading strictly gives exactly the bytes of the file, reading not strictly gives the file's text with every carriage return before a line feed left out and without the line feed at its end; both fail exactly if the file cannot be opened or read to its end, or is not UTF-8; '-' is the standard input; the result, although put together without a check, is always UTF-8; nothing panics. Files with Windows line ends are thereby read as with Unix line ends.", "quantifier": "all byte contents of files, all paths, all answers of the system", "why_tests_cant": "the text is put together unchecked from pieces, and which byte sequences are UTF-8 is a claim about all of them", "anchors": ["core/src/input.rs: Input::read_to_string, Input::open, Input::filename, Input::get_file_types, Input::glob"]}
{"id": "C88", "title": "The commands of a test", "statement": "With no substitutions of a suite's own, the command that is run is the one written with every name (%s, %S, %t, %basename_t, %{pathsep}, %{fs-src-root}, %{fs-tmp-root}, %{fs-sep}) replaced by its value, every %% by one percent sign, and every word FileCheck (each of F and C in either case) or not by the call of the program's own tool, and nothing else changed; likewise in all directories below a suite.", "quantifier": "all commands, all paths of the test, of its directories and of the program, all depths of directories with configurations", "why_tests_cant": "the substitutions are applied one after the other to the text the ones before have left, with regular expressions and replacement templates, so each value may be taken for a name: that they do not meddle is a claim about all commands and all values", "anchors": ["lit/src/test/config.rs: TestConfig::set_default_substitutions", "lit/src/config/substitutions.rs: ScopedSubstitutionSet::apply", "lit/src/suite/mod.rs: TestSuite::parse", "lit/src/suite/registry/default.rs", "lit/src/format/shtest: ShTest::execute"]}
{"id": "C89", "title": "The features of a test", "statement": "The features of a test are those of its suite's configuration, those of the configurations of the directories from the suite down to it, and the built-in ones: system- and host= of the machine it runs on, target= and target- of the target, native exactly if both are the same, x86_64-linux and x86_64-apple, and the linker; no others. A suite's own substitution comes before the built-in one of the same pattern.", "quantifier": "all configurations, all machines, all chains of directories", "why_tests_cant": "the features are put together at every level from what the levels above have left", "anchors": ["lit/src/test/config.rs: TestConfig::set_default_features, TestConfig::inherit", "lit/src/suite/mod.rs: TestSuite::parse", "lit/src/suite/registry/default.rs"]}
{"id": "C90", "title": "What lit prints", "statement": "At the end of a run lit prints every test exactly once, under the status it ended with, the statuses in a fixed order and each with the number of its tests, then the total and a table of the numbers in aligned columns; with --quiet the lists of tests are those of failing statuses only. The printed text is unambiguous: it determines which tests ended with which status. While tests are run, each test that is run is told about once, and with --quiet only failing ones; excluded ones never. show-tests lists the tests that would be run; the exit code is 100 exactly if no suite is found.", "quantifier": "all sets of tests, names, results, schedules of workers, options", "why_tests_cant": "which tests are in which group depends on the schedule and on errors, and that a text is unambiguous is a claim about all pairs of reports", "anchors": ["litcheck/src/commands/lit.rs: Lit::run, show_tests, start, TestRunner::run, TestRunner::mark_excluded, print_results", "lit/src/test/status.rs: TestStatus::tag, TestStatus::label, TestStatus::is_failure"]}
{"id": "C91", "title": "What is told of a search that found nothing", "statement": "When a directive finds nothing, the report tells which part of the input was searched, truthfully: the region it marks covers exactly the bytes of the input that were searched, the line numbers it names are those of the first and last byte searched; a region of at most ten lines (or any region with -vv) is shown as a whole, a longer one by where the search began and by the start of the last line searched, with the number of lines, and is said to run to the end of the input exactly if it does; a search with nothing to search says so, and says whether it was at the end of the input. Building the report never changes the verdict: a run that passes without it passes with it.", "quantifier": "all inputs, all searched ranges, verbosity, all check files", "why_tests_cant": "the report is built eagerly on every search, also of directives that are to find nothing, and its positions go through line tables and character boundaries; whether some input makes it lie or abort is a statement about all texts and all ranges", "anchors": ["filecheck/src/errors.rs: SearchedRegion::describe, CheckFailedError::match_none", "core/src/diagnostics/source_file.rs: SourceFile::location", "filecheck/src/pattern/matcher/substring.rs", "filecheck/src/pattern/matcher/regex.rs"]}
{"id": "C92", "title": "The report of a failed run", "statement": "A failed run reports every error, in order, and shows each searched region once: an error whose region was shown by an earlier one refers to that, and no other error does. With --dump-input=fail it also shows the input: the number of its lines, the number of failed checks, whether any check matched, and a label on every non-empty match that names the line of its check; with --dump-input=never it shows no dump. A run without errors returns its matches ordered by their patterns, matches of one pattern in the order in which they were found. A run with errors ends with a report, on every input.", "quantifier": "all inputs, all lists of matches and (nested) errors", "why_tests_cant": "errors nest (a group's failure carries causes), matches may be empty or stem from implicit patterns, and the input may end anywhere; each claim is about all such combinations", "anchors": ["filecheck/src/errors.rs: dedup_searched_regions, InputDump::new", "filecheck/src/test/result.rs: into_result, TestResult", "filecheck/src/check/mod.rs: Checker::check_input"]}
{"id": "C93", "title": "Which tool a call runs", "statement": "The program runs a tool exactly if it is called by the tool's name (lit, filecheck, not), wherever it lies and with or without an extension, or as litcheck with the tool's name as the first word; both forms do the same, and the tool is given all the remaining words. The symlinks of the documentation (lit and FileCheck) work. Any other call ends with a usage error, never with an abort; lit without a command runs tests.", "quantifier": "all program paths, all argument lists, the tracing variable", "why_tests_cant": "paths and arguments are arbitrary texts, and the claim is an equivalence over all of them", "anchors": ["litcheck/src/main.rs: main, build_cli, init_logger", "litcheck/src/commands.rs: all", "litcheck/src/commands/lit.rs: Lit"]}
{"id": "C94", "title": "How filecheck ends, and FILECHECK_OPTS", "statement": "filecheck ends with 0 exactly if the check passes (or help about dumps was asked for), with 2 exactly if the call or FILECHECK_OPTS is not understood, with 1 otherwise. FILECHECK_OPTS adds to the options of the command line: what is given in either is in force, and with nothing on the command line it is as good as the command line.", "quantifier": "all options on the command line and in FILECHECK_OPTS, all files, all results of checking", "why_tests_cant": "the merge is over every combination of options, given or defaulted, on two channels", "anchors": ["litcheck/src/commands/filecheck.rs: FileCheck::run", "litcheck/src/main.rs: run", "filecheck/src/lib.rs: Options"]}
{"id": "C95", "title": "White space and whole lines", "statement": "By default a space in a check matches a tab in the input and the other way round; with --strict-whitespace they differ. With --match-full-lines every match covers an entire line, but for white space around it.", "quantifier": "all check files and inputs", "why_tests_cant": "the claim is about every match of every check file on every input", "anchors": ["filecheck/src/lib.rs: Options::strict_whitespace, Options::match_full_lines", "filecheck/src/parse/lexer/mod.rs: tokenize_check_pattern", "core/src/text/mod.rs: canonicalize_horizontal_whitespace"]}
{"id": "C96", "title": "Arithmetic on line numbers, columns and byte indices is exact or refuses", "statement": "A zero-based line or column index and the one-based number for it stand for each other, in the same order. Checked operations return the exact result if it is an index (a number from 1) of 32 bits, and nothing otherwise; saturating operations return the nearest index (number); operators return the exact result or abort. A byte index moved by an offset is the exact sum.", "quantifier": "every index, number and offset, both kinds of builds (with and without overflow checks)", "why_tests_cant": "the boundaries lie at 2^32 and at the first line; tests try a few numbers", "anchors": ["core/src/diagnostics/source_file.rs: ByteIndex, ByteOffset, LineIndex, LineNumber, ColumnIndex, ColumnNumber"]}
{"id": "C97", "title": "A span names the bytes it was made for", "statement": "A span made of a range of bytes gives back that range and, used on the document, selects exactly the bytes of the range; a range that cannot be represented is refused. Moving a span moves both its ends, and moving it back restores it. Spans are totally ordered by document, start and end; values that carry a span are compared, ordered and hashed without it. The table of a document's lines lists exactly where its lines begin.", "quantifier": "every document, range, span and offset", "why_tests_cant": "the properties range over all documents and offsets, and fail only at 2^32", "anchors": ["core/src/diagnostics/span.rs: SourceSpan, Span", "core/src/diagnostics/source_file.rs: compute_line_starts"]}
{"id": "C98", "title": "A regular expression matches the texts that its syntax describes", "statement": "Every regular expression of the supported syntax (characters, escapes, '.', \\d \\s \\w and their negations, bracket expressions with ranges and named classes, ^ $ \\A \\z \\b \\B, groups with or without names, alternatives, * + ? {n} {n,} {n,m}, greedy or lazy) is accepted, and a search for it finds the first place of the range where a text that it describes begins, and there the one that the order of alternatives and the greedy and lazy repetitions prefer; it finds nothing only if no place has one. With --ignore-case, a letter stands for both cases, in sets and ranges too.", "quantifier": "for all expressions of the syntax, of any size and nesting, all texts, ranges and both case settings, anchored or not", "why_tests_cant": "expressions and texts are unbounded, and their syntax nests", "anchors": ["filecheck/src/pattern/matcher/matchers/regex.rs: RegexMatcher", "filecheck/src/pattern/mod.rs: Pattern::compile"]}
{"id": "C99", "title": "A refused CHECK-LABEL points at the variables it mentions", "statement": "A CHECK-LABEL that mentions a variable is refused when the check file is loaded, and the report points at the variables it mentions and at nothing else.", "quantifier": "every pattern of a CHECK-LABEL: any sequence of texts, regular expressions, substitutions, captures and numeric expressions", "why_tests_cant": "the pieces of a pattern are first merged into regular expressions and then walked by a state machine with a work list; which variables come out depends on all the pieces around them", "anchors": ["filecheck/src/ast/pattern.rs: locate_variables, CheckPatternVarIter, CheckPattern::compact", "filecheck/src/pattern/mod.rs: Pattern::compile_static"]}
{"id": "C100", "title": "Comparisons are lawful", "statement": "Variable names, value types, numbers, captures, expressions, matches and pattern prefixes are compared lawfully: swapping two values swaps the answer, 'not greater' is transitive, == is an equivalence, and == holds exactly of the values that the order takes for equal; so a map or a sort over them never loses or confuses a value, and patterns of a CHECK-DAG or CHECK-NOT group are put together exactly if they begin with the same prefix.", "quantifier": "every pair and triple of values of these types; every list of patterns of a group", "why_tests_cant": "The laws speak of all pairs and triples of values; a test compares a few, and the cycle that breaks them needs three particular kinds of match at once.", "anchors": ["filecheck/src/ast/pattern.rs: Ord for Match, Ord for Prefix, Ord for Capture, PartialEq for Match", "filecheck/src/expr/mod.rs: Ord for Expr, TypedVariable", "filecheck/src/expr/num.rs: Ord for Number", "filecheck/src/expr/value.rs: Ord for ValueType", "core/src/variables/mod.rs: VariableName", "filecheck/src/pattern/matcher/matchers/all.rs: MatchAll::compile"]}
{"id": "C101", "title": "The format a message names is the one to write", "statement": "When a message names the numeric format of an operand (as the report of a format conflict does), writing that notation in a numeric block asks for exactly this format; and two different formats, or variable types, are never described by the same words.", "quantifier": "every format with a precision from 0 to 255; every check file", "why_tests_cant": "There are 2048 formats and as many notations; a test prints a handful, and the one that cannot be read back is the plainest.", "anchors": ["filecheck/src/expr/num.rs: Display for NumberFormat, NumberFormat::describe", "filecheck/src/expr/value.rs: Display for ValueType", "filecheck/src/pattern/matcher/matchers/smart/searcher.rs: implicit format conflict", "filecheck/src/parse/grammar.lalrpop: Format"]}
{"id": "C102", "title": "The listings of suites and tests say everything", "statement": "What 'lit suites' prints about the loaded suites names every suite with the number of its tests, its directories, its format, its features, and its substitutions and environment variables in columns; and from what is printed, as from the listing of tests, the suites (the tests) can be read back.", "quantifier": "every list of suites, with any texts, and every list of tests", "why_tests_cant": "the columns depend on the longest key of the table, and reading back is a statement about all pairs of configurations", "anchors": ["litcheck/src/commands/lit.rs: show_suites, show_tests"]}
{"id": "C103", "title": "Errors about a group of checks point at the group", "statement": "When an error names a group of checks (a run of CHECK-DAG or CHECK-NOT directives, a sequence of CHECK, CHECK-NEXT, CHECK-SAME and CHECK-EMPTY directives, or groups around CHECK-NOT directives), the place it shows begins where the first pattern of the group begins and ends where its last pattern ends; and the pattern it names as the first one, such as the pattern that bounds an exclusion, is the first pattern of the group.", "quantifier": "all groups, with any number of patterns of any kind, at any places in a check file, nested in any way", "why_tests_cant": "The place is computed from minima and maxima over prefixes and suffixes that have been taken apart and merged by five strategies; a test shows one arrangement, and messages are rarely compared with the text they point at.", "anchors": ["filecheck/src/check/program.rs: CheckGroup::{first_pattern_span, span}, CheckTree::{first, last}", "filecheck/src/pattern/matcher/matchers/all.rs: MatchAll::{compile, first_pattern, span}", "filecheck/src/pattern/matcher/matchers/any.rs: MatchAny::{first_pattern, span}", "filecheck/src/pattern/matcher/matchers/{substring_set,regex_set}.rs: first_pattern, span", "filecheck/src/ast/pattern.rs: CheckPattern::pop_prefix"]}
{"id": "C104", "title": "Values of the core can be keys", "statement": "The names of files, documents, files, parts of files, ranges, symbols and spanned values that litcheck-core exports can be used as keys of sorted and hashed maps: their order is total, == is an equivalence that agrees with the order, equal values are hashed alike, and a borrowed form of a value is compared and hashed as the value is; and the map of variables finds under a name what was last defined under it.", "quantifier": "every pair and triple of values of these types; every history of definitions and deletions of variables, by whole name or by text", "why_tests_cant": "The contracts of Ord, Eq, Hash and Borrow speak of all pairs of values; a test compares a few, and what breaks them needs names of different kinds that are shown alike.", "anchors": ["core/src/diagnostics/filename.rs: FileName Ord", "core/src/diagnostics/source_file.rs: SourceContent, SourceFileRef Eq, Ord, Hash", "core/src/diagnostics/span.rs: Span Eq, Ord, Hash, Borrow", "core/src/symbol/mod.rs: Symbol Ord, Borrow", "core/src/range.rs: Range Ord", "core/src/variables/mod.rs: VariableName Borrow, Variables"]}
{"id": "C105", "title": "What is told about a result in detail", "statement": "With --verbose or --show-all, what is printed about a test that was executed tells how its process ended (its exit code if that is not zero, or that it has none), how long it took (whole seconds until a timeout, milliseconds below a second, else seconds), and everything it printed on its standard output and its standard error; different ends, times and outputs are told apart, and printing it never aborts.", "quantifier": "every status, exit status, pair of outputs and time, and every way in which the execution of a test can end", "why_tests_cant": "a test compares the texts of some results; that no two different results look alike, and that none aborts, is about all outputs and all ways of ending", "anchors": ["lit/src/test/result.rs: TestResult (Display, exit_code, is_timeout)", "lit/src/utils.rs: ShellCommand::wait_with_timeout", "litcheck/src/commands/lit.rs: TestRunner::run"]}
