# Formal model of litcheck in Rocq (Coq 8.16.1)

The properties are in `properties.jsonl`; the claims made about them in `MANIFEST.json`; the
attempts to break the theorems with wrong programs in `seeded/LOG.jsonl`.

## Layout and method

Every subsystem `X` has up to four files under `rocq/theories/`:

* `X_Model.v` – executable Gallina functions following the Rust code function by function; every
  definition carries a comment with the file and lines in `/repo` it models and the
  simplifications made. No proofs.
* `X_Spec.v` – the small independent specification the properties are stated with.
* `X_Proofs.v` – lemmas.
* `X_Props.v` – only the property theorems, each closed with `exact lemma`, with
  `Print Assumptions` beneath and an `Example` showing that a concrete non-trivial case meets
  the hypotheses.

Naming: a theorem ending in `_partial` proves part of the property text; a theorem ending in
`_refuted` exhibits a witness on which the *faithful* model violates the property text (a bug
in the code, traced in the comment beside it). A property the code violates is claimed as
`partial` in the manifest, with the refutation and the strongest true part both named.

Modelling conventions: `&mut` functions return the new value; `Result`/`Option` are data; a Rust
panic (assert, unwrap, slice out of range, subtraction underflow) is an explicit error value;
loops are structural recursion, or recursion on fuel with a distinguished out-of-fuel answer that
the theorems exclude; text is a list of characters (code points as `N`) or bytes (`nat`/`N`)
depending on what the code indexes by; machine integers are unbounded unless the property is
about their limits (number formats: `Z` with explicit 64/128-bit bounds).

## Plan per property

| id | modelled | how proved |
|----|----------|-----------|
| C01 | tokenizer + recursive descent parser of `boolean.rs` on lists of code points; regex compilation is an abstract validity predicate | induction on expressions with a minimal-parenthesis printer as the specification |
| C02 | same + `Display` | induction; patterns gain a pair of parentheses per trip, so refuted in general and proved for pattern-free expressions, and up to grouping otherwise |
| C03 | same | soundness of the parser w.r.t. an inductive grammar over characters; refuted for NUL and for the single-brace opener |
| C04 | `FeatureSet` functions, `evaluate` | induction over lists |
| C05–C07 | `num.rs` printing and parsing over digit strings, `Z` with explicit width limits | induction on digits; refutations by computation |
| C08–C09 | `range.rs` | case analysis; `pop_front`/`pop_back` refuted |
| C10–C11 | `text/mod.rs` newline functions and canonicalisation on byte/char lists | induction; CRLF refuted |
| C12 | `cursor.rs` state machine | invariant over operation sequences |
| C13–C22 | check engine: `check/mod.rs`, `rules/*`, visitors, on byte lists with matchers as functions; literal matcher modelled concretely | induction on programs, greedy exchange argument for C13; refutations by computation for panics |
| C49 | the same engine on `crlf b`, the input with a CR before every LF | every search is shown to commute with the strictly monotone map of offsets; files that look at line ends are independent of the cursor's line bookkeeping (simulation); refutations by computation |
| C23–C24 | `program.rs` compile to blocks and groups | flattening functions and induction |
| C25–C26 | `env.rs`, `context.rs` | operation histories, refinement to a scoped map |
| C27–C30 | `sh/mod.rs`, `engine.rs`, `status.rs`, `commands/lit.rs` with the child process as an oracle | case analysis, induction on outcome sequences |
| C31–C34 | script parser and substitutions on strings | induction over lines |
| C35 | `TestConfig::inherit` with finite maps | map extensionality |
| C36–C37 | `list.rs` list/cursor operations (pointer structure abstracted to sequences plus the position/length counters) | refinement to lists |
| C38–C39 | `source_file.rs` | induction over edits |
| C40–C42 | `path_tree.rs` over component lists; the file-system canonicalisation is an input | refinement to a map from paths to values, induction over insertions |
| C43 | generated script as an abstract `&&` chain | induction over commands |
| C44 | `utils.rs` as a state machine over an abstract child | partial: OS scheduling is not modelled |
| C45–C48, C54 | `text/mod.rs`, `Env`, list utilities as listed in the model files | induction over bytes / operations |
| C50, C51 | `source_file.rs` over byte lists | induction over lines |
| C52, C53 | `not.rs`, `sh/mod.rs`, `executable.rs` as functions of the child's outcome | case analysis |
| C55–C59 | suite and test registry over an abstract file-system tree; configuration files and globs are inputs | invariant of the registry over the recursive loading; induction over trees; refutations by computation |
| C60 | the rules of Rules_Model on failure | case analysis per rule; induction over a CHECK-DAG group |
| C61 | `Config::is_selected` with the worker pool of C30 | corollary of C30 for every schedule |
| C62 (C31, C32) | `parser.rs`, `directives.rs` of test scripts; spans dropped, regexes of the parser as the functions they stand for | the parser is proved equivalent to an inductive definition of what the lines mean (both directions), by induction over lines |
| C33, C34 | `config/substitutions.rs`, `Substitution::apply`, `TestScript::apply_substitutions`; regex engine as an oracle | histories of definitions by induction; escaping by distributing replacement over the pieces between markers |
| C63 | the substitutions `ShTest::execute` builds; paths are inputs | layers of maps, by induction on the inserted entries |
| C64, C65 | `parse/lexer/mod.rs`, `patterns.rs`, `parser.rs`: the tokens of a check file; the pattern set as the functions its regexes stand for, spans dropped | the search of the whole file is split at line feeds, the search in a line is equivalent to an inductive definition of what a line says |
| C66, C67 | the pattern lexer, `delimiter.rs`, block lexer, `grammar.lalrpop` | the lexer's modes against an inductive cut of the text (both directions, cut unique), block words against an inductive spelling |
| C68 | `grammar.lalrpop` as inductive productions, shown equivalent to an executable parser; LALRPOP itself is trusted to recognise its grammar | left recursion of the grammar against a left-to-right evaluation of the words; refutation where the grammar groups to the right |
| C69 | `ast/pattern.rs` `compact`, `pattern/mod.rs`, `matchers/{regex,substring,whitespace,always}.rs`; `regex-automata` as a backtracking matcher of ASCII expressions with its own lexer and parser | the regex engine is proved to find the leftmost word of the expression's language; the concatenation of the parts' texts is shown to parse to the concatenation of their trees with shifted groups |
| C70, C71, C72 | `smart/{builder,instruction,operand,searcher}.rs`, `matchers/smart.rs` | the run of the machine against an inductive chain of pieces that threads the variables; rounds of the search by induction on the distance to the end of the buffer; texts known beforehand by a direct computation |
| C73, C74 | `matchers/{all,any,regex_set,substring_set}.rs`, `search/{substring_set,regex,pattern_set}.rs`, `visitors/{static,dynamic}.rs`, `pattern/prefix.rs`, the order on prefixes; the overlapping automaton as a parameter that reports the matches by their ends | compilation by induction on the list; what a reported match stands for from C69; the visit by an invariant over the reported matches |
| C75 | `Test::verify` as a whole (`test/mod.rs`, `test/result.rs`): parsing, compilation, arrangement and checking, composed in `Whole_Model` from the models of the parts; the positions of the patterns are a parameter | a simulation between pattern languages (`Sim_Proofs`), then C13-C22, C64-C67, C73, C74 |
| C76 | the same `Whole_Model.verify`; what the directives ask is said in `Demand_Spec` on the directives as they are read, without compiled patterns | the answers of the matchers (C66-C74) are read back as occurrences, with C22 for the pattern language cut down to sane answers (`Tame_Proofs`, `Tame_File`) |
| C77 | `Cli_Model.text_definition`, `cli_define`; the environment of Env_Model | by induction on the text up to its first '=' |
| C78 | `Cli_Model.cli_lex`, `c_numeric` (the grammar) and `parse_numeric`; expressions as in Gram_Model | `Cli_Spec.spelled` against the lexer, the value of the tree against that of the text as for C68, the evaluator with C47 |
| C79 | `Cli_Model.options_of`, `command`, over `Whole_Model.verify` | sorting and removal of duplicates by induction; membership of prefixes by `comma_part` |
| C80 | `Regex_Model.ends` over the compiled expressions of C69 | a match is a sequence of choices, ordered lexicographically; the engine's list of matches is shown to be sorted and complete by induction on the expression; an order isomorphism between the choices of the parts and those of the compiled expression, part by part |
| C81 | `Whole_Model.verify` again; the same `Demand_Spec.satisfied`, with the exact finding relation `Exact_Spec.surely` | converse of C76: from `satisfied` to the run, through C22's equivalence, the compilation of every directive and set, C80, C82 and C83; and C76 with the exact relation |
| C82 | `Lit_Model.lit_dag` (`visit`) against `Sweep_Spec.swept` | induction on the sweep in both directions |
| C83 | `Smart_Model.smart_match` against `Scan_Spec.scan` | the compiled operations of each piece are matched with its segment (`cut_lowered`), values with `valued`/`texted`; induction on the segments and on the restarts, in both directions |
| C84 | `Sym_Model`: the interner and its calls as a state machine, the numbering of `build.rs`, the declarations of `symbols.toml` | invariant: the map and the vector are inverse to each other and only grow; induction over the history; the numbering by induction over the declarations |
| C85, C86 | `Mgr_Model`: heap of files, managers and pointers with counts, `Arc::make_mut`, every call of `SourceManager`; `Mgr_Spec`: the same without sharing | refinement: an abstraction function from addresses to marked documents, kept by every call; histories by induction |
| C87 | Input_Model: `read_to_string`, `open`, and the searches for files, over any answers of the system; UTF-8 as in the standard library | the result against an independent description (UTF-8 encoding, line ends), induction over the lines |
| C88 | Tool_Model: the default substitutions (`set_default_substitutions`), what `Regex::replace_all` does with plain patterns and with the patterns of the two tools, templates with `$name`; with Sub_Model’s `apply` | the text after each of the eleven substitutions as a rendering of the same tokens; induction over words |
| C89 | Tool_Model: `set_default_features`, `suite_config`, `local_config` over Config_Model’s `inherit` | membership after each insertion, induction over the chain of directories |
| C90 | Report_Model: `print_results`, `TestRunner::run`’s output, `show_tests`, the modes of `Lit::run`, over Run_Model’s pool and results | induction over the statuses in order against a grammar of reports; the grammar is shown unambiguous line by line |
| C91 | Dump_Model: `SearchedRegion::describe`, `match_none`, over Source_Model; `reporting`: the engine of Check_Model with the reports of its matchers built | case analysis against a declarative account over lines and bytes; for the engine a simulation on one text (SimAt_Proofs) |
| C92 | Dump_Model: `dedup_searched_regions`, `InputDump::new`, `into_result`, `check_input`’s end | one pass over the flattened errors, induction over nested errors; stability of the sort |
| C93 | Main_Model: `main`, `build_cli`, `init_logger`, the subcommands of lit; clap from its documentation | equivalence by the stem of the path and the first word |
| C94 | Main_Model: `FileCheck::run` (FILECHECK_OPTS, validation, exit status) over Cli_Model | case analysis against a relation for the options in force |
| C95 | Parse_Model, Whole_Model: `verify` under `match_full_lines` and `strict_whitespace` | the lexer gives the same tokens; induction over the file |
| C96, C97 | Span_Model: the index and number types, spans, the 32-bit line table | linear arithmetic with the wrap-around as a parameter; induction over the text for the table |
| C98 | Regex_Model (the lexer, parser and search that stand for the regex crates) | Syntax_Spec tells the grammar and the meaning of expressions again, from the documentation, as inductive relations; the lexer is shown to read every word of it, the parser every tree (induction over the grammar, with the open frames), and the language and choices of the two trees are shown to be the same |
| C99 | The merging of pattern pieces (Smart_Model) and the iterator over the variables of a pattern as a state machine | total and deterministic by induction over the pieces; what it yields by an invariant relating the pending text to the pieces gone through; the full claim refuted by the label f[[X]] |
| C100 | Ord_Model: the comparison functions of ast/pattern.rs, expr/ and variables/, arm by arm, and the map of all.rs | lawful orders are closed under keys, pairs, lists and options; each comparison is one over a key; the map by induction; refutations by evaluation |
| C101 | Form_Model: the texts of num.rs and value.rs for formats and types; Parse_Model reads the file "CHECK: [[#notation,...]]" | the formats are finitely many (the precision is a byte): each is shown and read by computation in the kernel; that no file asks for lower case, by induction over the parser; injectivity from a table | 
| C102 | Suites_Model: `show_suites` with its columns; Report_Model: `show_tests` | an independent grammar of listings (with widths in characters or in UTF-8 bytes), met by the printed text and by no other; reading back by splitting lines at the first colon, the last space |
| C103 | Where_Model: the places of prefixes and suffixes through `MatchAll::compile`, `first_pattern`, `span`, and the groups and trees of a program | the places of the patterns in the order of the file, as a list; mutual induction over groups and trees; invariants of the merging of prefixes: the first pattern is kept first, every suffix is entered somewhere; minima and maxima of ordered lists |
| C104 | equality, order, hash and borrowed forms of the values of litcheck-core; `Variables`; the components of a path | keys: every order is one of texts, numbers or pairs after a function (C100); the map by a sortedness invariant; concrete counterexamples |
| C105 | Detail_Model: `details` (result.rs), `result_of` (the ends of utils.rs) | an independent grammar of the text, met by the printed text only; reading back part by part, the standard output up to the first line of dashes |

## Trusted base (kept current at the end of this file)

* Coq 8.16.1's kernel, `coqchk`.
* What `Print Assumptions` lists (see each `_Props.v`): it is "Closed under the global
  context" for every theorem. (`vcheck`, which looks at whole files, may also name the parameters of
  `Coq.ssr.ssrunder.Under_rel`, a module of the standard library that some files load; no theorem
  uses them.)
* The reading of `/repo` into the models, file by file as listed below.
* The libraries litcheck calls, as described in the header of the model that uses them: the regex
  engines (`regex`, `regex-automata`) and `glob` are inputs of the theorems or replaced by the
  function a fixed expression stands for, except for C69-C74, whose engine is Regex_Model (an ASCII subset of the
  syntax: literals, classes, escapes, groups, alternation, greedy and lazy repetition, anchors, word
  boundaries; leftmost-first semantics); the Aho-Corasick automata, `intrusive_collections`,
  `indexmap`, `im_rc`, `BTreeMap`, rayon's bridge and LALRPOP's generated parser are modelled from their
  documentation; the operating system (files, processes, time) is an input.

### What is modelled

"all" means: every function that affects results; formatting of diagnostics, logging, `Debug` and
trait plumbing (`From`, `Deref`, `Hash`, …) are never modelled.

| file in /repo | model | not modelled |
|---|---|---|
| `core/src/range.rs` | Text_Model: all | indexing of slices by a range |
| `core/src/text/mod.rs` | Text_Model: all | borrowing |
| `core/src/text/display.rs`, `reporting.rs`, `diagnostics/{location,mod}.rs`, `fs/mod.rs`, `lib.rs` | – | all: display, re-exports |
| `core/src/diagnostics/source_file.rs`, `selection.rs` | Source_Model: `SourceContent` (lines, positions, `update`, `select`), `SourceFile::read_span`/`data` | 32-bit overflow (but see Span_Model: line table, index types). Key_Model: equality, order, hash, `SourceFileRef` |
| `core/src/diagnostics/source_manager.rs`, `filename.rs` | Mgr_Model: all of `DefaultSourceManager`, the default methods of the trait, names | the lock (calls are atomic), languages, `file_line_col` (its parts are in Source_Model) |
| `core/src/diagnostics/span.rs` | Span_Model: all | (de)serialisation, conversions to miette |
| `core/src/fs/path_tree.rs` | Tree_Model: all, including iteration and the fallback canonicalisation | `children` with a depth limit other than as cited; Windows prefixes |
| `core/src/fs/filesearch.rs`, `glob.rs` | Disc_Model: the searches discovery makes | glob matching (an input) |
| `core/src/input.rs` | Input_Model: all | what the system answers (an input); the glob matching of `glob` |
| `core/src/symbol/mod.rs`, `symbols.toml`, `core/build.rs` | Sym_Model: the interner, its calls, the numbering | the lock (calls are atomic), generated names, `is_keyword`; elsewhere a symbol is its text (which C84 justifies) |
| `core/src/variables/mod.rs` | Env_Model: names and their comparison; Cli_Model: `Variable::try_parse`, `VariableName::try_parse`, `is_valid_variable_name`; Key_Model: `Variables`, borrowed names | the texts of errors |
| `filecheck/src/ast/*.rs` | Parse_Model, Gram_Model: the values the parser builds; Program_Model: directive kinds | – (`pattern.rs` `compact`: Smart_Model; `locate_variables`: Vars_Model) |
| `filecheck/src/check/mod.rs`, `check/program.rs` | Check_Model, Program_Model: all; Dump_Model: dumps; Where_Model: the places errors about groups point at | the text of diagnostics |
| `filecheck/src/context.rs`, `env.rs` | Env_Model: all | – |
| `filecheck/src/cursor.rs`, `input.rs` | Cursor_Model: all of `cursor.rs`, the searches of `input.rs` it uses | `u32` truncation |
| `filecheck/src/errors.rs`, `test/{mod,result}.rs`, `pattern/matches.rs`, `pattern/matcher/{mod,result}.rs` | Dump_Model: searched regions, repeated regions, dumps, `into_result`, `check_input`'s end; Check_Model, Whole_Model (`verify`, `into_result`): kinds of failure, accumulation of matches and errors, which failures carry a label | messages |
| `filecheck/src/rules/*.rs` | Check_Model: all | – |
| `filecheck/src/expr/{num,mod,value}.rs`, `evaluate_expr` of `smart/searcher.rs` | Num_Model | `Expr`'s `Display` |
| `filecheck/src/expr/{cli,parser,error}.rs`, `expr/grammar.lalrpop` | Cli_Model: all | spans, error kinds; overflow of `- ` before -2^127 |
| `filecheck/src/parse/{lexer/*,parser.rs,grammar.lalrpop,mod.rs}` | Parse_Model, Gram_Model: all | spans, error kinds |
| `filecheck/src/pattern/matcher/matchers/{substring,substring_set}.rs`, the literal cases of `any.rs`, `all.rs`, `search/{substring_set,default,mod,aho_corasick}.rs`, `visitors/static.rs` | Lit_Model | – |
| `…/matchers/{regex,simple,smart,whitespace,always}.rs`, `smart/*`, `pattern/mod.rs`, `expr/num.rs` (patterns) | Smart_Model, Regex_Model: compilation and matching of one pattern by CHECK, CHECK-NEXT, CHECK-SAME and CHECK-LABEL, for ASCII texts | texts beyond ASCII; spans; `Drop` (never built) |
| `…/matchers/{all,any,regex_set,substring_set}.rs`, `search/{regex,pattern_set}.rs`, `visitors/{static,dynamic}.rs`, `pattern/{prefix,id,iter}.rs` | PatSet_Model: compilation of the patterns of CHECK-NOT and CHECK-DAG, searching, both visitors, for ASCII texts | empty {LITERAL} texts; spans but for the start of a pattern (the others: Where_Model); how the automata are built (a parameter, of which PatSet_Spec states what is assumed and PatSet_Engine that it can be met). Lit_Model and Check_Model speak about sets without repetitions: a repeated pattern may make compilation panic (C73) |
| `filecheck/src/lib.rs` | Parse_Model: the prefixes, Check_Model/Lit_Model: the options used, Cli_Model: `prefix_value_parser`, `Options::validate` | clap, `--color` |
| `lit/src/config/expr/*`, `features.rs` | BoolExpr_Model: all | `Deserialize` |
| `lit/src/config/substitutions.rs` | Sub_Model: all | – |
| `lit/src/config/mod.rs` | Run_Model: `is_selected` | options |
| `lit/src/format.rs`, `test/config.rs` | Config_Model: `inherit`; Tool_Model: default substitutions and features | machines are given by the texts and classes that the code looks at; `current_exe`, and the texts of paths that are not UTF-8 |
| `lit/src/formats/executable.rs`, `sh/{mod,engine}.rs`, `utils.rs`, `test/status.rs` | Run_Model, Wait_Model | the content of the outputs |
| `lit/src/formats/sh/script/*.rs` | Script_Model, Sub_Model: all | spans |
| `lit/src/suite/*`, `test/{mod,registry/*}.rs` | Disc_Model | reading and parsing TOML (inputs), symbolic links |
| `lit/src/test/list.rs` | List_Model: all | – |
| `litcheck/src/commands/{lit,not}.rs` | Run_Model: selection, the worker pool, results, exit status; Report_Model: the report, the lines printed during a run, `show-tests`, exit codes; Suites_Model: `show-suites` | colours, the progress bar, the text of percentages |
| `litcheck/src/commands/filecheck.rs` | Cli_Model: `run` from the values of the options to the result; Main_Model: FILECHECK_OPTS, exit status | clap; reading of files (Input_Model) |
| `litcheck/src/main.rs`, `commands.rs` | Main_Model: all | clap, the logger, the panic hook |
