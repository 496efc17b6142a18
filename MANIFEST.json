{
 "claims": [
  {
   "property": "C01",
   "status": "proved",
   "theorems": [
    "C01_minimal_print_parses",
    "C01_grammar_complete"
   ],
   "note": "Parser and tokenizer of boolean.rs; regex compilation is an abstract validity predicate."
  },
  {
   "property": "C02",
   "status": "partial",
   "theorems": [
    "C02_refuted",
    "C02_roundtrip_partial",
    "C02_roundtrip_regroup_partial",
    "C02_roundtrip_meaning_partial"
   ],
   "note": "False as stated: each round trip wraps every pattern in one more group. Exact for pattern-free expressions; otherwise equal up to grouping, with the same truth value."
  },
  {
   "property": "C03",
   "status": "partial",
   "theorems": [
    "C03_parse_total",
    "C03_trailing_nul_refuted",
    "C03_single_brace_refuted",
    "C03_accepted_partial"
   ],
   "note": "Termination proved. Complete consumption is false: text after a NUL is ignored and a single '{' opens a regex; the exact accepted language is proved."
  },
  {
   "property": "C04",
   "status": "proved",
   "theorems": [
    "C04_missing_features",
    "C04_unsupported_features",
    "C04_set_semantics"
   ],
   "note": "FeatureSet reports and expression evaluation."
  },
  {
   "property": "C05",
   "status": "partial",
   "theorems": [
    "C05_refuted",
    "C05_roundtrip_partial"
   ],
   "note": "False as stated; proved to hold for exactly the representable values (unsigned: 64 bit, hex: non-negative)."
  },
  {
   "property": "C06",
   "status": "proved",
   "theorems": [
    "C06_precision",
    "C06_precision_wrapping"
   ],
   "note": "Display of Number; width formatting of the standard library is modelled."
  },
  {
   "property": "C07",
   "status": "partial",
   "theorems": [
    "C07_refuted",
    "C07_symmetric_partial",
    "C07_precision"
   ],
   "note": "Symmetric except for hexadecimal casing, which is the left operand's."
  },
  {
   "property": "C45",
   "status": "partial",
   "theorems": [
    "C45_refuted",
    "C45_decimal_exact",
    "C45_hex_exact_partial",
    "C45_complete",
    "C45_value_unique",
    "C45_errors",
    "C45_reason"
   ],
   "note": "Exact for decimal formats and for prefixed fixed-case hex; any-case hex accepts a sign and prefix-less hex accepts 0x."
  },
  {
   "property": "C46",
   "status": "partial",
   "theorems": [
    "C46_refuted",
    "C46_uncompilable",
    "C46_captured_parses_partial"
   ],
   "note": "Fails at 39 decimal / 32 hex digits, and precisions above that do not compile; proved below."
  },
  {
   "property": "C47",
   "status": "proved",
   "theorems": [
    "C47_value",
    "C47_evaluates",
    "C47_fuel",
    "C47_substituted"
   ],
   "note": "Evaluator with fuel for the chain of variable definitions."
  },
  {
   "property": "C48",
   "status": "partial",
   "theorems": [
    "C48_refuted",
    "C48_cycle_refuted"
   ],
   "note": "False: overflow, division by zero and self-referential -D#X=X+1 definitions; C47_evaluates gives the safe cases."
  },
  {
   "property": "C08",
   "status": "proved",
   "theorems": [
    "C08_bounds",
    "C08_bounds_never_stick_out",
    "C08_error_reports_request",
    "C08_defaults"
   ],
   "note": "usize overflow at usize::MAX not modelled."
  },
  {
   "property": "C09",
   "status": "partial",
   "theorems": [
    "C09_refuted",
    "C09_back_refuted",
    "C09_shrink_front_partial",
    "C09_truncate_partial",
    "C09_truncate_same_length_refuted",
    "C09_contains",
    "C09_empty",
    "C09_order"
   ],
   "note": "False: the unit step ONE is 0, so popping never advances; shrink_front and truncate are right."
  },
  {
   "property": "C10",
   "status": "partial",
   "theorems": [
    "C10_next_lf_partial",
    "C10_prev_lf_partial",
    "C10_crlf_refuted",
    "C10_crlf_from_start_partial",
    "C10_crlf_prev_from_start_partial",
    "C10_crlf_none_partial",
    "C10_newline_next",
    "C10_newline_prev_refuted",
    "C10_newline_prev_whole_refuted"
   ],
   "note": "Exact for LF; CRLF searches are wrong unless the range starts at 0; backward Newline search mislabels LF."
  },
  {
   "property": "C11",
   "status": "proved",
   "theorems": [
    "C11_canonicalize",
    "C11_strict"
   ],
   "note": ""
  },
  {
   "property": "C12",
   "status": "partial",
   "theorems": [
    "C12_cursor_invariant_partial",
    "C12_set_start",
    "C12_search_line",
    "C12_crlf_refuted",
    "C12_consume_newline_refuted",
    "C12_consume_newline_partial"
   ],
   "note": "Holds for LF input and every history of moves, re-boundings, resets, saves and restores; false for CRLF input and after consuming a newline."
  },
  {
   "property": "C13",
   "status": "proved",
   "theorems": [
    "C13_check_sequence"
   ],
   "note": "Every list of literal texts and every input, with and without --ignore-case; an empty input needs --allow-empty."
  },
  {
   "property": "C14",
   "status": "partial",
   "theorems": [
    "C14_check_next"
   ],
   "note": "One CHECK-NEXT after any directive list without labels. Files with line-relative directives or labels require LF input: with a first line ending in CRLF the cursor itself is broken (C12_crlf_refuted, C49_next_refuted)."
  },
  {
   "property": "C15",
   "status": "partial",
   "theorems": [
    "C15_check_same"
   ],
   "note": "One CHECK-SAME after any directive list without labels. Files with line-relative directives or labels require LF input: with a first line ending in CRLF the cursor itself is broken (C12_crlf_refuted, C49_next_refuted)."
  },
  {
   "property": "C16",
   "status": "partial",
   "theorems": [
    "C16_check_empty_partial",
    "C16_empty_at_end_refuted"
   ],
   "note": "False at the end of the input, where CHECK-EMPTY succeeds any number of times; the exact condition is proved. Files with line-relative directives or labels require LF input: with a first line ending in CRLF the cursor itself is broken (C12_crlf_refuted, C49_next_refuted)."
  },
  {
   "property": "C17",
   "status": "partial",
   "theorems": [
    "C17_check_not_partial"
   ],
   "note": "Exact for files without CHECK-DAG and labels. Any input if the file has no CHECK-NEXT, CHECK-SAME, CHECK-EMPTY; LF input otherwise (refuted for CRLF: C49)."
  },
  {
   "property": "C18",
   "status": "partial",
   "theorems": [
    "C18_dag_matches",
    "C18_dag_order",
    "C18_same_text_twice_refuted",
    "C18_incomplete_refuted",
    "C18_touching_refuted",
    "C18_ignore_case_refuted"
   ],
   "note": "Soundness and order-insensitivity for literals; equal texts share one occurrence, the search is greedy, --ignore-case is ignored."
  },
  {
   "property": "C19",
   "status": "partial",
   "theorems": [
    "C19_check_count"
   ],
   "note": "Exact for literal texts in files without labels. Any input if the file has no CHECK-NEXT, CHECK-SAME, CHECK-EMPTY; LF input otherwise (refuted for CRLF: C49)."
  },
  {
   "property": "C20",
   "status": "partial",
   "theorems": [
    "C20_labels_found",
    "C20_missing_label",
    "C20_blocks",
    "C20_first_line_label_refuted"
   ],
   "note": "Any pattern language whose matches are sound; labels must not match empty text or a newline; text before a label on the first line is in no block. Files with line-relative directives or labels require LF input: with a first line ending in CRLF the cursor itself is broken (C12_crlf_refuted, C49_next_refuted)."
  },
  {
   "property": "C22",
   "status": "partial",
   "theorems": [
    "C22_pass_iff_holds_partial",
    "C22_unanchored_refused",
    "C22_flat",
    "sane_pass"
   ],
   "note": "A run passes exactly when an independent relational reading of the check file holds. Files with line-relative directives or labels require LF input: with a first line ending in CRLF the cursor itself is broken (C12_crlf_refuted, C49_next_refuted)."
  },
  {
   "property": "C23",
   "status": "partial",
   "theorems": [
    "C23_implicit_check_not_partial",
    "C23_labels_refuted",
    "C23_count_refuted"
   ],
   "note": "Exact for files without labels, CHECK-DAG and CHECK-COUNT; false with labels and counts. Any input if the file has no CHECK-NEXT, CHECK-SAME, CHECK-EMPTY; LF input otherwise (refuted for CRLF: C49)."
  },
  {
   "property": "C24",
   "status": "proved",
   "theorems": [
    "C24_compile_keeps_directives"
   ],
   "note": "compile() for every list of directives; a CHECK-EMPTY has no text to keep."
  },
  {
   "property": "C25",
   "status": "partial",
   "theorems": [
    "C25_lookup",
    "C26_failed_pattern_forgets_refuted"
   ],
   "note": "Every history of bindings, blocks, nested attempts and choices, at every point inside open attempts. Missing: between the alternatives of one CHECK-DAG choice, where under --enable-var-scope a failed alternative clears the locals (refuted)."
  },
  {
   "property": "C26",
   "status": "proved",
   "theorems": [
    "C26_abandoned",
    "C26_not_chosen",
    "C26_committed"
   ],
   "note": "Abandoned attempts restore the whole machine exactly; a committed one cannot be told apart from working without it."
  },
  {
   "property": "C38",
   "status": "partial",
   "theorems": [
    "C38_line_table_partial",
    "C38_bad_start",
    "C38_past_newline_refuted",
    "C38_delete_line_refuted",
    "C38_swapped_refuted"
   ],
   "note": "Sessions of whole-text and range edits whose positions name places inside lines. The unrestricted claim is false: a column behind the newline corrupts the table, swapped ends abort."
  },
  {
   "property": "C39",
   "status": "partial",
   "theorems": [
    "C39_line_of_offset",
    "C39_lines_partition",
    "C39_location",
    "C39_roundtrip_partial",
    "C39_place_roundtrip_partial",
    "C39_refuted"
   ],
   "note": "Lines for all texts; offset -> line/column -> offset for ASCII text. False beyond ASCII: columns are reported in characters and read back in bytes."
  },
  {
   "property": "C50",
   "status": "proved",
   "theorems": [
    "C50_excerpt"
   ],
   "note": "UTF-8-like texts."
  },
  {
   "property": "C51",
   "status": "proved",
   "theorems": [
    "C51_select"
   ],
   "note": "UTF-8-like texts, places on character boundaries."
  },
  {
   "property": "C36",
   "status": "partial",
   "theorems": [
    "C36_sequence_partial",
    "C36_back_refuted",
    "C36_splice_after_refuted",
    "C36_splice_before_refuted",
    "C36_iter_back_refuted"
   ],
   "note": "Every history of list operations and cursor sessions, excluding: cursors started at the back of a list of two or more, splices of other than one test before the cursor or after the null position, and backward iteration. Those are wrong in the code (refuted)."
  },
  {
   "property": "C37",
   "status": "partial",
   "theorems": [
    "C37_split_at_partial",
    "C37_parts_partial",
    "C37_length_refuted",
    "C37_protocol_refuted"
   ],
   "note": "Every tree of splits by the list's own halving rule hands each test to exactly one part. The left part has one test more than requested, and rayon's length-trusting protocol aborts (refuted)."
  },
  {
   "property": "C27",
   "status": "proved",
   "theorems": [
    "C27_table",
    "C27_unsupported",
    "C27_not_run"
   ],
   "note": "Every script, feature set and sequence of process outcomes, over the model of ShTest::execute."
  },
  {
   "property": "C28",
   "status": "proved",
   "theorems": [
    "C28_retries",
    "C28_flaky",
    "C28_default"
   ],
   "note": ""
  },
  {
   "property": "C29",
   "status": "proved",
   "theorems": [
    "C29_exit"
   ],
   "note": "Every schedule of every number of workers. A panic inside a test's execution is not modelled (see C53)."
  },
  {
   "property": "C30",
   "status": "proved",
   "theorems": [
    "C30_reported_once",
    "C30_all_reported",
    "C30_terminates",
    "C30_own_statuses"
   ],
   "note": "Every schedule of every number of workers; tests' statuses come from an arbitrary oracle that does not itself answer SKIPPED or EXCLUDED (C30_own_statuses)."
  },
  {
   "property": "C43",
   "status": "proved",
   "theorems": [
    "C43_script",
    "C43_exit",
    "C43_text"
   ],
   "note": "The shell is modelled on the constructs the script uses; user commands are arbitrary effects with a success flag that return to the script (a command that itself exits the shell is outside the model)."
  },
  {
   "property": "C52",
   "status": "proved",
   "theorems": [
    "C52_not",
    "C52_codes"
   ],
   "note": ""
  },
  {
   "property": "C44",
   "status": "partial",
   "theorems": [
    "C44_own_status",
    "C44_not_started",
    "C44_timeout_late",
    "C44_in_time_partial",
    "C44_times_out_partial",
    "C44_hang_refuted",
    "C44_not_stopped_refuted",
    "C44_input_refuted",
    "C44_race_refuted"
   ],
   "note": "Every schedule of looks of the waiting loop. Missing and false of the code: a child that keeps its outputs open, or does not read its input, is never stopped; a child that exits between the look and the clock reading is reported as TIMEOUT (refuted)."
  },
  {
   "property": "C53",
   "status": "partial",
   "theorems": [
    "C53_no_abort_partial",
    "C53_extension_refuted",
    "C53_executable_refuted",
    "C53_executable_aborts_refuted"
   ],
   "note": "Shell tests on files with an extension; executable tests always abort, and a shell test without a file extension does too (refuted)."
  },
  {
   "property": "C35",
   "status": "proved",
   "theorems": [
    "C35_inherit",
    "C35_associative"
   ],
   "note": "Every pair and chain of configurations whose maps hold each key once. How the directory chain is walked is modelled separately."
  },
  {
   "property": "C54",
   "status": "proved",
   "theorems": [
    "C54_char_boundary"
   ],
   "note": ""
  },
  {
   "property": "C40",
   "status": "partial",
   "theorems": [
    "C40_lookup_partial",
    "C40_settled_partial",
    "C40_reinsert_refuted",
    "C40_branching_refuted",
    "C40_fallback_partial",
    "C40_fallback_refuted"
   ],
   "note": "Every history of well-formed paths: the last accepted value; nothing is refused while the inserted paths exist and the file system does not change. False for paths that do not exist (yet): a later insertion can be refused, and the textual fallback drops the root of /../x (refuted)."
  },
  {
   "property": "C41",
   "status": "partial",
   "theorems": [
    "C41_directories_partial",
    "C41_nearest_partial",
    "C41_unknown_refuted"
   ],
   "note": "Every history and path, with ancestors known to be directories; an ancestor inserted before it existed is not found (refuted)."
  },
  {
   "property": "C42",
   "status": "partial",
   "theorems": [
    "C42_iter_partial",
    "C42_children_partial",
    "C42_empty_directory_refuted",
    "C42_files_refuted",
    "C42_children_refuted",
    "C42_relative_refuted"
   ],
   "note": "Iteration: every entry once, in order, except directories with nothing below. False of the code: empty directories are not listed, files() lists directories, children(p) lists p and its depth limit counts p's own components, relative paths can be listed twice (refuted)."
  },
  {
   "property": "C55",
   "status": "partial",
   "theorems": [
    "C55_directories_partial",
    "C55_order",
    "C55_source_dir_refuted",
    "C55_no_patterns_refuted"
   ],
   "note": "Every tree and every list of suite directories, with suites whose source directory is that of their configuration file and whose local configuration files are not consulted (C58). False for a suite that moves its source directory (aborts); a suite without patterns has no tests (refuted)."
  },
  {
   "property": "C56",
   "status": "partial",
   "theorems": [
    "C56_file_partial",
    "C56_directory_refuted"
   ],
   "note": "Every single file argument in an innermost suite below the working directory. False for a directory inside a suite: tests get paths relative to the wrong directory (refuted)."
  },
  {
   "property": "C57",
   "status": "partial",
   "theorems": [
    "C55_directories_partial",
    "C55_order",
    "C57_union_refuted",
    "C57_lost_refuted"
   ],
   "note": "Holds for suite directories (C55). False as soon as a file of the same suite is named too, and earlier tests can be lost (refuted)."
  },
  {
   "property": "C58",
   "status": "partial",
   "theorems": [
    "C58_local_config_partial",
    "C56_file_partial",
    "C58_own_directory_refuted",
    "C58_whole_suite_refuted",
    "C58_order_refuted",
    "C58_abort_refuted"
   ],
   "note": "Every chain of directories, for a path named first in its suite. False of the code: the suite's own directory and whole-suite runs ignore local files; caching makes the result depend on earlier arguments, and can abort (refuted)."
  },
  {
   "property": "C59",
   "status": "partial",
   "theorems": [
    "C55_directories_partial",
    "C56_file_partial",
    "C59_nearest_refuted"
   ],
   "note": "Holds for suite directories and for a single file. False after an outer suite has been loaded by another argument (refuted)."
  },
  {
   "property": "C60",
   "status": "partial",
   "theorems": [
    "C60_failed_directive_partial",
    "C60_failed_dag",
    "C60_same_refuted"
   ],
   "note": "Every pattern language and state. False for a CHECK-SAME that finds its text on a later line: it fails but keeps the bindings (refuted)."
  },
  {
   "property": "C31",
   "status": "partial",
   "theorems": [
    "C31_lines_partial",
    "C62_script",
    "C62_unterminated",
    "C31_last_line_refuted"
   ],
   "note": "Every text that ends in a line feed. The last line of any other text is counted as the one before it (refuted)."
  },
  {
   "property": "C32",
   "status": "partial",
   "theorems": [
    "C32_joined",
    "C32_interrupted",
    "C32_single",
    "C62_script",
    "C32_dangling_refuted"
   ],
   "note": "Every script; a continuation followed by nothing is accepted (refuted)."
  },
  {
   "property": "C61",
   "status": "proved",
   "theorems": [
    "C61_filters",
    "C30_own_statuses"
   ],
   "note": "Every schedule in which no execution raises an internal error; filters are arbitrary sets of names."
  },
  {
   "property": "C62",
   "status": "partial",
   "theorems": [
    "C62_script",
    "C62_unterminated",
    "C62_refused",
    "C62_no_equals_refuted",
    "C62_abort_refuted",
    "C62_comma_refuted"
   ],
   "note": "Every text, for any regular expression validator and any digits of other scripts. False of the code: a definition without an equals sign is ignored, a reference beyond the countable lines aborts, a comma inside a regular expression splits it (refuted)."
  },
  {
   "property": "C33",
   "status": "partial",
   "theorems": [
    "C33_define_partial",
    "C33_scope",
    "C33_conflict_refuted",
    "C33_unusable_refuted",
    "C33_shadowed_refuted"
   ],
   "note": "Every history. False of the code: DEFINE accepts a key that is inside another (refuted); a key that is no regular expression - such as every %{name} - makes each later command fail (refuted, for any engine that refuses it); a name that begins with another's, such as %tool with %t, has no effect (refuted)."
  },
  {
   "property": "C34",
   "status": "partial",
   "theorems": [
    "C34_unchanged",
    "C34_escape_partial",
    "C34_marker_refuted",
    "C34_no_substitutions_refuted",
    "C34_value_refuted"
   ],
   "note": "For substitutions of plain text that begin with a percent sign and whose values cannot make percent signs meet, and texts without a hash sign. False otherwise (refuted): a text with the code's marker, an empty set, a value ending in a percent sign."
  },
  {
   "property": "C63",
   "status": "proved",
   "theorems": [
    "C63_defaults"
   ],
   "note": "Every configuration and format; the values themselves (paths) are inputs."
  },
  {
   "property": "C49",
   "status": "partial",
   "theorems": [
    "C49_line_ends_partial",
    "C49_empty_refuted",
    "C49_next_refuted",
    "C49_text_refuted"
   ],
   "note": "Proved for every input and every file of CHECK, CHECK-COUNT, CHECK-DAG, CHECK-NOT and --implicit-check-not with one-line literal texts, with the exact matches. False of the code with CHECK-EMPTY, CHECK-NEXT (aborts) and texts that span lines (refuted)."
  },
  {
   "property": "C21",
   "status": "partial",
   "theorems": [
    "C21_no_abort_partial",
    "C21_no_abort_flat_partial",
    "C21_dag_not_refuted",
    "C21_next_refuted",
    "C21_labels_refuted"
   ],
   "note": "Proved for files of literal patterns, with labels, on every input with LF line ends, and without labels and line-relative directives on every input, outside the three situations where the code aborts: CHECK-NOT between CHECK-DAG and a directive that must match (refuted), CHECK-NEXT at the end of a labelled block (refuted), a label that starts with a line feed (refuted). The reports of failed searches are not part of this model; with them, and unless --dump-input=never, inputs beyond ASCII can abort as well: see C91 (passing_not_refuted) and C92 (failure_refuted)."
  },
  {
   "property": "C64",
   "status": "partial",
   "theorems": [
    "check_file_by_line_partial",
    "line_without_directive",
    "dashless_unambiguous",
    "plain_line_when",
    "default_prefixes",
    "indented_directive_refuted"
   ],
   "note": "Every list of lines whose braces after a directive are closed on the line and whose directives and comments are not indented; an indented directive at the start of the file or right after another one is ignored (refuted)."
  },
  {
   "property": "C65",
   "status": "partial",
   "theorems": [
    "unused_prefixes_rejected"
   ],
   "note": "Every configuration without a repeated prefix and every list of lines as in C64."
  },
  {
   "property": "C66",
   "status": "partial",
   "theorems": [
    "literal_directive"
   ],
   "note": "Every line as in C64 with a LITERAL directive, every option, in both directions."
  },
  {
   "property": "C67",
   "status": "partial",
   "theorems": [
    "pattern_directive",
    "pattern_unique",
    "cut_keeps_text",
    "plain_pattern",
    "variable_block",
    "strict_spaces_refuted",
    "pattern_ends_refuted"
   ],
   "note": "In both directions, for every line as in C64; with --strict-whitespace or --match-full-lines only texts with at most one space after the colon (two are lost: refuted). White space around a regular expression is lost, white space and a carriage return at the end of the line are kept (refuted)."
  },
  {
   "property": "C68",
   "status": "partial",
   "theorems": [
    "numeric_value_partial",
    "numeric_evaluated_partial",
    "constraint_accepted",
    "numeric_left_to_right_refuted",
    "numeric_refused_refuted"
   ],
   "note": "Every block whose expression follows a colon or ==, and every other one except those with a minus after the first term and more than one term after it (refuted: X-1+2 is X-(1+2)). Blocks that begin with a number are rejected (refuted)."
  },
  {
   "property": "C69",
   "status": "partial",
   "theorems": [
    "pattern_pieces",
    "regex_pattern",
    "alternation_refuted",
    "tab_refuted",
    "redefinition_refuted"
   ],
   "note": "For ASCII texts and the modelled regex syntax; every list of parts with a part that is no text, whose regular expressions outside of definitions are no alternations (refuted: x{{a|b}}y), and whose variables have different names (else rejected: refuted); a single regular expression without restriction. A tabulator in a text does not match without --strict-whitespace (refuted)."
  },
  {
   "property": "C70",
   "status": "partial",
   "theorems": [
    "substitutions_linked",
    "constraint_refuted",
    "value_text_refuted",
    "last_definition_refuted",
    "unmatched_group_refuted",
    "hex_capture_refuted",
    "precision_refuted"
   ],
   "note": "Every match is such a text, for every list of parts as in C69 and substitutions, for ASCII texts and the modelled regex syntax. False of the code: constraints are not checked, text values are regular expressions, a definition at the end of the input makes the match fail, base-16 captures before a substitution are errors, two panics (refuted)."
  },
  {
   "property": "C71",
   "status": "partial",
   "theorems": [
    "search_ends",
    "search_ends_before",
    "search_unending",
    "search_ends_refuted"
   ],
   "note": "It ends unless the range ends with the buffer and the first parts take the empty text there; otherwise it may run forever (refuted: {{x*}}[[Y]])."
  },
  {
   "property": "C72",
   "status": "partial",
   "theorems": [
    "fixed_text_found",
    "fixed_text_exact",
    "overlap_refuted"
   ],
   "note": "Found where its first text occurs for the first time, and only where its text stands; another occurrence may be missed (refuted: aa[[X]] in aaab)."
  },
  {
   "property": "C73",
   "status": "partial",
   "theorems": [
    "not_patterns_partial",
    "not_texts",
    "dropped_pattern_refuted",
    "set_panics_refuted",
    "set_suffix_refuted",
    "not_ends_refuted"
   ],
   "note": "For ASCII texts and patterns that do not depend on variables and are written differently, and, unless all are literals, for every automaton that reports the matches of the expressions by their ends (shown to exist: ascii_set_ok). False of the code otherwise: {{a.b}} is dropped after a.b, repeated patterns and foo with foo[[X]] make compilation panic, [[X]]bar makes matching panic, [[X]]{{b}} runs forever (refuted). Sets with variables are modelled, but of them only these failures are proved."
  },
  {
   "property": "C74",
   "status": "partial",
   "theorems": [
    "dag_patterns_partial",
    "texts_as_literals",
    "dag_choice_refuted",
    "dag_texts_refuted",
    "dag_cursor_refuted"
   ],
   "note": "As C73; soundness, the end of the cursor and the variables; completeness if no two patterns have overlapping matches and no numbers are captured. For literals see C18. False of the code: matches may lie one in the other, the first match is kept even if it leaves no room for another pattern, --ignore-case and the kind of a space, the cursor with variables (refuted)."
  },
  {
   "property": "C75",
   "status": "partial",
   "theorems": [
    "whole_texts",
    "whole_sequence"
   ],
   "note": "For check files of lines as in C64, with every kind of directive, ASCII texts, no --implicit-check-not, and neighbouring CHECK-NOT (CHECK-DAG) texts that differ (repeated ones make compilation panic: set_panics_refuted). whole_texts carries C13 to C22 over to the text of the check file, whole_sequence says so for CHECK alone."
  },
  {
   "property": "C76",
   "status": "partial",
   "theorems": [
    "passing_input_partial"
   ],
   "note": "Soundness of a pass for the whole of verify, with any set of automata (set_ok) and the ASCII engine: CHECK, CHECK-NEXT, CHECK-SAME, CHECK-COUNT, CHECK-EMPTY, CHECK-LABEL, CHECK-NOT, CHECK-DAG, --implicit-check-not, --enable-var-scope; patterns of texts, regular expressions, definitions, substitutions, numbers. Missing: CHECK-DAG groups of several patterns of which one is not a text, substitutions in CHECK-NOT and CHECK-DAG, patterns of white space only, labels with variables. The converse is C81."
  },
  {
   "property": "C77",
   "status": "proved",
   "theorems": [
    "text_definition_exact",
    "text_definition_unique",
    "definition_visible",
    "global_definition_refuted"
   ],
   "note": "global_definition_refuted: '$NAME=TEXT' is never accepted, although the documentation of --enable-var-scope speaks of global variables named with '$' (a definition without it is seen by both NAME and $NAME, definition_visible)."
  },
  {
   "property": "C78",
   "status": "partial",
   "theorems": [
    "numeric_definition_accepted",
    "numeric_definition_refused",
    "numeric_definition_unique",
    "numeric_definition_value",
    "minus_refuted",
    "definition_format_refuted",
    "own_definition_refuted"
   ],
   "note": "Exact with respect to the words of the definition. minus_refuted: a '-' directly before a digit belongs to the number, so '#N=5-3' is refused. definition_format_refuted: the format is dropped. own_definition_refuted: '#N=N + 1' is accepted and its evaluation never ends. Not modelled: the overflow of '- ' before -2^127, which panics in a debug build."
  },
  {
   "property": "C79",
   "status": "proved",
   "theorems": [
    "options_accepted",
    "options_given",
    "command_options",
    "prefix_ascii_refuted"
   ],
   "note": "Any Unicode predicate that is right on ASCII and holds of no white space. prefix_ascii_refuted: the message of the code says ASCII, the code allows other alphanumeric characters. Clap itself (how the values of options are found among the arguments) and FILECHECK_OPTS are not modelled."
  },
  {
   "property": "C80",
   "status": "partial",
   "theorems": [
    "pattern_chosen",
    "regex_chosen_pattern",
    "repetition_extent",
    "first_alternative",
    "longest_refuted"
   ],
   "note": "An equivalence: the search returns r iff r is the specified choice. For ASCII texts, the modelled regex syntax and the patterns of C69. The match is not the longest one (longest_refuted). Patterns with substitutions: C83."
  },
  {
   "property": "C81",
   "status": "partial",
   "theorems": [
    "satisfied_passes",
    "passes_exactly"
   ],
   "note": "Both directions for the whole of verify, with any set of automata (set_ok) and the ASCII engine; examples function_exact (one input that passes, one that does not meet the check file). Definitions of numbers with constraints are included; that the constraint need not hold is part of the relation. Missing: CHECK-DAG other than groups of texts, and what C76 leaves out. The depth to which variables may refer to each other is the one the model evaluates."
  },
  {
   "property": "C82",
   "status": "proved",
   "theorems": [
    "dag_texts_swept",
    "swept_once",
    "swept_places",
    "dag_placement_refuted"
   ],
   "note": "dag_placement_refuted: it is not enough that the texts stand one after the other in some order."
  },
  {
   "property": "C83",
   "status": "partial",
   "theorems": [
    "scan_compiles",
    "scan_exact",
    "scan_once",
    "greedy_refuted",
    "long_number_refuted"
   ],
   "note": "An equivalence: the search returns r iff the specified scan does; scan_once: there is at most one outcome. greedy_refuted: pieces do not make room for those that follow. Definitions of numbers with a constraint are included: the value of the constraint must be a number, but not the one that was found (span_scan: 3-9 is found for N-(N+1)). Examples register_scan, pages_scan (numbers defined and used in one pattern). long_number_refuted: a number longer than its precision ends the search with an error. Missing: base-16 numbers that ask for a case together with --ignore-case, texts with tabs that are not canonical."
  },
  {
   "property": "C84",
   "status": "proved",
   "theorems": [
    "symbols_same",
    "symbols_read",
    "symbols_compared",
    "known_made",
    "known_read",
    "symbols_refused",
    "build_numbered",
    "declared_numbered",
    "declared_twice_partial",
    "litcheck_numbered",
    "number_refuted",
    "number_panics_refuted",
    "sections_refuted"
   ],
   "note": "For every table whose known symbols are numbered from 0 with different texts; litcheck_numbered: those of symbols.toml are, as build.rs numbers them; build_numbered: so is every declaration whose ids are positions; declared_numbered: a section that asks for the numbers 0..k-1 in any order gets them, and the others follow. The three refutations concern other declarations that build.rs accepts. The lock is taken to make calls atomic."
  },
  {
   "property": "C85",
   "status": "proved",
   "theorems": [
    "unshared_exact",
    "pointer_stable",
    "managers_apart",
    "found_id",
    "update_seen",
    "load_found"
   ],
   "note": "unshared_exact: the heap with counted pointers and writes in place gives, for every history, the answers of a machine in which nothing is shared. The others follow for every history. Identifiers are those the API can make; calls are atomic (the lock); texts below 4 GiB."
  },
  {
   "property": "C86",
   "status": "partial",
   "theorems": [
    "location_roundtrip_partial",
    "location_end_refuted",
    "location_older_refuted",
    "names_refuted",
    "raw_paths_refuted",
    "update_unknown_refuted",
    "failed_update_refuted",
    "group_refuted",
    "load_file_refuted"
   ],
   "note": "The round trip holds for the text loaded last under its name and spans that begin before its end. The code falsifies the rest: names are compared as they are shown, an update with an unknown identifier panics, a failed one makes the manager disown its file, a file may be returned for an argument, and a file is not read again."
  },
  {
   "property": "C87",
   "status": "proved",
   "theorems": [
    "strict_exact",
    "lines_exact",
    "reading_total",
    "reading_fails",
    "result_utf8",
    "windows_same",
    "listing_file",
    "again_refuted",
    "final_newline_refuted",
    "carriage_refuted",
    "listing_ends_refuted"
   ],
   "note": "the _refuted theorems mark stronger claims that do not hold: reading again what was read gives the same (a second final line feed is lost), the final line feed is kept, no CR LF remains (CR CR LF becomes CR LF); get_file_types and glob never return on a directory (they call themselves on it again)"
  },
  {
   "property": "C88",
   "status": "partial",
   "theorems": [
    "command_expanded",
    "command_expanded_below",
    "neighbours_refuted",
    "program_refuted",
    "dollar_refuted",
    "percent_refuted",
    "directory_refuted"
   ],
   "note": "proved for commands of words with one white space character between them that have no #, in which the same tool is not called by two words next to each other, for programs called litcheck or lit, and for paths without % $ #. Outside of this the claim is false of the code: 'not not x' keeps its second 'not' (neighbours_refuted), a program with another name replaces FileCheck and not by nothing (program_refuted), a $ in a path makes part of it disappear (dollar_refuted), the name of a substitution in a path is replaced (percent_refuted), and so is a tool's name in the program's path (directory_refuted). Not covered: substitutions of a suite's own (their regular expressions are an input of the model)."
  },
  {
   "property": "C89",
   "status": "partial",
   "theorems": [
    "suite_features",
    "test_features",
    "suite_substitutions",
    "directory_substitutions",
    "override_refuted",
    "apple_refuted"
   ],
   "note": "the features are proved in full; that a suite's own substitution comes before the built-in one of the same pattern holds in the suite itself (suite_substitutions) and is false in every directory with a configuration of its own (override_refuted; what is used there: directory_substitutions). x86_64-apple is only given to targets named darwin, not to those named macosx (apple_refuted)."
  },
  {
   "property": "C90",
   "status": "partial",
   "theorems": [
    "run_report",
    "run_total",
    "report_unambiguous",
    "run_lines",
    "tests_listed",
    "mode_codes",
    "empty_run",
    "total_refuted",
    "filter_refuted",
    "no_tests_refuted"
   ],
   "note": "the report is proved for all runs; but tests whose execution raised an error are in no list and not in the total (total_refuted; run_total says by how much), show-tests lists the tests that its filters leave out (filter_refuted), and the error for a run without tests is never given (no_tests_refuted): such a run says that no tests were selected (empty_run). Unambiguous for names without line feeds. The text of percentages and of a single result's details is an input of the model; colours and show-suites are not modelled."
  },
  {
   "property": "C91",
   "status": "partial",
   "theorems": [
    "region_told",
    "told_once",
    "region_aborts",
    "reports_silent",
    "reports_change_nothing",
    "search_aborts",
    "passing_not_refuted"
   ],
   "note": "What is told is a function of the text and the range given by a separate specification (tells), which determines it (told_once); proved for every valid UTF-8 input and every range whose bytes neither begin nor end inside a character. A range that does aborts the run (region_aborts is exact), and since the report is built for every search that finds nothing, a CHECK-NOT that is to pass aborts on an input that ends with a character of several bytes and no newline (passing_not_refuted). On ASCII inputs, or with --dump-input=never, verdicts are those of the engine without reports (reports_change_nothing). Not in the model: the reports of CHECK-NEXT at the end of a block, of CHECK-EMPTY and of labels that are not found; how miette prints them; 32-bit offsets."
  },
  {
   "property": "C92",
   "status": "partial",
   "theorems": [
    "regions_once",
    "regions_told_apart",
    "same_region_refuted",
    "dump_told",
    "dump_aborts",
    "annotated_refuted",
    "run_told",
    "failure_refuted"
   ],
   "note": "Proved for every list of nested errors and matches, on inputs that do not end inside a character; on others a failed run aborts instead of reporting (failure_refuted). Long regions are compared by where they begin and by their last line only, so an error may refer to an earlier region that was a different one (same_region_refuted; regions_told_apart: not for regions shown in full). The dump says that matches are annotated also when all of them are empty and none is (annotated_refuted). The errors and matches are taken as given, not linked to the engine's."
  },
  {
   "property": "C93",
   "status": "partial",
   "theorems": [
    "tool_exactly",
    "called_either_way",
    "other_calls",
    "filecheck_name_refuted",
    "lit_default_refuted"
   ],
   "note": "Proved, with clap's treatment of multicall programs and subcommands taken from its documentation, except what the code falsifies: called as FileCheck, the name under which the documentation installs it, the program ends with a usage error (the arm for that name cannot be reached: no such subcommand is declared), and lit needs a command although run is documented as the default."
  },
  {
   "property": "C94",
   "status": "partial",
   "theorems": [
    "exit_status",
    "opts_alone",
    "opts_lost_refuted"
   ],
   "note": "The exit status is characterised exactly, for every checker, files and options, in terms of the options in force, which a separate relation says (in_force). False of the code: as soon as FILECHECK_OPTS is set, be it to nothing, every option with a default value that was given on the command line is lost, all but --define and --implicit-check-not, so that a check that fails with --ignore-case passes (opts_lost_refuted). How clap turns words into options is an input; update_from is taken from its documentation (an argument with a default is always present)."
  },
  {
   "property": "C95",
   "status": "partial",
   "theorems": [
    "full_lines_no_effect",
    "full_lines_refuted",
    "tab_refuted"
   ],
   "note": "False of the code: --match-full-lines is only used to decide how blanks before a pattern are dropped; on a check file with single spaces it changes nothing, for any input, options and engines (full_lines_no_effect). The tabs of checks become spaces, those of the input do not, so that by default neither a space nor a tab in a check matches a tab in the input (tab_refuted); with --strict-whitespace a tab does."
  },
  {
   "property": "C96",
   "status": "partial",
   "theorems": [
    "number_of_index",
    "numbers_ordered",
    "checked_exact",
    "checked_signed_exact",
    "saturating_nearest",
    "saturating_signed_nearest",
    "operators_exact",
    "signed_operators_exact",
    "byte_indices",
    "offsets_exact",
    "last_number_refuted"
   ],
   "note": "Exact for every operation in builds with overflow checks. False of the code without them (release builds): additions wrap, and the number of the last index is a zero that the compiler was promised never to see, which is undefined behaviour (last_number_refuted); a byte index moved beyond 2^32 wraps in every build (byte_indices says by how much)."
  },
  {
   "property": "C97",
   "status": "partial",
   "theorems": [
    "span_of_range",
    "span_of_place",
    "span_empty",
    "span_selects",
    "span_shifted",
    "span_shifted_back",
    "spans_ordered",
    "spans_do_not_count",
    "lines_below_4g",
    "unchecked_span_refuted",
    "shift_around_refuted",
    "lines_beyond_4g_refuted"
   ],
   "note": "Proved for ranges, moves and documents below 2^32 bytes (lines_below_4g also shows that Source_Model, which counts without bounds, is right for them). Beyond, the code falsifies it: the unchecked constructor keeps the low 32 bits of both ends, a span can be moved around the end, and the lines after 4 GiB are entered at the wrong places."
  },
  {
   "property": "C98",
   "status": "partial",
   "theorems": [
    "expression_matches",
    "expression_pattern"
   ],
   "note": "The engine is a model of the regex crates on ASCII (they are not in /repo), so the theorem says that this model reads the syntax as the crates' documentation tells it; flags, Unicode classes, set operations and the crates' size limits are outside. A pattern that is one regular expression is stated through the matcher of the code; other patterns use the same engine (C69, C80)."
  },
  {
   "property": "C99",
   "status": "partial",
   "theorems": [
    "C99_refused",
    "C99_accepted",
    "C99_labels_partial",
    "C99_all",
    "C99_sound",
    "C99_refuted"
   ],
   "note": "C99_refused/C99_accepted: a label mentioning a variable is always refused, an accepted one mentions none. C99_labels_partial: the places pointed at are exactly (up to order inside one expression) the variables before the first run of variable-free parts that touches no capture; C99_sound: nothing else is pointed at; C99_all: everything is pointed at when there is no such run. C99_refuted: the label f[[X]], parsed from its text, is refused without pointing at X. A place is represented by the variable standing there."
  },
  {
   "property": "C100",
   "status": "partial",
   "theorems": [
    "C100_orders",
    "C100_names",
    "C100_equivalences",
    "C100_equal",
    "C100_same",
    "C100_matches_partial",
    "C100_prefixes_partial",
    "C100_grouping",
    "C100_model",
    "C100_match_refuted",
    "C100_lost_key_refuted",
    "C100_equality_refuted"
   ],
   "note": "Proved for every type except matches that define a variable by a regular expression, and for every prefix that can come from a check file (C100_grouping: the map finds the first pattern with the same prefix). False of the code: [[A:x]] < [[B]] < [[#]] < [[A:x]], and a map with these keys does not find [[B]]; the order of types, numbers, captures, expressions and matches takes values for equal that == tells apart. The map is the linear search of one B-tree node."
  },
  {
   "property": "C101",
   "status": "partial",
   "theorems": [
    "C101_refuted",
    "C101_read_back_partial",
    "C101_which",
    "C101_never_lower",
    "C101_lower",
    "C101_described",
    "C101_types"
   ],
   "note": "The code falsifies the claim for the signed format without precision, which is shown as 'd' and not '%d' (C101_refuted); C101_read_back_partial proves it for every other format a check file can ask for, with the file read by the whole lexer and parser of the model. The precision is a byte, so these formats are finitely many and are decided by the kernel one by one; C101_never_lower is about every check file. The alphabet of the block around the notation is fixed (nothing, a capture of X, or the value of X)."
  },
  {
   "property": "C102",
   "status": "partial",
   "theorems": [
    "C102_text_partial",
    "C102_bytes",
    "C102_columns_refuted",
    "C102_read_back",
    "C102_colon_refuted",
    "C102_tests_read_back",
    "C102_tests_refuted"
   ],
   "note": "Proved for texts of one line, keys without a colon and without a space at the end, and suite names without a colon (tests). For all keys the text is settled with widths counted in UTF-8 bytes (C102_bytes). False of the code: counted in characters, keys beyond ASCII break the columns (C102_columns_refuted); a colon in a key, or in the name of a suite, makes listings ambiguous (colon_refuted, tests_refuted). The number of tests, directories and names are those of the registry (C55 to C59); paths are taken as they are displayed."
  },
  {
   "property": "C103",
   "status": "partial",
   "theorems": [
    "C103_first_partial",
    "C103_unlike_partial",
    "C103_group_partial",
    "C103_whole_partial",
    "C103_answers_partial",
    "C103_same_sets",
    "C103_first_refuted",
    "C103_whole_refuted",
    "C103_source_refuted"
   ],
   "note": "For patterns of one source in the order of the file: the first pattern that is named begins where the group begins, and the place of a group begins there too and stays inside; both are exact if no two patterns of a set begin alike (numeric blocks are not told apart). False of the code otherwise: patterns that share a prefix make the 'first pattern' reach to the last of them (first_refuted), a repeated text is not covered (whole_refuted), and with --implicit-check-not the place of a set is in the source of the option and ends behind its end (source_refuted). That a place ends inside the group holds for every group. Offsets are not truncated to 32 bits; how miette renders a place is not modelled."
  },
  {
   "property": "C104",
   "status": "partial",
   "theorems": [
    "C104_orders",
    "C104_equivalences",
    "C104_hashes",
    "C104_consistent_partial",
    "C104_same",
    "C104_equal",
    "C104_paths",
    "C104_consistent_refuted",
    "C104_borrow_partial",
    "C104_borrow_refuted",
    "C104_variables_partial",
    "C104_texts_partial",
    "C104_texts_refuted",
    "C104_part"
   ],
   "note": "All are totally ordered, == is an equivalence and equal values are hashed alike. The order and == agree on parts of files, ranges, symbols and spanned values, but not on names of files (standard input and a file named stdin are taken for the same; a//b is == a/b but ordered apart), nor on documents and files (the language is left out of the order). Symbols are not hashed as their text, and names of variables are not ordered as their text, so that Variables does not find a variable by its text if there are variables of two kinds."
  },
  {
   "property": "C105",
   "status": "partial",
   "theorems": [
    "C105_text",
    "C105_aborts",
    "C105_told",
    "C105_read_back_partial",
    "C105_read_back_refuted",
    "C105_outputs"
   ],
   "note": "Results are told apart if no line of the standard output is the line of dashes that ends it; otherwise the standard output can look as if a part of it was the error output (read_back_refuted). Outputs are texts after from_utf8_lossy; how seconds are rounded to two digits is a parameter; colours are left out, as on no terminal."
  }
 ]
}