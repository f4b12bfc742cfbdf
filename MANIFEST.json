{
 "claims": [
  {
   "property": "C01",
   "status": "proved",
   "theorems": [
    "C01_read_returns",
    "C01_read_advances",
    "C01_token_count",
    "C01_read_all_returns"
   ],
   "note": "Lexer only; the bound is one token per character."
  },
  {
   "property": "C02",
   "status": "proved",
   "theorems": [
    "C02_spans"
   ],
   "note": "Any interleaving of reads and mode changes, any Unicode source."
  },
  {
   "property": "C03",
   "status": "proved",
   "theorems": [
    "C03_read_all_exact",
    "C03_tokens_tile",
    "C03_token_text"
   ],
   "note": "C03_read_all_exact: read_all succeeds exactly on the declarative lexical grammar (LexSpec.v)."
  },
  {
   "property": "C04",
   "status": "partial",
   "theorems": [
    "C04_boundaries_partial",
    "C04_exact_condition",
    "C04_refuted"
   ],
   "note": "False beyond ASCII (refuted by a witness); exact condition proved."
  },
  {
   "property": "C05",
   "status": "proved",
   "theorems": [
    "C05_longest",
    "C05_punctuator_read"
   ],
   "note": "Both directions."
  },
  {
   "property": "C06",
   "status": "proved",
   "theorems": [
    "C06_words",
    "C06_word_read",
    "C06_keyword_roundtrip",
    "C06_punct_roundtrip",
    "C06_keywords",
    "C06_punctuators"
   ],
   "note": "Both directions."
  },
  {
   "property": "C07",
   "status": "proved",
   "theorems": [
    "C07_first_on_line"
   ],
   "note": ""
  },
  {
   "property": "C08",
   "status": "partial",
   "theorems": [
    "C08_number_partial",
    "C08_separator_placement_refuted",
    "C08_digit_after_number_refuted"
   ],
   "note": "Everything but the ECMAScript clauses on separators next to prefix/dot/exponent, which the code violates."
  },
  {
   "property": "C09",
   "status": "partial",
   "theorems": [
    "C09_string",
    "C09_string_read",
    "C09_value_partial",
    "C09_value_refuted"
   ],
   "note": "Delimiting proved in both directions; the stored value is the text only without escapes."
  },
  {
   "property": "C10",
   "status": "partial",
   "theorems": [
    "C10_regexp_partial",
    "C10_template",
    "C10_no_line_terminator_refuted"
   ],
   "note": "Delimiting proved; a class may contain a line terminator (refuted)."
  },
  {
   "property": "C11",
   "status": "proved",
   "theorems": [
    "C11_trivia_irrelevant",
    "C11_spelling",
    "C11_blank_separated",
    "C11_html_comment_script",
    "C11_html_comment_module",
    "C11_not_comparison_refuted"
   ],
   "note": "Token values and first_on_line flags; <! (not only <!--) opens a comment."
  },
  {
   "property": "C12",
   "status": "proved",
   "theorems": [
    "C12_rewind_lexer",
    "C12_rewind_reader"
   ],
   "note": "ASCII sources (beyond ASCII the rewind itself may panic, C04_refuted)."
  },
  {
   "property": "C13",
   "status": "proved",
   "theorems": [
    "C13_cursor",
    "C13_char_reader"
   ],
   "note": "Any inner reader."
  },
  {
   "property": "C14",
   "status": "proved",
   "theorems": [
    "C14_terminates",
    "C14_outcome"
   ],
   "note": "Depth of recursion at most 40*(bytes+1); outcome unique. Says nothing about running time (the code backtracks exponentially)."
  },
  {
   "property": "C15",
   "status": "partial",
   "theorems": [
    "C15_no_panic_partial",
    "C15_no_panic_text",
    "C15_no_panic_refuted"
   ],
   "note": "False: three kinds of input panic (witnesses proved); no other ASCII input does."
  },
  {
   "property": "C16",
   "status": "proved",
   "theorems": [
    "C16_whole_source",
    "C16_trailing_tokens_refuted"
   ],
   "note": "For parse_program. parse::<Expr> and parse::<Stmt> do ignore what follows (witness)."
  },
  {
   "property": "C17",
   "status": "proved",
   "theorems": [
    "C17_span_exact",
    "C17_span_bounds",
    "C17_span_nested",
    "C17_siblings"
   ],
   "note": "All nodes that carry a span, but for the empty program (0:0). Which run of tokens: C18. The static of a class element is not in the method's span."
  },
  {
   "property": "C18",
   "status": "partial",
   "theorems": [
    "C18_tokens_of_tree_partial",
    "C18_array_assignment_refuted",
    "C18_method_flags_refuted"
   ],
   "note": "Holds for every accepted program, with two deviations of the tree itself: one hole per comma in array assignment patterns, inherited method flags."
  },
  {
   "property": "C19",
   "status": "proved",
   "theorems": [
    "C19_return"
   ],
   "note": ""
  },
  {
   "property": "C20",
   "status": "partial",
   "theorems": [
    "C20_super_property_partial",
    "C20_super_call_partial",
    "C20_super_call_refuted",
    "C20_super_property_refuted"
   ],
   "note": "Fails for computed names (witnesses)."
  },
  {
   "property": "C21",
   "status": "partial",
   "theorems": [
    "C21_await_partial",
    "C21_yield_partial",
    "C21_method_refuted"
   ],
   "note": "Proved relative to the flags in the tree; a plain method inside a generator is flagged as one (witness)."
  },
  {
   "property": "C22",
   "status": "partial",
   "theorems": [
    "C22_reserved_partial",
    "C22_import_refuted",
    "C22_strict_refuted",
    "C22_module_await_refuted"
   ],
   "note": "Reserved words always; strict ones as in C26; import specifiers are not checked (witness)."
  },
  {
   "property": "C23",
   "status": "proved",
   "theorems": [
    "C23_targets"
   ],
   "note": ""
  },
  {
   "property": "C24",
   "status": "partial",
   "theorems": [
    "C24_modules_only_partial",
    "C24_top_level_refuted"
   ],
   "note": "Only in modules: yes; only at top level: no (witness)."
  },
  {
   "property": "C25",
   "status": "partial",
   "theorems": [
    "C25_duplicates_partial",
    "C25_duplicates_refuted"
   ],
   "note": "Only plain names of methods are checked (witnesses)."
  },
  {
   "property": "C26",
   "status": "partial",
   "theorems": [
    "C26_strict_partial",
    "C26_method_parameters",
    "C26_strict_refuted"
   ],
   "note": "Arrow bodies, modules and parameters are not strict in the code (witnesses)."
  },
  {
   "property": "C27",
   "status": "partial",
   "theorems": [
    "C27_shapes_partial",
    "C27_constructors_refuted"
   ],
   "note": "All but the single constructor."
  },
  {
   "property": "C28",
   "status": "partial",
   "theorems": [
    "C28_ends_partial",
    "C28_ends_refuted"
   ],
   "note": "Only expression statements, imports and exports are checked by the code (witnesses for the others)."
  },
  {
   "property": "C29",
   "status": "partial",
   "theorems": [
    "C29_precedence",
    "C29_unique_tree_partial",
    "C29_exponent_refuted",
    "C29_unary_exponent_refuted",
    "C29_coalesce_refuted"
   ],
   "note": "Unique grouped tree for every operator sequence; ** is left associative in the code."
  },
  {
   "property": "C30",
   "status": "partial",
   "theorems": [
    "C30_script_errors",
    "C30_module_errors_partial",
    "C30_module_errors_refuted",
    "C30_render_scripts",
    "C30_render_modules_partial",
    "C30_render_reversed_refuted",
    "C30_render_unicode_refuted"
   ],
   "note": "Spans of all script errors are ranges of the source and render for ASCII sources; one error of modules has a reversed span; outside ASCII spans may end inside a character (witnesses)."
  },
  {
   "property": "C31",
   "status": "partial",
   "theorems": [
    "C31_vocabulary",
    "C31_report_partial",
    "C31_unexpected_token",
    "C31_expected_token",
    "C31_rejected_partial",
    "C31_report_any",
    "C31_end_of_input",
    "C31_several_lines_refuted",
    "C31_unicode_column_refuted"
   ],
   "note": "The whole report is determined for every span (C31_report_any, without the text of the messages) and agrees with the claim for spans within one line of ASCII text; for spans over several lines the line number is that of the end, and columns count bytes (witnesses). Where a token was expected the report quotes the marked text."
  },
  {
   "property": "C32",
   "status": "partial",
   "theorems": [
    "C32_form",
    "C32_round_trip",
    "C32_injective",
    "C32_accepts",
    "C32_error",
    "C32_panics_exactly",
    "C32_no_panic_partial",
    "C32_no_panic_refuted"
   ],
   "note": "Round trip for all spans; the strings that panic are characterised exactly."
  },
  {
   "property": "C33",
   "status": "partial",
   "theorems": [
    "C33_nested",
    "C33_skip",
    "C33_outermost",
    "C33_trace_instance",
    "C33_everything_once_partial",
    "C33_nothing_else",
    "C33_everything_partial",
    "C33_once_refuted",
    "C33_everything_refuted",
    "C33_order_refuted"
   ],
   "note": "Nesting and skipping for all visitors and trees; every thing once in source order for trees without six constructs the code mistreats, each refuted by a witness; visitors that change the tree: C43."
  },
  {
   "property": "C34",
   "status": "partial",
   "theorems": [
    "C34_round_trip_refuted",
    "C34_followed_partial",
    "C34_program_partial",
    "C34_statement_partial",
    "C34_expression_partial",
    "C34_source_partial",
    "C34_idempotent_partial",
    "C34_modes_agree_partial"
   ],
   "note": "Refuted as stated, in both modes. Proved for every ASCII source that the grammar of Written.v derives - regular expressions and templates with substitutions included - with no backslash outside regular expressions, whose tree is printable and apart (Unparse.v: excludes the constructs the printer writes wrongly, e.g. throw before another statement, export *, for-in bindings, destructuring assignment, - -a). Missing: the omissions of C41, escapes in strings, templates and names, non-ASCII text."
  },
  {
   "property": "C35",
   "status": "partial",
   "theorems": [
    "C35_words_kept_partial",
    "C35_accepted_words_kept_partial",
    "C35_tokens_apart_refuted",
    "C35_regexps_apart_refuted",
    "C35_tokens_partial"
   ],
   "note": "Words (runs of letters and digits) are never joined; refuted for words beginning with $ or _, for operators, and for regular expressions (a / /x/ is printed a//x/). Where tokens_apart holds the generated program has exactly the tokens of the tree."
  },
  {
   "property": "C36",
   "status": "partial",
   "theorems": [
    "C36_straight_tokens_partial",
    "C36_transparent_refuted"
   ],
   "note": "False in general (witness); holds for sources without slash, template and html-like comment."
  },
  {
   "property": "C37",
   "status": "proved",
   "theorems": [
    "C37_well_typed",
    "C37_shape"
   ],
   "note": "well_typed: Sorts.v (table of fields and types); in_shape: Shape.v."
  },
  {
   "property": "C38",
   "status": "proved",
   "theorems": [
    "C38_generator_total"
   ],
   "note": "All trees, both modes."
  },
  {
   "property": "C39",
   "status": "proved",
   "theorems": [
    "C39_minified_thinner",
    "C39_minified_not_longer",
    "C39_same_solid"
   ],
   "note": "All trees."
  },
  {
   "property": "C40",
   "status": "partial",
   "theorems": [
    "C40_program_partial",
    "C40_expression_partial",
    "C40_statement_partial",
    "C40_generated_partial",
    "C40_line_breaks",
    "C40_line_breaks_accepted"
   ],
   "note": "Proved when one of the sources is derivable in the grammar of Written.v. Missing: sources outside the grammar (rejected programs, the omissions of C41), non-ASCII text."
  },
  {
   "property": "C41",
   "status": "partial",
   "theorems": [
    "C41_program_partial",
    "C41_expression_partial",
    "C41_statement_partial",
    "C41_unambiguous",
    "C41_scripts_refuted",
    "C41_modules_refuted"
   ],
   "note": "Proved for every ASCII source divided into tokens (Source.v: source_tokens, with regular expressions and templates with substitutions) derivable in the grammar of Written.v. Destructuring assignment and arrow functions whose parameters have initialised names are in the grammar. Missing: let/async as names of variables, yield without operand, calls of async(..); some valid programs are rejected (refuted theorems)."
  },
  {
   "property": "C42",
   "status": "partial",
   "theorems": [
    "C42_module_files",
    "C42_success",
    "C42_output",
    "C42_failure",
    "C42_codes",
    "C42_crashes",
    "C42_no_crash_partial",
    "C42_format_stable_partial",
    "C42_no_crash_refuted",
    "C42_format_refuted"
   ],
   "note": "Exit codes and outputs for all inputs; modules may crash (witnesses); the formatter is a fixed point under the hypotheses of C34."
  },
  {
   "property": "C43",
   "status": "partial",
   "theorems": [
    "C43_looks",
    "C43_skipped",
    "C43_rewrite_partial",
    "C43_accepted_partial",
    "C43_rewrite_refuted",
    "C43_patterns_refuted",
    "C43_ends_refuted"
   ],
   "note": "Visitors that change nothing: all trees. The identifier/expression rewriter: all well-typed trees without conditionals, listed or namespace imports, assignment patterns and for-head bindings, each refuted by a witness; a visitor that wraps on entry never ends (refuted)."
  },
  {
   "property": "C44",
   "status": "proved",
   "theorems": [
    "C44_unexpected_token",
    "C44_expected_identifier",
    "C44_forbidden_identifier",
    "C44_unexpected_identifier",
    "C44_end_of_input",
    "C44_initializer",
    "C44_arrow_function",
    "C44_lexical",
    "C44_lexical_message",
    "C44_import_export",
    "C44_throw",
    "C44_statement",
    "C44_rest",
    "C44_target",
    "C44_strict",
    "C44_template",
    "C44_missing_initializer",
    "C44_parameters",
    "C44_for_await",
    "C44_expected_statement",
    "C44_token_text",
    "C44_messages",
    "C44_instances",
    "C44_instances_syntax",
    "C44_instances_early",
    "C44_instance_arrow",
    "C44_instance_lexical"
   ],
   "note": "Every source and goal, all kinds of error and all texts of syntax errors (C44_messages lists them)."
  }
 ]
}