{
 "claims": [
  {
   "property": "C01",
   "status": "proved",
   "theorems": [
    "C01_parse_returns",
    "C01_linear_depth"
   ],
   "note": ""
  },
  {
   "property": "C02",
   "status": "proved",
   "theorems": [
    "C02_part_consumes",
    "C02_parts_bounded"
   ],
   "note": ""
  },
  {
   "property": "C03",
   "status": "proved",
   "theorems": [
    "C03_parse_is_iteration"
   ],
   "note": ""
  },
  {
   "property": "C04",
   "status": "proved",
   "theorems": [
    "C04_whole_input",
    "C04_without_contract_refuted"
   ],
   "note": "For a scanner whose end-of-file token is last; refuted without."
  },
  {
   "property": "C05",
   "status": "proved",
   "theorems": [
    "C05_none_iff_eof",
    "C05_fused"
   ],
   "note": ""
  },
  {
   "property": "C06",
   "status": "proved",
   "theorems": [
    "C06_tolerant_accepts_more",
    "C06_converse_refuted"
   ],
   "note": ""
  },
  {
   "property": "C07",
   "status": "proved",
   "theorems": [
    "C07_module_rejects_more",
    "C07_module_result",
    "C07_converse_refuted"
   ],
   "note": ""
  },
  {
   "property": "C08",
   "status": "proved",
   "theorems": [
    "C08_builder_last",
    "C08_new_is_default_builder"
   ],
   "note": ""
  },
  {
   "property": "C09",
   "status": "proved",
   "theorems": [
    "C09_comments_so_far",
    "C04_whole_input"
   ],
   "note": ""
  },
  {
   "property": "C10",
   "status": "proved",
   "theorems": [
    "C10_handler_cannot_influence"
   ],
   "note": ""
  },
  {
   "property": "C11",
   "status": "proved",
   "theorems": [
    "C11_line_table",
    "C11_all_texts_refuted",
    "C11_final_cr_refuted"
   ],
   "note": "For texts without a carriage return at the end or before a multi-byte character; refuted for those."
  },
  {
   "property": "C12",
   "status": "proved",
   "theorems": [
    "C12_item_position",
    "C12_error_position",
    "C12_all_texts_refuted",
    "C12_at_line_feed_refuted"
   ],
   "note": ""
  },
  {
   "property": "C13",
   "status": "proved",
   "theorems": [
    "C13_position_total"
   ],
   "note": ""
  },
  {
   "property": "C14",
   "status": "proved",
   "theorems": [
    "C14_expected",
    "C14_unexpected"
   ],
   "note": "Every UnexpectedToken error except the scanner-fault 'malformed regex', which needs a regex token without closing slash."
  },
  {
   "property": "C15",
   "status": "proved",
   "theorems": [
    "C15_by_precedence",
    "C15_unique",
    "C15_builds_unique"
   ],
   "note": ""
  },
  {
   "property": "C16",
   "status": "proved",
   "theorems": [
    "C16_powers",
    "C16_assignments",
    "C16_conditionals"
   ],
   "note": ""
  },
  {
   "property": "C17",
   "status": "proved",
   "theorems": [
    "C17_names",
    "C17_names_verbatim",
    "C17_literals",
    "C17_templates"
   ],
   "note": ""
  },
  {
   "property": "C18",
   "status": "proved",
   "theorems": [
    "C18_return_in_body",
    "C18_after_an_error_refuted"
   ],
   "note": "For trees handed out before the first error of the iterator; refuted for iteration past an error."
  },
  {
   "property": "C19",
   "status": "proved",
   "theorems": [
    "C19_super_in_body",
    "C19_new_target_in_body"
   ],
   "note": ""
  },
  {
   "property": "C20",
   "status": "proved",
   "theorems": [
    "C20_await_in_async"
   ],
   "note": ""
  },
  {
   "property": "C21",
   "status": "partial",
   "theorems": [
    "C21_yield_partial",
    "C21_yield_refuted"
   ],
   "note": "False as stated (a class getter leaks the flag for yield); proved for texts without a token spelled get and for texts without the keyword class."
  },
  {
   "property": "C22",
   "status": "proved",
   "theorems": [
    "C22_labels"
   ],
   "note": ""
  },
  {
   "property": "C23",
   "status": "proved",
   "theorems": [
    "C23_one_default"
   ],
   "note": ""
  },
  {
   "property": "C24",
   "status": "proved",
   "theorems": [
    "C24_one_constructor",
    "C24_constructor_is_plain"
   ],
   "note": ""
  },
  {
   "property": "C25",
   "status": "proved",
   "theorems": [
    "C25_getters",
    "C25_setters"
   ],
   "note": ""
  },
  {
   "property": "C26",
   "status": "proved",
   "theorems": [
    "C26_templates"
   ],
   "note": ""
  },
  {
   "property": "C27",
   "status": "proved",
   "theorems": [
    "C27_rest_last"
   ],
   "note": ""
  },
  {
   "property": "C28",
   "status": "partial",
   "theorems": [
    "C28_assignments_partial",
    "C28_updates_partial",
    "C28_targets_refuted"
   ],
   "note": "False as stated (functions are accepted as targets); proved for every other operand listed."
  },
  {
   "property": "C29",
   "status": "proved",
   "theorems": [
    "C29_var_patterns",
    "C29_let_patterns",
    "C29_const",
    "C29_const_follow"
   ],
   "note": ""
  },
  {
   "property": "C30",
   "status": "proved",
   "theorems": [
    "C30_context_restored",
    "C30_past_prolog",
    "C30_all_flags_refuted",
    "C30_allow_yield",
    "C30_allow_yield_put_back",
    "C30_allow_strict_directive",
    "C30_method_body",
    "C30_function_declaration",
    "C30_function_expression"
   ],
   "note": "C30_all_flags_refuted: class getters do not put allow_yield back. C30_allow_yield and C30_allow_strict_directive bound what can happen to the two flags that are not always restored: unchanged unless the word class (function) was read on the way; the others say which functions put them back."
  },
  {
   "property": "C31",
   "status": "partial",
   "theorems": [
    "C31_statements",
    "C31_declarations",
    "C31_imports",
    "C31_exports_partial",
    "C31_directives",
    "C31_rule",
    "C31_default_refuted"
   ],
   "note": "export default of an expression takes no semicolon (refuted). Function declarations in statement position are stored as expression statements and take none."
  },
  {
   "property": "C32",
   "status": "partial",
   "theorems": [
    "C32_postfix_partial",
    "C32_yield_partial",
    "C32_labels_partial",
    "C32_comment_refuted"
   ],
   "note": "In terms of the scanner's flag on the token; a line terminator before a comment before the token is missed (refuted)."
  },
  {
   "property": "C33",
   "status": "proved",
   "theorems": [
    "C33_no_with_in_class",
    "C33_no_delete_in_class"
   ],
   "note": ""
  },
  {
   "property": "C34",
   "status": "proved",
   "theorems": [
    "C34_no_panic",
    "C34_any_scanner_refuted"
   ],
   "note": ""
  },
  {
   "property": "C35",
   "status": "proved",
   "theorems": [
    "C35_operation_errors"
   ],
   "note": "The only OperationError is 'Unable to get string', and only for spans off the text."
  },
  {
   "property": "C36",
   "status": "proved",
   "theorems": [
    "C36_stack_does_not_matter",
    "C36_one_result"
   ],
   "note": ""
  },
  {
   "property": "C37",
   "status": "proved",
   "theorems": [
    "C37_incremental"
   ],
   "note": ""
  },
  {
   "property": "C38",
   "status": "proved",
   "theorems": [
    "C38_imports"
   ],
   "note": ""
  },
  {
   "property": "C39",
   "status": "partial",
   "theorems": [
    "C39_directives_first",
    "C39_directives_first_parse",
    "C39_directives_partial",
    "C39_text_refuted",
    "C39_function_prologue_refuted"
   ],
   "note": "The text of a directive is its literal stripped of all quote characters at its ends, not just of the delimiters (refuted)."
  },
  {
   "property": "C40",
   "status": "proved",
   "theorems": [
    "C40_sentence",
    "C40_parts",
    "C40_expression",
    "C40_everywhere",
    "C40_statements"
   ],
   "note": "The grammar is Grammar.v. Scanner contract plain_scan: items lie inside the text and no punctuator is spelled async, get or set."
  },
  {
   "property": "C41",
   "status": "proved",
   "theorems": [
    "C41_every_spelling",
    "C41_round_trip",
    "C41_iterator",
    "C41_expression",
    "C41_expression_round_trip",
    "C41_unambiguous"
   ],
   "note": "The subset is Subset.v (all of the spellings) and Printer.v (one spelling of each tree); names spelled async in expressions and null are outside it; scripts and modules, import calls, async functions, methods and arrow functions, await and destructuring are inside. Scanner contract: scan_contract, keywords_plain, async_ok."
  },
  {
   "property": "C42",
   "status": "proved",
   "theorems": [
    "C42_running_positions",
    "C42_crlf_refuted"
   ],
   "note": "For a scanner meeting scan_contract; refuted for CRLF inside comments or tokens."
  },
  {
   "property": "C43",
   "status": "proved",
   "theorems": [
    "C43_no_unexpected_eof",
    "C43_eof_once",
    "C43_moves_reachable",
    "C43_any_scanner_refuted"
   ],
   "note": ""
  },
  {
   "property": "C44",
   "status": "proved",
   "theorems": [
    "C44_length",
    "C44_slice",
    "C44_slice_bytes",
    "C44_slice_exists",
    "C44_boundary"
   ],
   "note": "The encoding is Utf8.v."
  },
  {
   "property": "C45",
   "status": "partial",
   "theorems": [
    "C45_productions_refuted",
    "C45_modules_refuted",
    "C45_line_terminators_refuted",
    "C45_targets_refuted",
    "C45_early_errors_refuted",
    "C45_async_refuted",
    "C45_more_refuted",
    "C45_more_modules_refuted"
   ],
   "note": "False; the positive side is C40 (accepted texts are sentences of Grammar.v, where productions outside ECMAScript are marked) and C18 to C29 (early errors that are reported)."
  },
  {
   "property": "C46",
   "status": "partial",
   "theorems": [
    "C46_expressions_refuted",
    "C46_classes_refuted",
    "C46_exports_refuted",
    "C46_async_refuted",
    "C46_more_refuted"
   ],
   "note": "False; the positive side is C41 (a subset)."
  },
  {
   "property": "C47",
   "status": "partial",
   "theorems": [
    "C47_array_rest_refuted",
    "C47_static_refuted",
    "C47_heritage_refuted",
    "C47_async_refuted",
    "C47_async_function_refuted"
   ],
   "note": "False; the positive sides are C41 (on the subset, tokens are determined by the tree up to the freedom of Subset.v) and C57 (the words of the source are those of the tree)."
  },
  {
   "property": "C48",
   "status": "proved",
   "theorems": [
    "C48_numeral",
    "C48_tells_apart",
    "C48_own_errors",
    "C48_place",
    "C48_expectations",
    "C48_something_expected_refuted",
    "C48_quotes_refuted"
   ],
   "note": "dbg is any printer for tokens (the derived Debug of ress). Place: under the scanner contract, with lines as in C12. Some expected-token errors list nothing, and those for a missing semicolon quote twice (refuted)."
  },
  {
   "property": "C49",
   "status": "proved",
   "theorems": [
    "C49_error_incremental",
    "C49_expression",
    "C49_no_completion"
   ],
   "note": "Tails that agree in the next raw item and the next item that is no comment, as in C37; the text g (only sliced) is held fixed. For next(), parse() and parse_expression()."
  },
  {
   "property": "C50",
   "status": "proved",
   "theorems": [
    "C50_parse",
    "C50_tree",
    "C50_iterator",
    "C50_expression",
    "C50_async_refuted"
   ],
   "note": "async_alike: no token is spelled async, or both texts meet the contract async_ok of C41 and agree on the lines of tokens after async; refuted without (a comment between async and function matters)."
  },
  {
   "property": "C51",
   "status": "proved",
   "theorems": [
    "C51_counted",
    "C51_parse",
    "C51_next",
    "C51_expression"
   ],
   "note": "At most 500 steps per token. Not counted: the work inside one operation (skipping comments, slicing, turning an expression into a pattern)."
  },
  {
   "property": "C52",
   "status": "proved",
   "theorems": [
    "C52_parse",
    "C52_next",
    "C52_expression",
    "C52_never_reported"
   ],
   "note": "forgivable (Options.v) is the list of errors; C52_forgiven shows texts of each kind that are forgiven."
  },
  {
   "property": "C53",
   "status": "proved",
   "theorems": [
    "C53_parse",
    "C53_next",
    "C53_expression",
    "C53_no_await"
   ],
   "note": "The scanner of ress makes await a keyword, so with it the added error does not arise from this check; the theorems hold for any scanner meeting the contract."
  },
  {
   "property": "C54",
   "status": "partial",
   "theorems": [
    "C54_parts_bounded",
    "C54_iteration_ends_refuted"
   ],
   "note": "False as stated: on the text ) every call of next returns the same error, for ever. Proved instead: in any sequence of calls, errors or not, the parts handed out are at most as many as the tokens."
  },
  {
   "property": "C55",
   "status": "proved",
   "theorems": [
    "C55_parse",
    "C55_iterator",
    "C55_expression",
    "C55_swap",
    "C55_use_strict_inert",
    "C55_words_refuted"
   ],
   "note": "renaming (Rename.v) has the list of words; ren_program is the replacement in trees. async_alike as in C50. Refuted for ten of the words if they are not kept."
  },
  {
   "property": "C56",
   "status": "proved",
   "theorems": [
    "C56_iterator",
    "C56_parse",
    "C56_settled",
    "C56_settled_refuted",
    "C56_string_refuted"
   ],
   "note": "settled (Suffix.v): allow_yield and allow_strict_directive are true, as at the start. C56_settled_refuted: a class getter leaves allow_yield changed and the next statement is read differently. continues: the tokens left, with their texts and line breaks before them, are those of the second text; the first is no string (C56_string_refuted)."
  },
  {
   "property": "C57",
   "status": "proved",
   "theorems": [
    "C57_all_words",
    "C57_iterator",
    "C57_expression",
    "C57_same_tree",
    "C57_counts",
    "C57_careful_refuted",
    "C57_careful_module_refuted",
    "C57_careful_tolerant_refuted"
   ],
   "note": "words_program (Words.v) are the words of a tree; unfixed those left out; careful the places left out, each of which the refutations show to be needed. usual: the scan contract, and punctuators, keywords and literals spelled as usual."
  },
  {
   "property": "C58",
   "status": "proved",
   "theorems": [
    "C58_catalogue",
    "C58_punct_missing",
    "C58_keyword_missing",
    "C58_longer_lists_refuted",
    "C58_reached",
    "C58_exact",
    "C52_never_reported"
   ],
   "note": "catalogue, expectations_said and messages (Properties17.v) are the lists. C58_exact: each message is reported for some text under a scanner meeting the contract, and no other is; eleven of them need a scanner that spells words or strings oddly (witnesses). C58_longer_lists_refuted: x = import is told that import was expected."
  },
  {
   "property": "C59",
   "status": "proved",
   "theorems": [
    "C59_never_read",
    "C59_nothing_carried",
    "C59_others_matter",
    "C59_target_matters"
   ],
   "note": "Two runs from states that differ in the flags, related at every step. The three unread flags are why break outside loops and initialised shorthands outside patterns are accepted (C45). That each other flag matters is shown by a text per flag; for the flag about 'use strict' the scanner must leave out the quotes (C55)."
  },
  {
   "property": "C60",
   "status": "proved",
   "theorems": [
    "C60_only_refuses",
    "C60_parse",
    "C60_refuses",
    "C60_fn_name_refuted"
   ],
   "note": "in_strict sets the flag of a state. The name of a function called by itself is the one exception (C60_fn_name_refuted); its only caller allows yield as a name first, so all others are covered. C60_refuses has a text for each place that refuses."
  },
  {
   "property": "C61",
   "status": "proved",
   "theorems": [
    "C61_part",
    "C61_parse",
    "C61_expression",
    "C61_with_refuted"
   ],
   "note": "taken is stated on the lists of raw tokens only. Errors that name no token (redeclarations, strict features and the like) carry positions of their own; C61_with_refuted: the one about with statements is that of the token before the word."
  },
  {
   "property": "C62",
   "status": "proved",
   "theorems": [
    "C62_statement",
    "C62_from_statement",
    "C62_directive",
    "C62_not_directive",
    "C62_text",
    "C62_text_error",
    "C62_conditions_needed"
   ],
   "note": "starts_expression lists the tokens; statement_end is the end of a statement stated apart from the model. C62_conditions_needed: texts that are expressions to their end but other programs ({}, function () {}, class {}, a string)."
  },
  {
   "property": "C63",
   "status": "proved",
   "theorems": [
    "C63_parentheses",
    "C63_elements",
    "C63_any_number",
    "C63_text",
    "C63_arrow_needed"
   ],
   "note": "The operator in must be allowed outside the parentheses too (it is everywhere but in the head of a for statement). Only what is accepted is compared, not errors."
  },
  {
   "property": "C64",
   "status": "proved",
   "theorems": [
    "C64_block",
    "C64_block_error",
    "C64_from_block",
    "C64_function_body",
    "C64_from_function_body",
    "C64_clause",
    "C64_prologue_needed",
    "C64_directive_needed"
   ],
   "note": "yields and next_returns are the iterator's own relations; passes takes one token. The converse for bodies is for those with no string in front: after a string that is no directive a body may have more directives, a program may not (C64_prologue_needed)."
  },
  {
   "property": "C65",
   "status": "proved",
   "theorems": [
    "C65_expression",
    "C65_parts",
    "C65_parentheses",
    "C65_block",
    "C65_not_taken_needed",
    "C65_brace_needed"
   ],
   "note": "The two parsers have one text and scanner lists that differ only from the end on. The end must not have been taken for a token: after a dot the parser takes it for a name (C65_not_taken_needed). Statements end before a brace only (C65_brace_needed)."
  },
  {
   "property": "C66",
   "status": "proved",
   "theorems": [
    "C66_parentheses",
    "C66_block",
    "C66_string_needed"
   ],
   "note": "signs, async_ok and the related conditions are those of C50; the tolerant flag is off. A text with async has to be on one line."
  },
  {
   "property": "C67",
   "status": "proved",
   "theorems": [
    "C67_sequence",
    "C67_array",
    "C67_array_element",
    "C67_array_expression",
    "C67_group_element",
    "C67_arguments",
    "C67_text",
    "C67_tolerant_needed"
   ],
   "note": "States are compared up to the six flags of C62. With the tolerant flag the commas between arguments may be missing (C67_tolerant_needed)."
  },
  {
   "property": "C68",
   "status": "proved",
   "theorems": [
    "C68_chain",
    "C68_element",
    "C68_expression",
    "C68_text",
    "C68_async_needed"
   ],
   "note": "States are compared up to the six flags of C62. A chain that begins with async is not one (C68_async_needed); super is left out, and the tolerant flag is off as in C67."
  },
  {
   "property": "C69",
   "status": "proved",
   "theorems": [
    "C69_template",
    "C69_object",
    "C69_value",
    "C69_value_element",
    "C69_value_alone_refuted"
   ],
   "note": "The values of properties are read under the flags the members before them have left; C69_value_alone_refuted has an assignment that is refused for it."
  },
  {
   "property": "C70",
   "status": "proved",
   "theorems": [
    "C70_declarations",
    "C70_imports",
    "C70_object_pattern",
    "C70_array_pattern",
    "C70_class_body"
   ],
   "note": "Parameter lists are in C72; the specifiers of an export are not among them."
  },
  {
   "property": "C71",
   "status": "proved",
   "theorems": [
    "C71_brackets",
    "C71_one",
    "C71_sequence_not_told"
   ],
   "note": "The tolerant flag is off; async is left to the condition of C66."
  },
  {
   "property": "C72",
   "status": "proved",
   "theorems": [
    "C72_parameters",
    "C72_rest",
    "C72_switch"
   ],
   "note": "What a parameter and a clause are is left to the parser's own functions for them; C64 has the clauses."
  },
  {
   "property": "C73",
   "status": "proved",
   "theorems": [
    "C73_if",
    "C73_branch",
    "C73_while",
    "C73_with",
    "C73_do",
    "C73_try",
    "C73_else",
    "C73_nearest",
    "C73_tolerant_needed"
   ],
   "note": "With the tolerant flag an else can follow an if that was given up (C73_tolerant_needed). The parts of for statements and labels are not given one by one."
  },
  {
   "property": "C74",
   "status": "proved",
   "theorems": [
    "C74_body",
    "C74_for_rest",
    "C74_semicolon",
    "C74_throw",
    "C74_jump"
   ],
   "note": "What a for statement begins with is not among them."
  }
 ]
}