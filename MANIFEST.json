{
 "claims": [
  {
   "property": "C01",
   "status": "proved",
   "theorems": [
    "C01_parser_terminates",
    "C01_fuel_is_irrelevant",
    "C01_parse_tokens_terminates"
   ],
   "note": ""
  },
  {
   "property": "C02",
   "status": "proved",
   "theorems": [
    "C02_terminates",
    "C02_tokenizer_terminates",
    "C02_braces_refuted"
   ],
   "note": "Terminates on every source without '{$' and '${' (brace interpolation); C02_braces_refuted is a source on which tokenizing never ends, for any amount of fuel."
  },
  {
   "property": "C03",
   "status": "proved",
   "theorems": [
    "C03_tokenizer_panics",
    "C03_stray_brace_panics",
    "C03_parser_panics",
    "C03_else_panics",
    "C03_empty_panics",
    "C03_never_panics_refuted",
    "C03_safe"
   ],
   "note": "The expectation is false: families of panicking sources, at any place of nested statements and expressions of the round-trip class. C03_safe: no panic on HTML, printed round-trip statements, comments and white space with at least one statement. Panics inside string literals, function bodies and classes are not stated."
  },
  {
   "property": "C04",
   "status": "proved",
   "theorems": [
    "C04_html_is_echoed",
    "C04_html_and_php"
   ],
   "note": "Sources of HTML only, and any alternation of HTML, PHP blocks and echo tags; the statements inside the blocks come from the round-trip class of SpecRT.v."
  },
  {
   "property": "C05",
   "status": "proved",
   "theorems": [
    "C05_line_lookup",
    "C05_line_range"
   ],
   "note": ""
  },
  {
   "property": "C06",
   "status": "proved",
   "theorems": [
    "C06_line_table",
    "C06_lookup"
   ],
   "note": "All sources and all call sequences; the table records line starts as the code counts them, which is not always the true line number (DESIGN.md, disagreements)."
  },
  {
   "property": "C07",
   "status": "proved",
   "theorems": [
    "C07_interning"
   ],
   "note": ""
  },
  {
   "property": "C08",
   "status": "proved",
   "theorems": [
    "C08_decimal_program",
    "C08_overflow_panics",
    "C08_notation_exists",
    "C08_decimal_token"
   ],
   "note": ""
  },
  {
   "property": "C09",
   "status": "proved",
   "theorems": [
    "C09_octal_program",
    "C09_hex_program",
    "C09_binary_program",
    "C09_octal_token",
    "C09_hex_token",
    "C09_binary_token"
   ],
   "note": ""
  },
  {
   "property": "C10",
   "status": "proved",
   "theorems": [
    "C10_variable_token",
    "C10_variable_program"
   ],
   "note": ""
  },
  {
   "property": "C11",
   "status": "proved",
   "theorems": [
    "C11_not_a_keyword",
    "C11_keyword"
   ],
   "note": ""
  },
  {
   "property": "C12",
   "status": "proved",
   "theorems": [
    "C12_longest_operator",
    "C12_script_goes_on",
    "C12_cast",
    "C12_pow_assign"
   ],
   "note": ""
  },
  {
   "property": "C13",
   "status": "proved",
   "theorems": [
    "C13_single_quoted_program",
    "C13_single_quoted_token"
   ],
   "note": ""
  },
  {
   "property": "C14",
   "status": "proved",
   "theorems": [
    "C14_decodes",
    "C14_simple"
   ],
   "note": "Escapes \\n \\r \\t \\v \\f \\\\ \\$ \\\" and \\x with hex digits, and any other characters. \\e and \\u are excluded (the code panics there), and so are byte values that are not UTF-8 (the parser rejects the binary token); DESIGN.md, disagreements."
  },
  {
   "property": "C15",
   "status": "proved",
   "theorems": [
    "C15_white_space",
    "C15_comment_tokens_do_not_matter",
    "C15_comments_same_program"
   ],
   "note": "Comment tokens: all token sequences. White space: before any input in scripting mode. A comment written inside `( int )` or between `->` and a keyword-named property does change the tokens; DESIGN.md, disagreements."
  },
  {
   "property": "C16",
   "status": "proved",
   "theorems": [
    "C16_positions_do_not_matter",
    "C16_small_offsets_matter"
   ],
   "note": ""
  },
  {
   "property": "C17",
   "status": "proved",
   "theorems": [
    "C17_spans_inside"
   ],
   "note": ""
  },
  {
   "property": "C18",
   "status": "proved",
   "theorems": [
    "C18_leaves_come_from_tokens",
    "C18_integers_non_negative"
   ],
   "note": ""
  },
  {
   "property": "C19",
   "status": "proved",
   "theorems": [
    "C19_precedence",
    "C19_unique_tree",
    "C19_any_operands"
   ],
   "note": ""
  },
  {
   "property": "C20",
   "status": "proved",
   "theorems": [
    "C20_round_trip",
    "C20_tester_file",
    "C20_injective",
    "C20_outside_the_class",
    "C20_negative",
    "C20_adaptation"
   ],
   "note": ""
  },
  {
   "property": "C21",
   "status": "proved",
   "theorems": [
    "C21_printed_literal",
    "C21_printable",
    "C21_program"
   ],
   "note": ""
  },
  {
   "property": "C22",
   "status": "proved",
   "theorems": [
    "C22_parsed_programs_print",
    "C22_parsed_tokens_print",
    "C22_printer_can_panic"
   ],
   "note": ""
  },
  {
   "property": "C23",
   "status": "proved",
   "theorems": [
    "C23_located",
    "C23_ordered_refuted"
   ],
   "note": "The reported line exists and the position is within the source or just behind it. That the range is ordered is false (C23_ordered_refuted): number tokens can have a start behind their end."
  },
  {
   "property": "C24",
   "status": "proved",
   "theorems": [
    "C24_member_modifiers",
    "C24_class_modifiers",
    "C24_member_set",
    "C24_class_set"
   ],
   "note": ""
  },
  {
   "property": "C25",
   "status": "proved",
   "theorems": [
    "C25_printing_is_compositional",
    "C25_printing_ignores_positions"
   ],
   "note": ""
  },
  {
   "property": "C26",
   "status": "proved",
   "theorems": [
    "C26_decode_encode",
    "C26_decode_only_encodings",
    "C26_byte_length"
   ],
   "note": ""
  },
  {
   "property": "C27",
   "status": "proved",
   "theorems": [
    "C27_nowdoc",
    "C27_raw_refuted",
    "C27_nowdoc_rejects",
    "C27_heredoc",
    "C27_empty_heredoc",
    "C27_empty_heredoc_refuted",
    "C27_nowdoc_token"
   ],
   "note": "The rules for bodies are SpecDoc.v. C27_nowdoc_token is about one call of the tokenizer. Escapes \\e, \\u, \\x are under C14 and C41; heredocs with code are C31_any_heredoc. C27_raw_refuted and C27_empty_heredoc_refuted: what PHP does differently."
  },
  {
   "property": "C28",
   "status": "proved",
   "theorems": [
    "C28_chain",
    "C28_any_chain"
   ],
   "note": "C28_chain: conditions, values and bodies from the round-trip class of SpecRT.v, bodies in braces. C28_any_chain: any conditions and bodies of the grammar of SpecGrammar.v, bodies with or without braces, any white space and comments."
  },
  {
   "property": "C29",
   "status": "proved",
   "theorems": [
    "C29_switch",
    "C29_every_list",
    "C29_nothing_lost",
    "C29_empty_default_is_lost",
    "C29_any_switch"
   ],
   "note": "Conditions, values and bodies are drawn from the round-trip class of SpecRT.v; in C29_any_switch they are any of the grammar of SpecGrammar.v. No case expression and no statement is lost; a default label without statements of its own is (C29_empty_default_is_lost)."
  },
  {
   "property": "C30",
   "status": "proved",
   "theorems": [
    "C30_names",
    "C30_constants",
    "C30_printed",
    "C30_imports",
    "C30_namespaces"
   ],
   "note": ""
  },
  {
   "property": "C31",
   "status": "proved",
   "theorems": [
    "C31_interpolation",
    "C31_any_string",
    "C31_any_heredoc"
   ],
   "note": "Simple variables and property fetches in double quotes, any number and any text between. C31_any_string and C31_any_heredoc: also expressions in braces and the forms ${name}, ${name[index]} and ${expression}, in double quotes and heredocs. \"$a[0]\" is not covered: the code panics on it (DESIGN.md)."
  },
  {
   "property": "C32",
   "status": "proved",
   "theorems": [
    "C32_search_restores",
    "C32_search_finds_first_bad"
   ],
   "note": "Also shows that the final report panics when the bad file is the last one."
  },
  {
   "property": "C33",
   "status": "proved",
   "theorems": [
    "C33_sequence",
    "C33_blocks",
    "C33_is_block",
    "C33_join",
    "C33_any_sources"
   ],
   "note": "Token level: any self-contained statement blocks. Source level: the printed round-trip class of SpecRT.v with white space and comments anywhere between; C33_any_sources: any statements of the grammar, each in a source of its own, and the source with the tokens of all of them."
  },
  {
   "property": "C34",
   "status": "proved",
   "theorems": [
    "C34_dangling_operators_accepted",
    "C34_unclosed_parentheses_accepted",
    "C34_unclosed_return_accepted",
    "C34_half_ternary_accepted",
    "C34_unclosed_index_accepted",
    "C34_stray_class_accepted",
    "C34_stray_modifiers_accepted",
    "C34_balance_refuted"
   ],
   "note": "Families of malformed sources that are accepted, for every expression of the round-trip class; C34_balance_refuted: sources with any number of unclosed parentheses are accepted."
  },
  {
   "property": "C35",
   "status": "proved",
   "theorems": [
    "C35_case_insensitivity_refuted"
   ],
   "note": "The expectation is false; the theorem shows it for every identifier with an upper-case letter."
  },
  {
   "property": "C36",
   "status": "proved",
   "theorems": [
    "C36_renaming_commutes"
   ],
   "note": ""
  },
  {
   "property": "C37",
   "status": "proved",
   "theorems": [
    "C37_tree_in_source_order",
    "C37_source",
    "C37_no_more_words_than_tokens",
    "C37_no_number_twice"
   ],
   "note": "The concatenation operator is left out of the word sequence because interpolated strings are concatenations without operator token; modifiers are a set and are left out too."
  },
  {
   "property": "C38",
   "status": "proved",
   "theorems": [
    "C38_source",
    "C38_tokens",
    "C38_one_tree"
   ],
   "note": "The grammar is SpecGrammar.v (with Lost := strict); it leaves out what the parser reads differently than PHP (restricted productions listed there and in DESIGN.md), the operators &= and **=, (unset) casts and variable variables."
  },
  {
   "property": "C39",
   "status": "proved",
   "theorems": [
    "C39_source",
    "C39_tokens",
    "C39_no_program",
    "C39_one_place"
   ],
   "note": "The broken beginnings are SpecErr.v. C39_one_place: there is only one such place in a source; C39_no_program: such tokens are no program of C38's grammar. Errors inside of expressions (arguments, array elements, operands, indices, conditions) are covered as far as the parser reports them; it swallows them when the next token ends the enclosing part (DESIGN.md). An operator without its operand is covered before any token that begins no expression if it is the outermost one of its expression, else before tokens that end an expression. Inside of strings the code in braces is covered, behind text, variables, properties and other code in braces, and code behind '${' that does not begin with a name. Not covered: closures, defaults of parameters, static variables (the parser reads static as a constant and reports the variable), yield, functions inside of methods and of switch, where the parser reports another place or none."
  },
  {
   "property": "C40",
   "status": "proved",
   "theorems": [
    "C40_source",
    "C40_tokens"
   ],
   "note": "The dropped beginnings are those of SpecErr.v (lost n, any n); they may contain what C50 says is dropped of expressions."
  },
  {
   "property": "C41",
   "status": "proved",
   "theorems": [
    "C41_tokens",
    "C41_source",
    "C41_dropped",
    "C41_rejected",
    "C41_one_reading"
   ],
   "note": "The rules are SpecText.v (Text, Pieces, Piece, Behind, Source)."
  },
  {
   "property": "C42",
   "status": "proved",
   "theorems": [
    "C42_fate",
    "C42_one_fate",
    "C42_not_both"
   ],
   "note": "The rules are SpecText.v (Stuck, Bad, Unread), the meaning of a fate is SpecUnread.v."
  },
  {
   "property": "C43",
   "status": "proved",
   "theorems": [
    "C43_total",
    "C43_tokens",
    "C43_hangs",
    "C43_panics",
    "C43_reports"
   ],
   "note": "The sources are lists of Unicode scalar values (every Rust str is one). C43_panics is about the tokenizer: panics of the parser are not part of the rules."
  },
  {
   "property": "C44",
   "status": "proved",
   "theorems": [
    "C44_tokens",
    "C44_sources",
    "C44_panics"
   ],
   "note": "The signs are sufficient, not necessary: a sequence that shows one may still be parsed (for example \"a\"[0], or two instanceof in two arguments of one call). Stack overflow is not modelled."
  },
  {
   "property": "C45",
   "status": "proved",
   "theorems": [
    "C45_nested",
    "C45_source",
    "C45_spelled",
    "C45_clone_refuted",
    "C45_dollar_refuted",
    "C45_double_refuted",
    "C45_hex_refuted"
   ],
   "note": "C45_nested and C45_source assume the order of the tokens, C45_spelled derives it with C46. Outside remain numbers with a point and most with a prefix (the tokenizer gives them wrong spans), interpolated strings that end with a text (its span is that of the whole string) and inline HTML (the parser gives it three tokens with the same span). The _refuted theorems show that the conditions are needed."
  },
  {
   "property": "C46",
   "status": "proved",
   "theorems": [
    "C46_laid",
    "C46_found"
   ],
   "note": "The white space between the tokens is not described here (C41 and C43 do). The text of a string part is not compared with the source, because escapes change it."
  },
  {
   "property": "C47",
   "status": "proved",
   "theorems": [
    "C47_table",
    "C47_parse_error",
    "C47_syntax_error",
    "C47_table_refuted",
    "C47_parse_error_refuted"
   ],
   "note": "Clean is sufficient: it is a condition on the text, so a '?>' in a string counts too. The positions of tokens are C46, the range of errors C23; number tokens with wrong ends make the reported line that of the wrong end. C47_table_refuted and C47_parse_error_refuted show what happens to sources that are not clean."
  },
  {
   "property": "C48",
   "status": "proved",
   "theorems": [
    "C48_shown",
    "C48_panics",
    "C48_where",
    "C48_token",
    "C48_end_panics",
    "C48_end_shown"
   ],
   "note": "The first line of the message (the Debug dump of the expected tokens) is not modelled. The column of the mark counts bytes, so it is too far right behind letters outside of ASCII. Tokens with ranges of their own (numbers with a point or prefix, strings, yield, casts) are under C48_shown and C48_panics only."
  },
  {
   "property": "C49",
   "status": "proved",
   "theorems": [
    "C49_run",
    "C49_search_restores",
    "C49_search_finds"
   ],
   "note": "The check command is a function of the file contents (it changes no file). Not modelled: the search for files (glob, blacklist), files that are not UTF-8, failures of the operating system, the output. The time limit is the fuel of the tokenizer."
  },
  {
   "property": "C50",
   "status": "proved",
   "theorems": [
    "C50_source",
    "C50_tokens"
   ],
   "note": "Cut and CutStmt in SpecErr.v (any nesting depth n). Not covered: an unclosed index, property or ternary before another token than a semicolon, a clone with nothing behind it."
  }
 ]
}