{"id": "C01", "title": "Parsing any token sequence terminates", "statement": "Once the source has been split into tokens, Parser::parse_str always comes back: for every sequence of tokens whatsoever (not only those of valid programs) the parser returns a statement list, returns an error or panics; it never loops or recurses for ever.", "quantifier": "all finite token sequences, all span values", "why_tests_cant": "Non-termination of a backtracking recursive-descent parser can hide behind any token sequence; tests only sample finitely many.", "anchors": ["src/parser.rs: parse_tokens, parse_top_statement_list, parse_statement, parse_expression, parse_variable"]}
{"id": "C02", "title": "Tokenizing terminates", "statement": "Tokenizing a source without brace interpolation (no '{$' and no '${') always comes back with the complete token list, a syntax error or a panic. With brace interpolation this is false: there is a source on which parse_str never returns.", "quantifier": "all source strings without '{$' and '${'; for the second half one witness and all amounts of fuel", "why_tests_cant": "The scanner loop restarts itself, pushes/pops modes and re-enters itself; a single bad input hangs the caller and tests cannot enumerate inputs (nor observe a hang).", "anchors": ["src/tokenizer.rs: next_token, str_block, str_variable, match_dq_string"]}
{"id": "C03", "title": "parse_str does not panic on arbitrary input (false), and where it is safe", "statement": "A user expects Result::Err, never a panic, for bad input. This is false of the code: whole families of inputs (empty programs, integer literals above i64::MAX, stray '}', etc.) panic. It is true for inline-HTML-only sources and for every printed program of the round-trip class.", "quantifier": "families of sources indexed by arbitrary strings/numbers", "why_tests_cant": "Panics occur on infinite families; a test shows one member only, and absence of panics on a class cannot be tested.", "anchors": ["src/parser.rs: parse_str, parse_inner_statement_list, parse_top_statement_list", "src/tokenizer.rs: _onum_dnum_lnum, pop_state"]}
{"id": "C04", "title": "Text outside PHP tags is passed through verbatim", "statement": "For every non-empty text without '<?', parse_str(text) is exactly one echo statement of exactly that text; with PHP blocks in between every HTML stretch becomes an echo of exactly its characters, in order.", "quantifier": "all texts (any Unicode) without '<?'", "why_tests_cant": "Depends on every byte of arbitrary text, including multi-byte characters and near-misses of the open tag.", "anchors": ["src/tokenizer.rs: initial_token", "src/parser.rs: parse_tokens"]}
{"id": "C05", "title": "Line lookup finds the containing line", "statement": "For every line table (starts sorted, first 0) and every byte position, the looked-up line is the last line starting at or before the position, and its byte range contains the position.", "quantifier": "all sorted line tables, all positions", "why_tests_cant": "Binary search boundary errors show up only for particular table sizes/positions.", "anchors": ["src/tokenizer.rs: LineMap::line_from_position, LineMap::line"]}
{"id": "C06", "title": "The line table is well formed after any tokenizer run", "statement": "After any number of next_token calls on any source, whatever they returned, the table of line starts begins with 0, is non-decreasing, has as many entries as the line counter says and no entry is beyond the current position reached before a rewind; looking up a line never goes out of bounds.", "quantifier": "all sources, all call sequences", "why_tests_cant": "An invariant over arbitrary long histories of scanner calls including failing ones.", "anchors": ["src/tokenizer.rs: TokenizerState::next_line, whitespace, newline, match_comments"]}
{"id": "C07", "title": "Interning is transparent and canonical", "statement": "intern(s) returns a handle whose text is s; interning the same text twice returns the same handle, different texts give different handles, and handles handed out earlier keep their text, for any history of intern calls.", "quantifier": "all histories of intern calls, all strings", "why_tests_cant": "A property of all call histories.", "anchors": ["src/interner.rs: Interner::intern, Interner::new"]}
{"id": "C08", "title": "Decimal integer literals have their mathematical value", "statement": "For every n with 0 <= n <= i64::MAX, a program consisting of the decimal notation of n as an expression statement parses to Int(n); for every larger n (canonical notation) parse_str panics instead of reporting an error.", "quantifier": "all natural numbers", "why_tests_cant": "2^63 literals and the overflow boundary.", "anchors": ["src/tokenizer.rs: _onum_dnum_lnum", "src/parser.rs: parse_scalar"]}
{"id": "C09", "title": "Octal, hexadecimal and binary literals have their mathematical value", "statement": "A literal 0..., 0x..., 0b... with valid digits denotes its value in base 8, 16, 2 when it fits in i64.", "quantifier": "all digit strings of each base", "why_tests_cant": "Infinite family of digit strings; base and boundary confusions.", "anchors": ["src/tokenizer.rs: _hnum, _bnum, _onum_dnum_lnum"]}
{"id": "C10", "title": "Variables are read maximally and exactly", "statement": "'$' followed by a label tokenizes to a variable with exactly that name and scanning resumes right behind it, for every label and every continuation that is not a label character.", "quantifier": "all labels, all continuations", "why_tests_cant": "Arbitrary length names and arbitrary followers.", "anchors": ["src/tokenizer.rs: match_variable, _label"]}
{"id": "C11", "title": "Keywords never split identifiers", "statement": "An ASCII identifier that is not exactly a (lower case) keyword is tokenized as one identifier token with exactly its text, even when it starts with a keyword; an identifier that is exactly a keyword is tokenized as that keyword.", "quantifier": "all ASCII labels, all non-label continuations", "why_tests_cant": "Every identifier with a keyword prefix is a potential counterexample.", "anchors": ["src/tokenizer.rs: in_scripting_token, in_scripting_other_token, _label"]}
{"id": "C12", "title": "Operators are read by longest match", "statement": "At an operator character the tokenizer returns the longest operator spelled there, with the single exception of '**=' which is read as '**' '='.", "quantifier": "all operator spellings and all continuations", "why_tests_cant": "The order of some ninety alternatives decides; each pair of prefixes with each follower matters.", "anchors": ["src/tokenizer.rs: in_scripting_other_token, _token"]}
{"id": "C13", "title": "Single-quoted strings decode to the denoted bytes", "statement": "'...' with arbitrary content decodes as PHP says: backslash-quote and double backslash are unescaped, everything else including newlines and other backslashes is literal, and the string ends at the first unescaped quote.", "quantifier": "all contents (any Unicode text)", "why_tests_cant": "Escape handling must hold for every sequence of backslashes and quotes.", "anchors": ["src/tokenizer.rs: match_sq_string, str_escape"]}
{"id": "C14", "title": "Double-quoted strings without interpolation decode to the denoted characters", "statement": "A double-quoted literal built from plain characters and the simple escapes decodes to the denoted text and parses to that String.", "quantifier": "all lists of plain characters and escapes", "why_tests_cant": "Every combination/adjacency of escapes and characters.", "anchors": ["src/tokenizer.rs: match_dq_string, str_escape, return_tokens_from_parts", "src/parser.rs: parse_encaps_list"]}
{"id": "C15", "title": "Comments and whitespace between tokens do not change the program", "statement": "Inserting or removing comments never changes the parsed statements (up to positions): the parser's result only depends on the non-comment tokens; white space before a token is skipped without effect other than positions.", "quantifier": "all token sequences with comments interspersed; all whitespace runs before any input", "why_tests_cant": "All insertion points and all comment contents.", "anchors": ["src/parser.rs: parse_tokens", "src/tokenizer.rs: whitespace, match_comments"]}
{"id": "C16", "title": "Positions never influence the syntax tree", "statement": "Two token sequences that differ only in their spans parse to the same outcome up to spans (same statements, same error with the same expected tokens at the same token, same panics), provided corresponding start offsets agree where they are below 2; without that proviso it is false (positions 0 and 1 can make a subtraction underflow).", "quantifier": "all token sequences, all span assignments", "why_tests_cant": "A relational property over pairs of runs.", "anchors": ["src/parser.rs: whole parser"]}
{"id": "C17", "title": "Spans of the syntax tree stay inside the source", "statement": "If every token span lies in [0, n] then every expression and statement span in the parse result lies in [0, n], and a documentation comment in the result is one that a token carried.", "quantifier": "all token sequences, all results", "why_tests_cant": "Every production computes its own span.", "anchors": ["src/parser.rs: mk_span uses", "src/ast.rs: Expr, Stmt"]}
{"id": "C18", "title": "Parser output only contains material of the input", "statement": "Every variable name, identifier fragment, string, integer and double in the resulting tree occurs in the token sequence (namespace paths being joined fragments, interpolated strings concatenations, identifiers possibly keyword spellings); every Int is non-negative.", "quantifier": "all token sequences, all results", "why_tests_cant": "Invariant of all productions over all inputs.", "anchors": ["src/parser.rs: whole parser"]}
{"id": "C19", "title": "Operator precedence and associativity", "statement": "An expression of atoms and binary operators parses to the unique tree prescribed by the precedence table (left associative, ** right associative), for any length and mix of operators.", "quantifier": "all expression trees over all binary operators (minimal parenthesization)", "why_tests_cant": "Infinitely many operator sequences.", "anchors": ["src/parser.rs: parse_unary_expression, parse_binary_expression, Token::precedence, Token::associativity"]}
{"id": "C20", "title": "Print then parse gives the program back", "statement": "For every syntax tree in the (explicitly delimited) well-behaved class, parse_str(\"<?php\\n\" + print_statements(tree) + \"\\n?>\") returns the same tree up to positions. Outside the class there are concrete counterexamples (e.g. string with two adjacent backslashes, 'global' variables, nested assignment in an operand, yield before a name beginning with 'from'). A negative integer comes back as the negation of a positive one. Two programs of the class are printed alike exactly if they differ in positions only.", "quantifier": "all syntax trees of the class, any depth and size", "why_tests_cant": "Infinite set of trees; the ci tester samples files only.", "anchors": ["src/printer.rs: PrettyPrinter::print_statements", "src/parser.rs: parse_str", "ci/tester/main.rs: parse_file"]}
{"id": "C21", "title": "String literals survive printing exactly when no two backslashes are adjacent", "statement": "The printed form of String(s) reads back as s if and only if s has no two adjacent backslashes (for s without restrictions otherwise).", "quantifier": "all strings", "why_tests_cant": "All backslash/quote patterns.", "anchors": ["src/printer.rs: print_expression (String)", "src/tokenizer.rs: match_sq_string"]}
{"id": "C22", "title": "Every parsed program can be printed", "statement": "print_statements never panics on a tree returned by parse_str, although it panics on some trees (binary strings, casts to a class).", "quantifier": "all token sequences/sources that parse", "why_tests_cant": "Needs an invariant of all parser productions against all unimplemented!() arms of the printer.", "anchors": ["src/printer.rs: print_expression", "src/parser.rs: parse_tokens"]}
{"id": "C23", "title": "Error locations", "statement": "If parse_str reports a syntax error then the reported line exists, the line range is ordered and the error position is inside the source or just behind it.", "quantifier": "all failing sources", "why_tests_cant": "All failing inputs.", "anchors": ["src/parser.rs: parse_tokens, parse_str, SpannedParserError"]}
{"id": "C24", "title": "Modifier sets", "statement": "A modifier set built from a list of modifiers contains a modifier if and only if the list does; order and repetition do not matter.", "quantifier": "all lists of class and member modifiers", "why_tests_cant": "All subsets/orders.", "anchors": ["src/ast.rs: ClassModifiers::new/has, MemberModifiers::new/has"]}
{"id": "C25", "title": "Printing is compositional", "statement": "Printing a list of statements is the concatenation of printing each; the output of a statement does not depend on its neighbours or spans.", "quantifier": "all statement lists", "why_tests_cant": "All pairs of statements.", "anchors": ["src/printer.rs: print_statements"]}
{"id": "C26", "title": "UTF-8 decoding inverts encoding", "statement": "Encoding any text to bytes and decoding yields the text; decoding succeeds only on encodings.", "quantifier": "all Unicode texts / all byte strings", "why_tests_cant": "2^21 code points and all sequences thereof.", "anchors": ["src/tokenizer.rs: String::from_utf8 uses"]}
{"id": "C27", "title": "Nowdoc and heredoc bodies", "statement": "A nowdoc whose lines contain no backslash, dollar or brace and do not start with the end tag yields exactly its body. With backslashes in it, the body is decoded like a single-quoted string: two backslashes stand for one and a backslash and a quote for the quote (PHP keeps both); a dollar sign or an opening brace makes the source an error that spans from '<<<' to that character. A heredoc whose body has no dollar sign and no brace, except behind a backslash, yields its body with the escapes of double-quoted strings; an empty heredoc is rejected. A backslash takes the character behind it along, also a newline: then the end tag on the next line does not end the body.", "quantifier": "all tags and all bodies", "why_tests_cant": "All texts, line structures and tags; the tests have bodies of one or two lines without backslash.", "anchors": ["src/tokenizer.rs:802-928", "src/tokenizer.rs: str_escape"]}
{"id": "C28", "title": "if / elseif / else chains", "statement": "A chain of conditions with bodies parses to the right-nested If tree with all conditions and bodies in order, for any chain length.", "quantifier": "all chain lengths, conditions, bodies", "why_tests_cant": "Arbitrary chain length.", "anchors": ["src/parser.rs: parse_statement (if)"]}
{"id": "C29", "title": "switch cases keep their grouping and order", "statement": "Consecutive case labels without body are grouped with the next non-empty body; the order of cases is kept; no case expression is lost.", "quantifier": "all case lists", "why_tests_cant": "All groupings of any length.", "anchors": ["src/parser.rs: parse_statement (switch)"]}
{"id": "C30", "title": "Qualified names", "statement": "A name a\\b\\...\\z parses to the path whose namespace is everything before the last separator joined with backslashes, and prints back to the same text.", "quantifier": "all fragment lists", "why_tests_cant": "Any number of fragments.", "anchors": ["src/parser.rs: parse_namespace_name, parse_name", "src/printer.rs: Display for Path"]}
{"id": "C31", "title": "Interpolated strings are the ordered concatenation of their parts", "statement": "For a double-quoted string of literal pieces and simple variables the result is the right-nested concatenation of exactly these parts in order.", "quantifier": "all part lists", "why_tests_cant": "Any number and order of parts.", "anchors": ["src/tokenizer.rs: str_variable, match_dq_string", "src/parser.rs: parse_encaps_list"]}
{"id": "C32", "title": "The tester's binary search finds a failing file", "statement": "If checks behave monotonically (a range passes iff it contains no bad file) and there is exactly one bad file, the search ends at that file; after every round all files in the range have their original contents.", "quantifier": "all file lists, all positions of the bad file", "why_tests_cant": "All list sizes and positions; boundaries.", "anchors": ["ci/tester/main.rs: main (binary search)"]}
{"id": "C33", "title": "Statement sequences", "statement": "parse_str of several statements in sequence is the concatenation of the statements parsed one by one, in order.", "quantifier": "all sequences of statement token blocks", "why_tests_cant": "Any number of statements.", "anchors": ["src/parser.rs: parse_top_statement_list, parse_inner_statement_list"]}
{"id": "C34", "title": "Malformed programs are rejected (false)", "statement": "A user expects that sources with dangling operators or unbalanced brackets are rejected. False: there are infinite families of malformed programs which are accepted with tokens silently dropped.", "quantifier": "families of sources", "why_tests_cant": "One witness per family is testable, the family is not; the point is which universally expected statement fails.", "anchors": ["src/parser.rs: parse_unary_expression, parse_opt_expression, parse_variable, parse_statement"]}
{"id": "C35", "title": "Keywords are case-insensitive (false)", "statement": "PHP keywords are case-insensitive. False here: an identifier containing an upper-case letter is never tokenized as a keyword.", "quantifier": "all ASCII labels with an upper-case letter", "why_tests_cant": "All spellings.", "anchors": ["src/tokenizer.rs: starts_with_ci"]}
{"id": "C36", "title": "Consistent renaming commutes with parsing", "statement": "Renaming all variables, replacing integer and double values, and replacing every character of string literals and HTML by non-empty text, consistently over the whole token sequence, changes the parse result in exactly the same way (up to positions): the parser looks at no payload. Exception: with '${' tokens variables must keep their names, since '${name}' is spelled with an identifier token.", "quantifier": "all token sequences, all renamings", "why_tests_cant": "Relational over pairs of runs and over all renaming functions.", "anchors": ["src/parser.rs: whole parser"]}
{"id": "C37", "title": "The tree keeps the order of the source and uses no token twice", "statement": "Reading the tree from left to right (parameters, conditions, bodies, members and operands in the order of the language) gives a sequence of variables, names, numbers, strings, operators and keywords that can be matched to the tokens of the input in the same order, every token being used at most once. In particular the tree has at most as many words as the input has tokens, and no number occurs more often in the tree than in the input.", "quantifier": "all token sequences, all results", "why_tests_cant": "Invariant of all productions over all inputs; swapped or duplicated operands show up only in the constructs a test happens to contain.", "anchors": ["src/parser.rs: whole parser"]}
{"id": "C38", "title": "Every program of the grammar is accepted, with the tree of the grammar", "statement": "For the part of the PHP 7.1 grammar that the parser knows (names, all operators with the precedence and associativity of PHP, assignments, variables with indices, properties, static members and calls, strings with variables, arrays, closures, new, all control statements, functions, classes, interfaces, traits with adaptations, imports and namespaces): if the visible tokens of a source (which may begin with '<?php', '<?', '<?=' or with HTML) are derived by the grammar with tree T, Parser::parse_str accepts the source and returns T up to positions. White space, comments, HTML and further tags are free. It follows that the grammar gives every token sequence at most one tree.", "quantifier": "all derivations of the grammar, all sources with these tokens", "why_tests_cant": "The grammar is recursive in all of its parts; tests contain single programs, never all nestings of all constructs.", "anchors": ["src/parser.rs: whole parser", "src/parser.rs:1849-1899"]}
{"id": "C39", "title": "A broken program is rejected at the first token that does not fit", "statement": "If the visible tokens of a source (behind any open tag, with or without HTML in front) are complete statements of the grammar, followed by the beginning of a statement (simple statements, conditions, loops, try/catch, switch, functions, classes with their members and methods, imports, namespaces, lists of globals and of unset variables, nested in each other; with expressions that may be broken at any depth: in the arguments of a call, in an array, behind an operator, in an index or a condition, in the code '{$...}' and '${...}' of a string or heredoc; an empty heredoc breaks at its end) and a token that cannot continue it, Parser::parse_str returns an error whose position is the span of exactly this token, or the byte behind the last token if the source ends there. A source has at most one such place.", "quantifier": "all beginnings of programs, all remaining inputs, all sources with these tokens", "why_tests_cant": "The place is the deepest of the errors of all alternatives tried; whether it is right depends on every combination of nested constructs and on the token that follows.", "anchors": ["src/parser.rs:215-245", "src/parser.rs:1399-1658", "src/parser.rs:1849-1899"]}
{"id": "C40", "title": "What is broken directly before a closing brace is dropped and the program accepted", "statement": "If the beginning of a statement stands directly before the closing brace of a block, function body, method, closure, switch, try, catch or finally, or the beginning of a member directly before the closing brace of a class, the program is accepted and the tree is the one of the program without it: 'function f() { return 1 }' is accepted as a function with an empty body.", "quantifier": "all programs of the grammar with dropped beginnings at any number of places and any depth", "why_tests_cant": "The tests of the repository only contain well-formed programs; that every broken statement disappears in all of these positions is a statement about all programs.", "anchors": ["src/parser.rs:1667-1683", "src/parser.rs:1794-1807"]}
{"id": "C41", "title": "Sources are read as written, from the characters to the tree", "statement": "Rules independent of the code say which characters stand for which tokens: open tags, HTML, white space and comments, names and keywords, variables, numbers in all bases, casts, operators by longest match, properties behind '->' that may be keywords, single-quoted strings, nowdocs, HTML between tags, and double-quoted strings and heredocs with escapes, variables, properties and code in braces, which contains all of these again to any depth, backquotes, and what becomes of code in braces that cannot be read. Every source that follows the rules is tokenized as they say; if its tokens form a program of the grammar (C38), Parser::parse_str accepts it with the tree of the grammar; with broken beginnings in front of closing braces it is accepted without them (C40); if its tokens break (C39), it is rejected at the token that does not fit. The rules give no source two readings.", "quantifier": "all sources that follow the rules, all programs of the grammar", "why_tests_cant": "The tokenizer calls itself for code in strings, with a stack of modes; tests contain single nestings, and where one token ends depends on everything that may follow it.", "anchors": ["src/tokenizer.rs: whole tokenizer", "src/tokenizer.rs:695-749", "src/tokenizer.rs:529-550", "src/parser.rs:1849-1899"]}
{"id": "C42", "title": "A source that cannot be read panics, never ends or is reported, as rules of the language say", "statement": "Rules independent of the code say where a text that begins as in C41 cannot be read on, and what Parser::parse_str then does. It returns the error 'unterminated ...' or 'unknown character' with exactly the span the rules give: for a character no token begins with, for comments, single-quoted and double-quoted strings, heredocs, nowdocs and backquotes without an end, for an end tag that is followed by something, for a backslash at the end, for '0x' and '0b' without digits. It panics: for numbers above the largest one, a closing brace too many, names with wide characters, '\\e', '\\u', bytes that are not hexadecimal, '$a[' in a string, a string that ends behind a variable, and broken code behind '${'. It never ends: for code in a string without its closing brace. All of this at any place of a source and at any depth of code in strings. The rules give no source two fates, and none to a source that has tokens by C41.", "quantifier": "all sources with a readable beginning of any length, all stops, any depth of strings in code in strings", "why_tests_cant": "Whether the run panics, hangs or reports depends on everything that was opened before; tests contain no nested failures and cannot observe a run that never ends.", "anchors": ["src/tokenizer.rs:603-693", "src/tokenizer.rs:695-749", "src/tokenizer.rs:751-913", "src/tokenizer.rs:383-456", "src/tokenizer.rs:478-524", "src/tokenizer.rs:931-985", "src/tokenizer.rs:1060-1282", "src/parser.rs:1849-1899"]}
{"id": "C43", "title": "The rules for tokens and for sources that cannot be read leave out no source", "statement": "Every source (any sequence of characters) either has its tokens by the rules of C41 or a fate by the rules of C42. So these rules are exactly what the tokenizer does: it reads the tokens ts from a source if and only if the rules derive ts for it; Parser::parse_str never ends on a source if and only if the rules say so; the tokenizer panics only, and an error of the tokenizer is reported only, with the kind and the span, where the rules say so.", "quantifier": "all sources", "why_tests_cant": "That nothing is forgotten, that there is no further text on which the tokenizer hangs, panics or reads something else, is a statement about all texts.", "anchors": ["src/tokenizer.rs: whole tokenizer", "src/parser.rs:1849-1927"]}
{"id": "C44", "title": "The sources on which the parser cannot panic", "statement": "There is a list of ten signs in the token sequence of a source: no token at all, `$` in front of something else than a name, `(unset)`, an opening parenthesis that is not closed, a parameter list that does not follow the grammar, an `else` that is not followed by one statement and the end of its `if` while a further arm follows somewhere, two `instanceof` in one expression, `as` without a new name or `yield` in the block of a trait use, `yield` as the name of a constant or member, and a string opening in front of something that is not the inside of a string. A source that can be read by the rules of C41 and shows none of these signs never makes Parser::parse_str panic: it returns the tree of a program or reports an error of the parser. So every source on which parse_str panics is one the rules of C42 make panic or one with such a sign; for each sign there is a source that panics.", "quantifier": "all token sequences behind an open tag; all sources", "why_tests_cant": "That correct and broken programs of any size never reach one of the parser's unwrap, unreachable!, unimplemented!, assert! or index operations is a statement about all token sequences; tests only show that the tried ones do not.", "anchors": ["src/parser.rs: whole parser", "src/parser.rs:1849-1927"]}
{"id": "C45", "title": "The spans of a tree lie in each other as the tree does", "statement": "If the tokens stand one behind the other in the source (each span ends before the next one begins, and those of '\\\\' and '&' are not empty; instead of that, all strings in double quotes, backquotes and heredocs may be one text each, whose span is that of the whole string, or empty), and none of them is 'clone' or '${', then in the tree that the parser returns the span of every expression and statement contains the spans of its parts, the parts of one node stand one behind the other in the order in which the source has them, the statements of the program stand one behind the other, and all lies before the end of the last token. For a source the order of the tokens need not be assumed: it is enough that it has none of inline HTML, numbers with a point, integers whose span ends before it begins, 'clone', '${', and no string in double quotes, backquotes or heredoc other than those that are one text; then all spans also lie within the source. (The span of '&$v' in a foreach is the place in front of the variable and counts as a neighbour of it.) Without the conditions it is false: '1 + clone $a', '\"ab${c}de\"', '1.5 + 2' and '0xff + 2' have spans that do not contain their parts, overlap, or end before they begin.", "quantifier": "all token sequences whose spans are in order; all sources with such tokens", "why_tests_cant": "Every construct has its own computation of a span, from tokens, from parts or from the previous position; that none of their combinations is out of order, whatever is nested in whatever, is a statement about all trees.", "anchors": ["src/parser.rs: whole parser", "src/parser.rs:1849-1927"]}
{"id": "C46", "title": "The tokens stand in the source where their spans say", "statement": "If Tokenizer::next_token delivers the tokens of a source up to its end, then they stand in the source one behind the other, in the order of delivery and within its length. At the start of the span of a variable, name, decimal integer, comment, piece of HTML, word, operator or tag the source has the characters of that token, and the span ends behind them (for variables and names: counted in characters; a cast runs from '(' to ')', 'yield' may include the white space behind it, '->' in a string counts one byte). The exceptions are exactly these: the span of a number with '0x' or '0b' ends at the number of its digits, the span of a number with a point begins behind the point and ends at the number of digits in front of it, and the last text of a string with quotes, backquotes or a heredoc has the span of the whole string. Parts of strings stand between the opening and the closing of the string. The tokenizer never delivers its end marker among the tokens.", "quantifier": "all sources the tokenizer reads to the end", "why_tests_cant": "Spans are computed from saved positions, byte counts and character counts in two dozen places, and the parts of a string are delivered from a queue; that no source makes two of them overlap or point elsewhere is a statement about all sources.", "anchors": ["src/tokenizer.rs: whole tokenizer", "src/tokenizer.rs:988-1057", "src/parser.rs:1902-1925"]}
{"id": "C47", "title": "Lines of the line map and of error messages are the lines of the source", "statement": "Call a source clean if every newline in it has a '<?' before it, every newline behind a '?>' has a '<?' in between, every newline behind a '/*' or '/**' has a '*/' in between, no newline follows a backslash, and '<<<' does not occur. If the tokenizer reads a clean source to its end, then the line map has one entry more than the source has newlines, and entry n is the byte at which line n of the source begins (behind its n-th newline). If parse_str rejects a clean source because of its tokens, then the error's line number, line start and line end are those of a line of the source, and it is the last line that begins at or before the end of the error's range. If parse_str rejects a clean source in the tokenizer, then the error's line number and line start are those of the last line that begins at or before the start of the error; the line end is the end of the source. For sources that are not clean all this fails: each of the five conditions has a source that leaves a wrong line map.", "quantifier": "all clean sources, any fuel", "why_tests_cant": "Newlines are counted in seven places of the tokenizer, positions are saved and restored after failed attempts together with or without the lines, and code inside of strings is tokenized recursively; that no clean source makes the map drift is an invariant of all runs.", "anchors": ["src/tokenizer.rs:56-98", "src/tokenizer.rs:123-132", "src/tokenizer.rs:275-320", "src/tokenizer.rs:570-590", "src/tokenizer.rs:715-735", "src/tokenizer.rs:770-785", "src/parser.rs:1886-1899", "src/parser.rs:1905-1920"]}
{"id": "C48", "title": "A rendered error message shows the line and marks the token", "statement": "Let parse_str reject a clean source (C47). SpannedParserError::error_message with the source then prints the text from the error's line start to its line end and below it a mark '^~~~' that begins at the error's start and is as long as its range, provided the range is not empty and does not begin before the line; otherwise it panics. An error of the parser has the range of one of the tokens, or begins at the end of the last token that the parser sees and is one byte long. If the token is a variable, a name, a word or an operator (other than yield, casts, quotes and the arrow) then the message is its line and the mark is below it, as long as the token. If the error is behind the last token then rendering panics exactly if a newline stands directly behind that token.", "quantifier": "all clean sources that parse_str rejects, any fuel", "why_tests_cant": "Whether rendering panics depends on where the last token ends and on line starts computed elsewhere; a test fixes both. The claim is about every rejected source.", "anchors": ["src/parser.rs:53-85", "src/parser.rs:1849-1899", "src/tokenizer.rs:56-98"]}
{"id": "C49", "title": "The tester rewrites exactly the files that parse, and its search leaves all files as they were", "statement": "'parse <dir> [check]' rewrites each file that parses to '<?php', a newline, its printed program, a newline and '?>', and leaves every other file as it was; no file is left empty. It ends without panic exactly if every file parses and the check, if there is one, passes each time a file has been rewritten. With '-b' every file has its old contents in the end, whatever the files contain and the check says. If all files parse and the check fails exactly when one of the bad files is not as it was, then the search ends at the first bad file (and panics in the final report if that is the last file).", "quantifier": "all file contents, any number of files, any check that looks at the files only, any time limit", "why_tests_cant": "The search runs the parser on ranges of files that depend on earlier results, and each run changes the disk; the claims are about every directory and every check.", "anchors": ["ci/tester/main.rs:69-97", "ci/tester/main.rs:99-152", "ci/tester/main.rs:157-199"]}
{"id": "C50", "title": "Operators without their last operand, and unclosed parts before a semicolon, are dropped and the program accepted", "statement": "If in the place of an expression there is an expression whose last binary operator, '**', 'instanceof', ternary ':' or '::' lacks what must follow it, then the program is accepted with the tree of what stands before that operator: '$x = $a + ;' is '$x = $a;', 'if ($a && ) {}' is 'if ($a) {}', 'f($b * , 1)' is 'f($b, 1)', '$a ? 1 : ;' is '$a;'. Operators, assignments, casts, clone and includes before it are kept. In an expression statement, throw, return, break or continue, the same holds directly before the semicolon for an index that is not closed, a property without a name and a ternary without ':'; and behind return, break or continue an expression that breaks in another way (a call, an array or a parenthesis that is not closed) disappears: 'return f(1, [2;' is 'return;'.", "quantifier": "all programs of the grammar with such expressions at any number of places and any depth", "why_tests_cant": "The tests of the repository only contain well-formed programs; that the operand may be missing in the place of every expression is a statement about all programs.", "anchors": ["src/parser.rs:309-411", "src/parser.rs:572-630", "src/parser.rs:646-652"]}
