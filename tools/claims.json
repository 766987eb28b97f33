{
 "C32": {
  "note": "Also shows that the final report panics when the bad file is the last one."
 },
 "C15": {
  "note": "Comment tokens: all token sequences. White space: before any input in scripting mode. A comment written inside `( int )` or between `->` and a keyword-named property does change the tokens; DESIGN.md, disagreements."
 },
 "C04": {
  "note": "Sources of HTML only, and any alternation of HTML, PHP blocks and echo tags; the statements inside the blocks come from the round-trip class of SpecRT.v."
 },
 "C35": {
  "note": "The expectation is false; the theorem shows it for every identifier with an upper-case letter."
 },
 "C33": {
  "note": "Token level: any self-contained statement blocks. Source level: the printed round-trip class of SpecRT.v with white space and comments anywhere between; C33_any_sources: any statements of the grammar, each in a source of its own, and the source with the tokens of all of them."
 },
 "C28": {
  "note": "C28_chain: conditions, values and bodies from the round-trip class of SpecRT.v, bodies in braces. C28_any_chain: any conditions and bodies of the grammar of SpecGrammar.v, bodies with or without braces, any white space and comments."
 },
 "C29": {
  "note": "Conditions, values and bodies are drawn from the round-trip class of SpecRT.v; in C29_any_switch they are any of the grammar of SpecGrammar.v. No case expression and no statement is lost; a default label without statements of its own is (C29_empty_default_is_lost)."
 },
 "C14": {
  "note": "Escapes \\n \\r \\t \\v \\f \\\\ \\$ \\\" and \\x with hex digits, and any other characters. \\e and \\u are excluded (the code panics there), and so are byte values that are not UTF-8 (the parser rejects the binary token); DESIGN.md, disagreements."
 },
 "C31": {
  "note": "Simple variables and property fetches in double quotes, any number and any text between. C31_any_string and C31_any_heredoc: also expressions in braces and the forms ${name}, ${name[index]} and ${expression}, in double quotes and heredocs. \"$a[0]\" is not covered: the code panics on it (DESIGN.md)."
 },
 "C02": {
  "note": "Terminates on every source without '{$' and '${' (brace interpolation); C02_braces_refuted is a source on which tokenizing never ends, for any amount of fuel."
 },
 "C06": {
  "note": "All sources and all call sequences; the table records line starts as the code counts them, which is not always the true line number (DESIGN.md, disagreements)."
 },
 "C23": {
  "note": "The reported line exists and the position is within the source or just behind it. That the range is ordered is false (C23_ordered_refuted): number tokens can have a start behind their end."
 },
 "C34": {
  "note": "Families of malformed sources that are accepted, for every expression of the round-trip class; C34_balance_refuted: sources with any number of unclosed parentheses are accepted."
 },
 "C03": {
  "note": "The expectation is false: families of panicking sources, at any place of nested statements and expressions of the round-trip class. C03_safe: no panic on HTML, printed round-trip statements, comments and white space with at least one statement. Panics inside string literals, function bodies and classes are not stated."
 },
 "C37": {
  "note": "The concatenation operator is left out of the word sequence because interpolated strings are concatenations without operator token; modifiers are a set and are left out too."
 },
 "C38": {
  "note": "The grammar is SpecGrammar.v (with Lost := strict); it leaves out what the parser reads differently than PHP (restricted productions listed there and in DESIGN.md), the operators &= and **=, (unset) casts and variable variables."
 },
 "C39": {
  "note": "The broken beginnings are SpecErr.v. C39_one_place: there is only one such place in a source; C39_no_program: such tokens are no program of C38's grammar. Errors inside of expressions (arguments, array elements, operands, indices, conditions) are covered as far as the parser reports them; it swallows them when the next token ends the enclosing part (DESIGN.md). An operator without its operand is covered before any token that begins no expression if it is the outermost one of its expression, else before tokens that end an expression. Inside of strings the code in braces is covered, behind text, variables, properties and other code in braces, and code behind '${' that does not begin with a name. Not covered: closures, defaults of parameters, static variables (the parser reads static as a constant and reports the variable), yield, functions inside of methods and of switch, where the parser reports another place or none."
 },
 "C40": {
  "note": "The dropped beginnings are those of SpecErr.v (lost n, any n); they may contain what C50 says is dropped of expressions."
 },
 "C41": {
  "note": "The rules are SpecText.v (Text, Pieces, Piece, Behind, Source)."
 },
 "C42": {
  "note": "The rules are SpecText.v (Stuck, Bad, Unread), the meaning of a fate is SpecUnread.v."
 },
 "C43": {
  "note": "The sources are lists of Unicode scalar values (every Rust str is one). C43_panics is about the tokenizer: panics of the parser are not part of the rules."
 },
 "C44": {
  "note": "The signs are sufficient, not necessary: a sequence that shows one may still be parsed (for example \"a\"[0], or two instanceof in two arguments of one call). Stack overflow is not modelled."
 },
 "C45": {
  "note": "C45_nested and C45_source assume the order of the tokens, C45_spelled derives it with C46. Outside remain numbers with a point and most with a prefix (the tokenizer gives them wrong spans), interpolated strings that end with a text (its span is that of the whole string) and inline HTML (the parser gives it three tokens with the same span). The _refuted theorems show that the conditions are needed."
 },
 "C46": {
  "note": "The white space between the tokens is not described here (C41 and C43 do). The text of a string part is not compared with the source, because escapes change it."
 },
 "C47": {
  "note": "Clean is sufficient: it is a condition on the text, so a '?>' in a string counts too. The positions of tokens are C46, the range of errors C23; number tokens with wrong ends make the reported line that of the wrong end. C47_table_refuted and C47_parse_error_refuted show what happens to sources that are not clean."
 },
 "C48": {
  "note": "The first line of the message (the Debug dump of the expected tokens) is not modelled. The column of the mark counts bytes, so it is too far right behind letters outside of ASCII. Tokens with ranges of their own (numbers with a point or prefix, strings, yield, casts) are under C48_shown and C48_panics only."
 },
 "C49": {
  "note": "The check command is a function of the file contents (it changes no file). Not modelled: the search for files (glob, blacklist), files that are not UTF-8, failures of the operating system, the output. The time limit is the fuel of the tokenizer."
 },
 "C50": {
  "note": "Cut and CutStmt in SpecErr.v (any nesting depth n). Not covered: an unclosed index, property or ternary before another token than a semicolon, a clone with nothing behind it."
 },
 "C27": {
  "note": "The rules for bodies are SpecDoc.v. C27_nowdoc_token is about one call of the tokenizer. Escapes \\e, \\u, \\x are under C14 and C41; heredocs with code are C31_any_heredoc. C27_raw_refuted and C27_empty_heredoc_refuted: what PHP does differently."
 }
}