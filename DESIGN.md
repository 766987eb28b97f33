# Formal model of pico-php-parser: design

Prover: Rocq (Coq 8.16.1), plain Gallina, standard library only.

## Layout (rocq/theories)

| file | models |
|------|--------|
| Base.v | chars, strings with byte offsets, UTF-8, integer parsing (`std`) |
| Tokens.v | src/tokens.rs |
| Lexer.v | src/tokenizer.rs 1-1301 |
| Ast.v | src/ast.rs |
| Interner.v | src/interner.rs |
| Parser.v | src/parser.rs 94-1847 |
| Printer.v | src/printer.rs |
| Driver.v | src/parser.rs 63-85, 1849-1928; ci/tester/main.rs search and parse_file |
| Conformance.v | the repository's own unit tests replayed on the model (tests, not proofs) |
| AstMap.v, Spec.v | specification vocabulary (leaves of a tree, forgetting positions, renaming, ...) |
| AstInd.v | induction principle for the syntax tree |
| Wp.v, ParserTermination.v | weakest-precondition calculus for the parser monad; progress and termination |
| ParserMono.v | more fuel never changes a result |
| ParserRel.v | the relational pass: two runs on related token lists give related results |
| LexBase, LexSteps, LexWords, LexTok, LexNum, LexStr, LexMore | what the tokenizer does at a known remaining input |
| LexRun, LexParse, LexFacts, LexCrash, LexProg | runs of the tokenizer and of tokenizer + parser |
| ParseRun, ParseTac | running the parser on a token list known up to a point |
| ParseExpr, ParseStmt, ParseDecl | grammar judgements (tokens, tree) and their introduction rules |
| Emit.v | from source text to the tokens the parser sees |
| SpecProg.v, ProgOps.v, ProgNames.v | operator trees and names: specification and proofs |
| LexMono.v | more fuel never changes what the tokenizer does; one run decides |
| SpecRT.v | the class of trees that survive printing and parsing |
| RTBase, RTExpr, RTStmt, RTStm2, RoundTrip | printed text of each construct to tokens to the same tree |
| StrFacts.v | which printed string literals read back |
| SpecMixed.v, Mixed.v | sources that mix HTML, PHP blocks, echo tags, comments, white space |
| SpecCtl.v, Ctl.v | chains of conditions, switches |
| SpecInterp.v, Interp.v | double-quoted strings |
| SpecRun.v, LexInv.v, LexTotal.v | invariant of every tokenizer function; termination, line table, error positions |
| SpecBad.v, Bad.v | malformed sources that are accepted |
| ParseCrash.v, Dies.v, DiesStm.v | running the parser up to a panic, through every nesting |
| SpecCrash.v, Crash.v | sources that panic |
| SpecOrder.v | words of a tree and of a token sequence |
| Order.v, OrderPass.v, OrderTop.v | every parser function adds the words it reads |
| SpecGrammar.v | the grammar: token sequences with their trees |
| Grammar.v, GrammarAll.v, GrammarTop.v, GrammarEx.v | the parser accepts every derivation; an example derivation |
| SpecErr.v | beginnings of programs that a token cannot continue |
| ErrAt.v, Stops.v, StopsExpr.v, StopsMember.v, GrammarErr.v, ErrTop.v, ErrEx.v | the parser stops at that token; examples |
| SpecText.v | which characters stand for which tokens, and where a text cannot be read on: words, numbers, strings with code, heredocs, backquotes, comments, HTML |
| LexText.v, TextTok.v, TextProof.v, TextMain.v, TextMain2.v, TextEx.v | the tokenizer reads these tokens; composition with the grammar; examples |
| SpecUnread.v | what it means to panic, to never end, or to be reported with an error and a span |
| UnreadProof.v, UnreadInside.v, UnreadEx.v | the tokenizer does that; single tokens, numbers, code in strings; examples |
| TextTotal.v, CompleteEx.v | every text has tokens or a fate by the rules; what follows from it; examples |
| SpecWide.v, Wide.v, WideEx.v | operators, chains of conditions, switches, double-quoted strings and heredocs with parts from the whole grammar; statements parsed one by one; examples |
| SpecDoc.v, Doc.v | the bodies of nowdocs and heredocs without code (C27); their texts |
| SpecPanic.v | the signs in a token sequence without which the parser does not panic |
| SafeWp.v, Safe.v, SafeMain.v, SafeEx.v | a Hoare pass over every parser function with the tokens behind the position; sources; examples |
| SpecSpan.v | the spans of a tree and what it means that they are nested (C45) |
| Span.v, SpanPass.v, SpanTop.v | a pass over every parser function: where the spans of the result begin and end; whole parses, examples |
| SpecPlace.v | what it means that tokens stand in a source one behind the other (C46) |
| SpecLines.v | lines of a source, and the sources whose newlines the tokenizer counts right (C47) |
| SpecRender.v | the text of a token and the marked line (C48) |
| Tester.v | model: ci/tester/main.rs, the child process and the run over all files |
| SpecTester.v, TesterFacts.v | what a run of the tester does to the files (C49) |
| Place.v | a pass over every tokenizer function: the tokens stand there; examples |
| Lines.v, LinesMain.v | a pass over every tokenizer function: the line map holds the line starts; lines of errors; examples |
| Render.v | what a rendered message shows, and when rendering panics |
| LexBehind.v | tokens behind the first tag start behind it; what may stand in front of it |
| *Facts.v | lemmas |
| Properties*.v | the property theorems only, each with an Example and Print Assumptions |

## Modelling conventions

* A Rust `char` is a code point in `N`, `&str` a list of them; byte positions are recomputed with
  UTF-8 lengths, so slicing off a char boundary is an explicit panic.
* Every outcome type has four cases: ok, error, panic (with a reason), out of fuel. `Err` keeps the
  mutated state (the code frequently continues after an `Err` without restoring it).
* Panics: slice/index out of range, unwrap, unreachable!, unimplemented!, assert!, and arithmetic
  overflow as in a debug build.
* `as u32` casts are the identity (sources below 4 GiB).
* `RcStr` is its contents; the interner is modelled separately and shown transparent.
* `f64` values are kept as their literal text; printing a double is a parameter of the printer.
* Rust stack overflow (deep recursion) is not modelled.
* Loops and recursion that are not structurally decreasing take fuel; the termination theorems say
  which amount is always enough, every other theorem about a result excludes out-of-fuel explicitly.

## Trusted base

Coq's kernel; the fidelity of the model to the Rust text (each definition cites file:lines); whatever
`Print Assumptions` lists beneath each theorem (target: "Closed under the global context" everywhere).

Modelled: everything in src/ that Parser::parse_str, the printer and the error messages run, and of ci/tester/main.rs the
search, the child process and the run over the files. Not modelled:

* ci/tester/main.rs:28-66: command line, the pattern `**/*.php`, and leaving out `vendor` and `tests`; the files are given.
* Files that are not UTF-8 or cannot be opened or written (there the tester panics), and what it prints.
* The check command: a function of the files that changes none; the time limit: a number of steps.
* `#[derive]`d code (Debug, Clone, PartialEq), memory and reference counts, the hash table of the interner (an association list).
* Unit tests in src/tests and at the ends of files, apart from those replayed in Conformance.v.

## What is modelled and how it is proved, per property

MANIFEST.json lists the exact theorem names and what a claim leaves out.

| id | about | how |
|----|-------|-----|
| C01 | all of src/parser.rs on any token list | weakest-precondition calculus, progress of every loop, fuel monotonicity |
| C02 | all of src/tokenizer.rs on any source | measure (remaining bytes, stacked modes) through every function; divergence by a state invariant |
| C03 | parse_str | symbolic runs up to the panic, closed under nesting of statements and expressions |
| C04 | parse_str on HTML and PHP blocks | compositional "text gives tokens gives tree" relation |
| C05 | line lookup (src/tokenizer.rs) | loop invariant of the search |
| C06 | every sequence of tokenizer calls | Hoare triples for every tokenizer function |
| C07 | src/interner.rs | history invariant over any call sequence |
| C08, C09 | number literals | symbolic run of the scanner at any position; value by induction over the digits |
| C10-C12 | variables, words, operators | the same; operator table by case analysis, arbitrary text behind |
| C13, C14, C31 | quoted strings | induction over the parts of the literal |
| C15 | token filter, white space | relational theorem over the parser; scanner run |
| C16, C17, C18, C36 | the parser on any token list | one relational (parametricity) theorem, instantiated four times |
| C37 | the parser on any token list | one Hoare pass over all parser functions: the words of the result are covered by the tokens between the two positions |
| C38 | tokenizer, parser | mutual induction over the derivations of the grammar, on the judgements of ParseExpr, ParseStmt, ParseDecl; positions from the tokenizer invariant |
| C39 | tokenizer, parser | a rule per production for "fails, with the error where the remaining tokens are l", mutual induction over broken beginnings of expressions, statements and members |
| C40 | tokenizer, parser | C38's induction with a parameter for what may be dropped, filled by C39's induction |
| C41 | tokenizer, parser | mutual induction over script text and the inside of strings (they contain each other); composition with C38, C39, C40 |
| C42 | tokenizer, driver | mutual induction over the places where script text and the inside of strings cannot be read on, on top of the readings of C41; code in a string that panics or never ends does so for the whole source, code that ends in an error does not |
| C43 | tokenizer, driver | induction over the length of the text: every text begins with a token, a comment, a tag or a place where it cannot be read on; the same for the inside of strings; with C41, C42 and monotony in fuel |
| C44 | parser, driver | one Hoare pass over all parser functions for "does not panic", the panicking branches excluded by the shape of the remaining tokens; with C43 for sources |
| C45 | parser, driver | one pass over all parser functions with the end of the last token as measure: a result fits between the ends of the tokens before and behind it; positions inside of a string that is one text are shown never to be left by a result or an error; with C46 for whole sources |
| C46 | tokenizer, driver | one pass over all tokenizer functions with the rest of the source at the position: every delivered or queued token stands between the position before and behind it; induction over the fuel for code in strings |
| C47 | tokenizer, driver | invariant of all tokenizer functions: the line map holds the line starts up to the position; attempts that fail have put back a state with the same lines; the lookup of C05 then finds the line of the source |
| C48 | driver | from C46 (the token stands in the source) and C47 (the line is a line of the source); no line begins inside of a token without newline |
| C49 | ci/tester | induction over the files; the search of C32 with the modelled child, which along a search only meets files with their old contents; C22 excludes truncated files |
| C50 | tokenizer, parser | C38's induction with the same parameter as C40, filled by C39's rules for operators without operand: they also say which tree the parser returns |
| C19 | binary and unary operators | induction over operator trees, one rule per precedence level; operands are literals, or any operand of the grammar (C19_any_operands) |
| C20 | printer, tokenizer, parser | induction over the syntax tree; the class of trees is `good` in SpecRT.v |
| C21 | string literals | rewriting lemma for the escape function |
| C22 | printer on parser output | invariant of every parser result |
| C23 | errors of parse_str | from C06 and the tokenizer invariant |
| C24 | modifier sets | bit lemmas, any sequence of modifiers |
| C25 | printer | homomorphism over statement lists |
| C26 | UTF-8 (std, as used) | arithmetic on code points |
| C27 | nowdoc, heredoc | symbolic run, arbitrary body and label; whole sources by the rules of C41 and C42 over bodies described in SpecDoc.v |
| C28, C29 | if, switch | grammar judgements over lists of arms and labels; with parts from the round-trip class, or any of the grammar (C28_any_chain, C29_any_switch) |
| C30 | names, imports, namespaces | induction over the parts |
| C32 | ci/tester | loop invariant of the binary search |
| C33 | statement lists | token blocks that are statements in any surrounding; sources of single statements of the grammar and the source of all of them (C33_any_sources) |
| C34, C35 | false expectations | families of counterexamples |

## Disagreements between code and expectation

* `<?= $a ?>` without `;` is rejected: the close tag is dropped, it does not end a statement.
* `<?phpecho 1;` is accepted: no blank is needed behind the open tag.
* A comment between `->` and a keyword-named property, or inside `( int )`, changes the tokens.
* A `default:` label directly before another label, or at the end of a switch, vanishes from the tree.
* `"\e"` and `"\u{41}"` panic (`unimplemented!`), octal escapes such as `"\101"` stay as written.
* `"\xff"` becomes a binary string token which no parser rule accepts.
* `"$a[0]"` panics (`unimplemented!`).
* `<?php "{$a` at the end of the input: the tokenizer never returns.
* The span of a double or of a prefixed number may start behind its end, so the range of an error can be
  reversed, the reported line is then wrong and rendering the message panics.
* Lines (C47_table_refuted): the newline behind a heredoc is counted twice; newlines in HTML and behind a
  backslash in a string are not counted; the lines of a block comment all begin behind it.
* An error inside the right side of an operator, an index or an optional expression ends the expression
  without restoring the position: `($a) * ;`, `($a) * ((1;`, `($a) ? 1;`, `($a)[1;`, `return (1;` are
  accepted and the tokens are dropped.
* `$a->;` is accepted as `$a;`, `f($a->);` as `f($a);`, `return f(1;` as `return;`, `[f(1]` as `[]`.
* A call whose arguments are not closed vanishes when a value follows: `f(1 2;` is accepted as `2;`,
  `$a = f(1, 2 [3];` as `$a = [3];`, `$a->b(1 "x" . $y;` as `"x" . $y;`; `f(1 2);` is reported at `)` instead of `2`.
* `function f($a = ) {}` is accepted without parameters, `f($a = 1 + )` with the default 1; `exit();` is rejected.
* `class`, `trait`, `interface`, `final`, `abstract` directly before another statement are dropped.
* A source without statements (empty, only tags, white space, comments) panics (`0 - 1` on the token index).
* Integers above 2^63-1, `08`, a `.` at the end of the input, a `}` without `{`: the tokenizer panics.
* `$$v`, `(unset) $v`, `$a instanceof B instanceof C`, an `else` before a further `else`/`elseif`: the
  parser panics.
* `<?php yield f(`, `$x = $a[f(`, `$x = 1 + f(`: an argument list at the end of the input panics.
* `A::yield()`, `const yield = 1`, a trait's `foo as ;` and `yield` in its block panic.
* `function f() { $x = "{$b = }" g('x' 'y'); `: the error inside of the string ends the body at the `}`, the closing
  quote is read as an opening one and the parser panics.
* A statement or member that is broken directly before a `}` is dropped and the program accepted:
  `function f() { return 1 }` has an empty body, `class A { public $x = 1 }` no members (C40).
* An operator without its last operand is dropped in the place of any expression: `$x = $a + ;` is accepted as
  `$x = $a;`, `if ($a && )` as `if ($a)`, `f($b * , 1)` as `f($b, 1)`; before a `;` also what is not closed:
  `$a[1;` is accepted as `$a;` and `return f(1, [2;` as `return;` (C50).
* A class that is broken directly before a simple statement or an expression is dropped, and the statement is
  read in its place: `<?php class A { function f() { $a = 1 return 2;` is accepted as `return 2;`.
* Errors behind `static $a = 1` are reported at `$a`; errors in a function inside of a method may be reported
  at another place.
* `function f($a ;` panics: a parameter list must be followed by `)` or `,`.
* A name with a letter outside of ASCII: its characters are counted and as many bytes are skipped. The rest of the
  word is read a second time (`éab` is followed by `b`), or the run panics inside of a letter.
* `/**/` is not a complete comment: `/**` is read first and `*/` is looked for behind it.
* An error inside of the code of `"{$..."` is ignored, the brace is dropped and the code is read as text; the same
  behind `"${` panics.
* A backquote ends a string only if it is the last character of the source; any other one is text. A `"` or `\` in it is an error.
* A line of a heredoc or nowdoc that begins with the end tag ends the reading with an error if the line goes on.
* `yield fromage()` is read as `yield from` and `age()`: no end of the word `from` is looked for.
* In a heredoc `\"` stands for `"`; in PHP the backslash stays.
* In a nowdoc two backslashes stand for one and `\'` for `'`; in PHP both stay (C27_raw_refuted). A `$` or `{` in a nowdoc is
  an error (C27_nowdoc_rejects). A backslash at the end of a line hides the end tag on the next one.
* An empty heredoc is rejected, whatever its tag (C27_empty_heredoc).
* `use T { f as public g; }` panics, though the tree has a place for the visibility and the printer writes it (C20_adaptation).
* The first line of a heredoc is not compared with the end tag: an empty heredoc needs an empty line, else the tag
  is text.
* The newline behind `?>` stays in the HTML.
* Rejected although PHP has them: `const X = 1;` outside of classes, `print`, `eval`, `declare`, `goto`,
  `yield from`, `__NAMESPACE__`, `__halt_compiler`, backquotes, `if:` ... `endif`.
* `$a = 1 and $b` is read as `$a = (1 and $b)`, `clone $a + 1` as `clone ($a + 1)`.
* `xor` becomes the operator of `^`, `&=` the one of `and`; `<=>` has the precedence of `<`.
* `($a->b)()` and `$a->b()` have the same tree; `($a instanceof B) instanceof C` panics.
* Member names lose their case when they are words: `A::and` becomes `AND`, `A::__class__` becomes
  `__CLASS__`; `A::endfor` is rejected.
* Spans: `clone $a` has the span of the word `clone`; `&$v` in a foreach that of the byte in front of `$v`; a
  namespace ends before its `;`; the text behind `${...}` in a string begins where the text in front of it began;
  `1.5` ends at the number of its digits in front of the point, `0xff` at the number of its digits, both counted
  from the start of the source; the last text of a string has the span of the whole string (C45).
* More spans (C46): a name ends at its start plus the number of its characters, not bytes; `yield` ends behind the
  white space that follows it; the quote of `b"` has the place of the `b`; `->` in a string has one byte; the opening
  of a heredoc has the first byte of `<<<`, its closing one byte.
* A program that ends too early, with a newline directly behind its last token (`<?php f(` and a newline): the error
  begins on one line and ends on the next, and rendering its message panics (C48_end_panics). So does an error at a
  string of several lines.
* The mark below a line counts bytes: it is too far right behind letters outside of ASCII.
