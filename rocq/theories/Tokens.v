(** * Tokens: src/tokens.rs *)
From Verif Require Import Base.
From Coq Require Import String.

(** src/tokens.rs:8-27 [Span].  [u32] positions are [nat]: the [as u32] casts
    are modelled as the identity (sources below 4 GiB). *)
Record span := mkSpan { sp_start : nat; sp_end : nat; sp_doc : option str }.
(** src/tokens.rs:20-26 [Span::new]. *)
Definition span_new : span := mkSpan 0 0 None.
(** src/tokenizer.rs:26-33 [mk_span]. *)
Definition mk_span (a b : nat) : span := mkSpan a b None.
Definition set_start (a : nat) (s : span) : span := mkSpan a (sp_end s) (sp_doc s).
Definition set_end (b : nat) (s : span) : span := mkSpan (sp_start s) b (sp_doc s).
Definition set_doc (d : option str) (s : span) : span := mkSpan (sp_start s) (sp_end s) d.

(** src/tokens.rs:29-34 [SyntaxError]. *)
Inductive syntax_error :=
| SENone
| SEUnterminated (what : str) (s : span)
| SEUnknownCharacter (s : span).

(** src/tokens.rs:48-216 [Token]: the variants without payload, in source order. *)
Inductive kind :=
| KEnd | KSemiColon | KColon | KComma | KDot | KSquareBracketOpen | KSquareBracketClose
| KParenthesesOpen | KParenthesesClose | KBwOr | KBwXor | KAmpersand | KPlus | KMinus | KDiv
| KMul | KEqual | KMod | KBoolNot | KBwNot | KDollar | KLt | KGt | KQuestionMark | KSilence
| KDollarCurlyBracesOpen | KCurlyBracesOpen | KCurlyBracesClose | KBackquote | KDoubleQuote
| KHereDocStart | KHereDocEnd
| KOpenTagWithEcho | KOpenTag | KCloseTag | KExit | KFunction | KConst | KReturn | KYield
| KYieldFrom | KTry | KCatch | KFinally | KThrow | KIf | KElseIf | KEndIf | KElse | KWhile
| KEndWhile | KDo | KFor | KEndfor | KForeach | KEndForeach | KDeclare | KEndDeclare
| KInstanceOf | KAs | KSwitch | KEndSwitch | KCase | KDefault | KBreak | KContinue | KGoto
| KEcho | KPrint | KClass | KInterface | KTrait | KExtends | KImplements | KObjectOp | KScopeOp
| KNsSeparator | KEllipsis | KCoalesce | KNew | KClone | KVar | KCastInt | KCastDouble
| KCastString | KCastArray | KCastObject | KCastBool | KCastUnset | KEval | KInclude
| KIncludeOnce | KRequire | KRequireOnce | KNamespace | KUse | KInsteadof | KGlobal | KIsset
| KEmpty | KHaltCompiler | KStatic | KAbstract | KFinal | KPrivate | KProtected | KPublic
| KUnset | KDoubleArrow | KList | KArray | KCallable | KIncrement | KDecrement | KIsIdentical
| KIsNotIdentical | KIsEqual | KIsNotEqual | KSpaceShip | KIsSmallerOrEqual | KIsGreaterOrEqual
| KPlusEqual | KMinusEqual | KMulEqual | KPow | KPowEqual | KDivEqual | KConcatEqual | KModEqual
| KSlEqual | KSrEqual | KAndEqual | KOrEqual | KXorEqual | KBoolOr | KBoolAnd | KLogicalOr
| KLogicalAnd | KLogicalXor | KSl | KSr
| KMagicClass | KMagicTrait | KMagicFunction | KMagicMethod | KMagicLine | KMagicFile | KMagicDir
| KMagicNamespace.

(** src/tokens.rs:48-216 [Token].  [RcStr] is its contents (see Interner.v),
    [Double(f64)] keeps the literal text. *)
Inductive token :=
| Kw (k : kind)
| TVariable (s : str)
| TInt (z : Z)
| TDouble (lit : str)
| TComment (s : str)
| TString (s : str)
| TCes (s : str)          (* ConstantEncapsedString *)
| TBin (b : bytes)        (* BinaryCharSequence *)
| TInlineHtml (s : str).

(** src/tokens.rs:4-5 [TokenSpan]. *)
Definition tokspan : Type := token * span.

(** Discriminant of a payload-free variant (used for [==]). *)
Definition kind_num (k : kind) : N :=
  match k with
  | KEnd => 0 | KSemiColon => 1 | KColon => 2 | KComma => 3 | KDot => 4 | KSquareBracketOpen => 5
  | KSquareBracketClose => 6 | KParenthesesOpen => 7 | KParenthesesClose => 8 | KBwOr => 9
  | KBwXor => 10 | KAmpersand => 11 | KPlus => 12 | KMinus => 13 | KDiv => 14 | KMul => 15
  | KEqual => 16 | KMod => 17 | KBoolNot => 18 | KBwNot => 19 | KDollar => 20 | KLt => 21
  | KGt => 22 | KQuestionMark => 23 | KSilence => 24 | KDollarCurlyBracesOpen => 25
  | KCurlyBracesOpen => 26 | KCurlyBracesClose => 27 | KBackquote => 28 | KDoubleQuote => 29
  | KHereDocStart => 30 | KHereDocEnd => 31 | KOpenTagWithEcho => 32 | KOpenTag => 33
  | KCloseTag => 34 | KExit => 35 | KFunction => 36 | KConst => 37 | KReturn => 38 | KYield => 39
  | KYieldFrom => 40 | KTry => 41 | KCatch => 42 | KFinally => 43 | KThrow => 44 | KIf => 45
  | KElseIf => 46 | KEndIf => 47 | KElse => 48 | KWhile => 49 | KEndWhile => 50 | KDo => 51
  | KFor => 52 | KEndfor => 53 | KForeach => 54 | KEndForeach => 55 | KDeclare => 56
  | KEndDeclare => 57 | KInstanceOf => 58 | KAs => 59 | KSwitch => 60 | KEndSwitch => 61
  | KCase => 62 | KDefault => 63 | KBreak => 64 | KContinue => 65 | KGoto => 66 | KEcho => 67
  | KPrint => 68 | KClass => 69 | KInterface => 70 | KTrait => 71 | KExtends => 72
  | KImplements => 73 | KObjectOp => 74 | KScopeOp => 75 | KNsSeparator => 76 | KEllipsis => 77
  | KCoalesce => 78 | KNew => 79 | KClone => 80 | KVar => 81 | KCastInt => 82 | KCastDouble => 83
  | KCastString => 84 | KCastArray => 85 | KCastObject => 86 | KCastBool => 87 | KCastUnset => 88
  | KEval => 89 | KInclude => 90 | KIncludeOnce => 91 | KRequire => 92 | KRequireOnce => 93
  | KNamespace => 94 | KUse => 95 | KInsteadof => 96 | KGlobal => 97 | KIsset => 98 | KEmpty => 99
  | KHaltCompiler => 100 | KStatic => 101 | KAbstract => 102 | KFinal => 103 | KPrivate => 104
  | KProtected => 105 | KPublic => 106 | KUnset => 107 | KDoubleArrow => 108 | KList => 109
  | KArray => 110 | KCallable => 111 | KIncrement => 112 | KDecrement => 113 | KIsIdentical => 114
  | KIsNotIdentical => 115 | KIsEqual => 116 | KIsNotEqual => 117 | KSpaceShip => 118
  | KIsSmallerOrEqual => 119 | KIsGreaterOrEqual => 120 | KPlusEqual => 121 | KMinusEqual => 122
  | KMulEqual => 123 | KPow => 124 | KPowEqual => 125 | KDivEqual => 126 | KConcatEqual => 127
  | KModEqual => 128 | KSlEqual => 129 | KSrEqual => 130 | KAndEqual => 131 | KOrEqual => 132
  | KXorEqual => 133 | KBoolOr => 134 | KBoolAnd => 135 | KLogicalOr => 136 | KLogicalAnd => 137
  | KLogicalXor => 138 | KSl => 139 | KSr => 140 | KMagicClass => 141 | KMagicTrait => 142
  | KMagicFunction => 143 | KMagicMethod => 144 | KMagicLine => 145 | KMagicFile => 146
  | KMagicDir => 147 | KMagicNamespace => 148
  end%N.

Definition kind_eqb (a b : kind) : bool := (kind_num a =? kind_num b)%N.

(** src/tokens.rs:220-233 [Token::is_reserved_non_modifier]. *)
Definition is_reserved_non_modifier (k : kind) : bool :=
  match k with
  | KInclude | KIncludeOnce | KEval | KRequire | KRequireOnce | KLogicalOr | KLogicalXor | KLogicalAnd
  | KInstanceOf | KNew | KClone | KExit | KIf | KElseIf | KElse | KEndIf | KEcho
  | KDo | KWhile | KEndWhile
  | KFor | KForeach | KEndForeach | KDeclare | KEndDeclare | KAs | KTry | KCatch | KFinally
  | KThrow | KUse | KInsteadof | KGlobal | KVar | KUnset | KIsset | KEmpty | KContinue | KGoto
  | KFunction | KConst | KReturn | KPrint | KYield | KList | KSwitch | KEndSwitch | KCase | KDefault
  | KBreak | KArray | KCallable | KExtends | KImplements | KNamespace | KTrait | KInterface | KClass
  | KMagicClass | KMagicTrait | KMagicFunction | KMagicMethod | KMagicLine | KMagicFile | KMagicDir
  | KMagicNamespace => true
  | _ => false
  end.

(** src/tokens.rs:237-358 [Token::repr]; [None] is the [unimplemented!()] arm. *)
Definition repr (k : kind) : option string :=
  match k with
  | KOpenTagWithEcho => Some "<?=" | KOpenTag => Some "<?php" | KCloseTag => Some "?>"
  | KExit => Some "exit" | KFunction => Some "function" | KConst => Some "const"
  | KReturn => Some "return" | KTry => Some "try" | KCatch => Some "catch"
  | KFinally => Some "finally" | KThrow => Some "throw" | KIf => Some "if"
  | KElseIf => Some "elseif" | KEndIf => Some "endif" | KElse => Some "else"
  | KWhile => Some "while" | KEndWhile => Some "endwhile" | KDo => Some "do"
  | KForeach => Some "foreach" | KEndForeach => Some "endforeach" | KFor => Some "for"
  | KEndfor => Some "endfor" | KDeclare => Some "declare" | KEndDeclare => Some "enddeclare"
  | KInstanceOf => Some "instanceof" | KAs => Some "as" | KSwitch => Some "switch"
  | KEndSwitch => Some "endswitch" | KCase => Some "case" | KDefault => Some "default"
  | KBreak => Some "break" | KContinue => Some "continue" | KGoto => Some "goto"
  | KEcho => Some "echo" | KPrint => Some "print" | KClass => Some "class"
  | KInterface => Some "interface" | KTrait => Some "trait" | KExtends => Some "extends"
  | KImplements => Some "implements" | KObjectOp => Some "->" | KScopeOp => Some "::"
  | KNsSeparator => Some "\" | KEllipsis => Some "..." | KCoalesce => Some "??"
  | KNew => Some "new" | KClone => Some "clone" | KVar => Some "var" | KCastInt => Some "int"
  | KCastDouble => Some "double" | KCastString => Some "string" | KCastArray => Some "array"
  | KCastObject => Some "object" | KCastBool => Some "bool" | KCastUnset => Some "unset"
  | KEval => Some "eval" | KIncludeOnce => Some "include_once" | KInclude => Some "include"
  | KRequireOnce => Some "require_once" | KRequire => Some "require"
  | KNamespace => Some "namespace" | KUse => Some "use" | KInsteadof => Some "insteadof"
  | KGlobal => Some "global" | KIsset => Some "isset" | KEmpty => Some "empty"
  | KHaltCompiler => Some "__halt_compiler" | KStatic => Some "static"
  | KAbstract => Some "abstract" | KFinal => Some "final" | KPrivate => Some "private"
  | KProtected => Some "protected" | KPublic => Some "public" | KUnset => Some "unset"
  | KDoubleArrow => Some "=>" | KList => Some "list" | KArray => Some "array"
  | KCallable => Some "callable" | KIncrement => Some "++" | KDecrement => Some "--"
  | KIsIdentical => Some "===" | KIsNotIdentical => Some "!==" | KIsEqual => Some "=="
  | KIsNotEqual => Some "!=" | KSpaceShip => Some "<=>" | KIsSmallerOrEqual => Some "<="
  | KIsGreaterOrEqual => Some ">=" | KPlusEqual => Some "+=" | KMinusEqual => Some "-="
  | KMulEqual => Some "*=" | KPow => Some "**" | KPowEqual => Some "**=" | KDivEqual => Some "/="
  | KConcatEqual => Some ".=" | KModEqual => Some "%=" | KSlEqual => Some "<<="
  | KSrEqual => Some ">>=" | KAndEqual => Some "&=" | KOrEqual => Some "|="
  | KXorEqual => Some "^=" | KBoolOr => Some "||" | KBoolAnd => Some "&&"
  | KLogicalOr => Some "OR" | KLogicalAnd => Some "AND" | KLogicalXor => Some "XOR"
  | KSl => Some "<<" | KSr => Some ">>" | KCurlyBracesOpen => Some "{"
  | KCurlyBracesClose => Some "}" | KMagicClass => Some "__CLASS__"
  | KMagicTrait => Some "__TRAIT__" | KMagicFunction => Some "__FUNCTION__"
  | KMagicMethod => Some "__METHOD__" | KMagicLine => Some "__LINE__"
  | KMagicFile => Some "__FILE__" | KMagicDir => Some "__DIR__"
  | KMagicNamespace => Some "__NAMESPACE__"
  | _ => None
  end%string.
