(** * SpecErr: where programs break (C39, C40)

    The relation [Broken next c ts]: the tokens [ts] are the beginning of a statement of
    the grammar (SpecGrammar), but the token [next] behind them ([None]: the end of the
    source) cannot continue it.  The relations mention no function of the parser.

    The flag [c] is [false] when the broken statement is inside the body of a function
    that is itself a statement.  Functions whose error the parser reports elsewhere are left out:
    static variables, closures, and functions inside of methods and of [switch]. *)
From Verif Require Import Base Tokens Ast Lexer Parser Driver Spec SpecProg SpecGrammar.
From Coq Require Import String.
Local Open Scope list_scope.

(** kinds that begin neither a statement nor an expression *)
Definition strays : list kind :=
  [KColon; KComma; KDot; KSquareBracketClose; KParenthesesClose; KBwOr; KBwXor; KAmpersand; KDiv; KMul; KEqual; KMod; KLt; KGt; KQuestionMark;
   KDollarCurlyBracesOpen; KBackquote; KHereDocEnd; KConst; KYieldFrom; KEndIf; KEndWhile; KEndfor; KEndForeach; KDeclare; KEndDeclare; KInstanceOf; KAs;
   KEndSwitch; KGoto; KPrint; KExtends; KImplements; KObjectOp; KScopeOp; KEllipsis; KCoalesce; KVar; KEval; KInsteadof; KHaltCompiler; KPrivate; KProtected;
   KPublic; KDoubleArrow; KCallable; KIsIdentical; KIsNotIdentical; KIsEqual; KIsNotEqual; KIsSmallerOrEqual; KIsGreaterOrEqual; KSpaceShip; KPlusEqual;
   KMinusEqual; KMulEqual; KDivEqual; KConcatEqual; KModEqual; KXorEqual; KOrEqual; KAndEqual; KSlEqual; KSrEqual; KPow; KPowEqual; KBoolOr; KBoolAnd;
   KLogicalOr; KLogicalAnd; KLogicalXor; KSl; KSr; KMagicNamespace].
(** statements that consist of a word and expressions *)
Definition simple_words : list kind := [KEcho; KReturn; KContinue; KBreak; KThrow].
Definition statement_words : list kind :=
  [KIf; KElse; KElseIf; KWhile; KDo; KFor; KForeach; KSwitch; KCase; KDefault; KTry; KCatch; KFinally; KUnset; KGlobal;
   KClass; KAbstract; KFinal; KInterface; KTrait; KUse; KNamespace].
(** kinds that begin no expression *)
Definition no_expression : list kind := strays ++ [KSemiColon; KCurlyBracesOpen; KCurlyBracesClose] ++ simple_words ++ statement_words.
(** kinds that end every expression *)
Definition enders : list kind :=
  [KSemiColon; KComma; KParenthesesClose; KSquareBracketClose; KCurlyBracesClose; KColon; KDoubleArrow; KAs; KCurlyBracesOpen] ++ simple_words ++ statement_words ++
  [KConst; KPublic; KPrivate; KProtected; KVar; KExtends; KImplements; KInsteadof; KGoto; KPrint; KEval; KDeclare; KCallable; KEndIf; KEndWhile; KEndForeach; KEndSwitch; KEndDeclare].

(** the next token is one of [ks], or there is none *)
Definition among (ks : list kind) (next : option token) : Prop :=
  match next with None => True | Some (Kw k) => In k ks | Some _ => False end.
(** the next token is none of [ks] *)
Definition except (ks : list kind) (next : option token) : Prop :=
  match next with Some (Kw k) => ~ In k ks | _ => True end.
Definition no_name_next (next : option token) : Prop := match next with Some (TString _) => False | _ => True end.
Definition no_var_next (next : option token) : Prop := match next with Some (TVariable _) => False | _ => True end.
(** neither a name nor a word of the language *)
Definition no_word_next (next : option token) : Prop :=
  match next with Some (TString _) => False | Some (Kw k) => ~ In k (KYield :: map snd keywords) | _ => True end.

Inductive oo := OClass | OInterface | OTrait.

Section Broken.
Context {Lost : part -> list token -> Prop}.
Local Notation Whole := (SpecGrammar.Whole (Lost := Lost)).
Local Notation OptWhole := (SpecGrammar.OptWhole (Lost := Lost)).
Local Notation Wholes := (SpecGrammar.Wholes (Lost := Lost)).
Local Notation AccessList := (SpecGrammar.AccessList (Lost := Lost)).
Local Notation LoopVar := (SpecGrammar.LoopVar (Lost := Lost)).
Local Notation Body := (SpecGrammar.Body (Lost := Lost)).
Local Notation Stmts := (SpecGrammar.Stmts (Lost := Lost)).
Local Notation Inner := (SpecGrammar.Inner (Lost := Lost)).
Local Notation Catches := (SpecGrammar.Catches (Lost := Lost)).
Local Notation Labels := (SpecGrammar.Labels (Lost := Lost)).
Local Notation Params := (SpecGrammar.Params (Lost := Lost)).
Local Notation Members := (SpecGrammar.Members (Lost := Lost)).
Local Notation Vars := (SpecGrammar.Vars (Lost := Lost)).
Local Notation Consts := (SpecGrammar.Consts (Lost := Lost)).
Local Notation Default := (SpecGrammar.Default (Lost := Lost)).
Local Notation Expr := (SpecGrammar.Expr (Lost := Lost)).
Local Notation Access := (SpecGrammar.Access (Lost := Lost)).
Local Notation NewRef := (SpecGrammar.NewRef (Lost := Lost)).
Local Notation Arg := (SpecGrammar.Arg (Lost := Lost)).
Local Notation Pairs := (SpecGrammar.Pairs (Lost := Lost)).
Local Notation Pair := (SpecGrammar.Pair (Lost := Lost)).
Variable next : option token.
(** an expression ends here, but not with one of [ks] *)
Definition ends_without (ks : list kind) : Prop := among enders next /\ except ks next.
Definition lacks_expression : Prop := among no_expression next.
(** neither an expression nor a simple statement begins here *)
Definition unstarted : Prop := lacks_expression /\ except simple_words next.

(** ** Expressions *)
Inductive
  (** the beginning of an expression in which something is missing *)
  BrokenExpr : list token -> Prop :=
| be_paren ts : Unclosed [KParenthesesClose] ts -> BrokenExpr (Kw KParenthesesOpen :: ts)
| be_prefix k u ts : In (k, u) ((KBoolNot, UNot) :: steps_before ++ prefix_operators) -> Unfinished ts -> BrokenExpr (Kw k :: ts)
| be_cast k c ts : In (k, c) casts -> Unfinished ts -> BrokenExpr (Kw k :: ts)
| be_include k i ts : In (k, i) includes -> Unfinished ts -> BrokenExpr (Kw k :: ts)
| be_clone ts : Unfinished ts -> BrokenExpr (Kw KClone :: ts)
| be_assign tv v ts : Access tv v -> Unfinished ts -> except [KAmpersand] next -> BrokenExpr (tv ++ Kw KEqual :: ts)
| be_reference tv v ts : Access tv v -> Unfinished ts -> BrokenExpr (tv ++ Kw KEqual :: Kw KAmpersand :: ts)
| be_compound k o tv v ts : In (k, o) assignments -> Access tv v -> Unfinished ts -> BrokenExpr (tv ++ Kw k :: ts)
| be_list ts : BrokenPairs [KParenthesesClose] ts -> BrokenExpr (Kw KList :: Kw KParenthesesOpen :: ts)
| be_list_equal tp ps : Pairs tp ps -> lacks_expression -> except [KEqual] next -> BrokenExpr (Kw KList :: paren tp)
| be_list_assign tp ps ts : Pairs tp ps -> Unfinished ts -> except [KAmpersand] next -> BrokenExpr (Kw KList :: paren tp ++ Kw KEqual :: ts)
| be_isset ts : BrokenWholes [KParenthesesClose; KComma] ts -> BrokenExpr (Kw KIsset :: Kw KParenthesesOpen :: ts)
| be_empty ts : Unclosed [KParenthesesClose] ts -> BrokenExpr (Kw KEmpty :: Kw KParenthesesOpen :: ts)
| be_exit ts : Unclosed [KParenthesesClose] ts -> BrokenExpr (Kw KExit :: Kw KParenthesesOpen :: ts)
| be_call tv v ts : Access tv v -> BrokenArgs true ts -> next <> None -> BrokenExpr (tv ++ Kw KParenthesesOpen :: ts)
| be_function tn p ts : Name tn p -> BrokenArgs true ts -> next <> None -> BrokenExpr (tn ++ Kw KParenthesesOpen :: ts)
| be_method tc p t s ts : ClassName tc p -> Word t s -> BrokenArgs true ts -> next <> None ->
    BrokenExpr (tc ++ Kw KScopeOp :: t :: Kw KParenthesesOpen :: ts)
| be_new tc c ts : NewRef tc c -> BrokenArgs true ts -> BrokenExpr (Kw KNew :: tc ++ Kw KParenthesesOpen :: ts)
| be_new_none : lacks_expression -> BrokenExpr [Kw KNew]
| be_text k ts : In k [KDoubleQuote; KHereDocStart] -> BrokenParts ts -> BrokenExpr (Kw k :: ts)
  (** a heredoc without a body *)
| be_heredoc : next = Some (Kw KHereDocEnd) -> BrokenExpr [Kw KHereDocStart]
| be_array ts : BrokenPairs [KSquareBracketClose] ts -> BrokenExpr (Kw KSquareBracketOpen :: ts)
| be_array_word ts : BrokenPairs [KParenthesesClose] ts -> BrokenExpr (Kw KArray :: Kw KParenthesesOpen :: ts)
with
  (** the same, or no expression at all *)
  Unfinished : list token -> Prop :=
| uf_none : lacks_expression -> Unfinished []
| uf_some ts : BrokenExpr ts -> Unfinished ts
with
  (** an expression that one of [ks] must follow *)
  Unclosed : list kind -> list token -> Prop :=
| uc_unfinished ks ts : Unfinished ts -> Unclosed ks ts
| uc_whole ks ts e : Whole 1 ts e -> ends_without ks -> Unclosed ks ts
| uc_dangling ks ts e : Dangling 1 ts e -> ends_without ks -> Unclosed ks ts
  (** the outermost operator lacks its operand, and what follows begins no expression *)
| uc_operator ks k o n la lb ta a ts : In (k, o, n, la, lb) binary_operators -> Expr la ta a -> Unfinished ts -> except ks next -> Unclosed ks (ta ++ Kw k :: ts)
| uc_pow ks ta a ts : Expr 18 ta a -> Unfinished ts -> except ks next -> Unclosed ks (ta ++ Kw KPow :: ts)
| uc_instanceof ks ta a : Expr 17 ta a -> ~ is_instanceof a -> lacks_expression -> except ks next -> Unclosed ks (ta ++ [Kw KInstanceOf])
| uc_else ks tc c tt t ts : Expr 4 tc c -> OptWhole 5 tt t -> Unfinished ts -> except ks next -> Unclosed ks (tc ++ Kw KQuestionMark :: tt ++ Kw KColon :: ts)
with
  (** expressions with commas between them *)
  BrokenWholes : list kind -> list token -> Prop :=
| bw_last ks ts : Unclosed ks ts -> BrokenWholes ks ts
| bw_more ks ts e tl : Whole 1 ts e -> BrokenWholes ks tl -> BrokenWholes ks (ts ++ Kw KComma :: tl)
with
  (** the arguments of a call; [first]: none before them *)
  BrokenArgs : bool -> list token -> Prop :=
| ba_last first ts : Unclosed [KComma; KParenthesesClose] ts -> except [KEllipsis] next -> (first = true -> ts = [] -> except [KParenthesesClose] next) ->
    BrokenArgs first ts
| ba_unpack first ts : Unclosed [KComma; KParenthesesClose] ts -> BrokenArgs first (Kw KEllipsis :: ts)
| ba_more first ts e tl : Arg ts e -> BrokenArgs false tl -> BrokenArgs first (ts ++ Kw KComma :: tl)
with
  (** the elements of an array that ends with one of [ks] *)
  BrokenPairs : list kind -> list token -> Prop :=
| bq_last ks ts : Unclosed (KComma :: KDoubleArrow :: ks) ts -> except ks next -> BrokenPairs ks ts
| bq_value ks tk k ts : Whole 1 tk k -> Unclosed (KComma :: ks) ts -> BrokenPairs ks (tk ++ Kw KDoubleArrow :: ts)
| bq_more ks ts p tl : Pair ts p -> BrokenPairs ks tl -> BrokenPairs ks (ts ++ Kw KComma :: tl)
with
  (** text, variables and code inside of a string, with code in braces that lacks something *)
  BrokenParts : list token -> Prop :=
| br_code ts : Unclosed [KCurlyBracesClose] ts -> BrokenParts (Kw KCurlyBracesOpen :: ts)
| br_text s ts : BrokenParts ts -> BrokenParts (TCes s :: ts)
| br_var v ts : BrokenParts ts -> BrokenParts (TVariable v :: ts)
| br_property v p ts : BrokenParts ts -> BrokenParts (TVariable v :: Kw KObjectOp :: TString p :: ts)
| br_more tc c ts : Whole 1 tc c -> BrokenParts ts -> BrokenParts (braces tc ++ ts)
| br_dollar_code ts : Unclosed [KCurlyBracesClose] ts -> no_word ts = true -> BrokenParts (Kw KDollarCurlyBracesOpen :: ts)
| br_dollar x ts : BrokenParts ts -> BrokenParts (Kw KDollarCurlyBracesOpen :: TString x :: Kw KCurlyBracesClose :: ts)
| br_dollar_index x ti i ts : Whole 1 ti i -> BrokenParts ts ->
    BrokenParts (Kw KDollarCurlyBracesOpen :: TString x :: Kw KSquareBracketOpen :: ti ++ Kw KSquareBracketClose :: Kw KCurlyBracesClose :: ts)
| br_dollar_more tc c ts : Whole 1 tc c -> no_word tc = true -> BrokenParts ts -> BrokenParts (Kw KDollarCurlyBracesOpen :: tc ++ Kw KCurlyBracesClose :: ts)
with
  (** an expression whose last operator lacks its operand; the number is that of [Expr],
      the tree is the one of what stands in front of the operator *)
  Dangling : nat -> list token -> expr -> Prop :=
| dg_up n ts e : Dangling (S n) ts e -> Dangling n ts e
| dg_binary k o n la lb ta a ts : In (k, o, n, la, lb) binary_operators -> Expr la ta a -> Unfinished ts -> among enders next -> Dangling n (ta ++ Kw k :: ts) a
| dg_right k o n la lb ta a ts e : In (k, o, n, la, lb) binary_operators -> Expr la ta a -> Dangling lb ts e -> Dangling n (ta ++ Kw k :: ts) (ex (EBinary o a e))
| dg_pow ta a ts : Expr 18 ta a -> Unfinished ts -> among enders next -> Dangling 16 (ta ++ Kw KPow :: ts) a
| dg_pow_right ta a ts e : Expr 18 ta a -> Dangling 16 ts e -> Dangling 16 (ta ++ Kw KPow :: ts) (ex (EBinary OPow a e))
| dg_instanceof ta a : Expr 17 ta a -> ~ is_instanceof a -> among enders next -> Dangling 16 (ta ++ [Kw KInstanceOf]) a
| dg_then tc c tt t : Expr 4 tc c -> OptWhole 5 tt t -> ends_without [KColon] -> Dangling 4 (tc ++ Kw KQuestionMark :: tt) c
| dg_else tc c tt t ts : Expr 4 tc c -> OptWhole 5 tt t -> Unfinished ts -> among enders next -> Dangling 4 (tc ++ Kw KQuestionMark :: tt ++ Kw KColon :: ts) c
| dg_else_right tc c tt t ts e : Expr 4 tc c -> OptWhole 5 tt t -> Dangling 5 ts e ->
    Dangling 4 (tc ++ Kw KQuestionMark :: tt ++ Kw KColon :: ts) (ex (ETernary c t e))
| dg_assign tv v ts e : Access tv v -> Dangling 4 ts e -> Dangling 18 (tv ++ Kw KEqual :: ts) (ex (EAssign v e))
| dg_compound k o tv v ts e : In (k, o) assignments -> Access tv v -> Dangling 4 ts e -> Dangling 18 (tv ++ Kw k :: ts) (ex (ECompound v o e))
| dg_include k i ts e : In (k, i) includes -> Dangling 1 ts e -> Dangling 18 (Kw k :: ts) (ex (EInclude i e))
| dg_clone ts e : Dangling 1 ts e -> Dangling 18 (Kw KClone :: ts) (ex (EClone e))
| dg_prefix k u ts e : In (k, u) ((KBoolNot, UNot) :: prefix_operators) -> Dangling 17 ts e -> Dangling 17 (Kw k :: ts) (ex (EUnary u e))
| dg_cast k c ts e : In (k, c) casts -> Dangling 17 ts e -> Dangling 17 (Kw k :: ts) (ex (ECast c e))
  (** the index or the name of a property lacks something *)
| dg_index tv v ts : Access tv v -> Unclosed [KSquareBracketClose] ts -> ends_without [KSquareBracketClose] -> Dangling 18 (tv ++ Kw KSquareBracketOpen :: ts) v
| dg_property tv v : Access tv v -> ends_without [KCurlyBracesOpen] -> Dangling 18 (tv ++ [Kw KObjectOp]) v
| dg_property_in tv v ts : Access tv v -> Unclosed [KCurlyBracesClose] ts -> ends_without [KCurlyBracesClose] ->
    Dangling 18 (tv ++ Kw KObjectOp :: Kw KCurlyBracesOpen :: ts) v
| dg_static tv v : Access tv v -> among enders next -> Dangling 18 (tv ++ [Kw KScopeOp]) v.
(** an optional expression that one of [ks] must follow *)
Definition OptUnclosed (ks : list kind) (ts : list token) : Prop := Unclosed ks ts /\ except ks next.

(** ** Statements *)
(** an expression in parentheses *)
Inductive BrokenParen : list token -> Prop :=
| bp_open : except [KParenthesesOpen] next -> BrokenParen []
| bp_in ts : Unclosed [KParenthesesClose] ts -> BrokenParen (Kw KParenthesesOpen :: ts).
(** behind [for] *)
Inductive BrokenFor : list token -> Prop :=
| bf_open : except [KParenthesesOpen] next -> BrokenFor []
| bf_start ti : OptUnclosed [KSemiColon] ti -> BrokenFor (Kw KParenthesesOpen :: ti)
| bf_test ti i tt : OptWhole 1 ti i -> OptUnclosed [KSemiColon] tt -> BrokenFor (Kw KParenthesesOpen :: ti ++ Kw KSemiColon :: tt)
| bf_step ti i tt t tn : OptWhole 1 ti i -> OptWhole 1 tt t -> OptUnclosed [KParenthesesClose] tn ->
    BrokenFor (Kw KParenthesesOpen :: ti ++ Kw KSemiColon :: tt ++ Kw KSemiColon :: tn).
(** behind [foreach] *)
Inductive BrokenForeach : list token -> Prop :=
| bfe_open : except [KParenthesesOpen] next -> BrokenForeach []
| bfe_as te : Unclosed [KAs] te -> BrokenForeach (Kw KParenthesesOpen :: te)
| bfe_var te e : Whole 1 te e -> lacks_expression -> except [KAmpersand] next -> BrokenForeach (Kw KParenthesesOpen :: te ++ [Kw KAs])
| bfe_close te e tv v : Whole 1 te e -> LoopVar tv v -> ends_without [KParenthesesClose; KDoubleArrow] ->
    BrokenForeach (Kw KParenthesesOpen :: te ++ Kw KAs :: tv)
| bfe_close_key te e tk k tv v : Whole 1 te e -> LoopVar tk k -> LoopVar tv v -> ends_without [KParenthesesClose] ->
    BrokenForeach (Kw KParenthesesOpen :: te ++ Kw KAs :: tk ++ Kw KDoubleArrow :: tv).

(** properties and constants of a class: [$a = 1, $b = ], [A = 1, B] *)
Inductive BrokenVars : list token -> Prop :=
| bv_name x : except [KEqual; KSemiColon; KComma] next -> BrokenVars [TVariable x]
| bv_value x ts : Unclosed [KSemiColon; KComma] ts -> BrokenVars (TVariable x :: Kw KEqual :: ts)
| bv_next x td d : Default td d -> no_var_next next -> BrokenVars (TVariable x :: td ++ [Kw KComma])
| bv_more x td d ts : Default td d -> BrokenVars ts -> BrokenVars (TVariable x :: td ++ Kw KComma :: ts).
Inductive BrokenConsts : list token -> Prop :=
| bk_name t x : Word t x -> except [KEqual] next -> BrokenConsts [t]
| bk_value t x ts : Word t x -> Unclosed [KSemiColon; KComma] ts -> BrokenConsts (t :: Kw KEqual :: ts)
| bk_next t x te e : Word t x -> Whole 1 te e -> no_word_next next -> BrokenConsts (t :: Kw KEqual :: te ++ [Kw KComma])
| bk_more t x te e ts : Word t x -> Whole 1 te e -> BrokenConsts ts -> BrokenConsts (t :: Kw KEqual :: te ++ Kw KComma :: ts).
(** variables and what they lead to, with commas between them: [$a, $b->c, ] *)
Inductive BrokenAccesses : list token -> Prop :=
| bx_none : lacks_expression -> BrokenAccesses []
| bx_end tv v : Access tv v -> ends_without [KComma; KParenthesesClose] -> BrokenAccesses tv
| bx_more tv v ts : Access tv v -> BrokenAccesses ts -> BrokenAccesses (tv ++ Kw KComma :: ts).
(** the variables of a [global] statement *)
Inductive BrokenGlobals : list token -> Prop :=
| bg_none : no_var_next next -> except [KDollar] next -> BrokenGlobals []
| bg_end x : except [KComma; KSemiColon] next -> BrokenGlobals [TVariable x]
| bg_more x ts : BrokenGlobals ts -> BrokenGlobals (TVariable x :: Kw KComma :: ts).
(** a list of names in which one is missing: [A, B, ] *)
Inductive BrokenNames : list token -> Prop :=
| bn_none : no_name_next next -> except [KNsSeparator] next -> BrokenNames []
| bn_more tn p ts : Name tn p -> BrokenNames ts -> BrokenNames (tn ++ Kw KComma :: ts).
Inductive
  Broken : bool -> list token -> Prop :=
  (** nothing begins here *)
| b_here : among strays next -> Broken true []
  (** the statement is not ended *)
| b_expr ts : Unclosed [KSemiColon] ts -> ts <> [] -> Broken true ts
| b_echo ts : BrokenWholes [KSemiColon; KComma] ts -> Broken true (Kw KEcho :: ts)
| b_jump k f ts : In (k, f) jumps -> OptUnclosed [KSemiColon] ts -> Broken true (Kw k :: ts)
| b_throw ts : Unclosed [KSemiColon] ts -> Broken true (Kw KThrow :: ts)
| b_global ts : BrokenGlobals ts -> Broken false (Kw KGlobal :: ts)
| b_unset_open : except [KParenthesesOpen] next -> Broken true [Kw KUnset]
| b_unset_list ts : BrokenAccesses ts -> Broken true (Kw KUnset :: Kw KParenthesesOpen :: ts)
| b_unset ts vs : AccessList ts vs -> except [KSemiColon] next -> Broken true (Kw KUnset :: paren ts)
| b_do_end tb b tc e : Body false tb b -> Whole 1 tc e -> except [KSemiColon] next -> Broken true (Kw KDo :: tb ++ Kw KWhile :: paren tc)
  (** heads of loops and conditions *)
| b_while_head ts : BrokenParen ts -> Broken true (Kw KWhile :: ts)
| b_switch_head ts : BrokenParen ts -> Broken true (Kw KSwitch :: ts)
| b_for_head ts : BrokenFor ts -> Broken true (Kw KFor :: ts)
| b_foreach_head ts : BrokenForeach ts -> Broken true (Kw KForeach :: ts)
| b_do_while tb b : Body true tb b -> except [KWhile] next -> Broken true (Kw KDo :: tb)
| b_do_cond tb b ts : Body false tb b -> BrokenParen ts -> Broken true (Kw KDo :: tb ++ Kw KWhile :: ts)
  (** bodies *)
| b_while c tc e ts : Whole 1 tc e -> Broken c ts -> Broken c (Kw KWhile :: paren tc ++ ts)
| b_do c ts : Broken c ts -> Broken c (Kw KDo :: ts)
| b_for c ti i tt t tn n ts : OptWhole 1 ti i -> OptWhole 1 tt t -> OptWhole 1 tn n -> Broken c ts ->
    Broken c (Kw KFor :: paren (ti ++ Kw KSemiColon :: tt ++ Kw KSemiColon :: tn) ++ ts)
| b_foreach c te e tv v ts : Whole 1 te e -> LoopVar tv v -> Broken c ts ->
    Broken c (Kw KForeach :: paren (te ++ Kw KAs :: tv) ++ ts)
| b_foreach_key c te e tk k tv v ts : Whole 1 te e -> LoopVar tk k -> LoopVar tv v -> Broken c ts ->
    Broken c (Kw KForeach :: paren (te ++ Kw KAs :: tk ++ Kw KDoubleArrow :: tv) ++ ts)
| b_if c ts : BrokenIf c ts -> Broken c (Kw KIf :: ts)
| b_block c tb b ts : Stmts tb b -> Broken c ts -> except [KCurlyBracesClose] next -> Broken c (Kw KCurlyBracesOpen :: tb ++ ts)
| b_try c ts : BrokenBraces c ts -> Broken c (Kw KTry :: ts)
| b_catch c tb b tc cs ts : Inner tb b -> Catches tc cs -> BrokenCatch c ts -> Broken c (Kw KTry :: braces tb ++ tc ++ Kw KCatch :: ts)
| b_finally c tb b tc cs ts : Inner tb b -> Catches tc cs -> BrokenBraces c ts -> Broken c (Kw KTry :: braces tb ++ tc ++ Kw KFinally :: ts)
  (** switch *)
| b_switch_open te e : Whole 1 te e -> except [KCurlyBracesOpen] next -> Broken true (Kw KSwitch :: paren te)
| b_switch te e tl l ts : Whole 1 te e -> Labels tl l -> BrokenLabel ts -> Broken true (Kw KSwitch :: paren te ++ Kw KCurlyBracesOpen :: tl ++ ts)
  (** functions *)
| b_function_name (r : bool) : no_name_next next -> except [KAmpersand; KParenthesesOpen] next -> Broken true (Kw KFunction :: opt r KAmpersand)
| b_function (r : bool) x c ts : BrokenFunction false c ts -> Broken false (Kw KFunction :: opt r KAmpersand ++ TString x :: ts)
  (** classes: what comes next must not be the beginning of a statement *)
| b_class ms ts : BrokenClass OClass ts -> unstarted -> Broken true (map class_modifier_token ms ++ Kw KClass :: ts)
| b_interface ts : BrokenClass OInterface ts -> unstarted -> Broken true (Kw KInterface :: ts)
| b_trait ts : BrokenClass OTrait ts -> unstarted -> Broken true (Kw KTrait :: ts)
with
  (** behind [if] *)
  BrokenIf : bool -> list token -> Prop :=
| bi_head ts : BrokenParen ts -> BrokenIf true ts
| bi_body c tc e ts : Whole 1 tc e -> Broken c ts -> BrokenIf c (paren tc ++ ts)
| bi_else c tc e tb b ts : Whole 1 tc e -> Body true tb b -> Broken c ts -> BrokenIf c (paren tc ++ tb ++ Kw KElse :: ts)
| bi_elseif c tc e tb b ts : Whole 1 tc e -> Body true tb b -> BrokenIf c ts -> BrokenIf c (paren tc ++ tb ++ Kw KElseIf :: ts)
with
  (** statements in braces *)
  BrokenBraces : bool -> list token -> Prop :=
| bb_open : except [KCurlyBracesOpen] next -> BrokenBraces true []
| bb_inside c tb b ts : Stmts tb b -> Broken c ts -> except [KCurlyBracesClose] next -> BrokenBraces c (Kw KCurlyBracesOpen :: tb ++ ts)
with
  (** behind [catch] *)
  BrokenCatch : bool -> list token -> Prop :=
| bc_open : except [KParenthesesOpen] next -> BrokenCatch true []
| bc_name : no_name_next next -> except [KNsSeparator] next -> BrokenCatch true [Kw KParenthesesOpen]
| bc_var tn p : Name tn p -> no_var_next next -> except [KNsSeparator] next -> BrokenCatch true (Kw KParenthesesOpen :: tn)
| bc_close tn p v : Name tn p -> except [KParenthesesClose] next -> BrokenCatch true (Kw KParenthesesOpen :: tn ++ [TVariable v])
| bc_body c tn p v ts : Name tn p -> BrokenBraces c ts -> BrokenCatch c (paren (tn ++ [TVariable v]) ++ ts)
with
  (** behind complete labels of a [switch] *)
  BrokenLabel : list token -> Prop :=
| bl_none : except [KCase; KDefault; KCurlyBracesClose] next -> among strays next -> BrokenLabel []
| bl_case te : Unclosed [KColon; KSemiColon] te -> BrokenLabel (Kw KCase :: te)
| bl_default : except [KColon; KSemiColon] next -> BrokenLabel [Kw KDefault]
| bl_case_in (semi : bool) te e tb b ts : Whole 1 te e -> Stmts tb b -> Broken true ts -> except [KCase; KDefault; KCurlyBracesClose] next ->
    BrokenLabel (Kw KCase :: te ++ Kw (if semi then KSemiColon else KColon) :: tb ++ ts)
| bl_default_in (semi : bool) tb b ts : Stmts tb b -> Broken true ts -> except [KCase; KDefault; KCurlyBracesClose] next ->
    BrokenLabel (Kw KDefault :: Kw (if semi then KSemiColon else KColon) :: tb ++ ts)
with
  (** behind the name of a function; [abstract]: a semicolon may stand for the body *)
  BrokenFunction : bool -> bool -> list token -> Prop :=
| bfn_open abstract : except [KParenthesesOpen] next -> BrokenFunction abstract true []
| bfn_param abstract : lacks_expression -> except [KParenthesesClose; KQuestionMark; KCallable; KAmpersand; KEllipsis] next -> BrokenFunction abstract true [Kw KParenthesesOpen]
| bfn_body abstract c tp ps ts : Params tp ps -> BrokenBraces c ts -> (abstract = true -> ts = [] -> except [KSemiColon] next) -> BrokenFunction abstract c (paren tp ++ ts)
with
  (** behind the word [class], [interface] or [trait] *)
  BrokenClass : oo -> list token -> Prop :=
| bo_name k : no_name_next next -> BrokenClass k []
| bo_extends x : no_name_next next -> except [KNsSeparator] next -> BrokenClass OClass [TString x; Kw KExtends]
| bo_implements x te p ts : Extends te p -> BrokenNames ts -> BrokenClass OClass (TString x :: te ++ Kw KImplements :: ts)
| bo_extends_list x ts : BrokenNames ts -> BrokenClass OInterface (TString x :: Kw KExtends :: ts)
| bo_open_class x te p ti is : Extends te p -> Supers KImplements ti is -> except [KCurlyBracesOpen; KExtends; KImplements; KComma; KNsSeparator] next ->
    BrokenClass OClass (TString x :: te ++ ti)
| bo_open_interface x ti is : Supers KExtends ti is -> except [KCurlyBracesOpen; KExtends; KComma; KNsSeparator] next -> BrokenClass OInterface (TString x :: ti)
| bo_open_trait x : except [KCurlyBracesOpen] next -> BrokenClass OTrait [TString x]
| bo_class x te p ti is tm l ts : Extends te p -> Supers KImplements ti is -> Members tm l -> BrokenMember ts -> except [KCurlyBracesClose] next ->
    BrokenClass OClass (TString x :: te ++ ti ++ Kw KCurlyBracesOpen :: tm ++ ts)
| bo_interface x ti is tm l ts : Supers KExtends ti is -> Members tm l -> BrokenMember ts -> except [KCurlyBracesClose] next ->
    BrokenClass OInterface (TString x :: ti ++ Kw KCurlyBracesOpen :: tm ++ ts)
| bo_trait x tm l ts : Members tm l -> BrokenMember ts -> except [KCurlyBracesClose] next -> BrokenClass OTrait (TString x :: Kw KCurlyBracesOpen :: tm ++ ts)
with
  (** behind complete members of a class *)
  BrokenMember : list token -> Prop :=
| bm_none ms : no_var_next next -> except [KVar; KUse; KFunction; KConst; KPublic; KProtected; KPrivate; KStatic; KAbstract; KFinal] next ->
    BrokenMember (map modifier_token ms)
| bm_use ts : BrokenNames ts -> BrokenMember (Kw KUse :: ts)
| bm_use_end ts l : Names ts l -> except [KSemiColon; KComma; KNsSeparator; KCurlyBracesOpen] next -> BrokenMember (Kw KUse :: ts)
| bm_var : no_var_next next -> BrokenMember [Kw KVar]
| bm_var_list ts : BrokenVars ts -> BrokenMember (Kw KVar :: ts)
| bm_vars ms ts : BrokenVars ts -> BrokenMember (map modifier_token ms ++ ts)
| bm_const ms : no_word_next next -> BrokenMember (map modifier_token ms ++ [Kw KConst])
| bm_consts ms ts : BrokenConsts ts -> BrokenMember (map modifier_token ms ++ Kw KConst :: ts)
| bm_method_name ms (r : bool) : no_name_next next -> except [KAmpersand] next -> BrokenMember (map modifier_token ms ++ Kw KFunction :: opt r KAmpersand)
| bm_method ms (r : bool) x ts : BrokenFunction true true ts ->
    BrokenMember (map modifier_token ms ++ Kw KFunction :: opt r KAmpersand ++ TString x :: ts).
(** the clauses of a [use] statement: [A, B as C, ] *)
Inductive BrokenUses : list token -> Prop :=
| bu_none : no_name_next next -> except [KNsSeparator] next -> BrokenUses []
| bu_root : no_name_next next -> BrokenUses [Kw KNsSeparator]
| bu_as tn p : Name tn p -> no_name_next next -> BrokenUses (tn ++ [Kw KAs])
| bu_more tu u ts : UseClause tu u -> BrokenUses ts -> BrokenUses (tu ++ Kw KComma :: ts).
(** at the top level *)
Inductive BrokenTop : list token -> Prop :=
| bt_stmt c ts : Broken c ts -> (ts <> [] \/ next <> None) -> BrokenTop ts
| bt_namespace : no_name_next next -> BrokenTop [Kw KNamespace]
| bt_namespace_end ns a : except [KSemiColon; KNsSeparator] next -> BrokenTop (Kw KNamespace :: fragments (ns ++ [a]))
| bt_use ts : BrokenUses ts -> BrokenTop (Kw KUse :: ts)
| bt_use_end ts l : UseClauses ts l -> except [KSemiColon; KComma; KAs; KNsSeparator] next -> BrokenTop (Kw KUse :: ts).
End Broken.

(** A program that breaks: behind the statements [pre], which may be none, stands the
    beginning [u] of a statement that cannot go on with [rest]. *)
Definition breaks (ts pre u rest : list token) : Prop :=
  ts = pre ++ u ++ rest /\ (pre = [] \/ exists l, Program (Lost := strict) pre l) /\ BrokenTop (Lost := strict) (hd_error rest) u.

(** The visible tokens of a source, with the places where they stand *)
Definition visible_spans (ts : list tokspan) : list tokspan := flat_map (fun t => map (fun x => (x, snd t)) (visible (fst t))) ts.
(** The error [e] is reported at visible token number [k]; behind the last token if there
    are fewer *)
Definition reported_at (ts : list tokspan) (k : nat) (e : serror) : Prop :=
  se_syntax e = None /\
  match nth_error (visible_spans ts) k with
  | Some t => se_start e = sp_start (snd t) /\ se_end e = sp_end (snd t)
  | None => exists t, nth_error (visible_spans ts) (k - 1) = Some t /\ se_start e = sp_end (snd t) /\ se_end e = sp_end (snd t) + 1
  end.

(** An expression whose last operator lacks its operand, whatever ends the expression;
    [e] is the tree of the expression without that operator. *)
Definition Cut {Lost : part -> list token -> Prop} (k : nat) (ts : list token) (e : expr) : Prop :=
  forall next, among enders next -> Dangling (Lost := Lost) next k ts e.

(** A statement whose expression lacks something directly before its semicolon: an operand,
    a name, or what closes a bracket.  [s] is its tree without the last operator or
    access; behind [return], [break] and [continue], the whole expression may be missing. *)
Definition semi : option token := Some (Kw KSemiColon).
Inductive CutStmt {Lost : part -> list token -> Prop} : list token -> stmt -> Prop :=
| cs_expr ts e : Dangling (Lost := Lost) semi 1 ts e -> CutStmt (ts ++ [Kw KSemiColon]) (st (SExpr e))
| cs_throw ts e : Dangling (Lost := Lost) semi 1 ts e -> CutStmt (Kw KThrow :: ts ++ [Kw KSemiColon]) (st (SThrow e))
| cs_jump k f ts e : In (k, f) jumps -> Dangling (Lost := Lost) semi 1 ts e -> CutStmt (Kw k :: ts ++ [Kw KSemiColon]) (st (f (Some e)))
| cs_jump_none k f ts : In (k, f) jumps -> BrokenExpr (Lost := Lost) semi ts -> CutStmt (Kw k :: ts ++ [Kw KSemiColon]) (st (f None)).

(** What the parser drops in front of a closing brace: the beginning of a statement or a
    member that the brace cannot continue; and what is dropped of expressions.
    [lost n]: inside of them, up to [n] levels of dropped parts. *)
Fixpoint lost (n : nat) : part -> list token -> Prop :=
  match n with
  | 0 => strict
  | S n => fun p ts => match p with
    | InBlock => Broken (Lost := lost n) (Some (Kw KCurlyBracesClose)) true ts
    | InClass => BrokenMember (Lost := lost n) (Some (Kw KCurlyBracesClose)) ts
    | AsWhole k e => Cut (Lost := lost n) k ts e
    | AsStmt s => CutStmt (Lost := lost n) ts s
    end
  end.
(** only parts of expressions, nested up to [n] levels *)
Fixpoint cut_expressions (n : nat) : part -> list token -> Prop :=
  match n with
  | 0 => strict
  | S n => fun p ts => match p with
    | AsWhole k e => Cut (Lost := cut_expressions n) k ts e
    | AsStmt s => CutStmt (Lost := cut_expressions n) ts s
    | InBlock | InClass => False
    end
  end.
