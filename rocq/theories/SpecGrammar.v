(** * SpecGrammar: the concrete syntax of PHP programs, as token sequences with their trees (C38)

    The relations below are the productions of the PHP 7.1 grammar, for the part of the
    language that the parser knows.  They mention no function of the parser.  Every
    production says which tokens are written and which tree they stand for; trees carry
    the empty span.  Operators follow the precedence table of PHP.  Where the parser
    groups differently than PHP, the production is restricted to what both agree on
    (for example [-$a ** 2] and [!$a instanceof B] need parentheses here). *)
From Verif Require Import Base Tokens Ast Spec SpecProg.
From Coq Require Import String.
Local Open Scope list_scope.

Definition ex (n : expr_) : expr := Ex n span_new.
Definition st (s : stmt_) : stmt := St s span_new.
Definition paren (ts : list token) : list token := Kw KParenthesesOpen :: ts ++ [Kw KParenthesesClose].
Definition braces (ts : list token) : list token := Kw KCurlyBracesOpen :: ts ++ [Kw KCurlyBracesClose].
Definition opt (b : bool) (k : kind) : list token := if b then [Kw k] else [].

(** ** Names *)
Fixpoint fragments (fs : list str) : list token :=
  match fs with
  | [] => []
  | [a] => [TString a]
  | a :: r => TString a :: Kw KNsSeparator :: fragments r
  end.
Inductive Name : list token -> path -> Prop :=
| name abs ns a : Name (opt abs KNsSeparator ++ fragments (ns ++ [a])) (name_path abs ns a).
Inductive Names : list token -> list path -> Prop :=
| names_one ts p : Name ts p -> Names ts [p]
| names_more ts p tl l : Name ts p -> Names tl l -> Names (ts ++ Kw KComma :: tl) (p :: l).
(** class names: also the word [static] *)
Inductive ClassName : list token -> path -> Prop :=
| class_name ts p : Name ts p -> ClassName ts p
| class_static : ClassName [Kw KStatic] (mkPath false None (s2l "static")).
(** the name of a member behind [::]: a keyword will do.  Left out are the modifiers, [endfor],
    which the parser forgot, and words whose spelling it changes. *)
Definition no_member_word : list kind :=
  [KAbstract; KFinal; KPrivate; KProtected; KPublic; KStatic; KHaltCompiler; KEndfor; KLogicalAnd; KLogicalOr; KLogicalXor;
   KMagicClass; KMagicDir; KMagicFile; KMagicFunction; KMagicLine; KMagicMethod; KMagicNamespace; KMagicTrait].
Inductive Word : token -> str -> Prop :=
| word_name s : Word (TString s) s
| word_keyword w k : In (w, k) keywords -> w <> "die"%string -> ~ In k no_member_word -> Word (Kw k) (s2l w).
Definition word_expr (s : str) : expr := ex (EPath (mkPath false None s)).
(** a name used as a constant: [true], [false] and [null] are special *)
Definition constant_of (p : path) : expr :=
  match Ast.namespace p with
  | None => match const_name (Ast.identifier p) with Some c => ex (EConst c) | None => ex (EPath p) end
  | Some _ => ex (EPath p)
  end.

(** ** Operators *)
(** token, meaning, level of the result, least levels of the two operands; the levels of
    PHP, lowest first.  ([xor] has no meaning of its own in the trees.) *)
Definition binary_operators : list (kind * op * nat * nat * nat) :=
  [ (KLogicalOr, OOr, 1, 1, 2); (KLogicalXor, OBitXor, 2, 2, 3); (KLogicalAnd, OAnd, 3, 3, 4);
    (KBoolOr, OOr, 5, 5, 6); (KBoolAnd, OAnd, 6, 6, 7);
    (KBwOr, OBitOr, 7, 7, 8); (KBwXor, OBitXor, 8, 8, 9); (KAmpersand, OBitAnd, 9, 9, 10);
    (KIsIdentical, OIdentical, 10, 11, 11); (KIsNotIdentical, ONotIdentical, 10, 11, 11);
    (KIsEqual, OEq, 10, 11, 11); (KIsNotEqual, ONeq, 10, 11, 11); (KSpaceShip, OSpaceship, 10, 12, 12);
    (KLt, OLt, 11, 12, 12); (KGt, OGt, 11, 12, 12); (KIsSmallerOrEqual, OLe, 11, 12, 12); (KIsGreaterOrEqual, OGe, 11, 12, 12);
    (KSl, OSl, 12, 12, 13); (KSr, OSr, 12, 12, 13);
    (KPlus, OAdd, 13, 13, 14); (KMinus, OSub, 13, 13, 14); (KDot, OConcat, 13, 13, 14);
    (KMul, OMul, 14, 14, 15); (KDiv, ODiv, 14, 14, 15); (KMod, OMod, 14, 14, 15) ].
Definition prefix_operators : list (kind * unop) :=
  [ (KPlus, UPositive); (KMinus, UNegative); (KBwNot, UBitNot); (KSilence, USilence) ].
Definition steps_before : list (kind * unop) := [ (KIncrement, UPreInc); (KDecrement, UPreDec) ].
Definition steps_behind : list (kind * unop) := [ (KIncrement, UPostInc); (KDecrement, UPostDec) ].
Definition casts : list (kind * ty) :=
  [ (KCastInt, TyInt); (KCastDouble, TyDouble); (KCastString, TyString); (KCastArray, TyArray);
    (KCastObject, TyObject None); (KCastBool, TyBool) ].
(** (no [|=], [**=], [??]: the parser knows none of them; [&=] is read wrongly) *)
Definition assignments : list (kind * op) :=
  [ (KPlusEqual, OAdd); (KMinusEqual, OSub); (KMulEqual, OMul); (KDivEqual, ODiv); (KConcatEqual, OConcat);
    (KModEqual, OMod); (KXorEqual, OBitXor); (KSlEqual, OSl); (KSrEqual, OSr) ].
Definition includes : list (kind * include_ty) :=
  [ (KInclude, IInclude); (KIncludeOnce, IIncludeOnce); (KRequire, IRequire); (KRequireOnce, IRequireOnce) ].
Definition magic : list (kind * constant) :=
  [ (KMagicLine, CMagicLine); (KMagicFile, CMagicFile); (KMagicDir, CMagicDir); (KMagicTrait, CMagicTrait);
    (KMagicMethod, CMagicMethod); (KMagicFunction, CMagicFunction); (KMagicClass, CMagicClass) ].
Definition jumps : list (kind * (option expr -> stmt_)) :=
  [ (KReturn, SReturn); (KContinue, SContinue); (KBreak, SBreak) ].

(** ** Accesses: indices, properties and static variables in sequence share one node *)
Definition indexed (v : expr) (i : option expr) : expr :=
  match v with Ex (EArrayIdx b l) _ => ex (EArrayIdx b (l ++ [i])) | _ => ex (EArrayIdx v [i]) end.
Definition property (v p : expr) : expr :=
  match v with Ex (EObjMember b l) _ => ex (EObjMember b (l ++ [p])) | _ => ex (EObjMember v [p]) end.
Definition static_var (v p : expr) : expr :=
  match v with Ex (EStaticMember b l) _ => ex (EStaticMember b (l ++ [p])) | _ => ex (EStaticMember v [p]) end.
(** a parenthesized expression which an access may follow: for the others the
    parentheses would be significant, but leave no trace in the tree *)
Definition plain (e : expr) : Prop :=
  match enode e with EArrayIdx _ _ | EObjMember _ _ | EStaticMember _ _ | EPath _ => False | _ => True end.
(** [a . (b . (c . d))] *)
Fixpoint concatenation (e : expr) (l : list expr) : expr :=
  match l with [] => e | x :: r => ex (EBinary OConcat e (concatenation x r)) end.
Definition text_first (ts : list token) : bool := match ts with TCes _ :: _ => true | _ => false end.
(** does not start with a name or keyword *)
Definition no_word (ts : list token) : bool :=
  match ts with TVariable _ :: _ | TCes _ :: _ | TInt _ :: _ | Kw KDoubleQuote :: _ | Kw KParenthesesOpen :: _ => true | _ => false end.
Definition is_instanceof (e : expr) : Prop := match enode e with EInstanceOf _ _ => True | _ => False end.
Definition is_block (s : stmt) : Prop := match snode s with SBlock _ => True | _ => False end.

(** ** Declarations without expressions *)
Inductive Hint : list token -> option ty -> Prop :=
| hint_none : Hint [] None
| hint_array : Hint [Kw KArray] (Some TyArray)
| hint_callable : Hint [Kw KCallable] (Some TyCallable)
| hint_class ts p : Name ts p -> Hint ts (Some (TyObject (Some p))).
Definition modifier_token (m : member_modifier) : token :=
  Kw match m with MPublic => KPublic | MProtected => KProtected | MPrivate => KPrivate | MStatic => KStatic | MAbstract => KAbstract | MFinal => KFinal end.
Definition class_modifier_token (m : class_modifier) : token := Kw match m with CAbstract => KAbstract | CFinal => KFinal end.
Inductive Captures : list token -> list (bool * str) -> Prop :=
| captures_one (r : bool) v : Captures (opt r KAmpersand ++ [TVariable v]) [(r, v)]
| captures_more (r : bool) v tl l : Captures tl l -> Captures (opt r KAmpersand ++ TVariable v :: Kw KComma :: tl) ((r, v) :: l).
Inductive UseVars : list token -> list (bool * str) -> Prop :=
| use_none : UseVars [] []
| use_some ts l : Captures ts l -> UseVars (Kw KUse :: paren ts) l.
(** the rules inside [use A, B { ... }] *)
Inductive Adaptation : list token -> trait_use -> Prop :=
| adapt_instead tn p t m tl l : Name tn p -> Word t m -> Names tl l ->
    Adaptation (tn ++ Kw KScopeOp :: t :: Kw KInsteadof :: tl) (TUInsteadOf p m l)
| adapt_as tn p t m a : Name tn p -> Word t m ->
    Adaptation (tn ++ [Kw KScopeOp; t; Kw KAs; TString a]) (TUAs (Some p) m member_modifiers_none (Some a))
| adapt_short t m a : Word t m -> Adaptation [t; Kw KAs; TString a] (TUAs None m member_modifiers_none (Some a)).
Inductive Adaptations : list token -> list trait_use -> Prop :=
| adapts_nil : Adaptations [] []
| adapts_cons ts u tl l : Adaptation ts u -> Adaptations tl l -> Adaptations (ts ++ Kw KSemiColon :: tl) (u :: l).
Inductive Extends : list token -> option path -> Prop :=
| extends_none : Extends [] None
| extends_some ts p : Name ts p -> Extends (Kw KExtends :: ts) (Some p).
(** [k] is [implements], or [extends] for interfaces *)
Inductive Supers (k : kind) : list token -> list path -> Prop :=
| supers_none : Supers k [] []
| supers_some ts l : Names ts l -> Supers k (Kw k :: ts) l.
Inductive Globals : list token -> list variable -> Prop :=
| globals_one v : Globals [TVariable v] [VName v]
| globals_more v tl l : Globals tl l -> Globals (TVariable v :: Kw KComma :: tl) (VName v :: l).

(** ** The labels of a switch *)
(** [conds]: labels waiting for statements.  Labels without statements belong to the
    next statements; those at the end make cases without statements. *)
Fixpoint switch_tree (conds : list expr) (l : list (option expr * list stmt)) : list swcase :=
  match l with
  | [] => map (fun c => mkCase [c] false []) conds
  | (None, b) :: r => mkCase conds true b :: switch_tree [] r
  | (Some e, []) :: r => switch_tree (conds ++ [e]) r
  | (Some e, b) :: r => mkCase (conds ++ [e]) false b :: switch_tree [] r
  end.

(** ** The grammar *)
(** [Lost]: token sequences that may stand directly before a closing brace, of a block or
    of a class, without a trace in the tree, or in the place of an expression with the
    tree [e] or of a statement with the tree [s].  PHP has none ([strict]); C40 and C50 are about those that the parser
    drops. *)
Inductive part := InBlock | InClass | AsWhole (n : nat) (e : expr) | AsStmt (s : stmt).
Definition strict : part -> list token -> Prop := fun _ _ => False.
Section Grammar.
Context {Lost : part -> list token -> Prop}.
Inductive
  (** [Expr n]: an expression whose operators outside of parentheses have at least level
      [n]; it may be followed by further operators *)
  Expr : nat -> list token -> expr -> Prop :=
| e_up n ts e : Expr (S n) ts e -> Expr n ts e
| e_access ts e : Access ts e -> Expr 18 ts e
| e_paren ts e : Whole 1 ts e -> Expr 18 (paren ts) e
| e_int z : Expr 18 [TInt z] (ex (EInt z))
| e_double d : Expr 18 [TDouble d] (ex (EDouble d))
| e_magic k c : In (k, c) magic -> Expr 18 [Kw k] (ex (EConst c))
| e_constant ts p : Name ts p -> Expr 18 ts (constant_of p)
| e_class_constant ts p t s : ClassName ts p -> constant_of p = ex (EPath p) -> Word t s ->
    Expr 18 (ts ++ [Kw KScopeOp; t]) (ex (EStaticMember (ex (EPath p)) [word_expr s]))
| e_text_empty : Expr 18 [Kw KDoubleQuote; Kw KDoubleQuote] (ex (EString []))
| e_text ts e es : Parts ts (e :: es) -> Expr 18 (Kw KDoubleQuote :: ts ++ [Kw KDoubleQuote]) (concatenation e es)
| e_heredoc ts e es : Parts ts (e :: es) -> Expr 18 (Kw KHereDocStart :: ts ++ [Kw KHereDocEnd]) (concatenation e es)
| e_new tc c ta args : NewRef tc c -> Arguments ta args -> Expr 18 (Kw KNew :: tc ++ ta) (ex (ENew c args))
| e_new_bare tc c : NewRef tc c -> Expr 18 (Kw KNew :: tc) (ex (ENew c []))
| e_isset ts es : Wholes ts es -> Expr 18 (Kw KIsset :: paren ts) (ex (EIsset es))
| e_empty ts e : Whole 1 ts e -> Expr 18 (Kw KEmpty :: paren ts) (ex (EEmpty e))
| e_exit : Expr 18 [Kw KExit] (ex (EExit None))
| e_exit_with ts e : Whole 1 ts e -> Expr 18 (Kw KExit :: paren ts) (ex (EExit (Some e)))
| e_closure (r : bool) tp ps tu us tb b : Params tp ps -> UseVars tu us -> Inner tb b ->
    Expr 18 (Kw KFunction :: opt r KAmpersand ++ paren tp ++ tu ++ braces tb) (ex (EFunction (mkFun ps (Some b) us r)))
| e_step_before k u ts e : In (k, u) steps_before -> Access ts e -> Expr 18 (Kw k :: ts) (ex (EUnary u e))
| e_step_behind k u ts e : In (k, u) steps_behind -> Access ts e -> Expr 18 (ts ++ [Kw k]) (ex (EUnary u e))
| e_prefix k u ts e : In (k, u) prefix_operators -> Expr 17 ts e -> Expr 17 (Kw k :: ts) (ex (EUnary u e))
| e_cast k c ts e : In (k, c) casts -> Expr 17 ts e -> Expr 17 (Kw k :: ts) (ex (ECast c e))
| e_not ts e : Not ts e -> Expr 16 ts e
| e_pow ts e : Pow ts e -> Expr 16 ts e
| e_instanceof ta a tb b : Expr 17 ta a -> ~ is_instanceof a -> NewRef tb b ->
    Expr 16 (ta ++ Kw KInstanceOf :: tb) (ex (EInstanceOf a b))
| e_binary k o n la lb ta a tb b : In (k, o, n, la, lb) binary_operators -> Expr la ta a -> Expr lb tb b ->
    Expr n (ta ++ Kw k :: tb) (ex (EBinary o a b))
| e_ternary tc c tt t te e : Expr 4 tc c -> OptWhole 5 tt t -> Expr 5 te e ->
    Expr 4 (tc ++ Kw KQuestionMark :: tt ++ Kw KColon :: te) (ex (ETernary c t e))
with
  (** [!] binds looser than [instanceof] in PHP *)
  Not : list token -> expr -> Prop :=
| not_base ts e : Expr 17 ts e -> Not ts e
| not_bang ts e : Not ts e -> Not (Kw KBoolNot :: ts) (ex (EUnary UNot e))
| not_prefix k u ts e : In (k, u) prefix_operators -> Not ts e -> Not (Kw k :: ts) (ex (EUnary u e))
| not_cast k c ts e : In (k, c) casts -> Not ts e -> Not (Kw k :: ts) (ex (ECast c e))
with
  (** [**] associates to the right *)
  Pow : list token -> expr -> Prop :=
| pow_base ts e : Expr 17 ts e -> Pow ts e
| pow_more ta a tb b : Expr 18 ta a -> Pow tb b -> Pow (ta ++ Kw KPow :: tb) (ex (EBinary OPow a b))
with
  (** expressions that reach as far to the right as possible *)
  Tail : nat -> list token -> expr -> Prop :=
| t_up n ts e : Tail (S n) ts e -> Tail n ts e
| t_assign tv v te e : Access tv v -> Whole 4 te e -> Tail 18 (tv ++ Kw KEqual :: te) (ex (EAssign v e))
| t_compound k o tv v te e : In (k, o) assignments -> Access tv v -> Whole 4 te e -> Tail 18 (tv ++ Kw k :: te) (ex (ECompound v o e))
| t_reference tv v tw w : Access tv v -> Access tw w -> Tail 18 (tv ++ Kw KEqual :: Kw KAmpersand :: tw) (ex (EAssignRef v w))
| t_list tp ps te e : Pairs tp ps -> Whole 4 te e -> Tail 18 (Kw KList :: paren tp ++ Kw KEqual :: te) (ex (EAssign (ex (EList ps)) e))
| t_include k i ts e : In (k, i) includes -> Whole 1 ts e -> Tail 18 (Kw k :: ts) (ex (EInclude i e))
| t_yield ts e : Whole 4 ts e -> Tail 18 (Kw KYield :: ts) (ex (EYield (Some e)))
| t_yield_none : Tail 18 [Kw KYield] (ex (EYield None))
| t_clone ts e : Expr 18 ts e -> Tail 18 (Kw KClone :: ts) (ex (EClone e))
| t_prefix k u ts e : In (k, u) ((KBoolNot, UNot) :: prefix_operators) -> Tail 17 ts e -> Tail 17 (Kw k :: ts) (ex (EUnary u e))
| t_cast k c ts e : In (k, c) casts -> Tail 17 ts e -> Tail 17 (Kw k :: ts) (ex (ECast c e))
| t_pow ta a tb b : Expr 18 ta a -> Tail 16 tb b -> Tail 16 (ta ++ Kw KPow :: tb) (ex (EBinary OPow a b))
| t_binary k o n la lb ta a tb b : In (k, o, n, la, lb) binary_operators -> Expr la ta a -> Tail lb tb b ->
    Tail n (ta ++ Kw k :: tb) (ex (EBinary o a b))
| t_ternary tc c tt t te e : Expr 4 tc c -> OptWhole 5 tt t -> Tail 5 te e ->
    Tail 4 (tc ++ Kw KQuestionMark :: tt ++ Kw KColon :: te) (ex (ETernary c t e))
with
  (** an expression up to its end *)
  Whole : nat -> list token -> expr -> Prop :=
| w_expr n ts e : Expr n ts e -> Whole n ts e
| w_tail n ts e : Tail n ts e -> Whole n ts e
| w_lost n ts e : Lost (AsWhole n e) ts -> Whole n ts e
with
  OptWhole : nat -> list token -> option expr -> Prop :=
| o_none n : OptWhole n [] None
| o_some n ts e : Whole n ts e -> OptWhole n ts (Some e)
with
  Wholes : list token -> list expr -> Prop :=
| wholes_one ts e : Whole 1 ts e -> Wholes ts [e]
| wholes_more ts e tl l : Whole 1 ts e -> Wholes tl l -> Wholes (ts ++ Kw KComma :: tl) (e :: l)
with
  (** variables and calls, with everything that may follow them *)
  Access : list token -> expr -> Prop :=
| a_var v : Access [TVariable v] (ex (EVar (VName v)))
| a_paren ts e : Whole 1 ts e -> plain e -> Access (paren ts) e
| a_string s : Access [TCes s] (ex (EString s))
| a_array ts l : Pairs ts l -> Access (Kw KSquareBracketOpen :: ts ++ [Kw KSquareBracketClose]) (ex (EArray l))
| a_array_word ts l : Pairs ts l -> Access (Kw KArray :: paren ts) (ex (EArray l))
| a_index ts v ti i : Access ts v -> OptWhole 1 ti i -> Access (ts ++ Kw KSquareBracketOpen :: ti ++ [Kw KSquareBracketClose]) (indexed v i)
| a_property ts v tp p : Access ts v -> Property tp p -> Access (ts ++ Kw KObjectOp :: tp) (property v p)
| a_static ts v s : Access ts v -> Access (ts ++ [Kw KScopeOp; TVariable s]) (static_var v (ex (EVar (VName s))))
| a_call ts v ta args : Access ts v -> Arguments ta args -> Access (ts ++ ta) (ex (ECall v args))
| a_function ts p ta args : Name ts p -> Arguments ta args -> Access (ts ++ ta) (ex (ECall (ex (EPath p)) args))
| a_method ts p t s ta args : ClassName ts p -> Word t s -> Arguments ta args ->
    Access (ts ++ Kw KScopeOp :: t :: ta) (ex (ECall (ex (EStaticMember (ex (EPath p)) [word_expr s])) args))
| a_class_var ts p s : ClassName ts p -> Access (ts ++ [Kw KScopeOp; TVariable s]) (ex (EStaticMember (ex (EPath p)) [ex (EVar (VName s))]))
with
  Property : list token -> expr -> Prop :=
| p_name s : Property [TString s] (word_expr s)
| p_var v : Property [TVariable v] (ex (EVar (VName v)))
| p_computed ts e : Whole 1 ts e -> Property (braces ts) e
with
  (** the class behind [new] and [instanceof]: a name, or a variable without calls *)
  NewRef : list token -> expr -> Prop :=
| n_class ts p : ClassName ts p -> NewRef ts (ex (EPath p))
| n_var ts e : NewVar ts e -> NewRef ts e
with
  NewVar : list token -> expr -> Prop :=
| nv_var v : NewVar [TVariable v] (ex (EVar (VName v)))
| nv_index ts v ti i : NewVar ts v -> OptWhole 1 ti i -> NewVar (ts ++ Kw KSquareBracketOpen :: ti ++ [Kw KSquareBracketClose]) (indexed v i)
| nv_property ts v tp p : NewVar ts v -> Property tp p -> NewVar (ts ++ Kw KObjectOp :: tp) (property v p)
| nv_static ts v s : NewVar ts v -> NewVar (ts ++ [Kw KScopeOp; TVariable s]) (static_var v (ex (EVar (VName s))))
with
  Arguments : list token -> list expr -> Prop :=
| args_none : Arguments (paren []) []
| args_some ts l : Args ts l -> Arguments (paren ts) l
with
  Args : list token -> list expr -> Prop :=
| args_one ts e : Arg ts e -> Args ts [e]
| args_more ts e tl l : Arg ts e -> Args tl l -> Args (ts ++ Kw KComma :: tl) (e :: l)
with
  Arg : list token -> expr -> Prop :=
| arg_value ts e : Whole 1 ts e -> Arg ts e
| arg_unpack ts e : Whole 1 ts e -> Arg (Kw KEllipsis :: ts) (ex (EUnpack e))
with
  (** the elements of an array; a comma may follow the last one *)
  Pairs : list token -> list (option expr * expr) -> Prop :=
| pairs_none : Pairs [] []
| pairs_some ts l (comma : bool) : PairList ts l -> Pairs (ts ++ opt comma KComma) l
with
  PairList : list token -> list (option expr * expr) -> Prop :=
| pairs_one ts p : Pair ts p -> PairList ts [p]
| pairs_more ts p tl l : Pair ts p -> PairList tl l -> PairList (ts ++ Kw KComma :: tl) (p :: l)
with
  Pair : list token -> option expr * expr -> Prop :=
| pair_value ts e : Whole 1 ts e -> Pair ts (None, e)
| pair_key tk k tv v : Whole 1 tk k -> Whole 1 tv v -> Pair (tk ++ Kw KDoubleArrow :: tv) (Some k, v)
with
  (** the parts of a string or heredoc with variables; texts are not empty and not adjacent *)
  Parts : list token -> list expr -> Prop :=
| parts_nil : Parts [] []
| parts_text s tl l : s <> [] -> text_first tl = false -> Parts tl l -> Parts (TCes s :: tl) (ex (EString s) :: l)
| parts_var v tl l : Parts tl l -> Parts (TVariable v :: tl) (ex (EVar (VName v)) :: l)
| parts_property v p tl l : Parts tl l ->
    Parts (TVariable v :: Kw KObjectOp :: TString p :: tl) (ex (EObjMember (ex (EVar (VName v))) [word_expr p]) :: l)
| parts_code ts e tl l : Whole 1 ts e -> Parts tl l -> Parts (braces ts ++ tl) (e :: l)
| parts_dollar x tl l : Parts tl l -> Parts (Kw KDollarCurlyBracesOpen :: TString x :: Kw KCurlyBracesClose :: tl) (ex (EVar (VName x)) :: l)
| parts_dollar_index x ti i tl l : Whole 1 ti i -> Parts tl l ->
    Parts (Kw KDollarCurlyBracesOpen :: TString x :: Kw KSquareBracketOpen :: ti ++ Kw KSquareBracketClose :: Kw KCurlyBracesClose :: tl) (ex (EArrayIdx (ex (EVar (VName x))) [Some i]) :: l)
| parts_dollar_code ts e tl l : Whole 1 ts e -> no_word ts = true -> Parts tl l ->
    Parts (Kw KDollarCurlyBracesOpen :: ts ++ Kw KCurlyBracesClose :: tl) (ex (EVar (VFetch e)) :: l)
with
  Default : list token -> option expr -> Prop :=
| default_none : Default [] None
| default_some ts e : Whole 1 ts e -> Default (Kw KEqual :: ts) (Some e)
with
  Param : list token -> param -> Prop :=
| param_ th h (r v : bool) x td d : Hint th h -> Default td d ->
    Param (th ++ opt r KAmpersand ++ opt v KEllipsis ++ TVariable x :: td) (mkParam x r v h d)
with
  Params : list token -> list param -> Prop :=
| params_none : Params [] []
| params_some ts l : ParamList ts l -> Params ts l
with
  ParamList : list token -> list param -> Prop :=
| params_one ts p : Param ts p -> ParamList ts [p]
| params_more ts p tl l : Param ts p -> ParamList tl l -> ParamList (ts ++ Kw KComma :: tl) (p :: l)
with
  (** [x = value, y, ...] *)
  Vars : list token -> list (str * option expr) -> Prop :=
| vars_one v td d : Default td d -> Vars (TVariable v :: td) [(v, d)]
| vars_more v td d tl l : Default td d -> Vars tl l -> Vars (TVariable v :: td ++ Kw KComma :: tl) ((v, d) :: l)
with
  Consts : list token -> list (str * expr) -> Prop :=
| consts_one t s te e : Word t s -> Whole 1 te e -> Consts (t :: Kw KEqual :: te) [(s, e)]
| consts_more t s te e tl l : Word t s -> Whole 1 te e -> Consts tl l -> Consts (t :: Kw KEqual :: te ++ Kw KComma :: tl) ((s, e) :: l)
with
  (** [Stmt c]: a statement; with [c = true] it cannot be continued by [else], [elseif],
      [catch] or [finally] *)
  Stmt : bool -> list token -> stmt -> Prop :=
| s_weak ts s : Stmt true ts s -> Stmt false ts s
| s_empty : Stmt true [Kw KSemiColon] (st SNone)
| s_expr ts e : Whole 1 ts e -> Stmt true (ts ++ [Kw KSemiColon]) (st (SExpr e))
| s_echo ts es : Wholes ts es -> Stmt true (Kw KEcho :: ts ++ [Kw KSemiColon]) (st (SEcho es))
| s_jump k f ts e : In (k, f) jumps -> OptWhole 1 ts e -> Stmt true (Kw k :: ts ++ [Kw KSemiColon]) (st (f e))
| s_throw ts e : Whole 1 ts e -> Stmt true (Kw KThrow :: ts ++ [Kw KSemiColon]) (st (SThrow e))
| s_unset ts vs : AccessList ts vs -> Stmt true (Kw KUnset :: paren ts ++ [Kw KSemiColon]) (st (SUnset vs))
| s_block ts b : Inner ts b -> Stmt true (braces ts) (st (SBlock b))
| s_if ts s : If ts s -> Stmt false (Kw KIf :: ts) s
| s_while c tc e tb b : Whole 1 tc e -> Body c tb b -> Stmt c (Kw KWhile :: paren tc ++ tb) (st (SWhile e b))
| s_do tb b tc e : Body false tb b -> Whole 1 tc e ->
    Stmt true (Kw KDo :: tb ++ Kw KWhile :: paren tc ++ [Kw KSemiColon]) (st (SDoWhile b e))
| s_for c ti i tt t tn n tb b : OptWhole 1 ti i -> OptWhole 1 tt t -> OptWhole 1 tn n -> Body c tb b ->
    Stmt c (Kw KFor :: paren (ti ++ Kw KSemiColon :: tt ++ Kw KSemiColon :: tn) ++ tb) (st (SFor i t n b))
| s_foreach c te e tv v tb b : Whole 1 te e -> LoopVar tv v -> Body c tb b ->
    Stmt c (Kw KForeach :: paren (te ++ Kw KAs :: tv) ++ tb) (st (SForEach e None v b))
| s_foreach_key c te e tk k tv v tb b : Whole 1 te e -> LoopVar tk k -> LoopVar tv v -> Body c tb b ->
    Stmt c (Kw KForeach :: paren (te ++ Kw KAs :: tk ++ Kw KDoubleArrow :: tv) ++ tb) (st (SForEach e (Some k) v b))
| s_try tb b tc cs tf f : Inner tb b -> Catches tc cs -> Finally tf f ->
    Stmt false (Kw KTry :: braces tb ++ tc ++ tf) (st (STry b cs f))
| s_switch te e tl l : Whole 1 te e -> Labels tl l -> Stmt true (Kw KSwitch :: paren te ++ braces tl) (st (SSwitch e (switch_tree [] l)))
| s_switch_lost te e tl l u : Whole 1 te e -> Labels tl l -> l <> [] -> Lost InBlock u ->
    Stmt true (Kw KSwitch :: paren te ++ braces (tl ++ u)) (st (SSwitch e (switch_tree [] l)))
| s_lost ts s : Lost (AsStmt s) ts -> Stmt true ts s
| s_static ts l : Vars ts l -> Stmt true (Kw KStatic :: ts ++ [Kw KSemiColon]) (st (SDecl (DStaticVars l)))
| s_global ts l : Globals ts l -> Stmt true (Kw KGlobal :: ts ++ [Kw KSemiColon]) (st (SDecl (DGlobalVars l)))
| s_function (r : bool) x tp ps tb b : Params tp ps -> Inner tb b ->
    Stmt true (Kw KFunction :: opt r KAmpersand ++ TString x :: paren tp ++ braces tb) (st (SDecl (DFunction x (mkFun ps (Some b) [] r))))
| s_class ms x te p ti is tm l : Extends te p -> Supers KImplements ti is -> InnerMembers tm l ->
    Stmt true (map class_modifier_token ms ++ Kw KClass :: TString x :: te ++ ti ++ braces tm)
      (st (SDecl (DClass (class_modifiers_new ms) x p is l)))
| s_interface x ti is tm l : Supers KExtends ti is -> InnerMembers tm l ->
    Stmt true (Kw KInterface :: TString x :: ti ++ braces tm) (st (SDecl (DInterface x is l)))
| s_trait x tm l : InnerMembers tm l -> Stmt true (Kw KTrait :: TString x :: braces tm) (st (SDecl (DTrait x l)))
with
  Stmts : list token -> list stmt -> Prop :=
| stmts_nil : Stmts [] []
| stmts_cons ts s tl l : Stmt false ts s -> Stmts tl l -> Stmts (ts ++ tl) (s :: l)
with
  (** what stands between braces *)
  Inner : list token -> list stmt -> Prop :=
| inner_all ts b : Stmts ts b -> Inner ts b
| inner_lost ts b u : Stmts ts b -> Lost InBlock u -> Inner (ts ++ u) b
with
  (** the body of a loop or branch: statements in braces or a single statement *)
  Body : bool -> list token -> list stmt -> Prop :=
| body_braces c ts b : Inner ts b -> Body c (braces ts) b
| body_single c ts s : Stmt c ts s -> ~ is_block s -> Body c ts [s]
with
  (** what follows the word [if] *)
  If : list token -> stmt -> Prop :=
| if_only tc c tb b : Whole 1 tc c -> Body false tb b -> If (paren tc ++ tb) (st (SIf c b []))
| if_else tc c tb b te e : Whole 1 tc c -> Body true tb b -> Body false te e ->
    If (paren tc ++ tb ++ Kw KElse :: te) (st (SIf c b e))
| if_elseif tc c tb b ti i : Whole 1 tc c -> Body true tb b -> If ti i ->
    If (paren tc ++ tb ++ Kw KElseIf :: ti) (st (SIf c b [i]))
with
  LoopVar : list token -> expr -> Prop :=
| loop_value ts v : Access ts v -> LoopVar ts v
| loop_reference ts v : Access ts v -> LoopVar (Kw KAmpersand :: ts) (ex (ERef v))
with
  AccessList : list token -> list expr -> Prop :=
| accesses_one ts v : Access ts v -> AccessList ts [v]
| accesses_more ts v tl l : Access ts v -> AccessList tl l -> AccessList (ts ++ Kw KComma :: tl) (v :: l)
with
  Catches : list token -> list catch -> Prop :=
| catches_nil : Catches [] []
| catches_cons tn p v tb b tl l : Name tn p -> Inner tb b -> Catches tl l ->
    Catches (Kw KCatch :: paren (tn ++ [TVariable v]) ++ braces tb ++ tl) (mkCatch p v b :: l)
with
  Finally : list token -> option (list stmt) -> Prop :=
| finally_none : Finally [] None
| finally_some tb b : Inner tb b -> Finally (Kw KFinally :: braces tb) (Some b)
with
  (** [default] needs statements: the parser forgets the word otherwise *)
  Labels : list token -> list (option expr * list stmt) -> Prop :=
| labels_nil : Labels [] []
| labels_case (semi : bool) te e tb b tl l : Whole 1 te e -> Stmts tb b -> Labels tl l ->
    Labels (Kw KCase :: te ++ Kw (if semi then KSemiColon else KColon) :: tb ++ tl) ((Some e, b) :: l)
| labels_default (semi : bool) tb b tl l : Stmts tb b -> b <> [] -> Labels tl l ->
    Labels (Kw KDefault :: Kw (if semi then KSemiColon else KColon) :: tb ++ tl) ((None, b) :: l)
with
  Members : list token -> list member -> Prop :=
| members_nil : Members [] []
| members_cons ts ms tl l : Member ts ms -> Members tl l -> Members (ts ++ tl) (ms ++ l)
with
  InnerMembers : list token -> list member -> Prop :=
| inner_members ts l : Members ts l -> InnerMembers ts l
| inner_members_lost ts l u : Members ts l -> Lost InClass u -> InnerMembers (ts ++ u) l
with
  (** one declaration in a class may declare several members *)
  Member : list token -> list member -> Prop :=
| m_vars ms ts l : Vars ts l -> Member (map modifier_token ms ++ ts ++ [Kw KSemiColon])
    (map (fun x => MProp (member_modifiers_new ms) (fst x) (snd x)) l)
| m_var ts l : Vars ts l -> Member (Kw KVar :: ts ++ [Kw KSemiColon])
    (map (fun x => MProp (member_modifiers_new [MPublic]) (fst x) (snd x)) l)
| m_consts ms ts l : Consts ts l -> Member (map modifier_token ms ++ Kw KConst :: ts ++ [Kw KSemiColon])
    (map (fun x => MConst (member_modifiers_new ms) (fst x) (snd x)) l)
| m_method ms (r : bool) x tp ps tb b : Params tp ps -> MethodBody tb b ->
    Member (map modifier_token ms ++ Kw KFunction :: opt r KAmpersand ++ TString x :: paren tp ++ tb)
      [MMethod (member_modifiers_new ms) x (mkFun ps b [] r)]
| m_use tn ns : Names tn ns -> Member (Kw KUse :: tn ++ [Kw KSemiColon]) [MTraitUse ns []]
| m_use_rules tn ns tu us : Names tn ns -> Adaptations tu us -> us <> [] -> Member (Kw KUse :: tn ++ braces tu) [MTraitUse ns us]
with
  MethodBody : list token -> option (list stmt) -> Prop :=
| method_abstract : MethodBody [Kw KSemiColon] None
| method_body ts b : Inner ts b -> MethodBody (braces ts) (Some b).

End Grammar.

(** ** Programs *)
Inductive UseClause : list token -> use_clause -> Prop :=
| use_plain ts p : Name ts p -> UseClause ts (QualifiedName p None)
| use_as ts p a : Name ts p -> UseClause (ts ++ [Kw KAs; TString a]) (QualifiedName p (Some a)).
Inductive UseClauses : list token -> list use_clause -> Prop :=
| uses_one ts u : UseClause ts u -> UseClauses ts [u]
| uses_more ts u tl l : UseClause ts u -> UseClauses tl l -> UseClauses (ts ++ Kw KComma :: tl) (u :: l).
Section Program.
Context {Lost : part -> list token -> Prop}.
Inductive TopStmt : list token -> stmt -> Prop :=
| top_stmt ts s : Stmt (Lost := Lost) false ts s -> TopStmt ts s
| top_namespace ns a : TopStmt (Kw KNamespace :: fragments (ns ++ [a]) ++ [Kw KSemiColon]) (st (SDecl (DNamespace (name_path false ns a))))
| top_use ts l : UseClauses ts l -> TopStmt (Kw KUse :: ts ++ [Kw KSemiColon]) (st (SUse l)).
Inductive Program : list token -> list stmt -> Prop :=
| program_one ts s : TopStmt ts s -> Program ts [s]
| program_more ts s tl l : TopStmt ts s -> Program tl l -> Program (ts ++ tl) (s :: l).
End Program.

(** ** Tokens of a source that the grammar is about: tags and comments are left out, text
    outside of the tags is an echo statement *)
Definition visible (t : token) : list token :=
  match t with
  | TComment _ | Kw KOpenTag | Kw KCloseTag => []
  | TInlineHtml s => [Kw KEcho; TCes s; Kw KSemiColon]
  | Kw KOpenTagWithEcho => [Kw KEcho]
  | t => [t]
  end.
