(** * SpecOrder: the words of a program, read off its tree and off its tokens (C37) *)
From Verif Require Import Base Tokens Ast.
From Coq Require Import String.

(** ** Words of a tree, from left to right *)
Inductive item :=
| IVar (s : str)               (* a variable, parameter, property *)
| IName (s : str)              (* the name of a function, class, method, constant, alias *)
| IPath (p : path)             (* a (qualified) name *)
| IText (s : str)              (* a string *)
| IInt (z : Z)
| IDouble (d : str)
| IKw (ks : list kind).        (* one of these keywords or operators *)

Definition opt_items {A} (f : A -> list item) (o : option A) : list item :=
  match o with Some a => f a | None => [] end.
Definition flag (b : bool) (k : kind) : list item := if b then [IKw [k]] else [].
(** the empty string has no token of its own *)
Definition text_items (s : str) : list item := match s with [] => [] | _ => [IText s] end.
(** the tokens of an operator; [.] is left out: interpolated strings are concatenations *)
Definition op_kinds (o : op) : list kind :=
  match o with
  | OConcat => [] | OAdd => [KPlus] | OSub => [KMinus] | OMul => [KMul] | ODiv => [KDiv] | OPow => [KPow] | OMod => [KMod]
  | OOr => [KBoolOr; KLogicalOr] | OAnd => [KBoolAnd; KLogicalAnd] | OIdentical => [KIsIdentical] | ONotIdentical => [KIsNotIdentical]
  | OEq => [KIsEqual] | ONeq => [KIsNotEqual] | OLt => [KLt] | OGt => [KGt] | OLe => [KIsSmallerOrEqual] | OGe => [KIsGreaterOrEqual]
  | OBitAnd => [KAmpersand] | OBitOr => [KBwOr] | OBitXor => [KBwXor; KLogicalXor] | OSpaceship => [KSpaceShip] | OSl => [KSl] | OSr => [KSr]
  end.
Definition op_items (o : op) : list item := match o with OConcat => [] | _ => [IKw (op_kinds o)] end.
(** the tokens of a compound assignment *)
Definition assign_kinds (o : op) : list kind :=
  match o with
  | OAdd => [KPlusEqual] | OSub => [KMinusEqual] | OMul => [KMulEqual] | OPow => [KPowEqual] | ODiv => [KDivEqual]
  | OConcat => [KConcatEqual] | OMod => [KModEqual] | OAnd => [KAndEqual] | OBitXor => [KXorEqual] | OSl => [KSlEqual] | OSr => [KSrEqual]
  | _ => []
  end.
Definition unary_items (o : unop) (l : list item) : list item :=
  match o with
  | UPositive => IKw [KPlus] :: l | UNegative => IKw [KMinus] :: l | UNot => IKw [KBoolNot] :: l | UBitNot => IKw [KBwNot] :: l
  | USilence => IKw [KSilence] :: l | UPreInc => IKw [KIncrement] :: l | UPreDec => IKw [KDecrement] :: l
  | UPostInc => l ++ [IKw [KIncrement]] | UPostDec => l ++ [IKw [KDecrement]]
  end.
Definition cast_kinds (t : ty) : list kind :=
  match t with
  | TyInt => [KCastInt] | TyDouble => [KCastDouble] | TyString => [KCastString] | TyArray => [KCastArray] | TyObject _ => [KCastObject]
  | TyBool => [KCastBool] | _ => []
  end.
Definition include_kind (t : include_ty) : kind :=
  match t with IInclude => KInclude | IIncludeOnce => KIncludeOnce | IRequire => KRequire | IRequireOnce => KRequireOnce end.
Definition const_items (c : constant) : list item :=
  match c with
  | CMagicClass => [IKw [KMagicClass]] | CMagicTrait => [IKw [KMagicTrait]] | CMagicFunction => [IKw [KMagicFunction]]
  | CMagicMethod => [IKw [KMagicMethod]] | CMagicLine => [IKw [KMagicLine]] | CMagicFile => [IKw [KMagicFile]]
  | CMagicDir => [IKw [KMagicDir]] | _ => []
  end.
Definition items_ty (t : ty) : list item :=
  match t with TyObject (Some p) => [IPath p] | TyArray => [IKw [KArray]] | TyCallable => [IKw [KCallable]] | _ => [] end.
Definition items_use (u : use_clause) : list item :=
  IPath (uc_path u) :: opt_items (fun s => [IKw [KAs]; IName s]) (uc_alias u).
Definition items_trait_use (u : trait_use) : list item :=
  match u with
  | TUInsteadOf p m names => [IPath p; IKw [KScopeOp]; IName m; IKw [KInsteadof]] ++ map IPath names
  | TUAs p m _ a => opt_items (fun p => [IPath p; IKw [KScopeOp]]) p ++ [IName m; IKw [KAs]] ++ opt_items (fun s => [IName s]) a
  end.

Fixpoint items_expr (e : expr) : list item :=
  match e with Ex n _ => items_expr_ n end
with items_expr_ (n : expr_) : list item :=
  match n with
  | EPath p => [IPath p]
  | EConst c => const_items c
  | EString s => text_items s
  | EBinString b => []
  | EInt z => [IInt z]
  | EDouble d => [IDouble d]
  | EArray l => flat_map (fun kv => match kv with (k, v) => opt_items (fun k => items_expr k ++ [IKw [KDoubleArrow]]) k ++ items_expr v end) l
  | EList l => IKw [KList] :: flat_map (fun kv => match kv with (k, v) => opt_items (fun k => items_expr k ++ [IKw [KDoubleArrow]]) k ++ items_expr v end) l
  | EVar v => items_variable v
  | ERef e => IKw [KAmpersand] :: items_expr e
  | EClone e => IKw [KClone] :: items_expr e
  | EEmpty e => IKw [KEmpty] :: items_expr e
  | EInclude t e => IKw [include_kind t] :: items_expr e
  | EUnpack e => IKw [KEllipsis] :: items_expr e
  | EUnary o e => unary_items o (items_expr e)
  | ECast t e => IKw (cast_kinds t) :: items_expr e
  | EIsset l => IKw [KIsset] :: flat_map items_expr l
  | EExit e => IKw [KExit] :: opt_items items_expr e
  | EYield e => IKw [KYield] :: opt_items items_expr e
  | EArrayIdx e l => items_expr e ++ flat_map (fun i => IKw [KSquareBracketOpen] :: opt_items items_expr i ++ [IKw [KSquareBracketClose]]) l
  | EObjMember e l => items_expr e ++ flat_map (fun m => IKw [KObjectOp] :: items_expr m) l
  | EStaticMember e l => items_expr e ++ flat_map (fun m => IKw [KScopeOp] :: items_expr m) l
  | ECall e l => items_expr e ++ IKw [KParenthesesOpen] :: flat_map items_expr l ++ [IKw [KParenthesesClose]]
  | ENew e l => IKw [KNew] :: items_expr e ++ flat_map items_expr l
  | EBinary o a b => items_expr a ++ op_items o ++ items_expr b
  | EInstanceOf a b => items_expr a ++ IKw [KInstanceOf] :: items_expr b
  | EAssign a b => items_expr a ++ IKw [KEqual] :: items_expr b
  | ECompound a o b => items_expr a ++ IKw (assign_kinds o) :: items_expr b
  | EAssignRef a b => items_expr a ++ IKw [KEqual] :: IKw [KAmpersand] :: items_expr b
  | EFunction d => IKw [KFunction] :: items_fundecl [] d
  | ETernary c t e => items_expr c ++ IKw [KQuestionMark] :: opt_items items_expr t ++ IKw [KColon] :: items_expr e
  end
with items_variable (v : variable) : list item :=
  match v with VName s => [IVar s] | VFetch e => IKw [KDollarCurlyBracesOpen] :: items_expr e end
(** [name] stands between the mark of a reference and the parameters *)
with items_fundecl (name : list item) (d : fundecl) : list item :=
  match d with
  | mkFun ps b u r =>
    flag r KAmpersand ++ name ++ IKw [KParenthesesOpen] :: flat_map items_param ps ++ IKw [KParenthesesClose] ::
    flat_map (fun u => match u with (ref, v) => flag ref KAmpersand ++ [IVar v] end) u ++
    opt_items (fun b => IKw [KCurlyBracesOpen] :: flat_map items_stmt b ++ [IKw [KCurlyBracesClose]]) b
  end
with items_param (p : param) : list item :=
  match p with mkParam n r v t d =>
    opt_items items_ty t ++ flag r KAmpersand ++ flag v KEllipsis ++ IVar n :: opt_items (fun e => IKw [KEqual] :: items_expr e) d end
with items_stmt (s : stmt) : list item :=
  match s with St n _ => items_stmt_ n end
with items_stmt_ (n : stmt_) : list item :=
  match n with
  | SNone => [IKw [KSemiColon]]
  | SBlock b => flat_map items_stmt b
  | SDecl d => items_decl d
  | SUse l => IKw [KUse] :: flat_map items_use l
  | SExpr e => items_expr e ++ [IKw [KSemiColon]]
  | SThrow e => IKw [KThrow] :: items_expr e ++ [IKw [KSemiColon]]
  | SEcho l => flat_map items_expr l ++ [IKw [KSemiColon]]
  | SUnset l => IKw [KUnset] :: flat_map items_expr l ++ [IKw [KSemiColon]]
  | SReturn e => IKw [KReturn] :: opt_items items_expr e ++ [IKw [KSemiColon]]
  | SBreak e => IKw [KBreak] :: opt_items items_expr e ++ [IKw [KSemiColon]]
  | SContinue e => IKw [KContinue] :: opt_items items_expr e ++ [IKw [KSemiColon]]
  | SIf c t e => IKw [KIf; KElseIf] :: items_expr c ++ flat_map items_stmt t ++ flat_map items_stmt e
  | SWhile c b => IKw [KWhile] :: items_expr c ++ flat_map items_stmt b
  | SDoWhile b c => IKw [KDo] :: flat_map items_stmt b ++ IKw [KWhile] :: items_expr c ++ [IKw [KSemiColon]]
  | SFor i c l b =>
    IKw [KFor] :: opt_items items_expr i ++ IKw [KSemiColon] :: opt_items items_expr c ++ IKw [KSemiColon] :: opt_items items_expr l ++ flat_map items_stmt b
  | SForEach e k v b =>
    IKw [KForeach] :: items_expr e ++ IKw [KAs] :: opt_items (fun k => items_expr k ++ [IKw [KDoubleArrow]]) k ++ items_expr v ++ flat_map items_stmt b
  | STry b c f => IKw [KTry] :: flat_map items_stmt b ++ flat_map items_catch c ++ opt_items (fun b => IKw [KFinally] :: flat_map items_stmt b) f
  | SSwitch e l => IKw [KSwitch] :: items_expr e ++ flat_map items_swcase l
  end
with items_decl (d : decl) : list item :=
  match d with
  | DNamespace p => [IKw [KNamespace]; IPath p]
  | DFunction n f => IKw [KFunction] :: items_fundecl [IName n] f
  | DClass m n b i l =>
    IKw [KClass] :: IName n :: opt_items (fun p => [IKw [KExtends]; IPath p]) b ++ map IPath i ++ flat_map items_member l
  | DInterface n i l => IKw [KInterface] :: IName n :: map IPath i ++ flat_map items_member l
  | DTrait n l => IKw [KTrait] :: IName n :: flat_map items_member l
  | DStaticVars l => IKw [KStatic] :: flat_map (fun x => match x with (v, e) => IVar v :: opt_items (fun e => IKw [KEqual] :: items_expr e) e end) l
  | DGlobalVars l => IKw [KGlobal] :: flat_map items_variable l
  end
with items_member (m : member) : list item :=
  match m with
  | MConst _ n e => IName n :: IKw [KEqual] :: items_expr e
  | MProp _ n e => IVar n :: opt_items (fun e => IKw [KEqual] :: items_expr e) e
  | MMethod _ n f => IKw [KFunction] :: items_fundecl [IName n] f
  | MTraitUse a b => IKw [KUse] :: map IPath a ++ flat_map items_trait_use b
  end
with items_catch (c : catch) : list item :=
  match c with mkCatch t v b => IKw [KCatch] :: IPath t :: IVar v :: flat_map items_stmt b end
with items_swcase (c : swcase) : list item :=
  match c with mkCase c d b => flat_map (fun e => IKw [KCase] :: items_expr e) c ++ flag d KDefault ++ flat_map items_stmt b end.
Definition items (l : list stmt) : list item := flat_map items_stmt l.

(** ** Words of a token sequence *)
(** a name is an identifier token or a keyword *)
Inductive word : token -> str -> Prop :=
| word_string s : word (TString s) s
| word_keyword k s : repr k = Some s -> word (Kw k) (s2l s).
(** the tokens of a qualified name, and the path they make *)
Fixpoint name_tokens (l : list str) : list token :=
  match l with [] => [] | [a] => [TString a] | a :: r => TString a :: Kw KNsSeparator :: name_tokens r end.
Fixpoint joined (l : list str) : str := match l with [] => [] | [a] => a | a :: r => a ++ s2l "\" ++ joined r end.
Inductive means : item -> list token -> Prop :=
| means_var s : means (IVar s) [TVariable s]
| means_braced t s : word t s -> means (IVar s) [Kw KDollarCurlyBracesOpen; t]
| means_name t s : word t s -> means (IName s) [t]
| means_word t s : word t s -> means (IPath (mkPath false None s)) [t]
| means_path (absolute : bool) ns z :
    means (IPath (mkPath absolute (match ns with [] => None | _ => Some (joined ns) end) z))
          ((if absolute then [Kw KNsSeparator] else []) ++ name_tokens (ns ++ [z]))
| means_text parts : parts <> [] -> means (IText (List.concat parts)) (map TCes parts)
| means_html s : means (IText s) [TInlineHtml s]
| means_int z : means (IInt z) [TInt z]
| means_double d : means (IDouble d) [TDouble d]
| means_kw k ks : In k ks -> means (IKw ks) [Kw k].
(** the items stand for tokens of the sequence: in the same order, no token twice;
    tokens may be left out *)
Inductive covers : list item -> list token -> Prop :=
| covers_end : covers [] []
| covers_skip t l ts : covers l ts -> covers l (t :: ts)
| covers_item i us l ts : means i us -> covers l ts -> covers (i :: l) (us ++ ts).

(** what the parser is shown of a token: no comments and tags; HTML is an echo statement *)
Definition shown (t : token) : list token :=
  match t with
  | TComment _ => []
  | TInlineHtml s => [Kw KEcho; TCes s; Kw KSemiColon]
  | Kw KOpenTag => []
  | Kw KCloseTag => []
  | Kw KOpenTagWithEcho => [Kw KEcho]
  | t => [t]
  end.
(** how often a number occurs *)
Definition int_items (z : Z) (l : list item) : nat :=
  List.length (List.filter (fun i => match i with IInt y => Z.eqb y z | _ => false end) l).
Definition int_tokens (z : Z) (l : list token) : nat :=
  List.length (List.filter (fun t => match t with TInt y => Z.eqb y z | _ => false end) l).
