(** * Ast: src/ast.rs

    [RcStr] is its contents, [Box] disappears, [Vec] is [list], [Block] is the
    list of its statements.  Doubles keep their literal text. *)
From Verif Require Import Base Tokens.

(** src/ast.rs:18-24 [Path]. *)
Record path := mkPath { is_absolute : bool; namespace : option str; identifier : str }.
(** src/ast.rs:27-33 [Path::identifier]. *)
Definition path_identifier (absolute : bool) (name : str) : path := mkPath absolute None name.
(** src/ast.rs:35-41 [Path::ns_identifier]. *)
Definition path_ns_identifier (absolute : bool) (ns name : str) : path := mkPath absolute (Some ns) name.

(** src/ast.rs:11-16 [UseClause] (single variant). *)
Record use_clause := QualifiedName { uc_path : path; uc_alias : option str }.

(** src/ast.rs:45-77 [Op]. *)
Inductive op :=
| OConcat | OAdd | OSub | OMul | ODiv | OPow | OMod | OOr | OAnd | OIdentical | ONotIdentical
| OEq | ONeq | OLt | OGt | OLe | OGe | OBitAnd | OBitOr | OBitXor | OSpaceship | OSl | OSr.

(** src/ast.rs:79-92 [UnaryOp]. *)
Inductive unop :=
| UPositive | UNegative | UNot | UPreInc | UPreDec | UPostInc | UPostDec | UBitNot | USilence.

(** src/ast.rs:102-106 [ClassModifier] with its discriminants. *)
Inductive class_modifier := CAbstract | CFinal.
Definition cm_bit (m : class_modifier) : N := match m with CAbstract => 1 | CFinal => 2 end%N.
(** src/ast.rs:108-128 [ClassModifiers(u8)]. *)
Definition class_modifiers := N.
Definition class_modifiers_new (ms : list class_modifier) : class_modifiers :=
  fold_left (fun f m => N.lor f (cm_bit m)) ms 0%N.
Definition class_modifiers_has (c : class_modifiers) (m : class_modifier) : bool :=
  negb (N.land c (cm_bit m) =? 0)%N.

(** src/ast.rs:132-140 [MemberModifier] with its discriminants. *)
Inductive member_modifier := MPublic | MProtected | MPrivate | MStatic | MAbstract | MFinal.
Definition mm_bit (m : member_modifier) : N :=
  match m with
  | MPublic => 1 | MProtected => 2 | MPrivate => 4 | MStatic => 8 | MAbstract => 16 | MFinal => 32
  end%N.
(** src/ast.rs:141-160 [MemberModifiers(u8)]. *)
Definition member_modifiers := N.
Definition member_modifiers_none : member_modifiers := 0%N.
Definition member_modifiers_new (ms : list member_modifier) : member_modifiers :=
  fold_left (fun f m => N.lor f (mm_bit m)) ms 0%N.
Definition member_modifiers_has (c : member_modifiers) (m : member_modifier) : bool :=
  negb (N.land c (mm_bit m) =? 0)%N.

(** src/ast.rs:274-284 [Ty]. *)
Inductive ty :=
| TyArray | TyCallable | TyBool | TyFloat | TyInt | TyDouble | TyString | TyObject (p : option path).

(** src/ast.rs:286-303 [Const]. *)
Inductive constant :=
| CNull | CTrue | CFalse | CMagicClass | CMagicTrait | CMagicFunction | CMagicMethod | CMagicLine
| CMagicFile | CMagicDir | CMagicNamespace.

(** src/ast.rs:308-314 [IncludeTy]. *)
Inductive include_ty := IInclude | IIncludeOnce | IRequire | IRequireOnce.

(** src/ast.rs:316-320 [TraitUse]. *)
Inductive trait_use :=
| TUInsteadOf (p : path) (m : str) (names : list path)
| TUAs (p : option path) (m : str) (mods : member_modifiers) (alias : option str).

(** src/ast.rs:162-272 and 322-385: the mutually recursive part. *)
Inductive expr := Ex (e : expr_) (sp : span)
with expr_ :=
| EPath (p : path)
| EConst (c : constant)
| EString (s : str)
| EBinString (b : bytes)
| EInt (z : Z)
| EDouble (lit : str)
| EArray (l : list (option expr * expr))
| EVar (v : variable)
| ERef (e : expr)
| EClone (e : expr)
| EIsset (l : list expr)
| EEmpty (e : expr)
| EExit (e : option expr)
| EInclude (t : include_ty) (e : expr)
| EArrayIdx (e : expr) (l : list (option expr))
| EObjMember (e : expr) (l : list expr)
| EStaticMember (e : expr) (l : list expr)
| ECall (e : expr) (l : list expr)
| ENew (e : expr) (l : list expr)
| EUnpack (e : expr)
| EUnary (o : unop) (e : expr)
| EBinary (o : op) (a b : expr)
| EInstanceOf (a b : expr)
| ECast (t : ty) (e : expr)
| EYield (e : option expr)
| EFunction (d : fundecl)
| EAssign (a b : expr)
| ECompound (a : expr) (o : op) (b : expr)
| EAssignRef (a b : expr)
| EList (l : list (option expr * expr))
| ETernary (c : expr) (t : option expr) (e : expr)
with variable :=
| VName (s : str)
| VFetch (e : expr)
with fundecl :=
| mkFun (params : list param) (body : option (list stmt)) (usev : list (bool * str)) (ret_ref : bool)
with param :=
| mkParam (name : str) (as_ref variadic : bool) (t : option ty) (default : option expr)
with stmt := St (s : stmt_) (sp : span)
with stmt_ :=
| SNone
| SBlock (b : list stmt)
| SDecl (d : decl)
| SUse (l : list use_clause)
| SExpr (e : expr)
| SEcho (l : list expr)
| SReturn (e : option expr)
| SBreak (e : option expr)
| SContinue (e : option expr)
| SUnset (l : list expr)
| SIf (c : expr) (t e : list stmt)
| SWhile (c : expr) (b : list stmt)
| SDoWhile (b : list stmt) (c : expr)
| SFor (i c l : option expr) (b : list stmt)
| SForEach (e : expr) (k : option expr) (v : expr) (b : list stmt)
| STry (b : list stmt) (c : list catch) (f : option (list stmt))
| SThrow (e : expr)
| SSwitch (e : expr) (l : list swcase)
with decl :=
| DNamespace (p : path)
| DFunction (name : str) (d : fundecl)
| DClass (m : class_modifiers) (name : str) (base : option path) (ifaces : list path) (l : list member)
| DInterface (name : str) (ifaces : list path) (l : list member)
| DTrait (name : str) (l : list member)
| DStaticVars (l : list (str * option expr))
| DGlobalVars (l : list variable)
with member :=
| MConst (m : member_modifiers) (name : str) (e : expr)
| MProp (m : member_modifiers) (name : str) (e : option expr)
| MMethod (m : member_modifiers) (name : str) (d : fundecl)
| MTraitUse (names : list path) (uses : list trait_use)
with catch := mkCatch (t : path) (v : str) (b : list stmt)
with swcase := mkCase (conds : list expr) (default : bool) (b : list stmt).

(** [Expr.1] / [Stmt.1] and [Expr.0]. *)
Definition espan (e : expr) : span := match e with Ex _ s => s end.
Definition enode (e : expr) : expr_ := match e with Ex n _ => n end.
Definition sspan (s : stmt) : span := match s with St _ sp => sp end.
Definition snode (s : stmt) : stmt_ := match s with St n _ => n end.
Definition estart (e : expr) : nat := sp_start (espan e).
Definition eend (e : expr) : nat := sp_end (espan e).
