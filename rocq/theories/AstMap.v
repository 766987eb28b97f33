(** * AstMap: rewriting and collecting the leaves of a syntax tree

    Specification vocabulary: [map_*] applies functions to all spans, variable
    names, integers, doubles and string literals of a tree; [atoms_*] collects its
    leaves. *)
From Verif Require Import Base Tokens Ast.

(** what to do with each kind of leaf *)
Record maps := mkMaps {
  m_sp : span -> span; m_var : str -> str; m_int : Z -> Z; m_dbl : str -> str; m_str : str -> str }.

Fixpoint map_expr (f : maps) (e : expr) {struct e} : expr :=
  match e with Ex n sp => Ex (map_expr_ f n) (m_sp f sp) end
with map_expr_ (f : maps) (n : expr_) {struct n} : expr_ :=
  match n with
  | EPath p => EPath p
  | EConst c => EConst c
  | EString s => EString (m_str f s)
  | EBinString b => EBinString b
  | EInt z => EInt (m_int f z)
  | EDouble d => EDouble (m_dbl f d)
  | EArray l => EArray (map (fun kv => match kv with (k, v) => (option_map (map_expr f) k, map_expr f v) end) l)
  | EVar v => EVar (map_variable f v)
  | ERef e => ERef (map_expr f e)
  | EClone e => EClone (map_expr f e)
  | EIsset l => EIsset (map (map_expr f) l)
  | EEmpty e => EEmpty (map_expr f e)
  | EExit e => EExit (option_map (map_expr f) e)
  | EInclude t e => EInclude t (map_expr f e)
  | EArrayIdx e l => EArrayIdx (map_expr f e) (map (option_map (map_expr f)) l)
  | EObjMember e l => EObjMember (map_expr f e) (map (map_expr f) l)
  | EStaticMember e l => EStaticMember (map_expr f e) (map (map_expr f) l)
  | ECall e l => ECall (map_expr f e) (map (map_expr f) l)
  | ENew e l => ENew (map_expr f e) (map (map_expr f) l)
  | EUnpack e => EUnpack (map_expr f e)
  | EUnary o e => EUnary o (map_expr f e)
  | EBinary o a b => EBinary o (map_expr f a) (map_expr f b)
  | EInstanceOf a b => EInstanceOf (map_expr f a) (map_expr f b)
  | ECast t e => ECast t (map_expr f e)
  | EYield e => EYield (option_map (map_expr f) e)
  | EFunction d => EFunction (map_fundecl f d)
  | EAssign a b => EAssign (map_expr f a) (map_expr f b)
  | ECompound a o b => ECompound (map_expr f a) o (map_expr f b)
  | EAssignRef a b => EAssignRef (map_expr f a) (map_expr f b)
  | EList l => EList (map (fun kv => match kv with (k, v) => (option_map (map_expr f) k, map_expr f v) end) l)
  | ETernary c t e => ETernary (map_expr f c) (option_map (map_expr f) t) (map_expr f e)
  end
with map_variable (f : maps) (v : variable) {struct v} : variable :=
  match v with VName s => VName (m_var f s) | VFetch e => VFetch (map_expr f e) end
with map_fundecl (f : maps) (d : fundecl) {struct d} : fundecl :=
  match d with
  | mkFun ps b u r =>
    mkFun (map (map_param f) ps) (option_map (map (map_stmt f)) b)
      (map (fun u => match u with (ref, v) => (ref, m_var f v) end) u) r
  end
with map_param (f : maps) (p : param) {struct p} : param :=
  match p with mkParam n r v t d => mkParam (m_var f n) r v t (option_map (map_expr f) d) end
with map_stmt (f : maps) (s : stmt) {struct s} : stmt :=
  match s with St n sp => St (map_stmt_ f n) (m_sp f sp) end
with map_stmt_ (f : maps) (n : stmt_) {struct n} : stmt_ :=
  match n with
  | SNone => SNone
  | SBlock b => SBlock (map (map_stmt f) b)
  | SDecl d => SDecl (map_decl f d)
  | SUse l => SUse l
  | SExpr e => SExpr (map_expr f e)
  | SEcho l => SEcho (map (map_expr f) l)
  | SReturn e => SReturn (option_map (map_expr f) e)
  | SBreak e => SBreak (option_map (map_expr f) e)
  | SContinue e => SContinue (option_map (map_expr f) e)
  | SUnset l => SUnset (map (map_expr f) l)
  | SIf c t e => SIf (map_expr f c) (map (map_stmt f) t) (map (map_stmt f) e)
  | SWhile c b => SWhile (map_expr f c) (map (map_stmt f) b)
  | SDoWhile b c => SDoWhile (map (map_stmt f) b) (map_expr f c)
  | SFor i c l b => SFor (option_map (map_expr f) i) (option_map (map_expr f) c) (option_map (map_expr f) l) (map (map_stmt f) b)
  | SForEach e k v b => SForEach (map_expr f e) (option_map (map_expr f) k) (map_expr f v) (map (map_stmt f) b)
  | STry b c fi => STry (map (map_stmt f) b) (map (map_catch f) c) (option_map (map (map_stmt f)) fi)
  | SThrow e => SThrow (map_expr f e)
  | SSwitch e l => SSwitch (map_expr f e) (map (map_swcase f) l)
  end
with map_decl (f : maps) (d : decl) {struct d} : decl :=
  match d with
  | DNamespace p => DNamespace p
  | DFunction n fd => DFunction n (map_fundecl f fd)
  | DClass m n b i l => DClass m n b i (map (map_member f) l)
  | DInterface n i l => DInterface n i (map (map_member f) l)
  | DTrait n l => DTrait n (map (map_member f) l)
  | DStaticVars l => DStaticVars (map (fun x => match x with (v, e) => (m_var f v, option_map (map_expr f) e) end) l)
  | DGlobalVars l => DGlobalVars (map (map_variable f) l)
  end
with map_member (f : maps) (m : member) {struct m} : member :=
  match m with
  | MConst m n e => MConst m n (map_expr f e)
  | MProp m n e => MProp m (m_var f n) (option_map (map_expr f) e)
  | MMethod m n fd => MMethod m n (map_fundecl f fd)
  | MTraitUse a b => MTraitUse a b
  end
with map_catch (f : maps) (c : catch) {struct c} : catch :=
  match c with mkCatch t v b => mkCatch t (m_var f v) (map (map_stmt f) b) end
with map_swcase (f : maps) (c : swcase) {struct c} : swcase :=
  match c with mkCase c d b => mkCase (map (map_expr f) c) d (map (map_stmt f) b) end.

(** Forget the positions. *)
Definition no_spans : maps := mkMaps (fun _ => span_new) id id id id.
Definition strip_expr : expr -> expr := map_expr no_spans.
Definition strip_stmt : stmt -> stmt := map_stmt no_spans.
Definition strip (l : list stmt) : list stmt := map strip_stmt l.

(** The leaves of a tree. *)
Inductive atom :=
| ASpan (sp : span)
| AVarName (s : str)          (* names of variables, parameters, properties, ... *)
| AIdent (s : str)            (* names of functions, classes, methods, constants, aliases *)
| APath (p : path)            (* (qualified) names *)
| AStr (s : str)
| ABin (b : bytes)
| AInt (z : Z)
| ADouble (d : str)
| ACast (t : ty).

Definition opt_atoms {A} (f : A -> list atom) (o : option A) : list atom :=
  match o with Some a => f a | None => [] end.
Definition atoms_ty (t : ty) : list atom :=
  match t with TyObject (Some p) => [APath p] | _ => [] end.
Definition atoms_use (u : use_clause) : list atom :=
  APath (uc_path u) :: opt_atoms (fun s => [AIdent s]) (uc_alias u).
Definition atoms_trait_use (u : trait_use) : list atom :=
  match u with
  | TUInsteadOf p m names => APath p :: AIdent m :: flat_map (fun p => [APath p]) names
  | TUAs p m _ a => opt_atoms (fun p => [APath p]) p ++ AIdent m :: opt_atoms (fun s => [AIdent s]) a
  end.

Fixpoint atoms_expr (e : expr) : list atom :=
  match e with Ex n sp => ASpan sp :: atoms_expr_ n end
with atoms_expr_ (n : expr_) : list atom :=
  match n with
  | EPath p => [APath p]
  | EConst c => []
  | EString s => [AStr s]
  | EBinString b => [ABin b]
  | EInt z => [AInt z]
  | EDouble d => [ADouble d]
  | EArray l | EList l =>
    flat_map (fun kv => match kv with (k, v) => opt_atoms atoms_expr k ++ atoms_expr v end) l
  | EVar v => atoms_variable v
  | ERef e | EClone e | EEmpty e | EInclude _ e | EUnpack e | EUnary _ e => atoms_expr e
  | ECast t e => ACast t :: atoms_expr e
  | EIsset l => flat_map atoms_expr l
  | EExit e | EYield e => opt_atoms atoms_expr e
  | EArrayIdx e l => atoms_expr e ++ flat_map (opt_atoms atoms_expr) l
  | EObjMember e l | EStaticMember e l | ECall e l | ENew e l => atoms_expr e ++ flat_map atoms_expr l
  | EBinary _ a b | EInstanceOf a b | EAssign a b | ECompound a _ b | EAssignRef a b => atoms_expr a ++ atoms_expr b
  | EFunction d => atoms_fundecl d
  | ETernary c t e => atoms_expr c ++ opt_atoms atoms_expr t ++ atoms_expr e
  end
with atoms_variable (v : variable) : list atom :=
  match v with VName s => [AVarName s] | VFetch e => atoms_expr e end
with atoms_fundecl (d : fundecl) : list atom :=
  match d with
  | mkFun ps b u r =>
    flat_map atoms_param ps ++ opt_atoms (flat_map atoms_stmt) b ++
    flat_map (fun u => match u with (ref, v) => [AVarName v] end) u
  end
with atoms_param (p : param) : list atom :=
  match p with mkParam n r v t d => AVarName n :: opt_atoms atoms_ty t ++ opt_atoms atoms_expr d end
with atoms_stmt (s : stmt) : list atom :=
  match s with St n sp => ASpan sp :: atoms_stmt_ n end
with atoms_stmt_ (n : stmt_) : list atom :=
  match n with
  | SNone => []
  | SBlock b => flat_map atoms_stmt b
  | SDecl d => atoms_decl d
  | SUse l => flat_map atoms_use l
  | SExpr e | SThrow e => atoms_expr e
  | SEcho l | SUnset l => flat_map atoms_expr l
  | SReturn e | SBreak e | SContinue e => opt_atoms atoms_expr e
  | SIf c t e => atoms_expr c ++ flat_map atoms_stmt t ++ flat_map atoms_stmt e
  | SWhile c b => atoms_expr c ++ flat_map atoms_stmt b
  | SDoWhile b c => flat_map atoms_stmt b ++ atoms_expr c
  | SFor i c l b =>
    opt_atoms atoms_expr i ++ opt_atoms atoms_expr c ++ opt_atoms atoms_expr l ++ flat_map atoms_stmt b
  | SForEach e k v b => atoms_expr e ++ opt_atoms atoms_expr k ++ atoms_expr v ++ flat_map atoms_stmt b
  | STry b c f => flat_map atoms_stmt b ++ flat_map atoms_catch c ++ opt_atoms (flat_map atoms_stmt) f
  | SSwitch e l => atoms_expr e ++ flat_map atoms_swcase l
  end
with atoms_decl (d : decl) : list atom :=
  match d with
  | DNamespace p => [APath p]
  | DFunction n f => AIdent n :: atoms_fundecl f
  | DClass m n b i l => AIdent n :: opt_atoms (fun p => [APath p]) b ++ flat_map (fun p => [APath p]) i ++ flat_map atoms_member l
  | DInterface n i l => AIdent n :: flat_map (fun p => [APath p]) i ++ flat_map atoms_member l
  | DTrait n l => AIdent n :: flat_map atoms_member l
  | DStaticVars l => flat_map (fun x => match x with (v, e) => AVarName v :: opt_atoms atoms_expr e end) l
  | DGlobalVars l => flat_map atoms_variable l
  end
with atoms_member (m : member) : list atom :=
  match m with
  | MConst _ n e => AIdent n :: atoms_expr e
  | MProp _ n e => AVarName n :: opt_atoms atoms_expr e
  | MMethod _ n f => AIdent n :: atoms_fundecl f
  | MTraitUse a b => flat_map (fun p => [APath p]) a ++ flat_map atoms_trait_use b
  end
with atoms_catch (c : catch) : list atom :=
  match c with mkCatch t v b => APath t :: AVarName v :: flat_map atoms_stmt b end
with atoms_swcase (c : swcase) : list atom :=
  match c with mkCase c d b => flat_map atoms_expr c ++ flat_map atoms_stmt b end.
Definition atoms (l : list stmt) : list atom := flat_map atoms_stmt l.
