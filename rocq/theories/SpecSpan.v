(** * SpecSpan: how the spans of a tree lie in each other (C45) *)
From Verif Require Import Base Tokens Ast.

(** ** The spans of a tree *)
(** a span with the spans of the parts, in the order of the source *)
Inductive region := Region (sp : span) (parts : list region).

Definition opt_regions {A} (f : A -> list region) (o : option A) : list region :=
  match o with Some a => f a | None => [] end.
(** [&$v] in a foreach: its span is the place in front of the variable, not around it *)
Fixpoint regions (e : expr) : list region :=
  match e with Ex n sp => Region sp (inside n) :: behind n end
with inside (n : expr_) : list region :=
  match n with
  | EPath _ | EConst _ | EString _ | EBinString _ | EInt _ | EDouble _ | EVar (VName _) | ERef _ => []
  | EArray l | EList l => flat_map (fun kv : option expr * expr => let (k, v) := kv in opt_regions regions k ++ regions v) l
  | EVar (VFetch e) | EClone e | EEmpty e | EInclude _ e | EUnpack e | EUnary _ e | ECast _ e => regions e
  | EIsset l => flat_map regions l
  | EExit o | EYield o => opt_regions regions o
  | EArrayIdx e l => regions e ++ flat_map (opt_regions regions) l
  | EObjMember e l | EStaticMember e l | ECall e l | ENew e l => regions e ++ flat_map regions l
  | EBinary _ a b | EInstanceOf a b | EAssign a b | ECompound a _ b | EAssignRef a b => regions a ++ regions b
  | EFunction d => function_regions d
  | ETernary c t e => regions c ++ opt_regions regions t ++ regions e
  end
with behind (n : expr_) : list region :=
  match n with ERef e => regions e | _ => [] end
with function_regions (d : fundecl) : list region :=
  match d with mkFun ps b _ _ => flat_map parameter_regions ps ++ opt_regions (flat_map statement_regions) b end
with parameter_regions (p : param) : list region :=
  match p with mkParam _ _ _ _ d => opt_regions regions d end
with statement_regions (s : stmt) : list region :=
  match s with St n sp => [Region sp (statement_inside n)] end
with statement_inside (n : stmt_) : list region :=
  match n with
  | SNone | SUse _ => []
  | SBlock b => flat_map statement_regions b
  | SDecl d => declaration_regions d
  | SExpr e | SThrow e => regions e
  | SEcho l | SUnset l => flat_map regions l
  | SReturn o | SBreak o | SContinue o => opt_regions regions o
  | SIf c t e => regions c ++ flat_map statement_regions t ++ flat_map statement_regions e
  | SWhile c b => regions c ++ flat_map statement_regions b
  | SDoWhile b c => flat_map statement_regions b ++ regions c
  | SFor i c l b => opt_regions regions i ++ opt_regions regions c ++ opt_regions regions l ++ flat_map statement_regions b
  | SForEach e k v b => regions e ++ opt_regions regions k ++ regions v ++ flat_map statement_regions b
  | STry b cs f => flat_map statement_regions b ++ flat_map catch_regions cs ++ opt_regions (flat_map statement_regions) f
  | SSwitch e l => regions e ++ flat_map case_regions l
  end
with declaration_regions (d : decl) : list region :=
  match d with
  | DNamespace _ => []
  | DFunction _ d => function_regions d
  | DClass _ _ _ _ l | DInterface _ _ l | DTrait _ l => flat_map member_regions l
  | DStaticVars l => flat_map (fun v : str * option expr => let (_, o) := v in opt_regions regions o) l
  | DGlobalVars l => flat_map (fun v => match v with VName _ => [] | VFetch e => regions e end) l
  end
with member_regions (m : member) : list region :=
  match m with
  | MConst _ _ e => regions e
  | MProp _ _ o => opt_regions regions o
  | MMethod _ _ d => function_regions d
  | MTraitUse _ _ => []
  end
with catch_regions (c : catch) : list region := match c with mkCatch _ _ b => flat_map statement_regions b end
with case_regions (c : swcase) : list region := match c with mkCase conds _ b => flat_map regions conds ++ flat_map statement_regions b end.

(** ** Order *)
(** from [lo] to [hi]: one behind the other, the parts of each of them inside of it *)
Inductive nested : nat -> nat -> list region -> Prop :=
| nested_none lo hi : lo <= hi -> nested lo hi []
| nested_some lo hi sp parts l :
    lo <= sp_start sp -> nested (sp_start sp) (sp_end sp) parts -> nested (sp_end sp) hi l ->
    nested lo hi (Region sp parts :: l).

(** tokens one behind the other; [\ ] and [&] are not empty *)
Definition fine (lo : nat) (t : token) (sp : span) : Prop :=
  lo <= sp_start sp /\ sp_start sp <= sp_end sp /\ (t = Kw KNsSeparator \/ t = Kw KAmpersand -> sp_start sp < sp_end sp).
Fixpoint in_line (lo : nat) (toks : list tokspan) : Prop :=
  match toks with
  | [] => True
  | (t, sp) :: r => fine lo t sp /\ in_line (sp_end sp) r
  end.
(** the same with strings that are one text: the text has the span of the whole string; other strings are empty *)
Definition opening (t : token) : bool := match t with Kw KDoubleQuote | Kw KBackquote | Kw KHereDocStart => true | _ => false end.
Inductive lined : nat -> list tokspan -> Prop :=
| lined_none lo : lined lo []
| lined_token lo t sp l : opening t = false -> fine lo t sp -> lined (sp_end sp) l -> lined lo ((t, sp) :: l)
| lined_empty lo op cl l :
    lo <= sp_start op -> sp_start op <= sp_end op -> sp_end op <= sp_end cl ->
    lined (sp_end cl) l -> lined lo ((Kw KDoubleQuote, op) :: (Kw KDoubleQuote, cl) :: l)
| lined_string lo k k' w op sp cl l :
    In (k, k') [(KDoubleQuote, KDoubleQuote); (KBackquote, KBackquote); (KHereDocStart, KHereDocEnd)] -> w <> [] ->
    lo <= sp_start op -> sp_start op <= sp_end op -> sp_end op <= sp_end sp -> sp_end sp <= sp_end cl ->
    lined (sp_end cl) l -> lined lo ((Kw k, op) :: (TCes w, sp) :: (Kw k', cl) :: l).
Fixpoint last_end (lo : nat) (toks : list tokspan) : nat :=
  match toks with [] => lo | (_, sp) :: r => last_end (sp_end sp) r end.

(** tokens whose spans begin and end where the token does, and strings that are one text, which has the start of the string *)
Definition plain (x : tokspan) : Prop :=
  match fst x with
  | TDouble _ | TInlineHtml _ | Kw KDoubleQuote | Kw KBackquote | Kw KHereDocStart | Kw KDollarCurlyBracesOpen | Kw KClone => False
  | TInt _ => sp_start (snd x) <= sp_end (snd x)
  | _ => True
  end.
Inductive spelled : list tokspan -> Prop :=
| spelled_none : spelled []
| spelled_token x l : plain x -> spelled l -> spelled (x :: l)
| spelled_string k k' w op sp cl l :
    In (k, k') [(KDoubleQuote, KDoubleQuote); (KBackquote, KBackquote); (KHereDocStart, KHereDocEnd)] -> w <> [] -> sp_start sp = sp_start op ->
    spelled l -> spelled ((Kw k, op) :: (TCes w, sp) :: (Kw k', cl) :: l).
