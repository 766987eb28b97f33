(** * Printer: src/printer.rs

    A printing method is a function from the indentation to the pieces it writes,
    in order; [Boom] is an [unimplemented!()].  The target is a [String], whose
    [write!] never fails, so the [fmt::Result]s are dropped.  [show_f64] is Rust's
    [Display] for the [f64] a literal denotes; it is a parameter. *)
From Verif Require Import Base Tokens Ast.
From Coq Require Import String.
From Coq Require Decimal.

Inductive piece := Txt (s : str) | Boom.
Definition out := list piece.

Definition t (s : string) : out := [Txt (s2l s)].
Arguments t s%string.
Definition w (s : str) : out := [Txt s].

(** What is in the target at the end; [None] if a panic happened on the way. *)
Fixpoint render (o : out) : option str :=
  match o with
  | [] => Some []
  | Txt s :: r => match render r with Some x => Some (s ++ x) | None => None end
  | Boom :: _ => None
  end.

(** src/printer.rs:35-40 [write_indented]: the indentation. *)
Fixpoint indent (n : nat) : out := match n with O => [] | S m => t "    " ++ indent m end.
(** src/printer.rs:30-33 [writeln]. *)
Definition writeln (n : nat) (s : string) : out := indent n ++ t s ++ [Txt [10%N]].
Definition nl : out := [Txt [10%N]].

(** The loops [for (i, x) in ...enumerate() { if i > 0 { write(sep) } ... }]. *)
Fixpoint sep_by (sep : out) (l : list out) : out :=
  match l with
  | [] => []
  | [a] => a
  | a :: r => a ++ sep ++ sep_by sep r
  end.

(** src/printer.rs:753-764 [Display for Path]. *)
Definition pr_path (p : path) : out :=
  (if is_absolute p then t "\" else []) ++
  (match namespace p with Some ns => w ns ++ t "\" | None => [] end) ++
  w (identifier p).

(** src/printer.rs:767-785 [Display for Ty]. *)
Definition pr_ty (x : ty) : out :=
  match x with
  | TyArray => t "array" | TyCallable => t "callable" | TyBool => t "bool" | TyFloat => t "float"
  | TyInt => t "int" | TyDouble => t "double" | TyString => t "string"
  | TyObject None => t "object"
  | TyObject (Some p) => pr_path p
  end.

(** src/printer.rs:787-803 [Display for Const], through [Token::repr]. *)
Definition pr_const (c : constant) : out :=
  let r k := match repr k with Some s => t s | None => [Boom] end in
  match c with
  | CNull => t "null" | CTrue => t "true" | CFalse => t "false"
  | CMagicClass => r KMagicClass | CMagicTrait => r KMagicTrait | CMagicFunction => r KMagicFunction
  | CMagicMethod => r KMagicMethod | CMagicLine => r KMagicLine | CMagicFile => r KMagicFile
  | CMagicDir => r KMagicDir | CMagicNamespace => r KMagicNamespace
  end.

(** src/printer.rs:686-715 [Display for Op]. *)
Definition op_str (o : op) : string :=
  match o with
  | OConcat => "." | OAdd => "+" | OSub => "-" | OMul => "*" | ODiv => "/" | OPow => "**" | OMod => "%"
  | OOr => "||" | OAnd => "&&" | OIdentical => "===" | ONotIdentical => "!==" | OEq => "==" | ONeq => "!="
  | OLt => "<" | OGt => ">" | OLe => "<=" | OGe => ">=" | OBitAnd => "&" | OBitOr => "|" | OBitXor => "^"
  | OSpaceship => "<=>" | OSl => "<<" | OSr => ">>"
  end%string.

(** src/printer.rs:717-727 [Display for ClassModifiers]. *)
Definition pr_cmods (m : class_modifiers) : out :=
  (if class_modifiers_has m CAbstract then t "abstract " else []) ++
  (if class_modifiers_has m CFinal then t "final " else []).

(** src/printer.rs:729-751 [Display for MemberModifiers]. *)
Definition pr_mmods (m : member_modifiers) : out :=
  (if member_modifiers_has m MPublic then t "public " else []) ++
  (if member_modifiers_has m MProtected then t "protected " else []) ++
  (if member_modifiers_has m MPrivate then t "private " else []) ++
  (if member_modifiers_has m MStatic then t "static " else []) ++
  (if member_modifiers_has m MAbstract then t "abstract " else []) ++
  (if member_modifiers_has m MFinal then t "final " else []).

(** Rust's [Display for i64]: decimal digits with a minus sign. *)
Fixpoint uint_str (d : Decimal.uint) : str :=
  match d with
  | Decimal.Nil => []
  | Decimal.D0 d => 48%N :: uint_str d | Decimal.D1 d => 49%N :: uint_str d | Decimal.D2 d => 50%N :: uint_str d
  | Decimal.D3 d => 51%N :: uint_str d | Decimal.D4 d => 52%N :: uint_str d | Decimal.D5 d => 53%N :: uint_str d
  | Decimal.D6 d => 54%N :: uint_str d | Decimal.D7 d => 55%N :: uint_str d | Decimal.D8 d => 56%N :: uint_str d
  | Decimal.D9 d => 57%N :: uint_str d
  end.
Definition show_N (n : N) : str := uint_str (N.to_uint n).
Definition show_Z (z : Z) : str :=
  match z with
  | Z0 => show_N 0
  | Zpos p => show_N (Npos p)
  | Zneg p => 45%N :: show_N (Npos p)
  end.

(** src/printer.rs:489: [replace("\\'", "\\\\'")]. *)
Fixpoint escape_bs_quote (s : str) : str :=
  match s with
  | 92%N :: (39%N :: r) => 92%N :: 92%N :: 39%N :: escape_bs_quote r
  | c :: r => c :: escape_bs_quote r
  | [] => []
  end.
(** src/printer.rs:489: [replace('\'', "\\'")]. *)
Fixpoint escape_quote (s : str) : str :=
  match s with
  | [] => []
  | c :: r => if (c =? 39)%N then 92%N :: 39%N :: escape_quote r else c :: escape_quote r
  end.
Definition ends_with_bs (s : str) : bool := match rev s with c :: _ => (c =? 92)%N | [] => false end.
(** src/printer.rs:488-495: a string literal. *)
Definition pr_string (s : str) : out :=
  let o := escape_quote (escape_bs_quote s) in
  t "'" ++ w o ++ (if ends_with_bs o then t "\" else []) ++ t "'".

(** src/printer.rs:448-459: the expressions that get parentheses. *)
Definition wraps (e : expr_) : bool :=
  match e with
  | EBinary _ _ _ | EUnary _ _ | EArrayIdx _ _ | EObjMember _ _ | EStaticMember _ _ | ECall _ _
  | ENew _ _ | EAssign _ _ | ETernary _ _ _ => true
  | _ => false
  end.
(** src/printer.rs:441-473 [print_expression_curly_parens], [print_expression_parens];
    [o] is the printed expression. *)
Definition curly_parens (curly : bool) (e : expr) (o : out) : out :=
  if wraps (enode e) then
    t (if curly then "{" else "(") ++ o ++ t (if curly then "}" else ")")
  else o.
Definition parens (e : expr) (o : out) : out := curly_parens false e o.

(** src/printer.rs:594-604: the prefix of a unary operator and whether its operand
    may be parenthesized. *)
Definition unop_prefix (o : unop) : string * bool :=
  match o with
  | UPositive => ("+", true) | UNegative => ("-", true) | UNot => ("!", true)
  | UPreInc => ("++", false) | UPreDec => ("--", false) | UPostInc | UPostDec => ("", false)
  | UBitNot => ("~", true) | USilence => ("@", true)
  end%string.
(** src/printer.rs:611-615. *)
Definition unop_suffix (o : unop) : out :=
  match o with UPostInc => t "++" | UPostDec => t "--" | _ => [] end.
(** src/printer.rs:630-640: the type name of a cast. *)
Definition cast_str (x : ty) : out :=
  match x with
  | TyArray => t "array" | TyCallable => t "callable" | TyBool => t "bool" | TyFloat => t "float"
  | TyInt => t "int" | TyDouble => t "double" | TyString => t "string"
  | TyObject None => t "object"
  | TyObject (Some _) => [Boom]
  end.
(** src/printer.rs:540-545. *)
Definition include_str (i : include_ty) : out :=
  match i with
  | IRequire => t "require" | IRequireOnce => t "require_once"
  | IInclude => t "include" | IIncludeOnce => t "include_once"
  end.

(** src/printer.rs:188-208: one trait adaptation. *)
Definition pr_trait_use (u : trait_use) : out :=
  match u with
  | TUAs p m mods alias =>
    (match p with Some p => pr_path p ++ t "::" | None => [] end) ++
    w m ++ t " as " ++ pr_mmods mods ++ t " " ++
    (match alias with Some a => w a | None => [] end)
  | TUInsteadOf p m names =>
    pr_path p ++ t "::" ++ w m ++ t " insteadof " ++ sep_by (t ", ") (map pr_path names)
  end.

(** src/printer.rs:280-295 [print_use]. *)
Definition pr_use (n : nat) (l : list use_clause) : out :=
  flat_map (fun c =>
    indent n ++ t "use " ++ pr_path (uc_path c) ++
    (match uc_alias c with Some a => t " as " ++ w a | None => [] end) ++
    t ";" ++ nl) l.

(** src/printer.rs:485-683 [print_expression] on [Expr] and its node,
    475-483 [print_variable], 229-278 [print_function], 297-432 [print_statement],
    67-145 [print_decl], 147-217 [print_member], with 219-227 [print_block],
    46-54 [print_argument_list], 56-65 [print_member_body] and
    434-439 [print_opt_expression] written out. *)
Fixpoint pr_expr (show_f64 : str -> str) (n : nat) (e : expr) {struct e} : out :=
  match e with Ex x _ => pr_expr_ show_f64 n x end
with pr_expr_ (show_f64 : str -> str) (n : nat) (x : expr_) {struct x} : out :=
  let pairs l := sep_by (t ", ") (map (fun kv : option expr * expr =>
        match kv with
        | (Some k, v) => pr_expr show_f64 n k ++ t " => " ++ pr_expr show_f64 n v
        | (None, v) => pr_expr show_f64 n v
        end) l) in
  let args l := sep_by (t ", ") (map (pr_expr show_f64 n) l) in
  let opt (o : option expr) := match o with Some e => pr_expr show_f64 n e | None => [] end in
  match x with
  | EPath p => pr_path p
  | EString s => pr_string s
  | EBinString _ => [Boom]
  | EInt z => w (show_Z z)
  | EDouble d => w (show_f64 d)
  | EArray l => t "[" ++ pairs l ++ t "]"
  | EConst c => pr_const c
  | EVar v => pr_var show_f64 n v
  | ERef e => t "&" ++ pr_expr show_f64 n e
  | EIsset l => t "isset(" ++ args l ++ t ")"
  | EEmpty e => t "empty(" ++ pr_expr show_f64 n e ++ t ")"
  | EExit o => t "exit(" ++ opt o ++ t ")"
  | EClone e => t "clone " ++ pr_expr show_f64 n e
  | EInclude i e => include_str i ++ t " " ++ pr_expr show_f64 n e
  | EArrayIdx b l =>
    parens b (pr_expr show_f64 n b) ++ flat_map (fun i : option expr => t "[" ++ opt i ++ t "]") l
  | EObjMember b l =>
    parens b (pr_expr show_f64 n b) ++ flat_map (fun i => t "->" ++ curly_parens true i (pr_expr show_f64 n i)) l
  | EStaticMember b l =>
    parens b (pr_expr show_f64 n b) ++ flat_map (fun i => t "::" ++ parens i (pr_expr show_f64 n i)) l
  | ECall b l => pr_expr show_f64 n b ++ t "(" ++ args l ++ t ")"
  | ENew b l => t "new " ++ pr_expr show_f64 n b ++ t "(" ++ args l ++ t ")"
  | EUnpack e => t "..." ++ pr_expr show_f64 n e
  | EUnary o e =>
    t (fst (unop_prefix o)) ++
    (if snd (unop_prefix o) then parens e (pr_expr show_f64 n e) else pr_expr show_f64 n e) ++
    unop_suffix o
  | EBinary o a b => parens a (pr_expr show_f64 n a) ++ t (op_str o) ++ parens b (pr_expr show_f64 n b)
  | EInstanceOf a b => pr_expr show_f64 n a ++ t " instanceof " ++ pr_expr show_f64 n b
  | ECast ct e => t "(" ++ cast_str ct ++ t ")(" ++ pr_expr show_f64 n e ++ t ")"
  | EYield o => t "yield " ++ opt o
  | EFunction d => pr_fun show_f64 n None d
  | EAssign a b => pr_expr show_f64 n a ++ t "=" ++ pr_expr show_f64 n b
  | ECompound a o b => pr_expr show_f64 n a ++ t (op_str o) ++ t "=" ++ pr_expr show_f64 n b
  | EAssignRef a b => pr_expr show_f64 n a ++ t "=&" ++ pr_expr show_f64 n b
  | EList l => t "list(" ++ pairs l ++ t ")"
  | ETernary c th el =>
    parens c (pr_expr show_f64 n c) ++ t "?" ++
    (match th with Some e => parens e (pr_expr show_f64 n e) | None => [] end) ++
    t ":" ++ parens el (pr_expr show_f64 n el)
  end
with pr_var (show_f64 : str -> str) (n : nat) (v : variable) {struct v} : out :=
  match v with
  | VName s => t "$" ++ w s
  | VFetch e => t "$" ++ curly_parens true e (pr_expr show_f64 n e)
  end
with pr_fun (show_f64 : str -> str) (n : nat) (name : option str) (d : fundecl) {struct d} : out :=
  match d with
  | mkFun ps body usev ret_ref =>
    t "function " ++ (if ret_ref then t "&" else []) ++
    (match name with Some s => w s | None => [] end) ++
    t "(" ++ sep_by (t ",") (map (pr_param show_f64 n) ps) ++ t ") " ++
    (match usev with
     | [] => []
     | _ => t "use (" ++
            sep_by (t ", ") (map (fun u : bool * str => (if fst u then t "&" else []) ++ t "$" ++ w (snd u)) usev) ++
            t ") "
     end) ++
    (match body with
     | Some b => t "{" ++ nl ++ flat_map (pr_stmt show_f64 (S n)) b ++ indent n ++ t "}" ++ nl
     | None => t ";"
     end)
  end
with pr_param (show_f64 : str -> str) (n : nat) (p : param) {struct p} : out :=
  match p with
  | mkParam name as_ref variadic x default =>
    (match x with Some x => pr_ty x ++ t " " | None => [] end) ++
    (if as_ref then t "&" else []) ++ (if variadic then t "..." else []) ++
    t "$" ++ w name ++
    (match default with Some e => t "=" ++ pr_expr show_f64 n e | None => [] end)
  end
with pr_stmt (show_f64 : str -> str) (n : nat) (s : stmt) {struct s} : out :=
  match s with St x _ => pr_stmt_ show_f64 n x end
with pr_stmt_ (show_f64 : str -> str) (n : nat) (x : stmt_) {struct x} : out :=
  let args l := sep_by (t ", ") (map (pr_expr show_f64 n) l) in
  let opt (o : option expr) := match o with Some e => pr_expr show_f64 n e | None => [] end in
  let optarg (o : option expr) := match o with Some e => t " " ++ pr_expr show_f64 n e | None => [] end in
  let block b := t "{" ++ nl ++ flat_map (pr_stmt show_f64 (S n)) b ++ indent n ++ t "}" ++ nl in
  match x with
  | SNone => writeln n ";"
  | SBlock b =>
    indent n ++ t "{" ++ nl ++ nl ++ flat_map (pr_stmt show_f64 (S n)) b ++ indent n ++ t "}" ++ nl ++ nl
  | SDecl d => pr_decl show_f64 n d
  | SUse l => pr_use n l
  | SExpr e => indent n ++ pr_expr show_f64 n e ++ t ";" ++ nl
  | SEcho l => indent n ++ t "echo " ++ args l ++ t ";" ++ nl
  | SReturn o => indent n ++ t "return" ++ optarg o ++ t ";" ++ nl
  | SBreak o => indent n ++ t "break" ++ optarg o ++ t ";" ++ nl
  | SContinue o => indent n ++ t "continue" ++ optarg o ++ t ";" ++ nl
  | SUnset l => indent n ++ t "unset(" ++ args l ++ t ");" ++ nl
  | SIf c th el =>
    indent n ++ t "if (" ++ pr_expr show_f64 n c ++ t ") " ++ block th ++
    (match el with [] => [] | _ => indent n ++ t "else " ++ block el end)
  | SWhile c b => indent n ++ t "while (" ++ pr_expr show_f64 n c ++ t ") " ++ block b
  | SDoWhile b c => indent n ++ t "do " ++ block b ++ t "while (" ++ pr_expr show_f64 n c ++ t ");" ++ nl
  | SFor i l c b =>
    indent n ++ t "for (" ++ opt i ++ t "; " ++ opt l ++ t ";" ++ opt c ++ t ") " ++ block b
  | SForEach e k v b =>
    indent n ++ t "foreach (" ++ pr_expr show_f64 n e ++ t " as " ++
    (match k with Some k => pr_expr show_f64 n k ++ t " => " | None => [] end) ++
    pr_expr show_f64 n v ++ t ") " ++ block b
  | STry b cs f =>
    indent n ++ t "try " ++ block b ++ flat_map (pr_catch show_f64 n) cs ++
    (match f with Some b => t "finally " ++ block b | None => [] end)
  | SThrow e => indent n ++ t "throw " ++ pr_expr show_f64 n e ++ t ";" ++ nl
  | SSwitch e l =>
    indent n ++ t "switch (" ++ pr_expr show_f64 n e ++ t ") {" ++ nl ++ flat_map (pr_case show_f64 n) l ++ t "}" ++ nl
  end
with pr_catch (show_f64 : str -> str) (n : nat) (c : catch) {struct c} : out :=
  match c with
  | mkCatch x v b =>
    t "catch (" ++ pr_path x ++ t " $" ++ w v ++ t ") " ++
    t "{" ++ nl ++ flat_map (pr_stmt show_f64 (S n)) b ++ indent n ++ t "}" ++ nl
  end
with pr_case (show_f64 : str -> str) (n : nat) (c : swcase) {struct c} : out :=
  match c with
  | mkCase conds default b =>
    flat_map (fun e => indent (S n) ++ t "case " ++ pr_expr show_f64 (S n) e ++ t ":" ++ nl) conds ++
    (if default then t "default:" ++ nl else []) ++
    flat_map (pr_stmt show_f64 (S (S n))) b
  end
with pr_decl (show_f64 : str -> str) (n : nat) (d : decl) {struct d} : out :=
  let body l := t " {" ++ nl ++ flat_map (fun m => pr_member show_f64 (S n) m ++ nl) l ++ indent n ++ t "}" in
  match d with
  | DNamespace p => indent n ++ t "namespace " ++ pr_path p ++ t ";" ++ nl
  | DFunction name d => indent n ++ pr_fun show_f64 n (Some name) d
  | DClass m name base ifaces l =>
    indent n ++ pr_cmods m ++ t "class " ++ w name ++ t " " ++
    (match base with Some b => t "extends " ++ pr_path b ++ t " " | None => [] end) ++
    (match ifaces with [] => [] | _ => t "implements " ++ sep_by (t ", ") (map pr_path ifaces) end) ++
    body l
  | DInterface name ifaces l =>
    indent n ++ t "interface " ++ w name ++
    (match ifaces with [] => [] | _ => t " extends " ++ sep_by (t ", ") (map pr_path ifaces) end) ++
    body l
  | DTrait name l => indent n ++ t "trait " ++ w name ++ body l
  | DStaticVars l =>
    indent n ++ t "static " ++
    sep_by (t ", ") (map (fun v : str * option expr =>
      match v with
      | (s, o) => t "$" ++ w s ++ (match o with Some e => t "=" ++ pr_expr show_f64 n e | None => [] end)
      end) l) ++ t ";" ++ nl
  | DGlobalVars l =>
    indent n ++ t "global " ++ sep_by (t ", ") (map (fun v => t "$" ++ pr_var show_f64 n v) l) ++ t ";" ++ nl
  end
with pr_member (show_f64 : str -> str) (n : nat) (m : member) {struct m} : out :=
  match m with
  | MConst mods name e =>
    indent n ++ pr_mmods mods ++ t " const " ++ w name ++ t "=" ++ pr_expr show_f64 n e ++ t ";"
  | MProp mods name o =>
    indent n ++ pr_mmods mods ++ t " $" ++ w name ++
    (match o with Some e => t "=" ++ pr_expr show_f64 n e | None => [] end) ++ t ";"
  | MMethod mods name d => indent n ++ pr_mmods mods ++ t " " ++ pr_fun show_f64 n (Some name) d
  | MTraitUse names uses =>
    indent n ++ t "use " ++ sep_by (t ", ") (map pr_path names) ++
    (match uses with
     | [] => t ";" ++ nl
     | _ => t "{" ++ nl ++ flat_map (fun u => indent (S n) ++ pr_trait_use u ++ t ";" ++ nl) uses ++
            indent n ++ t "}" ++ nl
     end)
  end.

(** src/printer.rs:22-28 [print_statements] into a fresh [String]; [None] is a panic. *)
Definition print_statements (show_f64 : str -> str) (l : list stmt) : option str := render (flat_map (pr_stmt show_f64 0) l).
