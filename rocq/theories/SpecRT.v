(** * SpecRT: the syntax trees that survive printing and parsing (C20)

    [good_stmt] and its companions say which trees [print_statements] writes in a way
    that [parse_str] reads back.  [sf] is the notation of doubles (see Printer). *)
From Verif Require Import Base Tokens Ast Printer Spec SpecProg.
From Coq Require Import String.

(** ** Leaves *)
(** the fragments of a namespace *)
Fixpoint split_ns (s : str) : list str :=
  match s with
  | [] => [[]]
  | c :: r => if (c =? 92)%N then [] :: split_ns r else match split_ns r with a :: l => (c :: a) :: l | [] => [[c]] end
  end.
Definition frags (p : path) : list str :=
  match namespace p with Some ns => split_ns ns | None => [] end ++ [Ast.identifier p].
Definition path_ok (p : path) : bool := forallb plain_word (frags p).
Definition cast_word (w : str) : bool := existsb (fun p : string * kind => str_eqb (s2l (fst p)) w) cast_words.
(** a name that is an expression: no constant, and not to be taken for a cast *)
Definition name_expr_ok (p : path) : bool :=
  path_ok p &&
  match namespace p with
  | Some _ => true
  | None => match const_name (Ast.identifier p) with Some _ => false | None => true end && (is_absolute p || negb (cast_word (Ast.identifier p)))
  end.
(** a class: a name or [static] *)
Definition is_static (p : path) : bool :=
  negb (is_absolute p) && match namespace p with Some _ => false | None => str_eqb (Ast.identifier p) (s2l "static") end.
Definition class_ok (p : path) : bool := path_ok p || is_static p.
(** the class of a class constant *)
Definition const_class_ok (p : path) : bool := name_expr_ok p || is_static p.
(** a single word *)
Definition word_of (p : path) : option str :=
  if is_absolute p then None else match namespace p with Some _ => None | None => Some (Ast.identifier p) end.
Definition prop_name_ok (p : path) : bool := match word_of p with Some w => name_ok w | None => false end.
(** the words of the language that are names behind [::], behind [const] and in adaptations *)
Definition reserved : list string :=
  [ "array"; "as"; "break"; "callable"; "case"; "catch"; "class"; "clone"; "const"; "continue"; "declare"; "default"; "do"; "echo"; "else";
    "elseif"; "empty"; "enddeclare"; "endforeach"; "endif"; "endswitch"; "endwhile"; "eval"; "exit"; "extends"; "finally"; "for"; "foreach"; "function";
    "global"; "goto"; "if"; "implements"; "include"; "include_once"; "instanceof"; "insteadof"; "interface"; "isset"; "list"; "namespace"; "new";
    "print"; "require"; "require_once"; "return"; "switch"; "throw"; "trait"; "try"; "unset"; "use"; "var"; "while" ]%string.
Definition any_word (w : str) : bool := plain_word w || existsb (fun s => str_eqb (s2l s) w) reserved.
Definition member_name_ok (p : path) : bool := match word_of p with Some w => any_word w | None => false end.
Fixpoint two_backslashes (s : str) : bool :=
  match s with
  | a :: (b :: _) as r => ((a =? 92) && (b =? 92))%N || two_backslashes r
  | _ => false
  end.
Definition scalar_b (c : N) : bool := ((c <? 55296) || ((57344 <=? c) && (c <? 1114112)))%N.
Definition string_ok (s : str) : bool := negb (two_backslashes s) && forallb scalar_b s.
Definition int_ok (z : Z) : bool := ((0 <=? z) && (z <=? Z.of_N i64_max))%Z.
(** digits, a point, digits *)
Definition digit_b (c : N) : bool := ((48 <=? c) && (c <=? 57))%N.
Fixpoint fraction (s : str) : bool :=
  match s with c :: r => if (c =? 46)%N then forallb digit_b r else digit_b c && fraction r | [] => false end.
Definition double_ok (sf : str -> str) (d : str) : bool :=
  str_eqb (sf d) d && fraction d && match d with c :: _ => digit_b c | [] => false end.

(** ** How an expression may be used *)
(** printed in parentheses when it is an operand or the base of an access *)
Definition wrapped (e : expr_) : bool :=
  match e with
  | EBinary _ _ _ | EUnary _ _ | EArrayIdx _ _ | EObjMember _ _ | EStaticMember _ _ | ECall _ _
  | ENew _ _ | EAssign _ _ | ETernary _ _ _ => true
  | _ => false
  end.
Definition is_const_member (b : expr_) (l : list expr) : bool :=
  match b, l with EPath _, [Ex (EPath _) _] => true | _, _ => false end.
(** can be indexed, called or assigned to without parentheses *)
Definition varlike (e : expr_) : bool :=
  match e with
  | EVar _ | EString _ | EArray _ | EArrayIdx _ _ | EObjMember _ _ | ECall _ _ => true
  | EStaticMember b l => negb (is_const_member (enode b) l)
  | _ => false
  end.
(** can be an operand without parentheses *)
Definition atomic (e : expr_) : bool :=
  varlike e ||
  match e with
  | EPath _ | EConst _ | EInt _ | EDouble _ | EIsset _ | EEmpty _ | EExit _ | ECast _ _ | ENew _ _ | EFunction _
  | EStaticMember _ _ => true
  | _ => false
  end.
Definition is_number (e : expr_) : bool := match e with EInt _ | EDouble _ => true | _ => false end.
Definition is_idx (e : expr_) : bool := match e with EArrayIdx _ _ => true | _ => false end.
Definition is_prop (e : expr_) : bool := match e with EObjMember _ _ => true | _ => false end.
Definition is_smember (e : expr_) : bool := match e with EStaticMember _ _ => true | _ => false end.
Definition is_var (e : expr_) : bool := match e with EVar _ => true | _ => false end.
Definition base_ok (e : expr_) : bool := wrapped e || varlike e.
Definition operand_ok (e : expr_) : bool :=
  wrapped e || atomic e || match e with EInstanceOf _ _ => true | _ => false end.
(** What is printed first is a name that begins with [from], so that [yield from] would be
    read.  Doubles and byte strings count too, because their notation is not known here. *)
Fixpoint from_first (e : expr) : bool := match e with Ex x _ => from_first_ x end
with from_first_ (x : expr_) : bool :=
  match x with
  | EPath p => negb (is_absolute p) && starts_with (s2l "from") (match namespace p with Some ns => ns | None => Ast.identifier p end)
  | EDouble _ | EBinString _ => true
  | EArrayIdx b _ | EObjMember b _ | EStaticMember b _ | EBinary _ b _ | ETernary b _ _ => negb (wrapped (enode b)) && from_first b
  | EUnary (UPostInc | UPostDec) b | ECall b _ | EInstanceOf b _ | EAssign b _ | ECompound b _ _ | EAssignRef b _ => from_first b
  | _ => false
  end.
Definition concat_ok (o : op) (a b : expr_) : bool :=
  match o with OConcat => negb (is_number a) && negb (is_number b) | _ => true end.
(** operators with an assignment form *)
Definition compound_ok (o : op) : bool :=
  match o with OAdd | OSub | OMul | ODiv | OConcat | OMod | OBitXor | OSl | OSr => true | _ => false end.
Definition castable (t : ty) : bool :=
  match t with TyArray | TyBool | TyInt | TyDouble | TyString | TyObject None => true | _ => false end.
Definition opt_all {A} (f : A -> bool) (o : option A) : bool := match o with Some a => f a | None => true end.
Definition some_list {A} (l : list A) : bool := match l with [] => false | _ => true end.
Definition hint_ok (t : option ty) : bool :=
  match t with
  | None | Some TyArray | Some TyCallable => true
  | Some (TyObject (Some p)) => path_ok p
  | _ => false
  end.
Definition trait_use_ok (u : trait_use) : bool :=
  match u with
  | TUInsteadOf p m names => path_ok p && any_word m && some_list names && forallb path_ok names
  | TUAs p m mods (Some a) => opt_all path_ok p && any_word m && (mods =? 0)%N && plain_word a
  | TUAs _ _ _ None => false
  end.
(** the cases of a switch: first those with a body, then labels without one *)
Definition full_case (c : swcase) : bool :=
  match c with mkCase conds d b => (some_list conds || d) && some_list b end.
Definition empty_case (c : swcase) : bool :=
  match c with mkCase [_] false [] => true | _ => false end.
Fixpoint cases_ok (l : list swcase) : bool :=
  match l with
  | [] => true
  | c :: r => if full_case c then cases_ok r else forallb empty_case (c :: r)
  end.

(** ** The class *)
Section Good.
Variable sf : str -> str.
Fixpoint good (e : expr) : bool := match e with Ex x _ => good_ x end
with good_ (e : expr_) : bool :=
  let pairs := forallb (fun kv : option expr * expr => match kv with (k, v) => match k with Some k => good k | None => true end && good v end) in
  let arg (e : expr) := match e with Ex (EUnpack e') _ => good e' | e => good e end in
  let class_ref (e : expr) :=
    match e with Ex (EPath p) _ => class_ok p | Ex (EVar (VName v)) _ => name_ok v | _ => false end in
  match e with
  | EPath p => name_expr_ok p
  | EConst c => match c with CTrue | CFalse | CNull => true | _ => false end
  | EString s => string_ok s
  | EInt z => int_ok z
  | EDouble d => double_ok sf d
  | EArray l => pairs l
  | EVar (VName v) => name_ok v
  | EClone e | EEmpty e | EExit (Some e) | EInclude _ e => good e
  | EIsset l => some_list l && forallb good l
  | EArrayIdx b l => good b && base_ok (enode b) && negb (is_idx (enode b)) && some_list l && forallb (fun i : option expr => match i with Some e => good e | None => true end) l
  | EObjMember b l =>
    good b && base_ok (enode b) && negb (is_prop (enode b)) && some_list l &&
    forallb (fun i => match i with
                      | Ex (EVar (VName v)) _ => name_ok v
                      | Ex (EPath p) _ => prop_name_ok p
                      | Ex x _ => wrapped x && good i
                      end) l
  | EStaticMember (Ex b sp) l =>
    some_list l &&
    match b with
    | EPath p =>
      match l with
      | [Ex (EPath m) _] => const_class_ok p && member_name_ok m
      | _ => class_ok p && forallb (fun i => is_var (enode i) && good i) l
      end
    | _ => good_ b && base_ok b && negb (is_smember b) && forallb (fun i => is_var (enode i) && good i) l
    end
  | ECall (Ex b sp) l =>
    forallb arg l &&
    match b with
    | EPath p => path_ok p
    | EStaticMember (Ex (EPath p) _) [Ex (EPath m) _] => class_ok p && member_name_ok m
    | _ => good_ b && varlike b
    end
  | ENew b l => class_ref b && forallb arg l
  | EUnary o e =>
    good e &&
    match o with
    | UPreInc | UPreDec | UPostInc | UPostDec => varlike (enode e)
    | _ => wrapped (enode e) || atomic (enode e)
    end
  | EBinary o a b => good a && good b && operand_ok (enode a) && operand_ok (enode b) && concat_ok o (enode a) (enode b)
  | EInstanceOf a b => good a && atomic (enode a) && negb (is_number (enode a)) && class_ref b
  | ECast t e => castable t && good e
  | EYield (Some e) => good e && negb (from_first e)
  | EFunction d => good_fun true false d
  | EAssign (Ex a sp) b => match a with EList l => pairs l | _ => good_ a && varlike a end && good b
  | ECompound a o b => good a && varlike (enode a) && compound_ok o && good b
  | EAssignRef a b => good a && varlike (enode a) && good b
  | ETernary c t e =>
    good c && operand_ok (enode c) && match t with Some t => good t && operand_ok (enode t) | None => true end &&
    good e && operand_ok (enode e)
  | _ => false
  end
(** [closure]: without a name; [abstract]: the body may be missing *)
with good_fun (closure abstract : bool) (d : fundecl) : bool :=
  match d with
  | mkFun ps b us _ =>
    forallb good_param ps && forallb (fun u : bool * str => name_ok (snd u)) us && (closure || negb (some_list us)) &&
    match b with Some b => forallb good_stmt b | None => abstract end
  end
with good_param (p : param) : bool :=
  match p with mkParam name _ _ t d => name_ok name && hint_ok t && match d with Some e => good e | None => true end end
with good_stmt (s : stmt) : bool := match s with St x _ => good_stmt_ x end
with good_stmt_ (s : stmt_) : bool :=
  let opt (o : option expr) := match o with Some e => good e | None => true end in
  let target (e : expr) := match e with Ex (ERef e') _ => good e' && varlike (enode e') | e => good e && varlike (enode e) end in
  match s with
  | SNone => true
  | SBlock b => forallb good_stmt b
  | SDecl d => good_decl d
  | SUse _ => false
  | SExpr e | SThrow e => good e
  | SEcho l => some_list l && forallb good l
  | SReturn o | SBreak o | SContinue o => opt o
  | SUnset l => some_list l && forallb (fun e => good e && varlike (enode e)) l
  | SIf c t e => good c && forallb good_stmt t && forallb good_stmt e
  | SWhile c b | SDoWhile b c => good c && forallb good_stmt b
  | SFor i c l b => opt i && opt c && opt l && forallb good_stmt b
  | SForEach e k v b => good e && match k with Some k => target k | None => true end && target v && forallb good_stmt b
  | STry b cs f => forallb good_stmt b && forallb good_catch cs && match f with Some b => forallb good_stmt b | None => true end
  | SSwitch e l => good e && cases_ok l && forallb good_case l
  end
with good_catch (c : catch) : bool := match c with mkCatch t v b => path_ok t && name_ok v && forallb good_stmt b end
with good_case (c : swcase) : bool := match c with mkCase conds _ b => forallb good conds && forallb good_stmt b end
with good_decl (d : decl) : bool :=
  match d with
  | DNamespace _ | DGlobalVars _ => false
  | DFunction name d => plain_word name && good_fun false false d
  | DClass m name base ifaces l =>
    (m <? 4)%N && plain_word name && opt_all path_ok base && forallb path_ok ifaces && forallb good_member l
  | DInterface name ifaces l => plain_word name && forallb path_ok ifaces && forallb good_member l
  | DTrait name l => plain_word name && forallb good_member l
  | DStaticVars l => some_list l && forallb (fun v : str * option expr => match v with (s, o) => name_ok s && match o with Some e => good e | None => true end end) l
  end
with good_member (m : member) : bool :=
  match m with
  | MConst mods name e => (mods <? 64)%N && any_word name && good e
  | MProp mods name o => (mods <? 64)%N && name_ok name && match o with Some e => good e | None => true end
  | MMethod mods name d => (mods <? 64)%N && plain_word name && good_fun false true d
  | MTraitUse names uses => some_list names && forallb path_ok names && forallb trait_use_ok uses
  end.
(** at the top level also namespaces and imports *)
Definition good_top (s : stmt) : bool :=
  match s with
  | St (SDecl (DNamespace p)) _ => path_ok p && negb (is_absolute p)
  | St (SUse [QualifiedName p a]) _ => path_ok p && opt_all plain_word a
  | s => good_stmt s
  end.
End Good.

(** ** C20, C21 *)
(** what ci/tester/main.rs:167-187 writes back: the printed statements between the tags *)
Definition around (s : str) : str := s2l "<?php" ++ [10]%N ++ s ++ [10]%N ++ s2l "?>".
Definition survives (sf : str -> str) (l : list stmt) : Prop :=
  exists s, print_statements sf l = Some s /\ parses_to (around s) l.
(** [src] is read as [l], [l] can be printed, but the printed text is not read as [l] *)
Definition misprinted (sf : str -> str) (src : string) (l : list stmt) : Prop :=
  parses_to (s2l src) l /\ exists s, print_statements sf l = Some s /\ ~ parses_to (around s) l.

(** a trait with one adaptation that changes the visibility of a method, and its text *)
Definition adapted (v : member_modifier) : list stmt :=
  [St (SDecl (DTrait (s2l "T") [MTraitUse [mkPath false None (s2l "U")] [TUAs None (s2l "f") (member_modifiers_new [v]) (Some (s2l "g"))]])) span_new].
Definition adapted_text (word : string) : str := s2l "trait T {
    use U{
        f as " ++ s2l word ++ s2l "  g;
    }

}".
