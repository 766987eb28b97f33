(** * SpecProg: the vocabulary of the properties about whole programs *)
From Verif Require Import Base Tokens Ast AstMap Driver Spec.
From Coq Require Import String.

(** ** C19: binary operators *)
(** notation, meaning, level (a higher level binds tighter), right associative *)
Record binop := mkBinop { bo_text : string; bo_op : op; bo_level : nat; bo_right : bool }.
Definition binops : list binop :=
  [ mkBinop "or" OOr 1 false; mkBinop "xor" OBitXor 2 false; mkBinop "and" OAnd 3 false;
    mkBinop "||" OOr 5 false; mkBinop "&&" OAnd 6 false;
    mkBinop "|" OBitOr 7 false; mkBinop "^" OBitXor 8 false; mkBinop "&" OBitAnd 9 false;
    mkBinop "===" OIdentical 10 false; mkBinop "!==" ONotIdentical 10 false;
    mkBinop "==" OEq 10 false; mkBinop "!=" ONeq 10 false; mkBinop "<>" ONeq 10 false;
    mkBinop "<=>" OSpaceship 11 false; mkBinop "<" OLt 11 false; mkBinop ">" OGt 11 false;
    mkBinop "<=" OLe 11 false; mkBinop ">=" OGe 11 false;
    mkBinop "<<" OSl 12 false; mkBinop ">>" OSr 12 false;
    mkBinop "+" OAdd 13 false; mkBinop "-" OSub 13 false; mkBinop "." OConcat 13 false;
    mkBinop "*" OMul 14 false; mkBinop "/" ODiv 14 false; mkBinop "%" OMod 14 false;
    mkBinop "**" OPow 15 true ].
(** a tree of operators over variables *)
Inductive otree := OLeaf (v : str) | ONode (b : binop) (l r : otree).
Fixpoint otree_ok (t : otree) : Prop :=
  match t with
  | OLeaf v => name_ok v = true
  | ONode b l r => In b binops /\ otree_ok l /\ otree_ok r
  end.
(** its text with as few parentheses as possible: [m] is the lowest level that may
    stand here without parentheses *)
Fixpoint show_tree (m : nat) (t : otree) : str :=
  match t with
  | OLeaf v => s2l "$" ++ v
  | ONode b l r =>
    let x := bo_level b in
    let s := show_tree (if bo_right b then S x else x) l ++ s2l " " ++ s2l (bo_text b) ++ s2l " " ++
             show_tree (if bo_right b then x else S x) r in
    if x <? m then s2l "(" ++ s ++ s2l ")" else s
  end.
Fixpoint tree_expr (t : otree) : expr :=
  match t with
  | OLeaf v => Ex (EVar (VName v)) span_new
  | ONode b l r => Ex (EBinary (bo_op b) (tree_expr l) (tree_expr r)) span_new
  end.

(** ** C30: names *)
(** an identifier that is no reserved word *)
Definition plain_word (w : str) : bool :=
  Spec.identifier w && negb (existsb (fun p : string * kind => str_eqb (s2l (fst p)) w) keywords) &&
  negb (str_eqb w (s2l "yield")) && negb (str_eqb w (s2l "yieldfrom")).
(** the fragments with backslashes between them; a leading one for absolute names *)
Fixpoint joined (fs : list str) : str :=
  match fs with
  | [] => []
  | [a] => a
  | a :: r => a ++ s2l "\" ++ joined r
  end.
Definition name_text (abs : bool) (fs : list str) : str := (if abs then s2l "\" else []) ++ joined fs.
(** namespace [ns] and last fragment [a] *)
Definition name_path (abs : bool) (ns : list str) (a : str) : path :=
  mkPath abs (match ns with [] => None | _ => Some (joined ns) end) a.
(** the names of the constants true, false and null, in upper or lower case *)
Definition const_name (a : str) : option constant :=
  if str_eqb (to_lower a) (s2l "true") then Some CTrue
  else if str_eqb (to_lower a) (s2l "false") then Some CFalse
  else if str_eqb (to_lower a) (s2l "null") then Some CNull else None.
