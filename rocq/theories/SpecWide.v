(** * SpecWide: C19, C28, C29, C31 and C33 for all expressions and statements of the grammar

    The operands, conditions, values and bodies are any that SpecGrammar.v derives, and the
    sources are any that SpecText.v reads as the tokens below. *)
From Verif Require Import Base Tokens Ast Spec SpecCtl SpecText SpecGrammar.
Local Open Scope list_scope.

(** ** C19 *)
(** a tree of binary operators; the operands are expressions of the level [n], written [ts] *)
Inductive wtree := WLeaf (n : nat) (ts : list token) (e : expr) | WNode (k : kind) (o : op) (n la lb : nat) (l r : wtree) | WPow (l r : wtree).
Fixpoint wtree_ok (t : wtree) : Prop :=
  match t with
  | WLeaf n ts e => 1 <= n <= 18 /\ Expr (Lost := strict) n ts e
  | WNode k o n la lb l r => In (k, o, n, la, lb) binary_operators /\ wtree_ok l /\ wtree_ok r
  | WPow l r => wtree_ok l /\ wtree_ok r
  end.
(** its tokens with parentheses only where the levels ask for them: [m] is the least level
    that may stand here *)
Fixpoint wtokens (m : nat) (t : wtree) : list token :=
  let at_level n ts := if n <? m then paren ts else ts in
  match t with
  | WLeaf n ts _ => at_level n ts
  | WNode k _ n la lb l r => at_level n (wtokens la l ++ Kw k :: wtokens lb r)
  | WPow l r => at_level 16 (wtokens 18 l ++ Kw KPow :: wtokens (match r with WPow _ _ => 16 | _ => 17 end) r)
  end.
Fixpoint wexpr (t : wtree) : expr :=
  match t with
  | WLeaf _ _ e => e
  | WNode _ o _ _ _ l r => ex (EBinary o (wexpr l) (wexpr r))
  | WPow l r => ex (EBinary OPow (wexpr l) (wexpr r))
  end.

(** ** C28 *)
(** a condition with its body; [two_words]: introduced by [else if], not [elseif] *)
Record arm := mkArm { two_words : bool; arm_cond_toks : list token; arm_cond : expr; arm_body_toks : list token; arm_body : list stmt }.
(** [c = true]: the body is followed by a further arm, so it must not be one that takes it *)
Definition arm_ok (c : bool) (x : arm) : Prop :=
  Whole (Lost := strict) 1 (arm_cond_toks x) (arm_cond x) /\ Body (Lost := strict) c (arm_body_toks x) (arm_body x).
(** the first arm, the further ones, the [else] *)
Inductive chain_ok : arm -> list arm -> option (list token * list stmt) -> Prop :=
| chain_end x : arm_ok false x -> chain_ok x [] None
| chain_else x te e : arm_ok true x -> Body (Lost := strict) false te e -> chain_ok x [] (Some (te, e))
| chain_more x y l el : arm_ok true x -> chain_ok y l el -> chain_ok x (y :: l) el.
Definition arm_tokens (x : arm) : list token := paren (arm_cond_toks x) ++ arm_body_toks x.
Definition chain_tokens (x : arm) (l : list arm) (el : option (list token * list stmt)) : list token :=
  Kw KIf :: arm_tokens x ++
  flat_map (fun y => (if two_words y then [Kw KElse; Kw KIf] else [Kw KElseIf]) ++ arm_tokens y) l ++
  match el with Some (te, _) => Kw KElse :: te | None => [] end.
(** every condition inside the else part of the one before it *)
Fixpoint chain_tree (x : arm) (l : list arm) (el : option (list token * list stmt)) : stmt :=
  st (SIf (arm_cond x) (arm_body x)
    (match l with [] => match el with Some (_, b) => b | None => [] end | y :: r => [chain_tree y r el] end)).

(** ** C29 *)
(** a label with the statements behind it; [None] is [default] *)
Record wlabel := mkWLabel { wvalue : option (list token * expr); wsemicolon : bool; wstmts_toks : list token; wstmts : list stmt }.
Definition wlabel_ok (x : wlabel) : Prop :=
  match wvalue x with Some (te, e) => Whole (Lost := strict) 1 te e | None => True end /\ Stmts (Lost := strict) (wstmts_toks x) (wstmts x).
Definition wlabel_tokens (x : wlabel) : list token :=
  match wvalue x with Some (te, _) => Kw KCase :: te | None => [Kw KDefault] end ++
  Kw (if wsemicolon x then KSemiColon else KColon) :: wstmts_toks x.
Definition switch_tokens (te : list token) (l : list wlabel) : list token := Kw KSwitch :: paren te ++ braces (flat_map wlabel_tokens l).
(** what [grouped] (SpecCtl.v) looks at: the value and the statements *)
Definition bare_label (x : wlabel) : label := mkLabel (option_map (fun v => (snd v, [])) (wvalue x)) (wsemicolon x) (wstmts x) [].

(** ** C33 *)
(** a source that is one statement *)
Definition statement_source (src : str) (ts : list token) (s : stmt) : Prop :=
  Source src ts /\ TopStmt (Lost := strict) (flat_map visible ts) s.
