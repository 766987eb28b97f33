(** * SpecMixed: sources put together from HTML, PHP blocks, comments and statements (C04, C15, C33) *)
From Verif Require Import Base Tokens Ast AstMap Parser Printer Driver Spec SpecRT.
From Coq Require Import String.

Definition white (w : str) : bool := forallb (fun c => (c =? 32) || (c =? 9) || (c =? 13) || (c =? 10))%N w.
(** what stands inside a PHP block; [PStmts l t]: the statements [l], written as [t] *)
Inductive block_part :=
| PBlank (w : str)
| PComment (c : comment)
| PStmts (l : list stmt) (t : str).
Definition part_text (p : block_part) : str :=
  match p with PBlank w => w | PComment c => comment_text c | PStmts _ t => t end.
Definition part_stmts (p : block_part) : list stmt := match p with PStmts l _ => l | _ => [] end.
(** [CEcho es t]: the short echo tag with the expressions [es], written as [t] *)
Inductive chunk :=
| CHtml (w : str)
| CPhp (ps : list block_part)
| CEcho (es : list expr) (t : str) (ps : list block_part).
Definition chunk_text (c : chunk) : str :=
  match c with
  | CHtml w => w
  | CPhp ps => s2l "<?php" ++ flat_map part_text ps ++ s2l "?>"
  | CEcho _ t ps => s2l "<?=" ++ t ++ flat_map part_text ps ++ s2l "?>"
  end.
(** the statements a chunk stands for *)
Definition echo (es : list expr) : stmt := St (SEcho es) span_new.
Definition chunk_stmts (c : chunk) : list stmt :=
  match c with
  | CHtml w => [echo [Ex (EString w) span_new]]
  | CPhp ps => flat_map part_stmts ps
  | CEcho es _ ps => echo es :: flat_map part_stmts ps
  end.
(** the last block need not be closed *)
Definition source (cs : list chunk) (last : option (list block_part)) : str :=
  flat_map chunk_text cs ++ match last with Some ps => s2l "<?php" ++ flat_map part_text ps | None => [] end.
Definition meaning (cs : list chunk) (last : option (list block_part)) : list stmt :=
  flat_map chunk_stmts cs ++ match last with Some ps => flat_map part_stmts ps | None => [] end.

Section Sf.
Variable sf : str -> str.
Definition part_ok (p : block_part) : Prop :=
  match p with
  | PBlank w => white w = true
  | PComment c => comment_ok c
  | PStmts l t => forallb (good_top sf) l = true /\ print_statements sf l = Some t
  end.
Definition chunk_ok (c : chunk) : Prop :=
  match c with
  | CHtml w => w <> [] /\ no_tag w
  | CPhp ps => Forall part_ok ps
  | CEcho es t ps => good_top sf (echo es) = true /\ print_statements sf [echo es] = Some (s2l "echo " ++ t) /\ Forall part_ok ps
  end.
(** HTML ends where a tag begins *)
Fixpoint apart (cs : list chunk) : Prop :=
  match cs with
  | CHtml _ :: (CHtml _ :: _) => False
  | _ :: r => apart r
  | [] => True
  end.
Definition source_ok (cs : list chunk) (last : option (list block_part)) : Prop :=
  Forall chunk_ok cs /\ apart cs /\ match last with Some ps => Forall part_ok ps | None => True end.
End Sf.

(** ** Statements as blocks of tokens *)
(** the tokens stand behind an open tag *)
Definition behind_tag (toks : list tokspan) : Prop := Forall (fun t : tokspan => 2 <= sp_start (snd t)) toks.
(** words that go on with the statement before them *)
Definition goes_on (ts : list token) : bool :=
  match ts with Kw KElse :: _ | Kw KElseIf :: _ | Kw KCatch :: _ | Kw KFinally :: _ => true | _ => false end.
(** the tokens [ts] are the statement [s], whatever stands before and behind them *)
Definition statement_block (ts : list token) (s : stmt) : Prop :=
  ts <> [] /\ goes_on ts = false /\
  forall toks p rest, behind_tag toks -> map fst (skipn p toks) = ts ++ rest -> goes_on rest = false ->
    exists a, parse_top_statement toks (parse_statement toks (parse_fuel toks)) p = POk a (p + List.length ts) /\ strip_stmt a = strip_stmt s.
