(** * SpecCtl: chains of conditions and switches, as source texts (C28, C29) *)
From Verif Require Import Base Tokens Ast Printer Spec SpecRT.
From Coq Require Import String.

Section Sf.
Variable sf : str -> str.
(** [t] is how the expression [e] is written, [t] is how the statements [b] are written *)
Definition written (e : expr) (t : str) : Prop :=
  good sf e = true /\ print_statements sf [St (SExpr e) span_new] = Some (t ++ s2l ";" ++ [10%N]).
Definition stmts_written (b : list stmt) (t : str) : Prop :=
  forallb (good_stmt sf) b = true /\ print_statements sf b = Some t.

(** ** C28 *)
(** a condition with its statements; [else_if]: introduced by two words *)
Record branch := mkBranch { else_if : bool; cond : expr; cond_text : str; body : list stmt; body_text : str }.
Definition branch_ok (x : branch) : Prop := written (cond x) (cond_text x) /\ stmts_written (body x) (body_text x).
Definition branch_text (x : branch) : str := s2l "(" ++ cond_text x ++ s2l ") {" ++ body_text x ++ s2l "}".
Definition chain_text (x : branch) (l : list branch) (el : option (list stmt * str)) : str :=
  s2l "if " ++ branch_text x ++
  flat_map (fun y => s2l (if else_if y then " else if " else " elseif ") ++ branch_text y) l ++
  match el with Some (_, t) => s2l " else {" ++ t ++ s2l "}" | None => [] end.
Definition else_ok (el : option (list stmt * str)) : Prop := match el with Some (b, t) => stmts_written b t | None => True end.
(** every condition inside the else part of the one before it *)
Fixpoint nested (x : branch) (l : list branch) (el : list stmt) : stmt :=
  St (SIf (cond x) (body x) (match l with [] => el | y :: r => [nested y r el] end)) span_new.

(** ** C29 *)
(** a label with the statements behind it; [None] is [default] *)
Record label := mkLabel { value : option (expr * str); semicolon : bool; stmts : list stmt; stmts_text : str }.
Definition label_ok (x : label) : Prop :=
  match value x with Some (e, t) => written e t | None => True end /\ stmts_written (stmts x) (stmts_text x).
Definition label_text (x : label) : str :=
  match value x with Some (_, t) => s2l "case " ++ t | None => s2l "default" end ++
  s2l (if semicolon x then ";" else ":") ++ s2l " " ++ stmts_text x.
Definition switch_text (t : str) (l : list label) : str :=
  s2l "switch (" ++ t ++ s2l ") {" ++ flat_map label_text l ++ s2l "}".
Definition label_exprs (x : label) : list expr := match value x with Some (e, _) => [e] | None => [] end.
(** labels [group], all but the last one without statements, make one case *)
Definition one_case (group : list label) (x : label) : swcase :=
  mkCase (flat_map label_exprs (group ++ [x])) (match value x with Some _ => false | None => true end) (stmts x).
(** the cases of a switch: groups of labels that end in one with statements, then the
    labels that are left over *)
Inductive grouped : list label -> list swcase -> Prop :=
| grouped_last rest : Forall (fun y => stmts y = []) rest -> grouped rest (map (fun e => mkCase [e] false []) (flat_map label_exprs rest))
| grouped_case group x rest cs : Forall (fun y => stmts y = []) group -> stmts x <> [] -> grouped rest cs ->
    grouped (group ++ x :: rest) (one_case group x :: cs).
Definition case_exprs (c : swcase) : list expr := match c with mkCase l _ _ => l end.
Definition case_body (c : swcase) : list stmt := match c with mkCase _ _ b => b end.
Definition empty_default (x : label) : bool := match value x, stmts x with None, [] => true | _, _ => false end.
End Sf.
